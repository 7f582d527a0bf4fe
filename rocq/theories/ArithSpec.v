(** What the arithmetic functions compute, on values of registers (qubit 0 least significant). *)
From Coq Require Import Reals.
From Coquelicot Require Import Complex.
From Verif Require Import Base BitsSpec DenSpec.
Local Open Scope nat_scope.

Definition maj (a b c : bool) : bool := (a && b) || (a && c) || (b && c).
(** The number in register [r]. *)
Definition val (r : list nat) (x : bs) : nat := le (map x r).
(** The register is 0. *)
Definition zero_in (r : list nat) (x : bs) : Prop := forall q, In q r -> x q = false.
(** [y] is [x] with other values in [r]. *)
Definition only_in (r : list nat) (x y : bs) : Prop := forall q, ~ In q r -> y q = x q.
(** [D] takes basis state [x] to basis state [y] whenever they are in relation [P]: the
    amplitude at [x] is found at [y]. *)
Definition takes (P : bs -> bs -> Prop) (D : state -> state) : Prop := forall psi x y, P x y -> D psi y = psi x.
(** Back from [y] to [x]. *)
Definition takes_back (P : bs -> bs -> Prop) (D : state -> state) : Prop := takes (fun y x => P x y) D.
(** [y] is [x] with ra + rb + (qubit 0 of rc) in rb; the other carry qubits start at 0. *)
Definition adds (rc ra rb : list nat) (x y : bs) : Prop :=
  zero_in (tl rc) x /\ only_in rb x y /\ val rb y = (val ra x + val rb x + b2n (x (hd 0 rc))) mod 2 ^ length rb.
(** [y] is [x] with qubit i of ra added (xor) to qubit i of rb, for all i. *)
Definition copies (ra rb : list nat) (x y : bs) : Prop :=
  only_in rb x y /\ forall i, i < length ra -> y (nth i rb 0) = xorb (x (nth i rb 0)) (x (nth i ra 0)).
(** [y] is [x] with the values in r moved up by one place, the last to the first. *)
Definition rotates (r : list nat) (x y : bs) : Prop :=
  only_in r x y /\ y (nth 0 r 0) = x (last r 0) /\ forall i, S i < length r -> y (nth (S i) r 0) = x (nth i r 0).
(** In the sum of ra, rb and qubit [c] there is a carry into place i. *)
Definition carry_in (ra rb : list nat) (c : nat) (x : bs) (i : nat) : bool :=
  2 ^ i <=? val (firstn i ra) x + val (firstn i rb) x + b2n (x c).
(** How many of the places 1, ..., n - 1 have a carry into them, n the size of rc. *)
Definition inner_carries (rc ra rb : list nat) (x : bs) : nat :=
  length (filter (carry_in ra rb (hd 0 rc) x) (seq 1 (length rc - 1))).
(** [psi] is 0 where the qubits [L] are not as in [x]. *)
Definition settled (L : list nat) (x : bs) (psi : state) : Prop := forall z, (exists q, In q L /\ z q <> x q) -> psi z = RtoC 0.
(** - cos (1/2) Z + sin (1/2) X, in place of X. *)
Definition mV : mat1 := fun r c => if eqb r c then (if r then RtoC (cos (/ 2)) else RtoC (- cos (/ 2))) else RtoC (sin (/ 2)).
Definition tilts (c a b p : nat) (psi : state) : state := fun x => if maj (x a) (x b) (x c) then on1 mV p psi x else psi x.
(** [y] is [x] with (ra + rb) mod rm in rb, ra and rb being less than rm. *)
Definition adds_mod (ra rb rm : list nat) (x y : bs) : Prop :=
  val ra x < val rm x /\ val rb x < val rm x /\ only_in rb x y /\ val rb y = (val ra x + val rb x) mod val rm x.
(** For a + b < m: how many i in 1, ..., n - 1 have (a + b) mod 2^i < m mod 2^i. *)
Definition lost (n a b m : nat) : nat :=
  if a + b <? m then length (filter (fun i => (a + b) mod 2 ^ i <? m mod 2 ^ i) (seq 1 (n - 1))) else 0.
