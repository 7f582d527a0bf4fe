(** Initial values. *)
From Coq Require Import Reals.
From Coquelicot Require Import Complex.
From Verif Require Import Base BitsSpec OpsModel Instances OpsSpec ConjSpec BuilderModel DenSpec.
Local Open Scope nat_scope.

(** Assignment [x] holds the initial values [it]: qubit number j of register [r] is bit j of
    the value given for [r], and qubits of no register are 0. *)
Definition loads (it : list (reg * nat)) (x : bs) : Prop :=
  (forall r v, In (r, v) it -> forall j, j < length r -> x (nth j r 0) = Nat.testbit v j) /\
  (forall q, (forall r v, In (r, v) it -> ~ In q r) -> x q = false).

(** Matrix objects are unitary. *)
Definition unitary_entry (e : list nat * cobj) : Prop :=
  match co_obj (snd e) with
  | OUnit (UMAT d) => unitary_mat CN Cconj (length (fst e)) (fun r c => nth (be r * 2 ^ length (fst e) + be c) d (RtoC 0))
  | _ => True
  end.
