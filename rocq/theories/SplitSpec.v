(** Programs that give the same outcomes and states. *)
From Coq Require Import Reals.
From Coquelicot Require Import Complex.
From Verif Require Import Base BitsSpec BuilderModel SimModel DenSpec SimSpec MeasureSpec ProjSpec WholeSpec.
Local Open Scope nat_scope.

(** [b] gives the outcomes [ms] with the probability with which [b'] gives [ms']; runs that give them end in
    the same vector, and the probabilities they report multiply to the same number. *)
Definition same_result (it : list (reg * nat)) (b : builder) (ms : list nat) (b' : builder) (ms' : list nat) : Prop :=
  (exists a, over_draws (length ms) (fun d => gives (calculate_state_with_init b it d) ms) a /\
    over_draws (length ms') (fun d => gives (calculate_state_with_init b' it d) ms') a) /\
  forall d d' v v' out out', (forall j, (0 < d j <= 1)%R) -> (forall j, (0 < d' j <= 1)%R) ->
    calculate_state_with_init b it d = Ok (v, results out) -> map fst out = ms ->
    calculate_state_with_init b' it d' = Ok (v', results out') -> map fst out' = ms' -> v = v' /\ chance out = chance out'.

(** The builder with these entries. *)
Definition with_entries (b : builder) (p : pipe) : builder := mkB p (bn b) (zeroed b) (meas b).
Definition measure_of (qs : list nat) : list nat * cobj := (qs, mkCO (length qs) (OMeas MSingle)).

(** No basis state of [n] qubits is taken to one with another value of a qubit of [qs]. *)
Definition steady (n : nat) (qs : list nat) (p : pipe) : Prop :=
  forall x y q, In q qs -> x q <> y q -> den p (ket n x) y = RtoC 0.
(** Gates and single measurements on distinct qubits of the builder, with unitary matrices. *)
Definition fine (n : nat) (p : pipe) : Prop := Forall (wf_entry n) p /\ Forall unitary_entry p /\ Forall gate_or_meas p.
(** Initial values of registers of the builder; [x] is the basis state they give. *)
Definition starts (n : nat) (it : list (reg * nat)) (x : bs) : Prop := (forall r v, In (r, v) it -> forall q, In q r -> q < n) /\ loads it x.
(** Outcomes of measurements of these qubits. *)
Definition possible (p : pipe) (ms : list nat) : Prop := Forall2 (fun qs m => m < 2 ^ length qs) (measured p) ms.
(** An entry that does not change the value of qubit [q]: it is not on it, it is a diagonal gate, or it is a
    controlled not with control [q]. *)
Definition only_reads (q : nat) (e : list nat * cobj) : Prop :=
  ~ In q (fst e) \/
  match co_obj (snd e) with
  | OUnit (UZ | US | UT | URz _) => True
  | OUnit UCNOT => nth 0 (fst e) 0 = q
  | _ => False
  end.
