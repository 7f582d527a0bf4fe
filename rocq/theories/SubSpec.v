(** Operations on the first qubits carried over to a register; inverses. *)
From Coq Require Import Reals.
From Coquelicot Require Import Complex.
From Verif Require Import Base BitsSpec OpsModel Instances OpsSpec ConjSpec BuilderModel DenSpec SimSpec RunSpec.
Local Open Scope nat_scope.

(** [D], an operation on qubits 0, 1, ..., carried out on the qubits of [r] in order. *)
Definition embed (r : list nat) (D : state -> state) (psi : state) : state := fun x =>
  D (fun y => psi (updl x r (map y (seq 0 (length r))))) (fun j => if j <? length r then x (nth j r 0) else false).

(** The same objects with qubit j replaced by the j-th of [r]. *)
Definition ren (r : list nat) (p : pipe) : pipe := map (fun e => (map (fun j => nth j r 0) (fst e), snd e)) p.

(** The value of [D psi] at [z] depends on the amplitudes at assignments that agree with [z]
    outside [L] only. *)
Definition within (L : list nat) (D : state -> state) : Prop :=
  forall phi phi' z, (forall y, (forall q, ~ In q L -> y q = z q) -> phi y = phi' y) -> D phi z = D phi' z.

(** The objects of [sc] use qubits below [N], the last one included, and if the qubits from
    [k] on (as far as some [B]) are 0 they carry out [D] on the first [k]. *)
Definition realizes (N k : nat) (sc : pipe) (D : state -> state) : Prop :=
  k <= N /\ Forall (wf_entry N) sc /\ Forall proper_entry sc /\ (exists e, In e sc /\ In (N - 1) (fst e)) /\
  within (seq 0 k) D /\ exists B, N <= B /\ forall phi, clean (seq k (B - k)) phi -> den sc phi = D phi.

(** [E] undoes [D], both ways. *)
Definition inverses (D E : state -> state) : Prop := forall psi, E (D psi) = psi /\ D (E psi) = psi.

(** Objects that conditioned builders treat properly. *)
Definition friendly (e : list nat * cobj) : Prop :=
  match co_obj (snd e) with OUnit (UX | UZ | US | UT | UCNOT) => True | _ => False end.

(** Total intended phase of the global phase objects. *)
Definition gphase (p : pipe) : R := fold_right (fun e a => match co_obj (snd e) with OUnit (UPhase t) => angle t + a | _ => a end)%R 0%R p.

(** Objects on distinct qubits below [n] whose declared size is the number of their qubits. *)
Definition sized_entry (n : nat) (e : list nat * cobj) : Prop :=
  NoDup (fst e) /\ (forall q, In q (fst e) -> q < n) /\ fst e <> [] /\ co_n (snd e) = length (fst e).

(** *** What conditioned builders make of the objects *)
(** The one-qubit matrix [[sin 1/4, cos 1/4], [cos 1/4, - sin 1/4]] a conditioned builder carries
    out for H, and the matrix of -Y it carries out for Y. *)
Definition tilt_list : list C := [RtoC (sin (/ 4)); RtoC (cos (/ 4)); RtoC (cos (/ 4)); RtoC (- sin (/ 4))].
Definition negy_list : list C := [RtoC 0; Ci; Copp Ci; RtoC 0].
Definition cond_obj (co : cobj) : cobj :=
  match co_obj co with
  | OUnit UH => mkCO 1 (OUnit (UMAT tilt_list))
  | OUnit UY => mkCO 1 (OUnit (UMAT negy_list))
  | _ => co
  end.
Definition cond_pipe (sc : pipe) : pipe := map (fun e => (fst e, cond_obj (snd e))) sc.
(** Objects a conditioned builder carries out under its conditions, right or wrong. *)
Definition carried (e : list nat * cobj) : Prop :=
  match co_obj (snd e) with OUnit (UX | UY | UZ | UH | US | UT | UCNOT) => True | _ => False end.

(** The objects of [sc] in order, each acting as [F] says. *)
Definition steps (F : list nat * cobj -> state -> state) (sc : pipe) (psi : state) : state := fold_left (fun phi e => F e phi) sc psi.
(** Objects for which the effect under conditions is known: gates and rotations. *)
Definition kept (e : list nat * cobj) : Prop :=
  match co_obj (snd e) with OUnit (UX | UY | UZ | UH | US | UT | UCNOT | URz _) => True | _ => False end.
(** What an object does under the conditions [K]. *)
Definition act_under (K : list nat) (e : list nat * cobj) (psi : state) : state :=
  match K with
  | [] => oden (snd e) (fst e) psi
  | _ :: _ =>
    match co_obj (snd e) with
    | OUnit (URz th) => fun x => Cmult (if forallb x (K ++ fst e) then expi (angle th / 2) else expi (- (angle th / 2))) (psi x)
    | _ => controlled K (oden (cond_obj (snd e)) (fst e)) psi
    end
  end.
