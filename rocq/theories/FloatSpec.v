(** What the float simulation is compared with: the real number a float stands for, and exact
    circuits on real and complex numbers. *)
From Coq Require Import ZArith Reals.
From Flocq Require Import Core.Core IEEE754.BinarySingleNaN.
From Coquelicot Require Import Complex.
From Verif Require Import Base BitsSpec OpsModel OpsSpec ConjSpec Instances BuilderModel DenSpec MeasureSpec FloatModel.
From Verif Require Export ProjSpec.
Local Open Scope R_scope.

Section Spec.
Context {prec emax : Z} {Hp : FLX.Prec_gt_0 prec} {He : Prec_lt_emax prec emax}.
Local Notation fl := (fl prec emax).
Local Notation fc := (fc prec emax).

(** Neither infinite nor NaN. *)
Definition fin (x : fl) : Prop := is_finite x = true.
Definition cfin (a : fc) : Prop := fin (fst a) /\ fin (snd a).
(** The complex number. *)
Definition B2C (a : fc) : C := (B2R (fst a), B2R (snd a)).

(** Unit roundoff (2^-24 for f32, 2^-53 for f64) and half the smallest positive number. *)
Definition uro : R := bpow radix2 (- prec).
Definition eta : R := / 2 * bpow radix2 (3 - emax - prec).

(** The state in a vector of floats. *)
Definition fstate (n : nat) (v : list fc) : state := fun x => B2C (nth (enc n x) v fc0).

(** A platform whose constants and elementary functions are accurate to [d]. *)
Record accurate (pf : platform prec emax) (d : R) : Prop := mkAccurate {
  a_cos : forall t, fin t -> fin (p_cos pf t) /\ Rabs (B2R (p_cos pf t) - cos (B2R t)) <= d;
  a_sin : forall t, fin t -> fin (p_sin pf t) /\ Rabs (B2R (p_sin pf t) - sin (B2R t)) <= d;
  a_sqrt_half : fin (p_sqrt_half pf) /\ Rabs (B2R (p_sqrt_half pf) - / sqrt 2) <= d;
  a_pi_4 : fin (p_pi_4 pf) /\ Rabs (B2R (p_pi_4 pf) - PI / 4) <= d;
  a_half : fin (p_half pf) /\ B2R (p_half pf) = / 2 }.

(** The columns of a one-qubit matrix are orthonormal. *)
Definition ortho (m : mat1) : Prop :=
  forall a b, (Cconj (m false a) * m false b + Cconj (m true a) * m true b)%C = RtoC (if Bool.eqb a b then 1 else 0).
(** The table of a unitary matrix on k qubits: orthonormal columns and rows. *)
Definition entries (k : nat) (data : list C) (r c : list bool) : C := nth (be r * 2 ^ k + be c) data (RtoC 0).
Definition unitary_table (k : nat) (data : list C) : Prop :=
  length data = (2 ^ (2 * k))%nat /\ unitary_mat CN Cconj k (entries k data) /\ unitary_mat CN Cconj k (adj Cconj (entries k data)).
(** A float object stands for an exact one; angles, and the numbers of a matrix, agree to [d].
    The number of qubits of a matrix is limited by the precision. *)
Inductive frep (d : R) : funitary prec emax -> unitary -> Prop :=
| rep_X : frep d FX UX | rep_Y : frep d FY UY | rep_Z : frep d FZ UZ | rep_H : frep d FH UH
| rep_S : frep d FS US | rep_T : frep d FT UT | rep_CNOT : frep d FCNOT UCNOT | rep_SWAP : frep d FSWAP USWAP
| rep_Rz theta t : fin theta -> Rabs (B2R theta - angle t) <= d -> frep d (FRz theta) (URz t)
| rep_MAT (fm : bool -> bool -> fc) (m : mat1) : (forall r c, cfin (fm r c) /\ Cmod (B2C (fm r c) - m r c)%C <= d) -> ortho m ->
    frep d (FMAT [fm false false; fm false true; fm true false; fm true true]) (UMAT [m false false; m false true; m true false; m true true])
| rep_MATk k fdata data : Forall2 (fun a m => cfin a /\ Cmod (B2C a - m)%C <= d) fdata data -> unitary_table k data ->
    32 * (2 ^ k + 3) * uro <= 1 -> 2 ^ k * d <= 1 -> frep d (FMAT fdata) (UMAT data).
(** The same entry of the pipeline: same qubits, matching object. *)
Definition fentry (d : R) (fe : list nat * fobj prec emax) (e : list nat * cobj) : Prop :=
  fst fe = fst e /\
  match snd fe, co_obj (snd e) with FUnit fu, OUnit u => frep d fu u | _, _ => False end.
End Spec.

(** Distance of two n-qubit states (2-norm). *)
Definition l2 (n : nat) (psi : state) : R :=
  sqrt (fold_right Rplus 0 (map (fun i => Cmod (psi (dec n i)) ^ 2) (seq 0 (2 ^ n)))).
Definition dist (n : nat) (phi psi : state) : R := l2 n (fun x => (phi x - psi x)%C).

(** Roundings: one for each gate H, T, Rz and one-qubit matrix, 4^(k-1) for a matrix on k qubits; all other
    gates only move amplitudes and change signs. *)
Definition roundings (e : list nat * cobj) : nat :=
  match co_obj (snd e) with OUnit (UH | UT | URz _) => 1 | OUnit (UMAT _) => 4 ^ (length (fst e) - 1) | _ => 0 end.
Definition rounding_gates (p : pipe) : nat := fold_right (fun e k => roundings e + k)%nat 0%nat p.

(** How far a measurement of a state known to [D] may be off. *)
Definition slack (prec emax : Z) (n : nat) (D : R) : R := 3 * D + 12 * (2 ^ n + 1) * @uro prec + 10 * 2 ^ n * @eta prec emax.

(** Exact run beside a float run: state, how far the float state may be from it, and the outcomes
    with their probabilities.  [k] counts the measurements so far.  A draw that falls clear of the
    boundaries of the weight of basis state [j] selects [j]. *)
Section Tracks.
Context {prec emax : Z} {Hp : FLX.Prec_gt_0 prec} {He : Prec_lt_emax prec emax}.
Definition grow (d : R) (n : nat) (e : list nat * cobj) (D : R) : R :=
  (1 + INR (roundings e) * (44 * @uro prec + 10 * d)) * (1 + D) + INR (roundings e) * (20 * @eta prec emax * sqrt (2 ^ n)) - 1.
Inductive tracks (d : R) (n : nat) (draws : nat -> fl prec emax) :
  list (list nat * fobj prec emax) -> nat -> state -> R -> list (nat * R * R) -> state -> R -> Prop :=
| tr_nil k psi D : tracks d n draws [] k psi D [] psi D
| tr_gate fe e fp k psi D out psi' D' : fentry d fe e -> wf_entry n e -> D <= 1 ->
    tracks d n draws fp k (oden (snd e) (fst e) psi) (grow d n e D) out psi' D' ->
    tracks d n draws (fe :: fp) k psi D out psi' D'
| tr_meas qs m j fp k psi D out psi' D' : NoDup qs -> (forall q, In q qs -> (q < n)%nat) -> (j < 2 ^ n)%nat ->
    (m < 2 ^ length qs)%nat -> shows qs m (dec n j) = true -> fin (draws k) ->
    below n j psi + slack prec emax n D < B2R (draws k) <= below n (S j) psi - slack prec emax n D ->
    tracks d n draws fp (S k) (post n qs m psi) (3 * slack prec emax n D / prob_of n qs m psi) out psi' D' ->
    tracks d n draws ((qs, FMeas) :: fp) k psi D ((m, prob_of n qs m psi, slack prec emax n D) :: out) psi' D'.
(** A reported result against the exact outcome and probability. *)
Definition reported (r : fresult prec emax) (x : nat * R * R) : Prop :=
  match r with FRSingle m p => m = fst (fst x) /\ fin p /\ Rabs (B2R p - snd (fst x)) <= snd x | FRStochastic _ => False end.
End Tracks.
