(** Amplitude types: integers (for evaluated examples) and complex numbers.
    [Complex<P>] with P = f32/f64 is modelled by exact complex numbers. *)
From Coq Require Import ZArith Reals Lra.
From Coquelicot Require Import Complex.
From Verif Require Import Base OpsModel OpsSpec ConjSpec.

Definition ZN : num Z := mkNum Z 0%Z 1%Z Z.add Z.mul (Z.eqb 0).
Lemma ZN_laws : num_laws ZN.
Proof.
  constructor; cbn [n0 n1 nadd nmul nis0 ZN]; intros; try ring.
  rewrite Z.eqb_eq. split; congruence.
Qed.
Lemma ZN_conj : conj_laws ZN (fun z => z).
Proof. constructor; cbn; intros; auto. ring. Qed.

Definition C_is0 (z : C) : bool := if Ceq_dec z (RtoC 0) then true else false.
Definition CN : num C := mkNum C (RtoC 0) (RtoC 1) Cplus Cmult C_is0.
Lemma CN_laws : num_laws CN.
Proof.
  constructor; cbn; intros; try ring.
  unfold C_is0. destruct (Ceq_dec a (RtoC 0)); split; congruence.
Qed.
Lemma CN_conj : conj_laws CN Cconj.
Proof.
  constructor; cbn; intros.
  - unfold Cconj, Cplus. destruct a, b. cbn. f_equal. ring.
  - unfold Cconj, Cmult. destruct a, b. cbn. f_equal; ring.
  - unfold Cconj, RtoC. cbn. f_equal. ring.
  - unfold Cconj, RtoC. cbn. f_equal. ring.
  - unfold Cconj. destruct a. cbn. f_equal. ring.
  - ring.
Qed.

(** Reals, for probabilities. *)
Definition RN : num R := mkNum R 0%R 1%R Rplus Rmult (fun r => if Req_EM_T r 0 then true else false).
Lemma RN_laws : num_laws RN.
Proof.
  constructor; cbn; intros; try ring.
  destruct (Req_EM_T a 0); split; congruence.
Qed.
