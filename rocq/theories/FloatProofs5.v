(** A platform that rounds the real functions, and the readable form of the error bound. *)
From Coq Require Import ZArith Reals Lra Psatz FunctionalExtensionality.
From Flocq Require Import Core.Core IEEE754.BinarySingleNaN.
From Coquelicot Require Import Complex.
From Verif Require Import Base BitsSpec BitsModel BitsProofs OpsModel OpsSpec OpsProofs ConjSpec StateOpsModel Instances BuilderModel DenSpec DenProofs
  SimSpec UnitaryProofs SimProofs FloatModel FloatSpec FloatProofs FloatProofs2 FloatProofs3 FloatProofs4.
Local Open Scope R_scope.

Lemma exp_bound x : 0 <= x <= / 2 -> exp x <= 1 + 2 * x.
Proof.
  intros (H0 & H1). pose proof (exp_ineq1_le (- x)) as H. rewrite exp_Ropp in H.
  assert (E : 0 < exp x) by apply exp_pos.
  assert (P : (1 - x) * exp x <= 1). { replace 1 with (/ exp x * exp x) at 2 by (field; lra). apply Rmult_le_compat_r; lra. }
  assert (Q : 1 <= (1 + 2 * x) * (1 - x)) by nra.
  assert (Hx : (1 - x) * exp x <= (1 - x) * (1 + 2 * x)) by lra. nra.
Qed.
Lemma pow_exp a k : 0 <= a -> (1 + a) ^ k <= exp (INR k * a).
Proof.
  intros Ha. induction k as [|k IH]; [cbn; rewrite Rmult_0_l, exp_0; lra|]. cbn [pow]. rewrite S_INR.
  replace ((INR k + 1) * a) with (a + INR k * a) by ring. rewrite exp_plus. apply Rmult_le_compat; try lra.
  - apply pow_le. lra.
  - apply exp_ineq1_le.
Qed.
Lemma budget k a b : 0 <= a -> 0 <= b -> INR k * (a + b) <= / 2 -> (1 + a) ^ k * (1 + INR k * b) <= 1 + 2 * (INR k * (a + b)).
Proof.
  intros Ha Hb H. pose proof (pos_INR k) as K.
  eapply Rle_trans; [|apply exp_bound; split; [apply Rmult_le_pos; lra|exact H]].
  replace (INR k * (a + b)) with (INR k * a + INR k * b) by ring. rewrite exp_plus. apply Rmult_le_compat.
  - apply pow_le. lra.
  - assert (0 <= INR k * b) by (apply Rmult_le_pos; lra). lra.
  - apply pow_exp, Ha.
  - apply exp_ineq1_le.
Qed.

Section Ideal.
Context {prec emax : Z} {Hp : FLX.Prec_gt_0 prec} {He : Prec_lt_emax prec emax}.
Local Notation fl := (fl prec emax).
Local Notation fc := (fc prec emax).
Local Notation uro := (@uro prec).
Local Notation eta := (@eta prec emax).
Local Notation emin := (3 - emax - prec)%Z.
Local Notation rnd := (round radix2 (FLT_exp emin prec) ZnearestE).

(** The float for a real number of size about 1. *)
Definition nearest (r : R) : fl := binary_normalize prec emax Hp He mode_NE (ZnearestE (r * bpow radix2 prec)) (- prec) false.
Definition ideal : platform prec emax :=
  mkPlatform (fun t => nearest (cos (B2R t))) (fun t => nearest (sin (B2R t))) (nearest (/ sqrt 2)) (nearest (PI / 4)) (nearest (/ 2)).

Lemma nearest_ok r : (8 <= prec)%Z -> (8 <= emax)%Z -> Rabs r <= 1 ->
  fin (nearest r) /\ B2R (nearest r) = rnd (IZR (ZnearestE (r * bpow radix2 prec)) * uro) /\ Rabs (B2R (nearest r) - r) <= 4 * uro.
Proof.
  intros Pp Pe Hr. pose proof (binary_normalize_correct prec emax Hp He mode_NE (ZnearestE (r * bpow radix2 prec)) (- prec) false) as B.
  change (round radix2 (SpecFloat.fexp prec emax) (round_mode mode_NE)) with rnd in B. unfold F2R in B. cbn [Fnum Fexp] in B.
  pose proof (@uro_pos prec) as U0. pose proof (uro_small Pp) as U1. pose proof (@eta_uro prec emax (big_ok Pe)) as T1. pose proof (big_ok Pe) as Bg.
  change (bpow radix2 (- prec)) with uro in B. set (m := ZnearestE (r * bpow radix2 prec)) in *.
  assert (PU : bpow radix2 prec * uro = 1). { unfold FloatSpec.uro. rewrite <- bpow_plus. replace (prec + - prec)%Z with 0%Z by ring. reflexivity. }
  assert (Em : Rabs (IZR m * uro - r) <= uro).
  { replace (IZR m * uro - r) with ((IZR m - r * bpow radix2 prec) * uro).
    - rewrite Rabs_mult, (Rabs_pos_eq uro) by lra. rewrite <- (Rmult_1_l uro) at 2. apply Rmult_le_compat_r; [lra|].
      rewrite Rabs_minus_sym. eapply Rle_trans; [apply Znearest_half|]. lra.
    - rewrite Rmult_minus_distr_r, Rmult_assoc, PU. ring. }
  assert (Bm : Rabs (IZR m * uro) <= 2).
  { replace (IZR m * uro) with ((IZR m * uro - r) + r) by ring. eapply Rle_trans; [apply Rabs_triang|]. lra. }
  rewrite Rlt_bool_true in B by (apply rnd_small; lra).
  destruct B as (B1 & B2 & _). split; [exact B2|]. split; [exact B1|].
  change (B2R (nearest r)) with (B2R (binary_normalize prec emax Hp He mode_NE m (- prec) false)). rewrite B1.
  replace (rnd (IZR m * uro) - r) with ((rnd (IZR m * uro) - IZR m * uro) + (IZR m * uro - r)) by ring.
  eapply Rle_trans; [apply Rabs_triang|]. pose proof (@rnd_err prec emax _ (IZR m * uro)) as Er. nra.
Qed.

Lemma ideal_accurate : (8 <= prec)%Z -> (8 <= emax)%Z -> accurate ideal (4 * uro).
Proof.
  intros Pp Pe. constructor; cbn [ideal p_cos p_sin p_sqrt_half p_pi_4 p_half].
  - intros t _. destruct (nearest_ok (cos (B2R t)) Pp Pe) as (A & _ & B); [apply Rabs_le, COS_bound|auto].
  - intros t _. destruct (nearest_ok (sin (B2R t)) Pp Pe) as (A & _ & B); [apply Rabs_le, SIN_bound|auto].
  - destruct (nearest_ok (/ sqrt 2) Pp Pe) as (A & _ & B); [rewrite Rabs_pos_eq; apply inv_sqrt2_le|auto].
  - destruct (nearest_ok (PI / 4) Pp Pe) as (A & _ & B); [|auto]. pose proof PI_RGT_0. pose proof PI_4. rewrite Rabs_pos_eq; lra.
  - destruct (nearest_ok (/ 2) Pp Pe) as (A & B & _); [rewrite Rabs_pos_eq; lra|]. split; [exact A|]. rewrite B.
    assert (E : / 2 * bpow radix2 prec = IZR (Zpower radix2 (prec - 1))).
    { rewrite IZR_Zpower by lia. change (/ 2) with (bpow radix2 (-1)). rewrite <- bpow_plus. f_equal. ring. }
    rewrite E, Znearest_imp with (n := Zpower radix2 (prec - 1)).
    + rewrite <- E, Rmult_assoc. assert (PU : bpow radix2 prec * uro = 1). { unfold FloatSpec.uro. rewrite <- bpow_plus. replace (prec + - prec)%Z with 0%Z by ring. reflexivity. }
      rewrite PU, Rmult_1_r. apply round_generic; [auto with typeclass_instances|]. change (/ 2) with (bpow radix2 (-1)). apply generic_format_bpow. unfold FLT_exp. lia.
    + rewrite Rminus_diag_eq by reflexivity. rewrite Rabs_R0. lra.
Qed.

(** Without H, T and Rz the platform does not matter. *)
Lemma funitary_op_pf (pf pf' : platform prec emax) d fu u qs : frep d fu u -> (match u with UH | UT | URz _ | UMAT _ => true | _ => false end) = false ->
  funitary_op pf qs fu = funitary_op pf' qs fu.
Proof. intros [] E; try discriminate; reflexivity. Qed.
Lemma fsim_step_pf (pf pf' : platform prec emax) d n draws s fe e : fentry d fe e -> roundings e = O ->
  fsim_step pf n draws s fe = fsim_step pf' n draws s fe.
Proof.
  destruct fe as [qs fo], e as [qs' [k o]], s as [[v ar] ms]. intros (_ & H) E. cbn [fst snd co_obj] in H. unfold roundings in E. cbn [fst snd co_obj] in E.
  destruct fo as [fu| |]; destruct o as [u|?]; try contradiction. unfold fsim_step.
  destruct H; try discriminate; try reflexivity; exfalso; revert E; apply Nat.pow_nonzero; lia.
Qed.
Lemma fsimulate_pf (pf pf' : platform prec emax) d n start draws fp p : Forall2 (fentry d) fp p -> rounding_gates p = O ->
  fsimulate pf n start fp draws = fsimulate pf' n start fp draws.
Proof.
  intros H E. unfold fsimulate. destruct (idx _ start); cbn [bind]; try reflexivity.
  assert (G : forall s, foldM (fsim_step pf n draws) fp s = foldM (fsim_step pf' n draws) fp s).
  { induction H as [|fe e fp p Hfe Hfp IH]; intros s; [reflexivity|]. cbn [foldM]. cbn [rounding_gates fold_right] in E. fold (rounding_gates p) in E. assert (Er : roundings e = O) by lia. rewrite (fsim_step_pf pf pf' d n draws s fe e Hfe Er).
    destruct (fsim_step pf' n draws s fe); cbn [bind]; try reflexivity. apply IH. lia. }
  rewrite G. reflexivity.
Qed.

Lemma l2_zero n psi : l2 n psi <= 0 -> forall i, (i < 2 ^ n)%nat -> psi (dec n i) = RtoC 0.
Proof.
  intros H i Hi. pose proof (l2_in n psi i Hi) as L. pose proof (Cmod_ge_0 (psi (dec n i))). apply Cmod_eq_0. lra.
Qed.
End Ideal.
