(** Float runs with measurements. *)
From Coq Require Import ZArith Reals Lra Psatz FunctionalExtensionality.
From Flocq Require Import Core.Core IEEE754.BinarySingleNaN.
From Coquelicot Require Import Complex.
From Verif Require Import Base BitsSpec BitsModel BitsProofs BitsProofs2 OpsModel OpsSpec OpsProofs ConjSpec StateOpsModel Instances BuilderModel DenSpec DenProofs
  MeasureModel MeasureSpec MeasureProofs MeasureProofs2 SimSpec UnitaryProofs SimProofs FloatModel FloatSpec FloatProofs FloatProofs2 FloatProofs3 FloatProofs4 FloatProofs5 FloatProofs6 FloatProofs7.
Local Open Scope R_scope.

Lemma rsum_in {A} (f : A -> R) l a : (forall b, In b l -> 0 <= f b) -> In a l -> f a <= rsum f l.
Proof.
  intros H. induction l as [|b l IH]; cbn [rsum In]; [tauto|]. intros [->|Hi].
  - assert (0 <= rsum f l) by (apply rsum_nonneg; intros; apply H; right; assumption). lra.
  - assert (0 <= f b) by (apply H; left; reflexivity). assert (f a <= rsum f l) by (apply IH; [intros; apply H; right; assumption|exact Hi]). lra.
Qed.

Lemma aux_prod a b : 0 < b -> 7 / 10 * b <= a -> 20 / 17 * (b * b) <= a * (b + a).
Proof. intros. apply Rle_trans with (7 / 10 * b * (17 / 10 * b)); [nra|apply Rmult_le_compat; lra]. Qed.
Lemma aux_sq a b : 0 <= b -> a ^ 2 <= b ^ 2 -> a <= b.
Proof. intros. nra. Qed.

Section Step.
Context {prec emax : Z} {Hp : FLX.Prec_gt_0 prec} {He : Prec_lt_emax prec emax}.
Local Notation fl := (fl prec emax).
Local Notation fc := (fc prec emax).
Local Notation uro := (@uro prec).
Local Notation eta := (@eta prec emax).
Local Notation slack := (slack prec emax).
Context (Pp : (8 <= prec)%Z) (Pe : (8 <= emax)%Z) (Pl : (prec + 2 <= emax)%Z).

Lemma qsum_below n j (v : list fc) : length v = (2 ^ n)%nat -> (j <= 2 ^ n)%nat -> qsum (firstn j v) = below n j (fstate n v).
Proof.
  intros Hv Hj. unfold qsum, below. replace (firstn j v) with (map (fun i => nth i v fc0) (seq 0 j)).
  - rewrite rsum_map. apply rsum_ext. intros i Hi. apply in_seq in Hi. rewrite fstate_nth by lia. reflexivity.
  - apply (list_eq_nth fc0). { rewrite map_length, seq_length, firstn_length. lia. }
    intros i Hi. rewrite map_length, seq_length in Hi. rewrite nth_map_seq by lia. symmetry. apply nth_firstn'. lia.
Qed.

Lemma below_le n j psi : (j <= 2 ^ n)%nat -> 0 <= below n j psi <= l2 n psi ^ 2.
Proof.
  intros Hj. rewrite below_psum by exact Hj. rewrite psum_l2. pose proof (l2_pos n (part (fun x => (enc n x <? j)%nat) psi)). pose proof (part_le n (fun x => (enc n x <? j)%nat) psi). nra.
Qed.
Lemma below_S n j psi : below n (S j) psi = below n j psi + Cmod (psi (dec n j)) ^ 2.
Proof. unfold below. rewrite seq_S, rsum_app. cbn [rsum Nat.add]. ring. Qed.

Lemma pow2_INR n : INR (2 ^ n) = 2 ^ n.
Proof. rewrite pow_INR. reflexivity. Qed.

(** The collapsed vector. *)
Lemma collapse_err n qs m (v : list fc) (p : fl) : length v = (2 ^ n)%nat -> Forall cfin v -> l2 n (fstate n v) <= 2 -> fin p -> 24 * uro <= B2R p <= 5 ->
  let w := map (fun i => if shows qs m (dec n i) then fcscale (nth i v fc0) (fdiv fone (fsqrt p)) else fc0) (seq 0 (2 ^ n)) in
  Forall cfin w /\ dist n (fstate n w) (fun x => RtoC (/ sqrt (B2R p)) * proj qs m (fstate n v) x)%C <=
    7 * uro * / sqrt (B2R p) * l2 n (proj qs m (fstate n v)) + 2 * eta * sqrt (2 ^ n).
Proof.
  intros Hv Fv HB Fp Bp. cbn zeta. set (c := fdiv fone (fsqrt p)). set (s := / sqrt (B2R p)).
  pose proof (@uro_pos prec) as U0. pose proof (uro_small Pp) as U1. pose proof (@eta_pos prec emax) as T0.
  destruct (inv_sqrt_err Pp Pl p Fp Bp) as (Fc & Hc). fold c s in Fc, Hc.
  assert (S0 : 0 < sqrt (B2R p)) by (apply sqrt_lt_R0; lra).
  assert (I0 : 0 < s <= / (24 * uro)).
  { unfold s. split; [apply Rinv_0_lt_compat, S0|]. apply Rinv_le_contravar; [lra|]. assert (sqrt (B2R p) * sqrt (B2R p) = B2R p) by (apply sqrt_sqrt; lra). nra. }
  assert (K : forall i, (i < 2 ^ n)%nat -> cfin (fcscale (nth i v fc0) c) /\
     Cmod (B2C (fcscale (nth i v fc0) c) - RtoC s * B2C (nth i v fc0))%C <= 7 * uro * s * Cmod (B2C (nth i v fc0)) + 2 * eta).
  { intros i Hi. apply scale_err; auto; [apply nth_cfin; exact Fv|]. rewrite <- (fstate_nth n v i Hi). eapply Rle_trans; [apply fstate_le|exact HB]. }
  split.
  - apply Forall_forall. intros a Ha. apply in_map_iff in Ha. destruct Ha as (i & <- & Hi). apply in_seq in Hi. destruct (shows _ _ _); [apply K; lia|apply cfin_0].
  - unfold dist. eapply Rle_trans with (l2 n (fun x => RtoC (7 * uro * s) * RtoC (Cmod (proj qs m (fstate n v) x)) + RtoC (2 * eta))%C).
    + apply l2_mono. intros i Hi. rewrite fstate_map by exact Hi. unfold proj, part. rewrite (fstate_nth n v i Hi).
      assert (US : 0 <= 7 * uro * s) by (apply Rmult_le_pos; lra).
      destruct (shows qs m (dec n i)).
      * destruct (K i Hi) as (_ & K2). eapply Rle_trans; [exact K2|]. rewrite <- RtoC_mult, <- RtoC_plus, Cmod_R, Rabs_pos_eq; [lra|].
        pose proof (Cmod_ge_0 (B2C (nth i v fc0))). assert (0 <= 7 * uro * s * Cmod (B2C (nth i v fc0))) by (apply Rmult_le_pos; lra). lra.
      * rewrite B2C_0. replace (RtoC 0 - RtoC s * RtoC 0)%C with (RtoC 0) by ring. rewrite Cmod_0. apply Cmod_ge_0.
    + eapply Rle_trans; [apply (l2_triangle n (fun x => RtoC (7 * uro * s) * RtoC (Cmod (proj qs m (fstate n v) x)))%C (fun _ => RtoC (2 * eta)))|].
      rewrite (l2_scale n (7 * uro * s) (fun x => RtoC (Cmod (proj qs m (fstate n v) x)))) by (apply Rmult_le_pos; lra). rewrite l2_abs, l2_const by lra. lra.
Qed.

Theorem measure_step random n qs m j (v out : list fc) psi D : in_range n qs -> NoDup qs -> length v = (2 ^ n)%nat -> length out = (2 ^ n)%nat ->
  Forall cfin v -> l2 n psi = 1 -> dist n (fstate n v) psi <= D -> fin random -> (j < 2 ^ n)%nat -> (m < 2 ^ length qs)%nat -> shows qs m (dec n j) = true ->
  below n j psi + slack n D < B2R random <= below n (S j) psi - slack n D ->
  exists p w, fmeasure random n qs v out = Ok ((m, p), w) /\ length w = (2 ^ n)%nat /\ Forall cfin w /\
    fin p /\ Rabs (B2R p - prob_of n qs m psi) <= slack n D /\ dist n (fstate n w) (post n qs m psi) <= 3 * slack n D / prob_of n qs m psi.
Proof.
  intros Hr Hn Hv Ho Fv N1 HD Fr Hj Hm Sj Hb.
  pose proof (@uro_pos prec) as U0. pose proof (uro_small Pp) as U1. pose proof (@eta_pos prec emax) as T0.
  set (e := slack n D) in *.
  assert (D0 : 0 <= D) by (eapply Rle_trans; [apply l2_pos|exact HD]).
  assert (N0 : 1 <= 2 ^ n). { rewrite <- pow2_INR. change 1 with (INR 1). apply le_INR. pose proof (Nat.pow_nonzero 2 n). lia. }
  set (N := 2 ^ n) in *.
  assert (NU : 0 <= N * uro) by (apply Rmult_le_pos; lra). assert (NT : 0 <= N * eta) by (apply Rmult_le_pos; lra).
  assert (Ee : e = 3 * D + 12 * (N * uro) + 12 * uro + 10 * (N * eta)) by (unfold e, FloatSpec.slack; fold N; ring).
  assert (E0 : 0 < e) by lra.
  pose proof (below_le n j psi (Nat.lt_le_incl _ _ Hj)) as B1. pose proof (below_le n (S j) psi Hj) as B2. rewrite N1 in B1, B2.
  assert (E2 : 2 * e < 1) by lra.
  assert (D6 : 6 * D <= 1) by lra.
  assert (L2v : l2 n (fstate n v) <= 1 + D). { pose proof (l2_dist n (fstate n v) psi). lra. }
  assert (Dq : D * (2 + D) <= 13 / 6 * D) by nra.
  (* the scan *)
  assert (Sc : fsoft_scan (fmul random fone) 0 v 0 = j).
  { destruct (mul_exact random fone random Fr (proj1 fone_ok)) as (F1 & E1); [left; rewrite (proj2 fone_ok); ring|]. rewrite (proj2 fone_ok), Rmult_1_r in E1.
    rewrite (fscan_close Pp Pe v (fmul random fone) 0 j (B2R random) 0); [lia|exact Fv| |exact F1|lra|lia|rewrite E1, Rminus_diag_eq, Rabs_R0 by reflexivity; lra|].
    - apply Forall_forall. intros a Ha. destruct (In_nth v a fc0 Ha) as (i & Hi & <-). rewrite <- (fstate_nth n v i) by lia. eapply Rle_trans; [apply fstate_le|lra].
    - rewrite Hv, pow2_INR. fold N. assert (Qa : qsum v = below n (2 ^ n) (fstate n v)). { rewrite <- qsum_below by (try exact Hv; lia). rewrite <- Hv, firstn_all. reflexivity. }
      rewrite Qa, !(qsum_below n) by (try exact Hv; lia).
      pose proof (below_le n (2 ^ n) (fstate n v) (Nat.le_refl _)) as Q. set (qv := below n (2 ^ n) (fstate n v)) in *.
      assert (Q2 : qv <= 3 / 2). { pose proof (l2_pos n (fstate n v)). nra. }
      pose proof (psum_close n (fun x => (enc n x <? j)%nat) psi (fstate n v) D N1 HD) as C1. pose proof (psum_close n (fun x => (enc n x <? S j)%nat) psi (fstate n v) D N1 HD) as C2.
      rewrite <- !below_psum in C1, C2 by lia. apply Rabs_le_inv in C1. apply Rabs_le_inv in C2.
      assert (UQ : uro * qv <= uro * (3 / 2)) by (apply Rmult_le_compat_l; lra). lra. }
  assert (Om : outcome_of n qs j = m). { apply Nat.eqb_eq. rewrite outcome_shows by exact Hm. exact Sj. }
  rewrite fmeasure_ok by assumption. rewrite Sc, Om. cbn zeta. set (p := fsum (vitems n qs m v)).
  set (P := prob_of n qs m psi). set (Pv := prob_of n qs m (fstate n v)).
  assert (P1 : P <= 1). { unfold P. rewrite prob_of_l2. pose proof (proj_le n qs m psi). pose proof (l2_pos n (proj qs m psi)). nra. }
  assert (P2 : 2 * e <= P).
  { assert (T : (if shows qs m (dec n j) then Cmod (psi (dec n j)) ^ 2 else 0) <= P).
    { unfold P, prob_of. apply (rsum_in (fun i => if shows qs m (dec n i) then Cmod (psi (dec n i)) ^ 2 else 0)); [|apply in_seq; lia]. intros b _. destruct (shows qs m (dec n b)); [apply pow2_ge_0|lra]. }
    rewrite Sj in T. rewrite below_S in Hb. lra. }
  pose proof (prob_of_close n qs m psi (fstate n v) D N1 HD) as PD. fold P Pv in PD. apply Rabs_le_inv in PD.
  assert (Pv0 : 0 <= Pv) by apply prob_of_pos.
  set (M := INR (2 ^ (n - length qs))). assert (M0 : 0 <= M <= N).
  { unfold M, N. rewrite <- pow2_INR. split; [apply pos_INR|]. apply le_INR, Nat.pow_le_mono_r; lia. }
  assert (MU : M * uro <= N * uro) by (apply Rmult_le_compat_r; lra). assert (MT : M * eta <= N * eta) by (apply Rmult_le_compat_r; lra).
  assert (MU0 : 0 <= M * uro) by (apply Rmult_le_pos; lra).
  destruct (prob_err Pp Pe n qs m v p (vitems n qs m v) Hr Hn Fv) as (Gp & Ep); [lra|fold M; lra|apply fmeasure_items_ok; assumption|apply fsum_fsums|].
  fold M Pv in Ep.
  assert (Pv2 : Pv <= 3 / 2) by lra.
  assert (Ep2 : (3 * M + 3) * uro * Pv <= 5 * (N * uro) + 5 * uro).
  { replace ((3 * M + 3) * uro * Pv) with (3 * (M * uro + uro) * Pv) by ring. assert (3 * (M * uro + uro) * Pv <= 3 * (M * uro + uro) * (3 / 2)) by (apply Rmult_le_compat_l; lra). lra. }
  assert (Ap : Rabs (B2R p - P) <= e). { replace (B2R p - P) with ((B2R p - Pv) + (Pv - P)) by ring. eapply Rle_trans; [apply Rabs_triang|]. assert (Rabs (Pv - P) <= 13 / 6 * D) by (apply Rabs_le; lra). lra. }
  destruct Gp as (Fp & Pp0). assert (Ap' := Rabs_le_inv _ _ Ap).
  assert (L2 : l2 n (fstate n v) <= 2) by lra. assert (NU1 : uro <= N * uro) by nra. assert (Prg : 24 * uro <= B2R p <= 5) by (split; lra).
  destruct (collapse_err n qs m v p Hv Fv L2 Fp Prg) as (W1 & W2).
  assert (Z : fis0 p = false). { destruct (fis0 p) eqn:Z; [|reflexivity]. apply (fis0_ok p Fp) in Z. lra. }
  rewrite Z. eexists p, _. split; [reflexivity|]. split; [rewrite map_length, seq_length; reflexivity|]. split; [exact W1|]. split; [exact Fp|]. split; [exact Ap|].
  set (w := map _ _) in *. set (sp := sqrt (B2R p)) in *. set (sP := sqrt P).
  assert (Sp2 : sp * sp = B2R p) by (apply sqrt_sqrt; lra). assert (SP2 : sP * sP = P) by (apply sqrt_sqrt; lra).
  assert (Sp0 : 0 < sp) by (apply sqrt_lt_R0; lra). assert (SP0 : 0 < sP) by (apply sqrt_lt_R0; lra).
  assert (SP1 : sP <= 1) by (apply aux_sq; [lra|]; replace (sP ^ 2) with (sP * sP) by ring; rewrite SP2; lra).
  assert (R1 : 7 / 10 * sP <= sp) by (apply aux_sq; [lra|]; replace ((7 / 10 * sP) ^ 2) with (49 / 100 * (sP * sP)) by field; replace (sp ^ 2) with (sp * sp) by ring; rewrite SP2, Sp2; lra).
  eapply Rle_trans; [apply (dist_triangle n _ (fun x => RtoC (/ sp) * proj qs m (fstate n v) x)%C)|].
  (* between the two normalised projections *)
  assert (X : dist n (fun x => RtoC (/ sp) * proj qs m (fstate n v) x)%C (post n qs m psi) <= / sp * D + sP * Rabs (/ sp - / sP)).
  { unfold dist. rewrite (l2_ext n _ (fun x => RtoC (/ sp) * (proj qs m (fstate n v) x - proj qs m psi x) + RtoC (/ sp - / sP) * proj qs m psi x)%C).
    2:{ intros i _. unfold post, proj, part. fold P. fold sP. destruct (shows qs m (dec n i)); [|ring]. rewrite RtoC_minus. ring. }
    eapply Rle_trans; [apply (l2_triangle n (fun x => RtoC (/ sp) * (proj qs m (fstate n v) x - proj qs m psi x))%C (fun x => RtoC (/ sp - / sP) * proj qs m psi x)%C)|].
    apply Rplus_le_compat.
    - rewrite (l2_scale n (/ sp) (fun x => proj qs m (fstate n v) x - proj qs m psi x)%C) by (left; apply Rinv_0_lt_compat; lra).
      apply Rmult_le_compat_l; [left; apply Rinv_0_lt_compat; lra|]. eapply Rle_trans; [apply part_dist|exact HD].
    - rewrite <- (l2_abs n (fun x => RtoC (/ sp - / sP) * proj qs m psi x)%C).
      rewrite (l2_ext n _ (fun x => RtoC (Rabs (/ sp - / sP)) * RtoC (Cmod (proj qs m psi x)))%C) by (intros i _; rewrite Cmod_mult, Cmod_R, RtoC_mult; reflexivity).
      rewrite (l2_scale n (Rabs (/ sp - / sP)) (fun x => RtoC (Cmod (proj qs m psi x)))) by apply Rabs_pos. rewrite l2_abs.
      assert (E : l2 n (proj qs m psi) = sP). { unfold sP, P. rewrite prob_of_l2. rewrite <- Rsqr_pow2, sqrt_Rsqr by apply l2_pos. reflexivity. }
      rewrite E. lra. }
  assert (Q : / P * P = 1) by (apply Rinv_l; lra). assert (IP : 1 <= / P) by (rewrite <- Rinv_1; apply Rinv_le_contravar; lra).
  assert (Isp : / sp <= 10 / 7 * / P).
  { apply Rmult_le_reg_r with sp; [lra|]. rewrite Rinv_l by lra. apply Rmult_le_reg_r with P; [lra|]. replace (10 / 7 * / P * sp * P) with (10 / 7 * sp * (/ P * P)) by ring. rewrite Q. nra. }
  assert (X1 : / sp * D <= 10 / 7 * / P * D) by (apply Rmult_le_compat_r; lra).
  assert (X2 : sP * Rabs (/ sp - / sP) <= 17 / 20 * / P * e).
  { replace (/ sp - / sP) with ((P - B2R p) * (/ sp * / sP * / (sP + sp))) by (rewrite <- Sp2, <- SP2; field; lra).
    rewrite Rabs_mult. rewrite (Rabs_pos_eq (/ sp * / sP * / (sP + sp))).
    2:{ left. repeat apply Rmult_lt_0_compat; apply Rinv_0_lt_compat; lra. }
    replace (sP * (Rabs (P - B2R p) * (/ sp * / sP * / (sP + sp)))) with (Rabs (P - B2R p) * / (sp * (sP + sp))) by (field; lra).
    rewrite Rabs_minus_sym. rewrite (Rmult_comm (17 / 20 * / P) e). apply Rmult_le_compat; [apply Rabs_pos|left; apply Rinv_0_lt_compat; nra|exact Ap|].
    replace (17 / 20 * / P) with (/ (20 / 17 * P)) by (field; lra). apply Rinv_le_contravar; [lra|]. rewrite <- SP2. apply aux_prod; assumption. }
  (* rounding *)
  assert (Lp : l2 n (proj qs m (fstate n v)) <= 2 * sp).
  { assert (E : l2 n (proj qs m (fstate n v)) ^ 2 = Pv) by (unfold Pv; rewrite prob_of_l2; reflexivity). apply aux_sq; [lra|]. replace ((2 * sp) ^ 2) with (4 * (sp * sp)) by ring. rewrite E, Sp2. lra. }
  assert (Y1 : 7 * uro * / sp * l2 n (proj qs m (fstate n v)) <= 14 * uro).
  { apply Rle_trans with (7 * uro * / sp * (2 * sp)); [apply Rmult_le_compat_l; [|exact Lp]|right; field; lra]. apply Rmult_le_pos; [lra|]. left. apply Rinv_0_lt_compat. lra. }
  assert (Y2 : 2 * eta * sqrt N <= 2 * (N * eta)).
  { replace (2 * (N * eta)) with (2 * eta * N) by ring. apply Rmult_le_compat_l; [lra|]. rewrite <- (sqrt_Rsqr N) at 2 by lra. apply sqrt_le_1_alt. unfold Rsqr. rewrite <- (Rmult_1_l N) at 1. apply Rmult_le_compat_r; lra. }
  assert (EP : e <= / P * e) by (rewrite <- (Rmult_1_l e) at 1; apply Rmult_le_compat_r; lra). fold N in W2. assert (DP : 0 <= / P * D) by (apply Rmult_le_pos; lra).
  assert (EP3 : 3 * (/ P * D) <= / P * e). { replace (3 * (/ P * D)) with (/ P * (3 * D)) by ring. apply Rmult_le_compat_l; lra. }
  unfold Rdiv. replace (3 * e * / P) with (3 * (/ P * e)) by ring. lra.
Qed.
End Step.

Section Run.
Context {prec emax : Z} {Hp : FLX.Prec_gt_0 prec} {He : Prec_lt_emax prec emax}.
Local Notation fl := (fl prec emax).
Local Notation fc := (fc prec emax).
Local Notation uro := (@uro prec).
Local Notation eta := (@eta prec emax).
Local Notation slack := (slack prec emax).
Context (Pp : (8 <= prec)%Z) (Pe : (8 <= emax)%Z) (Pl : (prec + 2 <= emax)%Z).
Context (pf : platform prec emax) (d : R) (A : accurate pf d) (Du : uro <= d) (D1 : d <= / 5).

Lemma l2_post n qs m psi : 0 < prob_of n qs m psi -> l2 n (post n qs m psi) = 1.
Proof.
  intros H. unfold post. rewrite (l2_ext n _ (fun x => RtoC (/ sqrt (prob_of n qs m psi)) * proj qs m psi x)%C).
  2:{ intros i _. unfold proj, part. destruct (shows qs m (dec n i)); [reflexivity|ring]. }
  assert (S0 : 0 < sqrt (prob_of n qs m psi)) by (apply sqrt_lt_R0, H).
  rewrite l2_scale by (left; apply Rinv_0_lt_compat, S0). rewrite (prob_of_l2 n qs m psi). rewrite <- Rsqr_pow2, sqrt_Rsqr by apply l2_pos.
  apply Rinv_l. rewrite (prob_of_l2 n qs m psi) in H. intros Z. rewrite Z in H. lra.
Qed.

Lemma slack_pos n D : 0 <= D -> 0 < slack n D.
Proof.
  intros H. unfold FloatSpec.slack. pose proof (@uro_pos prec). pose proof (@eta_pos prec emax). assert (0 < 2 ^ n) by (apply pow_lt; lra).
  assert (0 < 2 ^ n * uro) by (apply Rmult_lt_0_compat; assumption). assert (0 < 2 ^ n * eta) by (apply Rmult_lt_0_compat; assumption). lra.
Qed.

Lemma tracks_run n draws fp k psi D out psi' D' : tracks d n draws fp k psi D out psi' D' ->
  forall (v arena : list fc) ms, length ms = k -> length v = (2 ^ n)%nat -> length arena = (2 ^ n)%nat -> Forall cfin v -> l2 n psi = 1 -> dist n (fstate n v) psi <= D ->
  exists v' arena' rs, foldM (fsim_step pf n draws) fp (v, arena, ms) = Ok (v', arena', ms ++ rs) /\ length v' = (2 ^ n)%nat /\ length arena' = (2 ^ n)%nat /\ Forall cfin v' /\
    l2 n psi' = 1 /\ dist n (fstate n v') psi' <= D' /\ Forall2 reported rs out.
Proof.
  induction 1 as [k psi D|fe e fp k psi D out psi' D' Hfe We HD1 Ht IH|qs m j fp k psi D out psi' D' Hn Hr Hj Hm Sj Fr Hb Ht IH]; intros v arena ms Hk Lv La Fv Hpsi HD.
  - exists v, arena, []. rewrite app_nil_r. cbn [foldM]. repeat split; auto.
  - destruct (fstep Pp Pe pf d A Du D1 draws n v arena ms fe e psi Hfe We Lv La Fv Hpsi ltac:(lra)) as (v1 & E1 & L1 & F1 & N1 & D2).
    cbn [foldM]. rewrite E1. cbn [bind]. apply IH; auto. unfold grow. unfold kap, hh in D2. set (w := INR (roundings e)) in *. assert (W0 : 0 <= w) by apply pos_INR.
    pose proof (@uro_pos prec). assert (0 <= w * (44 * uro + 10 * d)) by (apply Rmult_le_pos; lra).
    assert ((1 + w * (44 * uro + 10 * d)) * (1 + dist n (fstate n v) psi) <= (1 + w * (44 * uro + 10 * d)) * (1 + D)) by (apply Rmult_le_compat_l; lra). lra.
  - assert (D0 : 0 <= D) by (eapply Rle_trans; [apply l2_pos|exact HD]).
    destruct (measure_step Pp Pe Pl (draws k) n qs m j v arena psi D Hr Hn Lv La Fv Hpsi HD Fr Hj Hm Sj Hb) as (p & w & E & Lw & Fw & Fp & Ep & Dw).
    cbn [foldM]. unfold fsim_step at 1. rewrite Hk, E. cbn [bind].
    assert (Pos : 0 < prob_of n qs m psi).
    { apply Rlt_le_trans with (2 * slack n D); [pose proof (slack_pos n D D0); lra|].
      assert (T : (if shows qs m (dec n j) then Cmod (psi (dec n j)) ^ 2 else 0) <= prob_of n qs m psi).
      { unfold prob_of. apply (rsum_in (fun i => if shows qs m (dec n i) then Cmod (psi (dec n i)) ^ 2 else 0)); [|apply in_seq; lia]. intros b _. destruct (shows qs m (dec n b)); [apply pow2_ge_0|lra]. }
      rewrite Sj in T. rewrite below_S in Hb. lra. }
    destruct (IH w v (ms ++ [FRSingle m p])) as (v' & ar & rs & G1 & G2 & G3 & G4 & G5 & G6 & G7); auto.
    + rewrite app_length. cbn. lia.
    + apply l2_post, Pos.
    + exists v', ar, (FRSingle m p :: rs). rewrite G1, <- app_assoc. repeat split; auto. constructor; [|exact G7]. cbn. auto.
Qed.

Theorem fsim_tracks n start fp draws out psi' D' : (start < 2 ^ n)%nat -> tracks d n draws fp 0 (ket n (dec n start)) 0 out psi' D' ->
  exists v rs, fsimulate pf n start fp draws = Ok (v, rs) /\ length v = (2 ^ n)%nat /\ Forall cfin v /\ l2 n psi' = 1 /\ dist n (fstate n v) psi' <= D' /\ Forall2 reported rs out.
Proof.
  intros Hs Ht. destruct (@fstart_ok prec emax Hp He n start Hs) as (L0 & F0 & S0).
  destruct (tracks_run n draws fp 0 _ _ _ _ _ Ht (upd_nth start fc1 (repeat fc0 (2 ^ n))) (repeat fc0 (2 ^ n)) []) as (v & ar & rs & E & G1 & _ & G2 & G3 & G4 & G5); auto.
  - apply repeat_length.
  - apply ket_l2, Hs.
  - apply dist_0. intros. apply S0.
  - exists v, rs. unfold fsimulate. rewrite (idx_ok (repeat fc0 (2 ^ n)) fc0) by (rewrite repeat_length; exact Hs). cbn [bind]. rewrite E. cbn [app]. tauto.
Qed.

(** A circuit of gates and then a stochastic measurement. *)
Theorem fsim_probs n start fp p draws qs : Forall2 (fentry d) fp p -> Forall (wf_entry n) p -> (start < 2 ^ n)%nat -> NoDup qs -> in_range n qs ->
  let k := rounding_gates p in
  let D := (1 + kap (prec:=prec) d) ^ k * (1 + INR k * hh (prec:=prec) (emax:=emax) n) - 1 in
  let M := 2 ^ (n - length qs) in
  D <= 1 -> 2 * M * uro <= 1 ->
  exists w ps, fsimulate pf n start (fp ++ [(qs, FStoch)]) draws = Ok (w, [FRStochastic ps]) /\ length ps = (2 ^ length qs)%nat /\
    forall m, (m < 2 ^ length qs)%nat -> fin (nth m ps fzero) /\
      Rabs (B2R (nth m ps fzero) - prob_of n qs m (den p (ket n (dec n start)))) <= 3 * D + 12 * (M + 1) * uro + 10 * M * eta.
Proof.
  intros H W Hs Hn Hr k D M HD HM. destruct (@fstart_ok prec emax Hp He n start Hs) as (L0 & F0 & S0). set (psi := den p (ket n (dec n start))).
  assert (HB : (1 + kap (prec:=prec) d) ^ rounding_gates p * (1 + INR (rounding_gates p) * hh (prec:=prec) (emax:=emax) n) <= 2) by (fold k; unfold D in HD; lra).
  destruct (frun Pp Pe pf d A Du D1 draws n fp p H (upd_nth start fc1 (repeat fc0 (2 ^ n))) (repeat fc0 (2 ^ n)) [] (ket n (dec n start)) 1 W L0 (repeat_length _ _) F0 (ket_l2 n start Hs)) as (v & ar & E & Lv & La & Fv & Dv).
  { assert (dist n (fstate n (upd_nth start fc1 (repeat fc0 (2 ^ n)))) (ket n (dec n start)) <= 0) by (apply dist_0; intros; apply S0). lra. }
  { exact HB. }
  fold k in Dv. fold psi in Dv. assert (Dv' : dist n (fstate n v) psi <= D) by (unfold D; lra).
  assert (N1 : l2 n psi = 1).
  { unfold psi. clear -H W Hs A Du D1 Pp Pe. revert W. assert (G : forall phi, l2 n phi = 1 -> Forall (wf_entry n) p -> l2 n (den p phi) = 1).
    { induction H as [|fe e fp p Hfe Hfp IH]; intros phi Hphi W; [exact Hphi|]. inversion W as [|? ? We Wp]; subst. rewrite den_cons. apply IH; [|exact Wp].
      destruct fe as [fqs fo], e as [es [kk o]]. destruct Hfe as (_ & Hf). cbn [fst snd co_obj] in *. destruct We as (ND & R & Wu). cbn [fst snd co_obj] in *. destruct fo as [fu| |]; destruct o as [u|?]; try contradiction.
      unfold oden. cbn [co_obj]. rewrite iso_l2; [exact Hphi|]. apply uden_isometry; auto. apply (frep_unitary d fu u es Hf Wu). }
    intros W. apply G; [apply ket_l2, Hs|exact W]. }
  assert (D0 : 0 <= D) by (eapply Rle_trans; [apply l2_pos|exact Dv']).
  assert (L2v : l2 n (fstate n v) <= 1 + D). { pose proof (l2_dist n (fstate n v) psi). lra. }
  assert (EM : INR (2 ^ (n - length qs)) = M) by apply pow2_INR.
  pose proof (@uro_pos prec) as U0. pose proof (@eta_pos prec emax) as T0. assert (M0 : 0 < M) by (apply pow_lt; lra).
  exists ar, (map (fun m => fsum (vitems n qs m v)) (seq 0 (2 ^ length qs))). split; [|split].
  - unfold fsimulate. rewrite (idx_ok (repeat fc0 (2 ^ n)) fc0) by (rewrite repeat_length; exact Hs). cbn [bind]. rewrite foldM_app, E. cbn [bind foldM].
    unfold fsim_step, fmeasure_probs. rewrite (mapM_ok _ (fun m => fsum (vitems n qs m v))); [reflexivity|].
    intros m _. unfold fmeasure_prob. rewrite fmeasure_items_ok by assumption. reflexivity.
  - rewrite map_length, seq_length. reflexivity.
  - intros m Hm. rewrite nth_map_seq by exact Hm.
    destruct (prob_err Pp Pe n qs m v (fsum (vitems n qs m v)) (vitems n qs m v) Hr Hn Fv) as ((G1 & _) & G2); [lra|rewrite EM; exact HM|apply fmeasure_items_ok; assumption|apply fsum_fsums|].
    rewrite EM in G2. split; [exact G1|]. pose proof (prob_of_close n qs m psi (fstate n v) D N1 Dv') as PD.
    set (P := prob_of n qs m psi) in *. set (Pv := prob_of n qs m (fstate n v)) in *. set (s := fsum (vitems n qs m v)) in *.
    replace (B2R s - P) with ((B2R s - Pv) + (Pv - P)) by ring. eapply Rle_trans; [apply Rabs_triang|].
    assert (Pv0 : 0 <= Pv) by apply prob_of_pos.
    assert (P4 : Pv <= 4). { unfold Pv. rewrite prob_of_l2. pose proof (proj_le n qs m (fstate n v)). pose proof (l2_pos n (proj qs m (fstate n v))). apply Rle_trans with (2 ^ 2); [apply pow_incr|]; lra. }
    assert (X : (3 * M + 3) * uro * Pv <= (3 * M + 3) * uro * 4). { apply Rmult_le_compat_l; [|exact P4]. apply Rmult_le_pos; lra. }
    assert (Y : D * (2 + D) <= 3 * D). { rewrite (Rmult_comm 3). apply Rmult_le_compat_l; lra. } lra.
Qed.
End Run.
