(** Float measurement: the scan, and circuits ending in a measurement. *)
From Coq Require Import ZArith Reals Lra Psatz FunctionalExtensionality.
From Flocq Require Import Core.Core IEEE754.BinarySingleNaN.
From Coquelicot Require Import Complex.
From Verif Require Import Base BitsSpec BitsModel BitsProofs BitsProofs2 OpsModel OpsSpec OpsProofs ConjSpec StateOpsModel Instances BuilderModel DenSpec DenProofs
  MeasureModel MeasureSpec MeasureProofs MeasureProofs2 SimSpec UnitaryProofs SimProofs FloatModel FloatSpec FloatProofs FloatProofs2 FloatProofs3 FloatProofs4 FloatProofs5 FloatProofs6.
Local Open Scope R_scope.

Section Scan.
Context {prec emax : Z} {Hp : FLX.Prec_gt_0 prec} {He : Prec_lt_emax prec emax}.
Local Notation fl := (fl prec emax).
Local Notation fc := (fc prec emax).
Local Notation uro := (@uro prec).
Local Notation eta := (@eta prec emax).
Local Notation emin := (3 - emax - prec)%Z.
Local Notation rnd := (round radix2 (FLT_exp emin prec) ZnearestE).
Context (Pp : (8 <= prec)%Z) (Pe : (8 <= emax)%Z).

(** A difference of non-negative floats does not overflow. *)
Lemma sub_pos_ok (x y : fl) : pos_fl x -> pos_fl y -> fin (fsub x y) /\ B2R (fsub x y) = rnd (B2R x - B2R y).
Proof.
  intros (Fx & Px) (Fy & Py). pose proof (Bminus_correct prec emax Hp He mode_NE x y Fx Fy) as B.
  change (round radix2 (SpecFloat.fexp prec emax) (round_mode mode_NE)) with rnd in B.
  rewrite Rlt_bool_true in B.
  - destruct B as (B1 & B2 & _). split; assumption.
  - assert (U : rnd (B2R x - B2R y) <= B2R x). { rewrite <- (rnd_fl x) at 2. apply round_le; auto with typeclass_instances. lra. }
    assert (L : - B2R y <= rnd (B2R x - B2R y)). { rewrite <- (rnd_opp_fl y). apply round_le; auto with typeclass_instances. lra. }
    pose proof (abs_B2R_lt_emax prec emax x) as X. pose proof (abs_B2R_lt_emax prec emax y) as Y.
    rewrite Rabs_pos_eq in X, Y by assumption. apply Rabs_def1; lra.
Qed.

Lemma fle0_ok (x : fl) : fin x -> fle0 x = true <-> B2R x <= 0.
Proof.
  intros F. unfold fle0. rewrite Bcompare_correct by (auto; reflexivity). change (B2R (fzero : fl)) with 0.
  destruct (Rcompare_spec (B2R x) 0); split; intros; try reflexivity; try discriminate; lra.
Qed.

(** With a positive draw the scan stops at a basis state of non-zero squared modulus, or at none. *)
Lemma fscan_hit : forall (w : list fc) (r : fl) k, fin r -> 0 < B2R r -> Forall (fun a => pos_fl (fnorm_sqr a)) w ->
  fsoft_scan r k w 0 = O \/ (exists j, (j < length w)%nat /\ fsoft_scan r k w 0 = (k + j)%nat /\ 0 < B2R (fnorm_sqr (nth j w fc0))).
Proof.
  induction w as [|c w IH]; intros r k Fr Hr H; [left; reflexivity|]. inversion H as [|? ? Hc Hw]; subst. cbn [fsoft_scan length].
  destruct (sub_pos_ok r (fnorm_sqr c)) as (F' & E'); [split; [exact Fr|lra]|exact Hc|].
  destruct (fle0 (fsub r (fnorm_sqr c))) eqn:Z.
  - right. exists O. split; [lia|]. split; [lia|]. cbn [nth]. apply (fle0_ok _ F') in Z. destruct Hc as (_ & [Hc|Hc]); [exact Hc|].
    rewrite E', <- Hc, Rminus_0_r, rnd_fl in Z. lra.
  - destruct (IH (fsub r (fnorm_sqr c)) (S k) F') as [->|(j & J1 & J2 & J3)]; [|exact Hw|left; reflexivity|].
    + apply Rnot_le_lt. intros L. apply (fle0_ok _ F') in L. congruence.
    + right. exists (S j). split; [lia|]. split; [lia|exact J3].
Qed.

Lemma nsq_pos n v : length v = (2 ^ n)%nat -> Forall cfin v -> l2 n (fstate n v) <= 2 -> Forall (fun a : fc => pos_fl (fnorm_sqr a)) v.
Proof.
  intros Lv Fv HB. apply Forall_forall. intros a Ha. rewrite Forall_forall in Fv. destruct (In_nth v a fc0 Ha) as (i & Hi & <-).
  destruct (nsq_err Pp Pe (nth i v fc0)) as (N1 & N2 & _); [apply Fv, nth_In, Hi| |split; assumption].
  rewrite <- (fstate_nth n v i) by lia. eapply Rle_trans; [apply fstate_le|exact HB].
Qed.

(** The outcome has a positive computed probability, or is 0. *)
Lemma fmeasure_possible random n qs v out : in_range n qs -> NoDup qs -> length v = (2 ^ n)%nat -> length out = (2 ^ n)%nat ->
  Forall cfin v -> l2 n (fstate n v) <= 2 -> 2 * INR (2 ^ (n - length qs)) * uro <= 1 -> fin random -> 0 < B2R random ->
  exists m p w, fmeasure random n qs v out = Ok ((m, p), w) /\ (m < 2 ^ length qs)%nat /\ length w = (2 ^ n)%nat /\
    (m = O \/ fin p /\ 0 < B2R p).
Proof.
  intros Hr Hn Hv Ho Fv HB HM Fr Pr. rewrite fmeasure_ok by assumption. set (i := fsoft_scan (fmul random fone) 0 v 0).
  eexists _, _, _. split; [reflexivity|]. split; [apply outcome_lt|]. split; [destruct (fis0 _); [exact Ho|]; rewrite map_length, seq_length; reflexivity|].
  destruct (mul_exact random fone random Fr (proj1 fone_ok)) as (F1 & E1); [left; rewrite (proj2 fone_ok); ring|].
  rewrite (proj2 fone_ok), Rmult_1_r in E1.
  destruct (fscan_hit v (fmul random fone) 0 F1) as [H|(j & J1 & J2 & J3)]; [lra|apply (nsq_pos n); assumption| |].
  - left. fold i in H. rewrite H. unfold outcome_of. assert (Z : map (dec n 0) qs = map (fun _ => false) qs). { apply map_ext. intros q. unfold dec. rewrite Nat.bits_0. apply Bool.andb_false_r. }
    rewrite Z. clear. induction qs as [|q qs IH]; [reflexivity|]. cbn [map le]. rewrite IH. reflexivity.
  - right. fold i in J2. cbn [Nat.add] in J2. rewrite J2. set (m := outcome_of n qs j).
    destruct (vitems_ok Pp Pe n qs m v Hr Hn Fv HB) as (V1 & V2 & V3).
    assert (T16 : tot (vitems n qs m v) <= 16 /\ 2 * INR (length (vitems n qs m v)) * uro <= 1).
    { rewrite (length_rest n qs Hr Hn) in V2, V3. pose proof (@uro_pos prec) as U0. pose proof (uro_small Pp) as U1. pose proof (@eta_pos prec emax) as T0. pose proof (@eta_uro prec emax (big_ok Pe)) as T1.
      set (M := INR (2 ^ (n - length qs))) in *. assert (M0 : 0 <= M) by apply pos_INR.
      assert (P0 : 0 <= prob_of n qs m (fstate n v)) by apply prob_of_pos.
      assert (P4 : prob_of n qs m (fstate n v) <= 4). { rewrite prob_of_l2. pose proof (proj_le n qs m (fstate n v)). pose proof (l2_pos n (proj qs m (fstate n v))). nra. }
      split; [|nra]. pose proof (Rle_abs (tot (vitems n qs m v) - prob_of n qs m (fstate n v))) as A. assert (M * eta <= M * uro) by (apply Rmult_le_compat_l; lra). nra. }
    destruct T16 as (T16 & L16). destruct (fsums_err Pp Pe _ _ (fsum_fsums (vitems n qs m v)) V1 T16 L16) as (G1 & G2 & _).
    split; [apply G1|]. eapply Rlt_le_trans; [exact J3|]. apply G2.
    assert (Sj : shows qs m (dec n j) = true). { rewrite <- outcome_shows by apply outcome_lt. apply Nat.eqb_refl. }
    assert (Ij : In j (map (visit n qs m) (seq 0 (2 ^ length (rest_of n qs))))).
    { eapply Permutation.Permutation_in; [symmetry; apply visits_perm; assumption|]. apply filter_In. split; [apply in_seq; lia|exact Sj]. }
    apply in_map_iff in Ij. destruct Ij as (r & R1 & R2). unfold vitems. apply in_flat_map. exists r. split; [exact R2|]. cbn zeta. rewrite R1.
    destruct (fcis0 (nth j v fc0)) eqn:Z; [|left; reflexivity]. exfalso.
    assert (Fj : cfin (nth j v fc0)) by (apply nth_cfin; exact Fv).
    assert (Z' := proj1 (fcis0_ok _ Fj) Z). destruct Fj as (Fa & Fb). unfold B2C in Z'. apply (f_equal (fun z => (fst z, snd z))) in Z'. cbn [fst snd RtoC] in Z'. injection Z' as Za Zb.
    unfold fnorm_sqr in J3. destruct (mul_exact (fst (nth j v fc0)) (fst (nth j v fc0)) fzero Fa Fa) as (M1 & M2); [left; rewrite Za; cbn; ring|].
    destruct (mul_exact (snd (nth j v fc0)) (snd (nth j v fc0)) fzero Fb Fb) as (M3 & M4); [left; rewrite Zb; cbn; ring|].
    destruct (add_exact _ _ fzero M1 M3) as (_ & A2); [left; rewrite M2, M4, Za, Zb; cbn; ring|]. rewrite A2, M2, M4, Za, Zb in J3. lra.
Qed.

(** *** Which basis state a draw selects *)
Definition qsum (w : list fc) : R := rsum (fun a => Cmod (B2C a) ^ 2) w.
Lemma qsum_pos w : 0 <= qsum w.
Proof. apply rsum_nonneg. intros. apply pow2_ge_0. Qed.

Lemma fscan_close : forall (w : list fc) (r : fl) k j (T err : R), Forall cfin w -> Forall (fun a => Cmod (B2C a) <= 2) w -> fin r -> 0 <= B2R r <= 1 ->
  (j < length w)%nat -> Rabs (B2R r - T) <= err ->
  let E := INR (length w) * (uro + 6 * eta) + 5 * uro * qsum w in
  qsum (firstn j w) + (err + E) < T <= qsum (firstn (S j) w) - (err + E) ->
  fsoft_scan r k w 0 = (k + j)%nat.
Proof.
  pose proof (@uro_pos prec) as U0. pose proof (uro_small Pp) as U1. pose proof (@eta_pos prec emax) as T0. pose proof (@eta_1 prec emax Pp Pe) as T1.
  induction w as [|c w IH]; intros r k j T err Fw Bw Fr Hr Hj Herr; cbn zeta; [cbn in Hj; lia|].
  intros HT. inversion Fw as [|? ? Fc Fw']; subst. inversion Bw as [|? ? Bc Bw']; subst.
  destruct (nsq_err Pp Pe c Fc Bc) as (N1 & N2 & N3). cbn [fsoft_scan].
  set (x := B2R (fnorm_sqr c)) in *. set (q := Cmod (B2C c) ^ 2) in *. assert (Q0 : 0 <= q) by apply pow2_ge_0.
  destruct (sub_pos_ok r (fnorm_sqr c)) as (F' & E'); [split; [exact Fr|lra]|split; assumption|]. fold x in E'.
  assert (Q4 : q <= 4). { unfold q. pose proof (Cmod_ge_0 (B2C c)). nra. }
  pose proof (@rnd_err prec emax _ (B2R r - x)) as R1.
  assert (Xq : x <= (1 + 3 * uro) * q + 4 * eta). { pose proof (Rle_abs (x - q)). lra. }
  assert (R2 : Rabs (B2R r - x) <= 1 + x) by (apply Rabs_le; lra).
  assert (R3 : uro * Rabs (B2R r - x) <= uro * (1 + (1 + 3 * uro) * q + 4 * eta)) by (apply Rmult_le_compat_l; lra).
  assert (UQ : 0 <= uro * q) by (apply Rmult_le_pos; lra).
  assert (R4 : uro * (3 * uro * q) <= uro * q). { replace (uro * (3 * uro * q)) with (3 * uro * (uro * q)) by ring. assert (3 * uro * (uro * q) <= 1 * (uro * q)) by (apply Rmult_le_compat_r; lra). lra. }
  assert (R5 : uro * (4 * eta) <= eta) by nra.
  assert (Step : Rabs (B2R (fsub r (fnorm_sqr c)) - (T - q)) <= err + (uro + 6 * eta + 5 * uro * q)).
  { rewrite E'. replace (rnd (B2R r - x) - (T - q)) with ((rnd (B2R r - x) - (B2R r - x)) + ((B2R r - T) - (x - q))) by ring.
    eapply Rle_trans; [apply Rabs_triang|]. assert (Rabs ((B2R r - T) - (x - q)) <= Rabs (B2R r - T) + Rabs (x - q)) by (unfold Rminus; eapply Rle_trans; [apply Rabs_triang|]; rewrite Rabs_Ropp; lra). lra. }
  cbn [length] in HT. rewrite S_INR in HT. cbn [qsum rsum] in HT. fold (qsum w) in HT. fold q in HT.
  pose proof (qsum_pos w) as W0. pose proof (pos_INR (length w)) as L0.
  assert (L1 : 0 <= INR (length w) * (uro + 6 * eta)) by (apply Rmult_le_pos; lra). assert (W1 : 0 <= uro * qsum w) by (apply Rmult_le_pos; lra).
  set (r' := fsub r (fnorm_sqr c)) in *. pose proof (Rle_abs (B2R r' - (T - q))) as A1. pose proof (Rle_abs (- (B2R r' - (T - q)))) as A2. rewrite Rabs_Ropp in A2.
  destruct j as [|j].
  - cbn [firstn qsum rsum] in HT. fold q in HT. assert (Z : fle0 r' = true) by (apply fle0_ok; [exact F'|lra]). rewrite Z. lia.
  - cbn [firstn qsum rsum] in HT. fold (qsum (firstn j w)) in HT. fold q in HT.
    assert (G : qsum (firstn (S j) w) = rsum (fun a : fc => Cmod (B2C a) ^ 2) match w with [] => [] | a :: l => a :: firstn j l end) by reflexivity.
    rewrite <- G in HT. pose proof (qsum_pos (firstn j w)) as J0.
    assert (Pos : 0 < B2R r') by lra.
    assert (Z : fle0 r' = false). { destruct (fle0 r') eqn:Z; [|reflexivity]. apply (fle0_ok _ F') in Z. lra. }
    rewrite Z. rewrite (IH r' (S k) j (T - q) (err + (uro + 6 * eta + 5 * uro * q))); [lia| | | | |cbn [length] in Hj; lia|exact Step|].
    + exact Fw'.
    + exact Bw'.
    + exact F'.
    + split; [lra|]. rewrite E'. eapply Rle_trans; [|apply Hr]. rewrite <- (rnd_fl r) at 2. apply round_le; auto with typeclass_instances. lra.
    + lra.
Qed.

(** *** The collapsed state *)
Context (Pl : (prec + 2 <= emax)%Z).
Lemma eta_sq : eta <= uro * uro.
Proof.
  unfold FloatSpec.eta, FloatSpec.uro. rewrite <- bpow_plus. replace (/ 2) with (bpow radix2 (-1)) by reflexivity. rewrite <- bpow_plus. apply bpow_le. lia.
Qed.
Lemma big_inv : 2 / uro <= @big1 emax.
Proof.
  unfold FloatSpec.uro, big1, Rdiv. rewrite <- bpow_opp, Z.opp_involutive. replace 2 with (bpow radix2 1) by reflexivity. rewrite <- bpow_plus. apply bpow_le. lia.
Qed.

Lemma inv_sqrt_err (p : fl) : fin p -> 24 * uro <= B2R p <= 5 ->
  let c := fdiv fone (fsqrt p) in fin c /\ Rabs (B2R c - / sqrt (B2R p)) <= 4 * uro * / sqrt (B2R p).
Proof.
  pose proof (@uro_pos prec) as U0. pose proof (uro_small Pp) as U1. pose proof (@eta_pos prec emax) as T0. pose proof eta_sq as T1. pose proof big_inv as BI.
  intros Fp Hp'. cbn zeta. set (s := sqrt (B2R p)).
  assert (S2 : s * s = B2R p) by (apply sqrt_sqrt; lra). assert (S0 : 0 < s) by (apply sqrt_lt_R0; lra).
  assert (Su : 24 * uro <= s) by nra. assert (S3 : s <= 3) by nra.
  destruct (Bsqrt_correct prec emax Hp He mode_NE p) as (B1 & B2 & _).
  change (round radix2 (SpecFloat.fexp prec emax) (round_mode mode_NE)) with rnd in B1. fold s in B1. fold (fsqrt p) in B1, B2. set (t := fsqrt p) in *.
  assert (Ft : fin t). { unfold fin. rewrite B2. unfold fin in Fp. destruct p as [| | |[|] mm ee He']; cbn in Fp |- *; try reflexivity; try discriminate. exfalso. cbn in Hp'. pose proof (F2R_lt_0 radix2 (Float radix2 (Zneg mm) ee)) as N. cbn in N. assert (F2R (Float radix2 (Zneg mm) ee) < 0) by (apply N; lia). lra. }
  pose proof (@rnd_err prec emax _ s) as R1. rewrite <- B1, (Rabs_pos_eq s) in R1 by lra.
  assert (Ht : Rabs (B2R t - s) <= 2 * uro * s). { assert (uro * uro <= uro * s) by (apply Rmult_le_compat_l; lra). lra. }
  apply Rabs_le_inv in Ht. assert (T2 : (1 - / 80) * s <= B2R t <= (1 + / 80) * s) by nra.
  assert (Tp : 0 < B2R t) by lra.
  assert (It : Rabs (/ B2R t - / s) <= 5 / 2 * uro * / s).
  { replace (/ B2R t - / s) with ((s - B2R t) * / B2R t * / s) by (field; lra). rewrite !Rabs_mult, (Rabs_pos_eq (/ s)) by (left; apply Rinv_0_lt_compat; lra).
    apply Rmult_le_compat_r; [left; apply Rinv_0_lt_compat; lra|]. rewrite (Rabs_pos_eq (/ B2R t)) by (left; apply Rinv_0_lt_compat; lra).
    apply Rmult_le_reg_r with (B2R t); [lra|]. rewrite Rmult_assoc, Rinv_l, Rmult_1_r by lra. rewrite Rabs_minus_sym. apply Rle_trans with (2 * uro * s); [apply Rabs_le; lra|]. nra. }
  pose proof (Bdiv_correct prec emax Hp He mode_NE fone t) as B.
  change (round radix2 (SpecFloat.fexp prec emax) (round_mode mode_NE)) with rnd in B. rewrite (proj2 fone_ok) in B. replace (1 / B2R t) with (/ B2R t) in B by (unfold Rdiv; ring).
  assert (Is : / s <= / (24 * uro)) by (apply Rinv_le_contravar; lra).
  assert (Is0 : 0 < / s) by (apply Rinv_0_lt_compat; lra).
  assert (Is3 : / 3 <= / s) by (apply Rinv_le_contravar; lra).
  assert (It2 : / B2R t <= 2 * / s). { apply Rabs_le_inv in It. nra. }
  assert (Bt : Rabs (/ B2R t) <= @big1 emax).
  { rewrite Rabs_pos_eq by (left; apply Rinv_0_lt_compat; lra). eapply Rle_trans; [exact It2|]. eapply Rle_trans; [|exact BI]. unfold Rdiv. apply Rmult_le_compat_l; [lra|].
    eapply Rle_trans; [exact Is|]. apply Rinv_le_contravar; lra. }
  specialize (B (Rgt_not_eq _ _ Tp)). rewrite Rlt_bool_true in B by (apply rnd_small; exact Bt).
  destruct B as (D1 & D2 & _). split; [unfold fin; fold (fdiv fone t) in D2; rewrite D2; apply fone_ok|].
  fold (fdiv fone t) in D1. rewrite D1. pose proof (@rnd_err prec emax _ (/ B2R t)) as R2. rewrite (Rabs_pos_eq (/ B2R t)) in R2 by (left; apply Rinv_0_lt_compat; lra).
  replace (rnd (/ B2R t) - / s) with ((rnd (/ B2R t) - / B2R t) + (/ B2R t - / s)) by ring.
  eapply Rle_trans; [apply Rabs_triang|]. assert (UI : 0 <= uro * / s) by (apply Rmult_le_pos; lra).
  assert (X1 : / B2R t <= (1 + / 32) * / s). { apply Rabs_le_inv in It. nra. }
  assert (X2 : uro * / B2R t <= (1 + / 32) * (uro * / s)) by nra.
  assert (X3 : eta <= / 32 * (uro * / s)) by nra. lra.
Qed.

Lemma scale_err (a : fc) (c : fl) (i : R) : cfin a -> fin c -> Cmod (B2C a) <= 2 -> 0 < i <= / (24 * uro) -> Rabs (B2R c - i) <= 4 * uro * i ->
  cfin (fcscale a c) /\ Cmod (B2C (fcscale a c) - RtoC i * B2C a)%C <= 7 * uro * i * Cmod (B2C a) + 2 * eta.
Proof.
  pose proof (@uro_pos prec) as U0. pose proof (uro_small Pp) as U1. pose proof (@eta_pos prec emax) as T0. pose proof big_inv as BI.
  intros (F1 & F2) Fc Ha (I0 & I1) Hc. destruct a as [x y]. cbn [fst snd] in *. unfold fcscale, B2C in *. cbn [fst snd] in *.
  set (X := B2R x) in *. set (Y := B2R y) in *. assert (UI : 0 <= uro * i) by (apply Rmult_le_pos; lra).
  assert (Cc : Rabs (B2R c) <= (1 + / 40) * i). { replace (B2R c) with (i + (B2R c - i)) by ring. eapply Rle_trans; [apply Rabs_triang|]. rewrite (Rabs_pos_eq i) by lra. nra. }
  pose proof (Cmod_fst (X, Y)) as M1. pose proof (Cmod_snd (X, Y)) as M2. cbn [fst snd] in M1, M2. set (r := Cmod (X, Y)) in *. assert (R0 : 0 <= r) by apply Cmod_ge_0.
  assert (G : forall Z, Rabs Z <= r -> Rabs (Z * B2R c) <= r * ((1 + / 40) * i)). { intros Z HZ. rewrite Rabs_mult. apply Rmult_le_compat; auto; apply Rabs_pos. }
  assert (Gb : r * ((1 + / 40) * i) <= @big1 emax).
  { eapply Rle_trans; [|exact BI]. apply Rle_trans with (2 * (2 * / (24 * uro))); [apply Rmult_le_compat; lra|]. rewrite Rinv_mult. unfold Rdiv.
    assert (0 < / uro) by (apply Rinv_0_lt_compat; lra). lra. }
  destruct (mul_ok x c F1 Fc) as (G1 & E1). { fold X. eapply Rle_trans; [apply G, M1|exact Gb]. }
  destruct (mul_ok y c F2 Fc) as (G2 & E2). { fold Y. eapply Rle_trans; [apply G, M2|exact Gb]. }
  split; [split; assumption|]. rewrite E1, E2. fold X Y.
  pose proof (@rnd_err prec emax _ (X * B2R c)) as R1. pose proof (@rnd_err prec emax _ (Y * B2R c)) as R2.
  replace ((rnd (X * B2R c)%R, rnd (Y * B2R c)%R) - RtoC i * (X, Y))%C with (((rnd (X * B2R c) - X * B2R c)%R, (rnd (Y * B2R c) - Y * B2R c)%R) + RtoC (B2R c - i)%R * (X, Y))%C.
  2:{ unfold Cplus, Cminus, Cmult, Copp, RtoC, Cplus. cbn [fst snd]. f_equal; ring. }
  eapply Rle_trans; [apply Cmod_triangle|]. rewrite Cmod_mult, Cmod_R. fold r.
  assert (A1 : Rabs (B2R c - i) * r <= 4 * uro * i * r) by (apply Rmult_le_compat_r; lra).
  assert (A2 : Cmod (rnd (X * B2R c) - X * B2R c, rnd (Y * B2R c) - Y * B2R c) <= (uro * Rabs (X * B2R c) + eta) + (uro * Rabs (Y * B2R c) + eta)).
  { eapply Rle_trans; [apply Cmod_n1|]. unfold ab1. cbn [fst snd]. lra. }
  pose proof (G X M1) as GX. pose proof (G Y M2) as GY.
  assert (A3 : uro * Rabs (X * B2R c) <= uro * (r * ((1 + / 40) * i))) by (apply Rmult_le_compat_l; lra).
  assert (A4 : uro * Rabs (Y * B2R c) <= uro * (r * ((1 + / 40) * i))) by (apply Rmult_le_compat_l; lra).
  assert (RI : 0 <= uro * i * r) by (apply Rmult_le_pos; lra). lra.
Qed.
End Scan.
