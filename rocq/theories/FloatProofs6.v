(** Measurement in floats. *)
From Coq Require Import ZArith Reals Lra Psatz FunctionalExtensionality.
From Flocq Require Import Core.Core IEEE754.BinarySingleNaN.
From Coquelicot Require Import Complex.
From Verif Require Import Base BitsSpec BitsModel BitsProofs BitsProofs2 OpsModel OpsSpec OpsProofs ConjSpec StateOpsModel Instances BuilderModel DenSpec DenProofs
  MeasureModel MeasureSpec MeasureProofs MeasureProofs2 SimSpec UnitaryProofs SimProofs FloatModel FloatSpec FloatProofs FloatProofs2 FloatProofs3 FloatProofs4 FloatProofs5.
Local Open Scope R_scope.

Section Measure.
Context {prec emax : Z} {Hp : FLX.Prec_gt_0 prec} {He : Prec_lt_emax prec emax}.
Local Notation fl := (fl prec emax).
Local Notation fc := (fc prec emax).
Local Notation uro := (@uro prec).
Local Notation eta := (@eta prec emax).
Local Notation emin := (3 - emax - prec)%Z.
Local Notation rnd := (round radix2 (FLT_exp emin prec) ZnearestE).

Lemma rnd_ge0 x : 0 <= x -> 0 <= rnd x.
Proof. intros H. apply round_ge_generic; auto with typeclass_instances. apply generic_format_0. Qed.

Section Bounds.
Context (Pp : (8 <= prec)%Z) (Pe : (8 <= emax)%Z).

Lemma nsq_err (a : fc) : cfin a -> Cmod (B2C a) <= 2 ->
  fin (fnorm_sqr a) /\ 0 <= B2R (fnorm_sqr a) /\ Rabs (B2R (fnorm_sqr a) - Cmod (B2C a) ^ 2) <= 3 * uro * Cmod (B2C a) ^ 2 + 4 * eta.
Proof.
  intros (F1 & F2) H. destruct a as [x y]. cbn [fst snd] in *. unfold fnorm_sqr. cbn [fst snd].
  pose proof (@uro_pos prec) as U0. pose proof (uro_small Pp) as U1. pose proof (@eta_pos prec emax) as T0. pose proof (@eta_1 prec emax Pp Pe) as T1. pose proof (big_ok Pe) as Bg.
  unfold B2C in *. cbn [fst snd] in *. rewrite Cmod_pair_sq.
  assert (Q : B2R x ^ 2 + B2R y ^ 2 <= 4). { rewrite <- Cmod_pair_sq. pose proof (Cmod_ge_0 (B2R x, B2R y)). nra. }
  set (X := B2R x * B2R x). set (Y := B2R y * B2R y).
  assert (X0 : 0 <= X) by (unfold X; nra). assert (Y0 : 0 <= Y) by (unfold Y; nra).
  replace (B2R x ^ 2 + B2R y ^ 2) with (X + Y) in * by (unfold X, Y; ring).
  destruct (mul_ok x x F1 F1) as (G1 & E1). { fold X. rewrite Rabs_pos_eq by lra. lra. }
  destruct (mul_ok y y F2 F2) as (G2 & E2). { fold Y. rewrite Rabs_pos_eq by lra. lra. }
  fold X in E1. fold Y in E2.
  pose proof (@rnd_err prec emax _ X) as R1. pose proof (@rnd_err prec emax _ Y) as R2. rewrite (Rabs_pos_eq X) in R1 by exact X0. rewrite (Rabs_pos_eq Y) in R2 by exact Y0.
  pose proof (rnd_ge0 X X0) as P1. pose proof (rnd_ge0 Y Y0) as P2.
  assert (S1 : rnd X + rnd Y <= (1 + uro) * (X + Y) + 2 * eta). { pose proof (Rle_abs (rnd X - X)). pose proof (Rle_abs (rnd Y - Y)). lra. }
  assert (S2 : (1 + uro) * (X + Y) <= 5) by nra.
  destruct (add_ok (fmul x x) (fmul y y) G1 G2) as (G3 & E3). { rewrite E1, E2. rewrite Rabs_pos_eq by lra. lra. }
  rewrite E1, E2 in E3. split; [exact G3|]. rewrite E3. split; [apply rnd_ge0; lra|].
  pose proof (@rnd_err prec emax _ (rnd X + rnd Y)) as R3. rewrite (Rabs_pos_eq (rnd X + rnd Y)) in R3 by lra.
  replace (rnd (rnd X + rnd Y) - (X + Y)) with ((rnd (rnd X + rnd Y) - (rnd X + rnd Y)) + ((rnd X - X) + (rnd Y - Y))) by ring.
  eapply Rle_trans; [apply Rabs_triang|]. pose proof (Rabs_triang (rnd X - X) (rnd Y - Y)) as Tr.
  assert (S3 : uro * (rnd X + rnd Y) <= uro * ((1 + uro) * (X + Y) + 2 * eta)) by (apply Rmult_le_compat_l; lra).
  assert (S4 : uro * (uro * (X + Y)) <= / 160 * (uro * (X + Y))). { apply Rmult_le_compat_r; [apply Rmult_le_pos; lra|lra]. }
  assert (S5 : uro * (2 * eta) <= / 80 * eta) by nra.
  assert (S6 : 0 <= uro * (X + Y)) by (apply Rmult_le_pos; lra). lra.
Qed.

(** Sums of non-negative floats in any order. *)
Definition tot (l : list fl) : R := fold_right (fun x s => B2R x + s) 0 l.
Lemma tot_app a b : tot (a ++ b) = tot a + tot b.
Proof. induction a as [|x a IH]; [change (tot b = 0 + tot b); lra|cbn [app tot fold_right]]. fold (tot (a ++ b)). fold (tot a). rewrite IH. lra. Qed.
Definition pos_fl (x : fl) : Prop := fin x /\ 0 <= B2R x.
Lemma tot_pos l : Forall pos_fl l -> 0 <= tot l.
Proof. induction 1 as [|x l (_ & Hx) Hl IH]; cbn [tot fold_right]; [lra|]. fold (tot l). lra. Qed.

Lemma fsums_err l s : fsums l s -> Forall pos_fl l -> tot l <= 16 -> 2 * INR (length l) * uro <= 1 ->
  pos_fl s /\ (forall x, In x l -> B2R x <= B2R s) /\
  (l = [] -> B2R s = 0) /\ (l <> [] -> Rabs (B2R s - tot l) <= 2 * (INR (length l) - 1) * uro * tot l + 2 * (INR (length l) - 1) * eta).
Proof.
  pose proof (@uro_pos prec) as U0. pose proof (uro_small Pp) as U1. pose proof (@eta_pos prec emax) as T0. pose proof (@eta_uro prec emax (big_ok Pe)) as T1. pose proof (big_ok Pe) as Bg.
  induction 1 as [|x|l1 l2 s1 s2 H1 IH1 H2 IH2]; intros F S M.
  - split; [split; [reflexivity|cbn; lra]|]. split; [intros ? []|]. split; [reflexivity|congruence].
  - inversion F; subst. split; [assumption|]. split; [intros y [<-|[]]; lra|]. split; [discriminate|]. intros _. cbn. rewrite Rplus_0_r. replace (B2R x - B2R x) with 0 by ring. rewrite Rabs_R0. lra.
  - apply Forall_app in F. destruct F as (F1 & F2). rewrite tot_app in *. rewrite app_length, plus_INR in *.
    pose proof (tot_pos l1 F1) as P1. pose proof (tot_pos l2 F2) as P2. pose proof (pos_INR (length l1)) as I1. pose proof (pos_INR (length l2)) as I2.
    destruct IH1 as ((G1 & Q1) & In1 & Z1 & E1); [assumption|lra|nra|]. destruct IH2 as ((G2 & Q2) & In2 & Z2 & E2); [assumption|lra|nra|].
    assert (Bd : forall (l : list fl) (s : fl), (l = [] -> B2R s = 0) -> (l <> [] -> Rabs (B2R s - tot l) <= 2 * (INR (length l) - 1) * uro * tot l + 2 * (INR (length l) - 1) * eta) ->
      0 <= tot l -> 2 * INR (length l) * uro <= 1 -> B2R s <= 2 * tot l + 1).
    { intros l s Z E P Ml. destruct l as [|x l]; [rewrite Z by reflexivity; lra|]. specialize (E ltac:(discriminate)).
      set (m := INR (length (x :: l))) in *. assert (1 <= m). { unfold m. cbn [length]. rewrite S_INR. pose proof (pos_INR (length l)). lra. }
      pose proof (Rle_abs (B2R s - tot (x :: l))). 
      assert (2 * (m - 1) * uro * tot (x :: l) <= 1 * tot (x :: l)) by (apply Rmult_le_compat_r; lra).
      assert (2 * (m - 1) * eta <= 2 * (m - 1) * uro) by (apply Rmult_le_compat_l; lra). lra. }
    pose proof (Bd l1 s1 Z1 E1 P1 ltac:(nra)) as B1. pose proof (Bd l2 s2 Z2 E2 P2 ltac:(nra)) as B2.
    destruct (add_ok s1 s2 G1 G2) as (G & E). { rewrite Rabs_pos_eq by lra. lra. }
    assert (Hge : B2R s1 <= B2R (fadd s1 s2) /\ B2R s2 <= B2R (fadd s1 s2)).
    { rewrite E. split; (apply round_ge_generic; [auto with typeclass_instances|auto with typeclass_instances|apply fl_format|lra]). }
    split; [split; [exact G|lra]|]. split.
    { intros x Hx. apply in_app_iff in Hx. destruct Hx as [Hx|Hx]; [apply In1 in Hx|apply In2 in Hx]; lra. }
    split.
    { intros En. apply app_eq_nil in En. destruct En as (-> & ->). rewrite E, Z1, Z2 by reflexivity. rewrite Rplus_0_r. apply rnd_0. }
    intros Ne. destruct l1 as [|x1 l1]; [|destruct l2 as [|x2 l2]].
    + assert (E' : B2R (fadd s1 s2) = B2R s2). { rewrite E, Z1 by reflexivity. rewrite Rplus_0_l. apply rnd_fl. }
      rewrite E'. change (tot []) with 0. change (INR (length (@nil fl))) with 0. rewrite !Rplus_0_l. apply E2. exact Ne.
    + assert (E' : B2R (fadd s1 s2) = B2R s1). { rewrite E, (Z2 eq_refl). rewrite Rplus_0_r. apply rnd_fl. }
      rewrite E'. change (tot []) with 0. change (INR (length (@nil fl))) with 0. rewrite !Rplus_0_r. apply E1. discriminate.
    + specialize (E1 ltac:(discriminate)). specialize (E2 ltac:(discriminate)). rewrite E.
      set (m1 := INR (length (x1 :: l1))) in *. set (m2 := INR (length (x2 :: l2))) in *.
      assert (M1 : 1 <= m1). { unfold m1. cbn [length]. rewrite S_INR. pose proof (pos_INR (length l1)). lra. }
      assert (M2 : 1 <= m2). { unfold m2. cbn [length]. rewrite S_INR. pose proof (pos_INR (length l2)). lra. }
      set (t1 := tot (x1 :: l1)) in *. set (t2 := tot (x2 :: l2)) in *.
      set (e1 := Rabs (B2R s1 - t1)) in *. set (e2 := Rabs (B2R s2 - t2)) in *.
      replace (rnd (B2R s1 + B2R s2) - (t1 + t2)) with ((rnd (B2R s1 + B2R s2) - (B2R s1 + B2R s2)) + ((B2R s1 - t1) + (B2R s2 - t2))) by ring.
      eapply Rle_trans; [apply Rabs_triang|]. pose proof (Rabs_triang (B2R s1 - t1) (B2R s2 - t2)) as Tr. fold e1 e2 in Tr.
      pose proof (@rnd_err prec emax _ (B2R s1 + B2R s2)) as Er. rewrite (Rabs_pos_eq (B2R s1 + B2R s2)) in Er by lra.
      assert (K1 : B2R s1 + B2R s2 <= t1 + t2 + (e1 + e2)). { pose proof (Rle_abs (B2R s1 - t1)). pose proof (Rle_abs (B2R s2 - t2)). fold e1 e2 in H, H0. lra. }
      assert (K2 : uro * (B2R s1 + B2R s2) <= uro * (t1 + t2 + (e1 + e2))) by (apply Rmult_le_compat_l; lra).
      assert (V1 : uro * e1 <= uro * (2 * (m1 - 1) * uro * t1 + 2 * (m1 - 1) * eta)) by (apply Rmult_le_compat_l; lra).
      assert (V2 : uro * e2 <= uro * (2 * (m2 - 1) * uro * t2 + 2 * (m2 - 1) * eta)) by (apply Rmult_le_compat_l; lra).
      assert (W1 : 2 * (m1 - 1) * uro <= 1) by nra. assert (W2 : 2 * (m2 - 1) * uro <= 1) by nra.
      assert (UT1 : 0 <= uro * t1) by (apply Rmult_le_pos; lra). assert (UT2 : 0 <= uro * t2) by (apply Rmult_le_pos; lra).
      assert (V1' : uro * (2 * (m1 - 1) * uro * t1) <= uro * t1). { replace (uro * (2 * (m1 - 1) * uro * t1)) with (2 * (m1 - 1) * uro * (uro * t1)) by ring. rewrite <- (Rmult_1_l (uro * t1)) at 2. apply Rmult_le_compat_r; assumption. }
      assert (V2' : uro * (2 * (m2 - 1) * uro * t2) <= uro * t2). { replace (uro * (2 * (m2 - 1) * uro * t2)) with (2 * (m2 - 1) * uro * (uro * t2)) by ring. rewrite <- (Rmult_1_l (uro * t2)) at 2. apply Rmult_le_compat_r; assumption. }
      assert (V3 : uro * (2 * (m1 - 1) * eta + 2 * (m2 - 1) * eta) <= 1 * eta). { replace (uro * (2 * (m1 - 1) * eta + 2 * (m2 - 1) * eta)) with ((2 * (m1 - 1) * uro + 2 * (m2 - 1) * uro) * eta) by ring. apply Rmult_le_compat_r; [lra|]. nra. }
      assert (A1 : 0 <= (m2 - 1) * (uro * t1)) by (apply Rmult_le_pos; lra). assert (A2 : 0 <= (m1 - 1) * (uro * t2)) by (apply Rmult_le_pos; lra).
      lra.
Qed.

(** *** Probabilities *)
Definition vitems (n : nat) (qs : list nat) (m : nat) (v : list fc) : list fl :=
  flat_map (fun r => let a := nth (visit n qs m r) v fc0 in if fcis0 a then [] else [fnorm_sqr a]) (seq 0 (2 ^ length (rest_of n qs))).

Lemma fmeasure_items_ok n m qs (v : list fc) : in_range n qs -> NoDup qs -> fmeasure_items n m qs v 0 = Ok (vitems n qs m v).
Proof.
  intros Hr Hn. unfold fmeasure_items. rewrite scatter_ok by assumption. cbn [bind]. fold (rest_of n qs).
  rewrite (mapM_ok _ (fun r => let a := nth (visit n qs m r) v fc0 in if fcis0 a then None else Some (fnorm_sqr a))).
  - cbn [bind]. f_equal. rewrite filter_somes_map. unfold vitems. rewrite !flat_map_concat_map. f_equal. apply map_ext. intros r. cbn zeta. destruct (fcis0 _); reflexivity.
  - intros r _. unfold fprob_item. rewrite scatter_ok; [|intros q Hq; apply In_rest_of in Hq; tauto|apply NoDup_rest_of].
    cbn [bind]. rewrite visit_sum by assumption. change (visit n qs m r <? 0)%nat with false. cbn iota. rewrite Nat.sub_0_r.
    replace (if (length v <=? visit n qs m r)%nat then fc0 else nth (visit n qs m r) v fc0) with (nth (visit n qs m r) v (fc0 : fc)).
    + cbn zeta. destruct (fcis0 _); reflexivity.
    + destruct (Nat.leb_spec (length v) (visit n qs m r)); [apply nth_overflow; assumption|reflexivity].
Qed.

Lemma prob_of_visits n qs m psi : in_range n qs -> NoDup qs ->
  prob_of n qs m psi = rsum (fun r => Cmod (psi (dec n (visit n qs m r))) ^ 2) (seq 0 (2 ^ length (rest_of n qs))).
Proof.
  intros Hr Hn. unfold prob_of. rewrite <- rsum_filter, <- (rsum_perm _ _ _ (visits_perm n qs m Hr Hn)), rsum_map. reflexivity.
Qed.

Lemma visit_lt n qs m r : (visit n qs m r < 2 ^ n)%nat.
Proof. unfold visit. apply enc_lt. Qed.
Lemma fstate_nth n v i : (i < 2 ^ n)%nat -> @fstate prec emax n v (dec n i) = B2C (nth i v fc0).
Proof. intros H. unfold fstate. rewrite enc_dec by exact H. reflexivity. Qed.

Lemma prob_of_pos n qs m psi : 0 <= prob_of n qs m psi.
Proof. apply rsum_nonneg. intros i _. destruct (shows _ _ _); [apply pow2_ge_0|lra]. Qed.

(** The part of a state on some basis states. *)
Definition psum (n : nat) (b : bs -> bool) (psi : state) : R := rsum (fun i => if b (dec n i) then Cmod (psi (dec n i)) ^ 2 else 0) (seq 0 (2 ^ n)).
Definition part (b : bs -> bool) (psi : state) : state := fun x => if b x then psi x else RtoC 0.
Lemma psum_l2 n b psi : psum n b psi = l2 n (part b psi) ^ 2.
Proof.
  rewrite l2_nl, nl_sq, map_map. unfold psum, part. induction (seq 0 (2 ^ n)) as [|i l IH]; cbn [rsum map fold_right]; [reflexivity|].
  rewrite IH. destruct (b (dec n i)); [reflexivity|]. rewrite Cmod_0. ring.
Qed.
Lemma prob_of_l2 n qs m psi : prob_of n qs m psi = l2 n (proj qs m psi) ^ 2.
Proof. apply psum_l2. Qed.
Lemma part_le n b psi : l2 n (part b psi) <= l2 n psi.
Proof. apply l2_mono. intros i _. unfold part. destruct (b _); [lra|]. rewrite Cmod_0. apply Cmod_ge_0. Qed.
Lemma proj_le n qs m psi : l2 n (proj qs m psi) <= l2 n psi.
Proof. apply part_le. Qed.
Lemma part_dist n b phi psi : dist n (part b phi) (part b psi) <= dist n phi psi.
Proof.
  apply l2_mono. intros i _. unfold part. destruct (b _); [lra|].
  replace (RtoC 0 - RtoC 0)%C with (RtoC 0) by ring. rewrite Cmod_0. apply Cmod_ge_0.
Qed.
Lemma dist_sym n phi psi : dist n phi psi = dist n psi phi.
Proof. apply Rle_antisym; apply l2_mono; intros i _; rewrite <- Cmod_opp; right; f_equal; ring. Qed.
Lemma psum_close n b phi psi D : l2 n phi = 1 -> dist n psi phi <= D ->
  Rabs (psum n b psi - psum n b phi) <= D * (2 + D).
Proof.
  intros H1 H2. rewrite !psum_l2. set (a := l2 n (part b psi)). set (c := l2 n (part b phi)).
  assert (A0 : 0 <= a) by apply l2_pos. assert (B0 : 0 <= c) by apply l2_pos.
  assert (B1 : c <= 1). { rewrite <- H1. apply part_le. }
  assert (D0 : 0 <= D). { eapply Rle_trans; [|exact H2]. apply l2_pos. }
  pose proof (part_dist n b psi phi) as Dp.
  assert (AB : a <= c + D). { pose proof (l2_dist n (part b psi) (part b phi)) as T. fold a c in T. lra. }
  assert (BA : c <= a + D). { pose proof (l2_dist n (part b phi) (part b psi)) as T. rewrite dist_sym in T. fold a c in T. lra. }
  replace (a ^ 2 - c ^ 2) with ((a - c) * (a + c)) by ring. rewrite Rabs_mult, (Rabs_pos_eq (a + c)) by lra.
  apply Rmult_le_compat; [apply Rabs_pos|lra|apply Rabs_le; lra|lra].
Qed.
Lemma prob_of_close n qs m phi psi D : l2 n phi = 1 -> dist n psi phi <= D ->
  Rabs (prob_of n qs m psi - prob_of n qs m phi) <= D * (2 + D).
Proof. apply psum_close. Qed.
Lemma below_psum n j psi : (j <= 2 ^ n)%nat -> below n j psi = psum n (fun x => (enc n x <? j)%nat) psi.
Proof.
  intros Hj. unfold below, psum. replace (2 ^ n)%nat with (j + (2 ^ n - j))%nat at 1 by lia. rewrite seq_app, rsum_app.
  rewrite (rsum_zero _ (seq (0 + j) _)), Rplus_0_r.
  - apply rsum_ext. intros i Hi. apply in_seq in Hi. rewrite enc_dec by lia. destruct (Nat.ltb_spec i j); [reflexivity|lia].
  - intros i Hi. apply in_seq in Hi. rewrite enc_dec by lia. destruct (Nat.ltb_spec i j); [lia|reflexivity].
Qed.

Lemma length_rest n qs : in_range n qs -> NoDup qs -> length (rest_of n qs) = (n - length qs)%nat.
Proof.
  intros Hr Hn. assert (E : (length (qs ++ rest_of n qs) = n)%nat).
  { transitivity (length (seq 0 n)); [|apply seq_length]. apply Permutation.Permutation_length. apply Permutation.NoDup_Permutation.
    - apply NoDup_app_iff. split; [exact Hn|]. split; [apply NoDup_rest_of|]. intros x Hx Hy. apply In_rest_of in Hy. tauto.
    - apply seq_NoDup.
    - intros x. rewrite in_app_iff, In_rest_of, in_seq. split; [intros [H|H]; [apply Hr in H; lia|lia]|]. intros H. destruct (in_dec Nat.eq_dec x qs); [left; assumption|right; split; [lia|assumption]]. }
  rewrite app_length in E. lia.
Qed.

Lemma vitems_ok n qs m v : in_range n qs -> NoDup qs -> Forall cfin v -> l2 n (fstate n v) <= 2 ->
  let M := INR (2 ^ length (rest_of n qs)) in
  Forall pos_fl (vitems n qs m v) /\ INR (length (vitems n qs m v)) <= M /\
  Rabs (tot (vitems n qs m v) - prob_of n qs m (fstate n v)) <= 3 * uro * prob_of n qs m (fstate n v) + 4 * M * eta.
Proof.
  intros Hr Hn Fv HB. cbn zeta. rewrite (prob_of_visits n qs m _ Hr Hn). unfold vitems.
  pose proof (@eta_pos prec emax) as T0.
  replace (INR (2 ^ length (rest_of n qs))) with (INR (length (seq 0 (2 ^ length (rest_of n qs))))) by (rewrite seq_length; reflexivity).
  induction (seq 0 (2 ^ length (rest_of n qs))) as [|r l IH]; cbn [flat_map rsum length].
  - split; [apply Forall_nil|]. split; [lra|]. cbn. rewrite Rminus_0_r, Rabs_R0. lra.
  - destruct IH as (I1 & I2 & I3). rewrite S_INR. set (a := nth (visit n qs m r) v fc0). cbn zeta.
    assert (Fa : cfin a) by (apply nth_cfin; exact Fv).
    rewrite (fstate_nth n v _ (visit_lt n qs m r)). fold a.
    assert (Ha : Cmod (B2C a) <= 2). { unfold a. rewrite <- (fstate_nth n v _ (visit_lt n qs m r)). eapply Rle_trans; [apply fstate_le|exact HB]. }
    destruct (fcis0 a) eqn:Z.
    + apply (fcis0_ok _ Fa) in Z. rewrite Z, Cmod_0. cbn [app]. split; [exact I1|]. split; [lra|].
      replace (0 ^ 2) with 0 by ring. rewrite Rplus_0_l. lra.
    + destruct (nsq_err a Fa Ha) as (N1 & N2 & N3). cbn [app]. split; [constructor; [split; assumption|exact I1]|].
      cbn [length]. rewrite S_INR. split; [lra|]. cbn [tot fold_right]. fold (tot (flat_map (fun r => let a := nth (visit n qs m r) v fc0 in if fcis0 a then [] else [fnorm_sqr a]) l)).
      match goal with |- Rabs (?x + ?t - (?y + ?s)) <= _ => replace (x + t - (y + s)) with ((x - y) + (t - s)) by ring end.
      eapply Rle_trans; [apply Rabs_triang|]. lra.
Qed.

Lemma prob_err n qs m v s items : in_range n qs -> NoDup qs -> Forall cfin v -> l2 n (fstate n v) <= 2 ->
  let M := INR (2 ^ (n - length qs)) in
  2 * M * uro <= 1 -> fmeasure_items n m qs v 0 = Ok items -> fsums items s ->
  pos_fl s /\ Rabs (B2R s - prob_of n qs m (fstate n v)) <= (3 * M + 3) * uro * prob_of n qs m (fstate n v) + 10 * M * eta.
Proof.
  intros Hr Hn Fv HB M HM Hi Hs. rewrite (fmeasure_items_ok n m qs v Hr Hn) in Hi. injection Hi as <-.
  destruct (vitems_ok n qs m v Hr Hn Fv HB) as (V1 & V2 & V3). rewrite (length_rest n qs Hr Hn) in V2, V3. fold M in V2, V3.
  pose proof (@uro_pos prec) as U0. pose proof (uro_small Pp) as U1. pose proof (@eta_pos prec emax) as T0. pose proof (@eta_uro prec emax (big_ok Pe)) as T1.
  set (P := prob_of n qs m (fstate n v)) in *. assert (P0 : 0 <= P) by apply prob_of_pos.
  assert (P4 : P <= 4). { unfold P. rewrite prob_of_l2. pose proof (proj_le n qs m (fstate n v)). pose proof (l2_pos n (proj qs m (fstate n v))). nra. }
  assert (M0 : 0 <= M) by apply pos_INR.
  assert (ME : M * eta <= / 2). { assert (M * eta <= M * uro) by (apply Rmult_le_compat_l; lra). lra. }
  set (T := tot (vitems n qs m v)) in *. assert (T00 : 0 <= T) by (apply tot_pos; exact V1).
  assert (TP : T <= (1 + 3 * uro) * P + 4 * M * eta). { pose proof (Rle_abs (T - P)). lra. }
  assert (UP : 0 <= uro * P) by (apply Rmult_le_pos; lra).
  assert (UP2 : uro * P <= / 40) by nra.
  pose proof (pos_INR (length (vitems n qs m v))) as L0.
  destruct (fsums_err _ s Hs V1) as (G1 & _ & G3 & G4); [fold T; lra|nra|].
  split; [exact G1|]. fold T in G4.
  assert (G5 : Rabs (B2R s - T) <= 2 * M * uro * T + 2 * M * eta).
  { destruct (vitems n qs m v) as [|x l] eqn:Ev.
    - rewrite G3 by reflexivity. replace T with 0 by reflexivity. rewrite Rminus_0_r, Rabs_R0. nra.
    - eapply Rle_trans; [apply G4; discriminate|]. set (k := INR (length (x :: l))) in *.
      assert (0 <= uro * T) by (apply Rmult_le_pos; lra). apply Rplus_le_compat.
      + replace (2 * (k - 1) * uro * T) with (2 * (k - 1) * (uro * T)) by ring. replace (2 * M * uro * T) with (2 * M * (uro * T)) by ring. apply Rmult_le_compat_r; lra.
      + apply Rmult_le_compat_r; lra. }
  replace (B2R s - P) with ((B2R s - T) + (T - P)) by ring. eapply Rle_trans; [apply Rabs_triang|].
  assert (X1 : 2 * M * uro * T <= 2 * M * uro * ((1 + 3 * uro) * P + 4 * M * eta)) by (apply Rmult_le_compat_l; [nra|lra]).
  assert (X2 : 2 * M * uro * (4 * M * eta) <= 1 * (4 * M * eta)) by (apply Rmult_le_compat_r; nra).
  assert (MU : 0 <= M * (uro * P)) by (apply Rmult_le_pos; lra).
  assert (X3 : 2 * M * uro * (3 * uro * P) <= / 2 * (M * (uro * P))). { replace (2 * M * uro * (3 * uro * P)) with (6 * uro * (M * (uro * P))) by ring. apply Rmult_le_compat_r; lra. }
  lra.
Qed.
End Bounds.

Lemma fsum_fsums (l : list fl) : fsums l (fsum l).
Proof.
  induction l as [|x l IH] using rev_ind; [apply sums_nil|]. unfold fsum. rewrite fold_left_app. cbn [fold_left]. apply sums_app; [exact IH|apply sums_one].
Qed.

(** *** The whole measurement, for any floats *)
Lemma fsoft_measure_scan random n qs (v : list fc) : in_range n qs -> length v = (2 ^ n)%nat ->
  fsoft_measure random n qs v 0 = Ok (outcome_of n qs (fsoft_scan (fmul random fone) 0 v 0)).
Proof.
  intros Hr Hv. unfold fsoft_measure. rewrite Hv, Nat.ltb_irrefl. rewrite (mapM_ok _ (fun q => (n - 1 - q)%nat)).
  - cbn [bind]. f_equal. apply Nat.bits_inj. intros j. rewrite extract_bits_testbit, map_length.
    unfold outcome_of. rewrite testbit_le. destruct (Nat.ltb_spec j (length qs)) as [Hj|Hj]; cbn [andb].
    + rewrite (nth_map_lt _ _ _ _ O) by exact Hj. rewrite (nth_map_lt _ _ _ _ O) by exact Hj.
      unfold dec. assert (nth j qs O < n)%nat by (apply Hr, nth_In; exact Hj).
      destruct (Nat.ltb_spec (nth j qs O) n); [reflexivity|lia].
    + symmetry. apply nth_default. rewrite map_length. exact Hj.
  - intros q Hq. assert (q < n)%nat by auto. rewrite chk_sub_ok by lia. cbn [bind]. apply chk_sub_ok. lia.
Qed.

Lemma fmeasure_state_ok n qs m p (v out : list fc) : in_range n qs -> NoDup qs -> length v = (2 ^ n)%nat -> length out = (2 ^ n)%nat ->
  fmeasure_state n qs (m, p) v out 0 0 = Ok (if fis0 p then out else
    map (fun i => if shows qs m (dec n i) then fcscale (nth i v fc0) (fdiv fone (fsqrt p)) else fc0) (seq 0 (2 ^ n))).
Proof.
  intros Hr Hn Hv Ho. unfold fmeasure_state. destruct (fis0 p); [reflexivity|].
  destruct (row_masks n qs m Hr Hn) as (E1 & E2 & E3 & E4). rewrite E1. cbn [bind]. rewrite E3. cbn [bind].
  rewrite E2, E4. rewrite Hv, Ho. cbn [Nat.add Nat.max]. rewrite Nat.min_id. repeat (rewrite !chk_sub_ok by lia; cbn [bind]). rewrite !Nat.sub_0_r. unfold slice.
  rewrite Hv, Ho, Nat.leb_refl. cbn [Nat.leb andb bind]. rewrite !Nat.sub_0_r. cbn [skipn firstn app].
  rewrite !firstn_all2 by lia. rewrite skipn_all2 by lia. rewrite app_nil_r. f_equal.
  apply (list_eq_nth fc0). { rewrite !map_length, length_enumerate, combine_length, seq_length. lia. }
  intros i Hi. rewrite map_length, length_enumerate, combine_length in Hi. rewrite nth_map_seq by lia.
  rewrite (nth_map_lt _ _ _ _ (O, (fc0, fc0))) by (rewrite length_enumerate, combine_length; lia).
  rewrite nth_enumerate by (rewrite combine_length; lia). rewrite combine_nth by lia. unfold fstate_cell. rewrite Nat.add_0_r.
  rewrite mask_shows by (try assumption; lia). destruct (shows qs m (dec n i)); reflexivity.
Qed.

(** What [measure] returns and leaves in the buffer. *)
Lemma fmeasure_ok random n qs (v out : list fc) : in_range n qs -> NoDup qs -> length v = (2 ^ n)%nat -> length out = (2 ^ n)%nat ->
  let m := outcome_of n qs (fsoft_scan (fmul random fone) 0 v 0) in
  let p := fsum (vitems n qs m v) in
  fmeasure random n qs v out = Ok ((m, p), if fis0 p then out else
    map (fun i => if shows qs m (dec n i) then fcscale (nth i v fc0) (fdiv fone (fsqrt p)) else fc0) (seq 0 (2 ^ n))).
Proof.
  intros Hr Hn Hv Ho m p. unfold fmeasure. rewrite fsoft_measure_scan by assumption. cbn [bind].
  unfold fmeasure_prob. rewrite (fmeasure_items_ok n _ qs v Hr Hn). cbn [bind]. fold m p. rewrite fmeasure_state_ok by assumption. reflexivity.
Qed.

Lemma fmeasure_total random n qs (v out : list fc) : in_range n qs -> NoDup qs -> length v = (2 ^ n)%nat -> length out = (2 ^ n)%nat ->
  exists m p w, fmeasure random n qs v out = Ok ((m, p), w) /\ (m < 2 ^ length qs)%nat /\ length w = (2 ^ n)%nat.
Proof.
  intros Hr Hn Hv Ho. rewrite fmeasure_ok by assumption.
  eexists _, _, _. split; [reflexivity|]. split; [apply outcome_lt|]. destruct (fis0 _); [exact Ho|]. rewrite map_length, seq_length. reflexivity.
Qed.
End Measure.
