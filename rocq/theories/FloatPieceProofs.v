(** Measuring a piece of the state in floats. *)
From Coq Require Import ZArith Reals Lra Psatz FunctionalExtensionality.
From Flocq Require Import Core.Core IEEE754.BinarySingleNaN.
From Coquelicot Require Import Complex.
From Verif Require Import Base BitsSpec BitsModel BitsProofs BitsProofs2 OpsModel OpsSpec OpsProofs ConjSpec StateOpsModel Instances BuilderModel DenSpec DenProofs
  MeasureModel MeasureSpec MeasureProofs MeasureProofs2 SimSpec UnitaryProofs SimProofs FloatModel FloatSpec FloatProofs FloatProofs2 FloatProofs3 FloatProofs4 FloatProofs5 FloatProofs6 FloatProofs7 FloatProofs8.
Local Open Scope R_scope.

Section Piece.
Context {prec emax : Z} {Hp : FLX.Prec_gt_0 prec} {He : Prec_lt_emax prec emax}.
Local Notation fl := (fl prec emax).
Local Notation fc := (fc prec emax).
Local Notation uro := (@uro prec).
Local Notation eta := (@eta prec emax).
Local Notation emin := (3 - emax - prec)%Z.
Local Notation rnd := (round radix2 (FLT_exp emin prec) ZnearestE).
Context (Pp : (8 <= prec)%Z) (Pe : (8 <= emax)%Z).

Lemma small_of_qsum (w : list fc) : qsum w <= 4 -> Forall (fun a => Cmod (B2C a) <= 2) w.
Proof.
  intros H. apply Forall_forall. intros a Ha.
  assert (K : Cmod (B2C a) ^ 2 <= qsum w) by (apply (rsum_in (fun a : fc => Cmod (B2C a) ^ 2)); [intros; apply pow2_ge_0|exact Ha]).
  pose proof (Cmod_ge_0 (B2C a)). nra.
Qed.

(** The weight of a piece. *)
Lemma norms_ok (w : list fc) : Forall cfin w -> Forall (fun a => Cmod (B2C a) <= 2) w ->
  Forall pos_fl (map fnorm_sqr w) /\ Rabs (tot (map fnorm_sqr w) - qsum w) <= 3 * uro * qsum w + 4 * INR (length w) * eta.
Proof.
  pose proof (@eta_pos prec emax) as T0. induction w as [|a w IH]; intros Fw Bw.
  - split; [apply Forall_nil|]. cbn. rewrite Rminus_0_r, Rabs_R0. lra.
  - inversion Fw as [|? ? Fa Fw']; subst. inversion Bw as [|? ? Ba Bw']; subst. destruct (IH Fw' Bw') as (I1 & I2).
    destruct (nsq_err Pp Pe a Fa Ba) as (N1 & N2 & N3). cbn [map length]. rewrite S_INR. split; [constructor; [split; assumption|exact I1]|].
    cbn [tot fold_right]. fold (tot (map fnorm_sqr w)). unfold qsum in *. cbn [rsum].
    match goal with |- Rabs (?x + ?t - (?y + ?s)) <= _ => replace (x + t - (y + s)) with ((x - y) + (t - s)) by ring end.
    eapply Rle_trans; [apply Rabs_triang|]. lra.
Qed.
Lemma magnitude_err (w : list fc) s : Forall cfin w -> qsum w <= 4 -> 2 * INR (length w) * uro <= 1 -> fsums (map fnorm_sqr w) s ->
  pos_fl s /\ Rabs (B2R s - qsum w) <= (3 * INR (length w) + 3) * uro * qsum w + 10 * INR (length w) * eta.
Proof.
  intros Fw P4 HM Hs. destruct (norms_ok w Fw (small_of_qsum w P4)) as (V1 & V3). set (M := INR (length w)) in *.
  pose proof (@uro_pos prec) as U0. pose proof (uro_small Pp) as U1. pose proof (@eta_pos prec emax) as T0. pose proof (@eta_uro prec emax (big_ok Pe)) as T1.
  set (P := qsum w) in *. assert (P0 : 0 <= P) by apply qsum_pos.
  assert (M0 : 0 <= M) by apply pos_INR.
  assert (ME : M * eta <= / 2). { assert (M * eta <= M * uro) by (apply Rmult_le_compat_l; lra). lra. }
  set (T := tot (map fnorm_sqr w)) in *. assert (T00 : 0 <= T) by (apply tot_pos; exact V1).
  assert (TP : T <= (1 + 3 * uro) * P + 4 * M * eta). { pose proof (Rle_abs (T - P)). lra. }
  assert (UP : 0 <= uro * P) by (apply Rmult_le_pos; lra).
  assert (UP2 : uro * P <= / 40) by nra.
  destruct (fsums_err Pp Pe _ s Hs V1) as (G1 & _ & G3 & G4); [fold T; lra|rewrite map_length; exact HM|].
  split; [exact G1|]. fold T in G4. rewrite map_length in G4. fold M in G4.
  assert (G5 : Rabs (B2R s - T) <= 2 * M * uro * T + 2 * M * eta).
  { destruct w as [|x l].
    - rewrite G3 by reflexivity. replace T with 0 by reflexivity. rewrite Rminus_0_r, Rabs_R0. nra.
    - eapply Rle_trans; [apply G4; discriminate|].
      assert (0 <= uro * T) by (apply Rmult_le_pos; lra). apply Rplus_le_compat.
      + replace (2 * (M - 1) * uro * T) with (2 * (M - 1) * (uro * T)) by ring. replace (2 * M * uro * T) with (2 * M * (uro * T)) by ring. apply Rmult_le_compat_r; lra.
      + apply Rmult_le_compat_r; lra. }
  replace (B2R s - P) with ((B2R s - T) + (T - P)) by ring. eapply Rle_trans; [apply Rabs_triang|].
  assert (X1 : 2 * M * uro * T <= 2 * M * uro * ((1 + 3 * uro) * P + 4 * M * eta)) by (apply Rmult_le_compat_l; [nra|lra]).
  assert (X2 : 2 * M * uro * (4 * M * eta) <= 1 * (4 * M * eta)) by (apply Rmult_le_compat_r; nra).
  assert (MU : 0 <= M * (uro * P)) by (apply Rmult_le_pos; lra).
  assert (X3 : 2 * M * uro * (3 * uro * P) <= / 2 * (M * (uro * P))). { replace (2 * M * uro * (3 * uro * P)) with (6 * uro * (M * (uro * P))) by ring. apply Rmult_le_compat_r; lra. }
  lra.
Qed.

(** Probabilities from a piece: the piece with zeros before it. *)
Lemma nth_pad {A} (d : A) off w i : nth i (repeat d off ++ w) d = if (i <? off)%nat then d else nth (i - off) w d.
Proof.
  destruct (Nat.ltb_spec i off) as [H|H].
  - rewrite app_nth1 by (rewrite repeat_length; exact H). apply nth_repeat.
  - rewrite app_nth2 by (rewrite repeat_length; exact H). rewrite repeat_length. reflexivity.
Qed.
Lemma pad_items n m qs (w : list fc) off : in_range n qs -> NoDup qs -> fmeasure_items n m qs w off = fmeasure_items n m qs (repeat fc0 off ++ w) 0.
Proof.
  intros Hr Hn. unfold fmeasure_items. rewrite scatter_ok by assumption. cbn [bind]. fold (rest_of n qs). f_equal.
  induction (seq 0 (2 ^ length (rest_of n qs))) as [|r l IH]; [reflexivity|]. cbn [mapM]. rewrite IH.
  f_equal. unfold fprob_item. rewrite scatter_ok; [|intros q Hq; apply In_rest_of in Hq; tauto|apply NoDup_rest_of]. cbn [bind].
  match goal with |- context[(?i <? off)%nat] => set (ix := i) end. cbn [Nat.ltb Nat.leb]. rewrite Nat.sub_0_r.
  replace (if (length (repeat (fc0 : fc) off ++ w) <=? ix)%nat then fc0 else nth ix (repeat fc0 off ++ w) fc0) with (nth ix (repeat (fc0 : fc) off ++ w) fc0)
    by (destruct (Nat.leb_spec (length (repeat (fc0 : fc) off ++ w)) ix); [apply nth_overflow; assumption|reflexivity]).
  rewrite nth_pad. change (ix <? 0)%nat with false. cbn iota. destruct (Nat.ltb_spec ix off) as [H|H].
  - cbn zeta. rewrite fcis0_0. reflexivity.
  - replace (if (length w <=? ix - off)%nat then fc0 else nth (ix - off) w fc0) with (nth (ix - off) w (fc0 : fc)) by (destruct (Nat.leb_spec (length w) (ix - off)); [apply nth_overflow; assumption|reflexivity]). reflexivity.
Qed.
Lemma pad_fstate n (w : list fc) off i : (i < 2 ^ n)%nat -> fstate n (repeat fc0 off ++ w) (dec n i) = amp_off CN off (map B2C w) i.
Proof.
  intros Hi. rewrite fstate_nth by exact Hi. rewrite nth_pad. unfold amp_off. cbn [n0 CN].
  destruct (i <? off)%nat; [apply B2C_0|]. rewrite <- (B2C_0 (prec:=prec) (emax:=emax)), map_nth. reflexivity.
Qed.

Lemma pad_l2 n (w : list fc) off : (off + length w <= 2 ^ n)%nat -> l2 n (fstate n (repeat fc0 off ++ w)) ^ 2 = qsum w.
Proof.
  intros H. unfold l2. rewrite pow2_sqrt.
  - transitivity (rsum (fun i => Cmod (amp_off CN off (map B2C w) i) ^ 2) (seq 0 (2 ^ n))).
    + rewrite (rsum_ext _ (fun i => Cmod (fstate n (repeat fc0 off ++ w) (dec n i)) ^ 2)).
      * induction (seq 0 (2 ^ n)) as [|i l IH]; [reflexivity|]. cbn [map fold_right rsum]. rewrite IH. reflexivity.
      * intros i Hi. apply in_seq in Hi. rewrite pad_fstate by lia. reflexivity.
    + replace (2 ^ n)%nat with (off + (length w + (2 ^ n - off - length w)))%nat by lia.
      rewrite !seq_app, !rsum_app. cbn [Nat.add].
      assert (Z : forall l, (forall i, In i l -> amp_off CN off (map B2C w) i = RtoC 0) -> rsum (fun i => Cmod (amp_off CN off (map B2C w) i) ^ 2) l = 0).
      { induction l as [|i l IH]; intros Hl; [reflexivity|]. cbn [rsum]. rewrite Hl by (left; reflexivity). rewrite IH by (intros; apply Hl; right; assumption). rewrite Cmod_0. ring. }
      rewrite (Z (seq 0 off)), (Z (seq (off + length w) _)).
      * rewrite Rplus_0_l, Rplus_0_r. unfold qsum. clear. revert off. induction w as [|a w IH]; intros off; [reflexivity|]. cbn [length seq rsum]. f_equal.
        { unfold amp_off. rewrite Nat.ltb_irrefl, Nat.sub_diag. reflexivity. }
        rewrite <- (IH (S off)). apply rsum_ext. intros i Hi. apply in_seq in Hi. unfold amp_off.
        destruct (Nat.ltb_spec i off); [lia|]. destruct (Nat.ltb_spec i (S off)); [lia|]. replace (i - off)%nat with (S (i - S off)) by lia. reflexivity.
      * intros i Hi. apply in_seq in Hi. unfold amp_off. destruct (Nat.ltb_spec i off); [lia|]. apply nth_overflow. rewrite map_length. lia.
      * intros i Hi. apply in_seq in Hi. unfold amp_off. destruct (Nat.ltb_spec i off); [reflexivity|lia].
  - induction (seq 0 (2 ^ n)) as [|i l IH]; [cbn; lra|]. cbn [map fold_right]. pose proof (pow2_ge_0 (Cmod (fstate n (repeat fc0 off ++ w) (dec n i)))). lra.
Qed.
Lemma pad_prob n qs m (w : list fc) off : prob_of n qs m (fstate n (repeat fc0 off ++ w)) = born n qs m off (map B2C w).
Proof.
  unfold prob_of, born. apply rsum_ext. intros i Hi. apply in_seq in Hi. rewrite pad_fstate by lia. reflexivity.
Qed.

(** Which basis state a draw selects, in a piece. *)
Lemma fscan_off off : forall (w : list fc) (r : fl) k j (T err : R), Forall cfin w -> Forall (fun a => Cmod (B2C a) <= 2) w -> fin r -> 0 <= B2R r <= 2 ->
  (j < length w)%nat -> Rabs (B2R r - T) <= err ->
  let E := INR (length w) * (2 * uro + 6 * eta) + 5 * uro * qsum w in
  qsum (firstn j w) + (err + E) < T <= qsum (firstn (S j) w) - (err + E) ->
  fsoft_scan r k w off = (k + j + off)%nat.
Proof.
  pose proof (@uro_pos prec) as U0. pose proof (uro_small Pp) as U1. pose proof (@eta_pos prec emax) as T0. pose proof (@eta_1 prec emax Pp Pe) as T1.
  induction w as [|c w IH]; intros r k j T err Fw Bw Fr Hr Hj Herr; cbn zeta; [cbn in Hj; lia|].
  intros HT. inversion Fw as [|? ? Fc Fw']; subst. inversion Bw as [|? ? Bc Bw']; subst.
  destruct (nsq_err Pp Pe c Fc Bc) as (N1 & N2 & N3). cbn [fsoft_scan].
  set (x := B2R (fnorm_sqr c)) in *. set (q := Cmod (B2C c) ^ 2) in *. assert (Q0 : 0 <= q) by apply pow2_ge_0.
  destruct (sub_pos_ok r (fnorm_sqr c)) as (F' & E'); [split; [exact Fr|lra]|split; assumption|]. fold x in E'.
  assert (Q4 : q <= 4). { unfold q. pose proof (Cmod_ge_0 (B2C c)). nra. }
  pose proof (@rnd_err prec emax _ (B2R r - x)) as R1.
  assert (Xq : x <= (1 + 3 * uro) * q + 4 * eta). { pose proof (Rle_abs (x - q)). lra. }
  assert (R2 : Rabs (B2R r - x) <= 2 + x) by (apply Rabs_le; lra).
  assert (R3 : uro * Rabs (B2R r - x) <= uro * (2 + (1 + 3 * uro) * q + 4 * eta)) by (apply Rmult_le_compat_l; lra).
  assert (UQ : 0 <= uro * q) by (apply Rmult_le_pos; lra).
  assert (R4 : uro * (3 * uro * q) <= uro * q). { replace (uro * (3 * uro * q)) with (3 * uro * (uro * q)) by ring. assert (3 * uro * (uro * q) <= 1 * (uro * q)) by (apply Rmult_le_compat_r; lra). lra. }
  assert (R5 : uro * (4 * eta) <= eta) by nra.
  assert (Step : Rabs (B2R (fsub r (fnorm_sqr c)) - (T - q)) <= err + (2 * uro + 6 * eta + 5 * uro * q)).
  { rewrite E'. replace (rnd (B2R r - x) - (T - q)) with ((rnd (B2R r - x) - (B2R r - x)) + ((B2R r - T) - (x - q))) by ring.
    eapply Rle_trans; [apply Rabs_triang|]. assert (Rabs ((B2R r - T) - (x - q)) <= Rabs (B2R r - T) + Rabs (x - q)) by (unfold Rminus; eapply Rle_trans; [apply Rabs_triang|]; rewrite Rabs_Ropp; lra). lra. }
  cbn [length] in HT. rewrite S_INR in HT. cbn [qsum rsum] in HT. fold (qsum w) in HT. fold q in HT.
  pose proof (qsum_pos w) as W0. pose proof (pos_INR (length w)) as L0.
  assert (L1 : 0 <= INR (length w) * (2 * uro + 6 * eta)) by (apply Rmult_le_pos; lra). assert (W1 : 0 <= uro * qsum w) by (apply Rmult_le_pos; lra).
  set (r' := fsub r (fnorm_sqr c)) in *. pose proof (Rle_abs (B2R r' - (T - q))) as A1. pose proof (Rle_abs (- (B2R r' - (T - q)))) as A2. rewrite Rabs_Ropp in A2.
  destruct j as [|j].
  - cbn [firstn qsum rsum] in HT. fold q in HT. assert (Z : fle0 r' = true) by (apply fle0_ok; [exact F'|lra]). rewrite Z. lia.
  - cbn [firstn qsum rsum] in HT. fold (qsum (firstn j w)) in HT. fold q in HT.
    assert (G : qsum (firstn (S j) w) = rsum (fun a : fc => Cmod (B2C a) ^ 2) match w with [] => [] | a :: l => a :: firstn j l end) by reflexivity.
    rewrite <- G in HT. pose proof (qsum_pos (firstn j w)) as J0.
    assert (Pos : 0 < B2R r') by lra.
    assert (Z : fle0 r' = false). { destruct (fle0 r') eqn:Z; [|reflexivity]. apply (fle0_ok _ F') in Z. lra. }
    rewrite Z. rewrite (IH r' (S k) j (T - q) (err + (2 * uro + 6 * eta + 5 * uro * q))); [lia| | | | |cbn [length] in Hj; lia|exact Step|].
    + exact Fw'.
    + exact Bw'.
    + exact F'.
    + split; [lra|]. rewrite E'. eapply Rle_trans; [|apply Hr]. rewrite <- (rnd_fl r) at 2. apply round_le; auto with typeclass_instances. lra.
    + lra.
Qed.

Lemma piece_measure random n qs m (w : list fc) off j : in_range n qs -> (m < 2 ^ length qs)%nat -> (length w < 2 ^ n)%nat -> Forall cfin w -> qsum w <= 1 ->
  let M := INR (length w) in 20 * (M + 1) * uro <= 1 -> fin random -> 0 <= B2R random <= 1 -> (j < length w)%nat -> shows qs m (dec n (off + j)) = true ->
  let margin := 12 * (M + 1) * uro + 20 * (M + 1) * eta in
  qsum (firstn j w) + margin < B2R random * qsum w <= qsum (firstn (S j) w) - margin ->
  fsoft_measure random n qs w off = Ok m.
Proof.
  intros Hr Hm Lw Fw W1 M HM Fr R01 Hj Sh margin HT.
  pose proof (@uro_pos prec) as U0. pose proof (uro_small Pp) as U1. pose proof (@eta_pos prec emax) as T0. pose proof (@eta_uro prec emax (big_ok Pe)) as T1. pose proof (big_ok Pe) as Bg.
  assert (M0 : 0 <= M) by apply pos_INR. assert (W0 : 0 <= qsum w) by apply qsum_pos.
  assert (H4 : qsum w <= 4) by lra. assert (MU : 0 <= M * uro) by (apply Rmult_le_pos; lra). assert (H2M : 2 * INR (length w) * uro <= 1) by (fold M; lra).
  destruct (magnitude_err w (fprob_magnitude w) Fw H4 H2M (fsum_fsums _)) as ((G1 & G2) & G3). fold M in G3.
  set (mag := fprob_magnitude w) in *. set (W := qsum w) in *.
  assert (ME : 0 <= M * eta) by (apply Rmult_le_pos; lra). assert (ME2 : M * eta <= M * uro) by (apply Rmult_le_compat_l; lra).
  assert (UW : (3 * M + 3) * uro * W <= (3 * M + 3) * uro). { assert (0 <= (3 * M + 3) * uro) by (apply Rmult_le_pos; lra). rewrite <- (Rmult_1_r ((3 * M + 3) * uro)) at 2. apply Rmult_le_compat_l; lra. }
  pose proof (Rle_abs (B2R mag - W)) as A1.
  assert (Mg : B2R mag <= 9 / 4) by lra.
  assert (Pr : 0 <= B2R random * B2R mag <= B2R mag). { split; [apply Rmult_le_pos; lra|]. rewrite <- (Rmult_1_l (B2R mag)) at 2. apply Rmult_le_compat_r; lra. }
  destruct (mul_ok random mag Fr G1) as (P1 & P2). { rewrite Rabs_pos_eq by lra. lra. }
  pose proof (@rnd_err prec emax _ (B2R random * B2R mag)) as Er. rewrite (Rabs_pos_eq (B2R random * B2R mag)) in Er by lra.
  assert (Er2 : uro * (B2R random * B2R mag) <= uro * (9 / 4)) by (apply Rmult_le_compat_l; lra).
  assert (Rm : Rabs (B2R random * B2R mag - B2R random * W) <= Rabs (B2R mag - W)).
  { replace (B2R random * B2R mag - B2R random * W) with (B2R random * (B2R mag - W)) by ring. rewrite Rabs_mult, (Rabs_pos_eq (B2R random)) by lra.
    rewrite <- (Rmult_1_l (Rabs (B2R mag - W))) at 2. apply Rmult_le_compat_r; [apply Rabs_pos|lra]. }
  unfold fsoft_measure. destruct (Nat.ltb_spec (length w) (2 ^ n)) as [_|?]; [|lia]. fold mag.
  assert (Sc : fsoft_scan (fmul random mag) 0 w off = (off + j)%nat).
  { rewrite (fscan_off off w (fmul random mag) 0 j (B2R random * W) ((3 * M + 3) * uro + 10 * M * eta + 9 / 4 * uro + eta)); [lia|exact Fw|apply small_of_qsum; unfold W in W1; lra|exact P1| |exact Hj| |].
    - rewrite P2. split; [apply rnd_ge0; lra|].
      assert (Rw : B2R random * W <= 1). { rewrite <- (Rmult_1_l 1). apply Rmult_le_compat; lra. }
      pose proof (Rle_abs (rnd (B2R random * B2R mag) - B2R random * B2R mag)). pose proof (Rle_abs (B2R random * B2R mag - B2R random * W)). lra.
    - rewrite P2. replace (rnd (B2R random * B2R mag) - B2R random * W) with ((rnd (B2R random * B2R mag) - B2R random * B2R mag) + (B2R random * B2R mag - B2R random * W)) by ring.
      eapply Rle_trans; [apply Rabs_triang|]. lra.
    - fold W. fold M. assert (5 * uro * W <= 5 * uro) by (rewrite <- (Rmult_1_r (5 * uro)) at 2; apply Rmult_le_compat_l; lra). unfold margin in HT. lra. }
  rewrite Sc. rewrite (mapM_ok _ (fun q => (n - 1 - q)%nat)).
  - cbn [bind]. f_equal. transitivity (outcome_of n qs (off + j)).
    + apply Nat.bits_inj. intros i. rewrite extract_bits_testbit, map_length.
      unfold outcome_of. rewrite testbit_le. destruct (Nat.ltb_spec i (length qs)) as [Hi|Hi]; cbn [andb].
      * rewrite (nth_map_lt _ _ _ _ O) by exact Hi. rewrite (nth_map_lt _ _ _ _ O) by exact Hi.
        unfold dec. assert (nth i qs O < n)%nat by (apply Hr, nth_In; exact Hi).
        destruct (Nat.ltb_spec (nth i qs O) n); [reflexivity|lia].
      * symmetry. apply nth_default. rewrite map_length. exact Hi.
    + apply Nat.eqb_eq. rewrite outcome_shows by exact Hm. exact Sh.
  - intros q Hq. assert (q < n)%nat by auto. rewrite chk_sub_ok by lia. cbn [bind]. apply chk_sub_ok. lia.
Qed.

(** The collapse of a window into another. *)
Definition fcollapsed (n : nat) (qs : list nat) (m : nat) (p : fl) (v : list fc) (ioff row : nat) (old : fc) : fc :=
  if (ioff <=? row)%nat && (row <? ioff + length v)%nat then
    if shows qs m (dec n row) then fcscale (nth (row - ioff) v fc0) (fdiv fone (fsqrt p)) else fc0
  else old.
Lemma fmeasure_state_off n qs m p (v out : list fc) ioff ooff : in_range n qs -> NoDup qs -> fis0 p = false ->
  (ioff <= ooff + length out)%nat -> (ooff <= ioff + length v)%nat -> (ooff + length out <= 2 ^ n)%nat ->
  fmeasure_state n qs (m, p) v out ioff ooff = Ok (map (fun j => fcollapsed n qs m p v ioff (ooff + j) (nth j out fc0)) (seq 0 (length out))).
Proof.
  intros Hr Hn Hz H1 H2 H3. unfold fmeasure_state. rewrite Hz.
  destruct (row_masks n qs m Hr Hn) as (E1 & E2 & E3 & E4). rewrite E1. cbn [bind]. rewrite E3. cbn [bind].
  rewrite E2, E4. set (lower := Nat.max ioff ooff). set (upper := Nat.min (ioff + length v) (ooff + length out)).
  repeat (rewrite !chk_sub_ok by lia; cbn [bind]).
  unfold slice.
  replace ((lower - ioff <=? upper - ioff) && (upper - ioff <=? length v))%nat with true
    by (symmetry; apply andb_true_iff; split; apply Nat.leb_le; lia).
  replace ((lower - ooff <=? upper - ooff) && (upper - ooff <=? length out))%nat with true
    by (symmetry; apply andb_true_iff; split; apply Nat.leb_le; lia).
  cbn [bind]. f_equal.
  set (inp := firstn (upper - ioff - (lower - ioff)) (skipn (lower - ioff) v)).
  set (ou := firstn (upper - ooff - (lower - ooff)) (skipn (lower - ooff) out)).
  assert (Li : length inp = (upper - lower)%nat) by (unfold inp; rewrite firstn_length, skipn_length; lia).
  assert (Lo : length ou = (upper - lower)%nat) by (unfold ou; rewrite firstn_length, skipn_length; lia).
  match goal with |- _ ++ ?c ++ _ = _ => set (cells := c) end.
  assert (Lc : length cells = (upper - lower)%nat).
  { unfold cells. rewrite map_length, length_enumerate, combine_length, Li, Lo. lia. }
  apply (list_eq_nth fc0).
  { rewrite !app_length, firstn_length, skipn_length, Lc, map_length, seq_length. lia. }
  intros j Hj.
  assert (Hj' : (j < length out)%nat) by (rewrite !app_length, firstn_length, skipn_length, Lc in Hj; lia).
  rewrite (nth_map_seq (fun j => fcollapsed n qs m p v ioff (ooff + j) (nth j out fc0))) by exact Hj'.
  unfold fcollapsed.
  assert (Lf : length (firstn (lower - ooff) out) = (lower - ooff)%nat) by (rewrite firstn_length; lia).
  destruct (Nat.lt_ge_cases j (lower - ooff)) as [A|A].
  { rewrite app_nth1 by lia. rewrite nth_firstn' by lia.
    destruct (Nat.leb_spec ioff (ooff + j)); [lia|]. reflexivity. }
  rewrite app_nth2 by lia. rewrite Lf.
  destruct (Nat.lt_ge_cases (ooff + j) upper) as [B|B].
  - rewrite app_nth1 by lia.
    destruct (Nat.leb_spec ioff (ooff + j)); [|lia]. destruct (Nat.ltb_spec (ooff + j) (ioff + length v)); [|lia].
    cbn [andb]. unfold cells.
    assert (Le : (j - (lower - ooff) < length (combine inp ou))%nat) by (rewrite combine_length, Li, Lo; lia).
    rewrite (nth_map_lt _ _ _ _ (O, (fc0, fc0))) by (rewrite length_enumerate; exact Le).
    rewrite nth_enumerate by exact Le. rewrite combine_nth by lia.
    unfold fstate_cell. replace (j - (lower - ooff) + lower)%nat with (ooff + j)%nat by lia.
    rewrite mask_shows by (try assumption; lia).
    destruct (shows qs m (dec n (ooff + j))); cbn [negb]; [|reflexivity]. f_equal.
    unfold inp. rewrite nth_firstn' by lia. rewrite nth_skipn'. f_equal. lia.
  - rewrite app_nth2 by lia. rewrite Lc, nth_skipn'.
    replace ((ioff <=? ooff + j)%nat && (ooff + j <? ioff + length v)%nat) with false.
    + f_equal. lia.
    + symmetry. apply andb_false_iff. right. apply Nat.ltb_ge. lia.
Qed.

Lemma collapsed_err (Pl : (prec + 2 <= emax)%Z) n qs m (p : fl) (v : list fc) ioff row (old : fc) : Forall cfin v -> cfin old -> qsum v <= 4 -> fin p -> 24 * uro <= B2R p <= 5 ->
  let y := fcollapsed n qs m p v ioff row old in
  let z := collapsed n qs m (B2R p) (map B2C v) ioff row (B2C old) in
  cfin y /\ Cmod (B2C y - z)%C <= 7 * uro * Cmod z + 2 * eta \/ (y = old /\ z = B2C old).
Proof.
  intros Fv Fo HB Fp Bp. cbn zeta. unfold fcollapsed, collapsed. rewrite map_length. pose proof (@uro_pos prec) as U0. pose proof (@eta_pos prec emax) as T0.
  destruct ((ioff <=? row)%nat && (row <? ioff + length v)%nat) eqn:In; [left|right; auto].
  apply andb_true_iff in In. destruct In as (I1 & I2). apply Nat.leb_le in I1. apply Nat.ltb_lt in I2.
  destruct (shows qs m (dec n row)).
  - rewrite (nth_map_lt _ _ _ _ fc0) by lia. set (a := nth (row - ioff) v fc0).
    assert (Fa : cfin a) by (apply nth_cfin; exact Fv).
    assert (Ba : Cmod (B2C a) <= 2). { pose proof (small_of_qsum v HB) as Sm. rewrite Forall_forall in Sm. apply Sm. apply nth_In. lia. }
    destruct (inv_sqrt_err Pp Pl p Fp Bp) as (Fc & Hc). set (c := fdiv fone (fsqrt p)) in *. set (s := / sqrt (B2R p)) in *.
    assert (S0 : 0 < sqrt (B2R p)) by (apply sqrt_lt_R0; lra).
    assert (I0 : 0 < s <= / (24 * uro)).
    { unfold s. split; [apply Rinv_0_lt_compat, S0|]. apply Rinv_le_contravar; [lra|]. assert (sqrt (B2R p) * sqrt (B2R p) = B2R p) by (apply sqrt_sqrt; lra). pose proof (uro_small Pp). nra. }
    destruct (scale_err Pp Pl a c s Fa Fc Ba I0 Hc) as (K1 & K2). split; [exact K1|].
    replace (Cmult (B2C a) (RtoC (1 / sqrt (B2R p)))) with (RtoC s * B2C a)%C by (unfold s, Rdiv; rewrite Rmult_1_l; ring).
    eapply Rle_trans; [exact K2|]. rewrite Cmod_mult, Cmod_R, (Rabs_pos_eq s) by lra. lra.
  - split; [apply cfin_0|]. rewrite B2C_0. replace (RtoC 0 - RtoC 0)%C with (RtoC 0) by ring. rewrite Cmod_0. lra.
Qed.
End Piece.
