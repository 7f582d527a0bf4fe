(** C117: a piece of the state is weighed, measured and collapsed in floats. *)
From Coq Require Import ZArith Reals Lra Psatz SpecFloat.
From Flocq Require Import Core.Core IEEE754.BinarySingleNaN.
From Coquelicot Require Import Complex.
From Verif Require Import Base BitsSpec BitsModel BitsProofs OpsModel OpsSpec OpsProofs Instances BuilderModel DenSpec DenProofs MeasureModel MeasureSpec MeasureProofs2 FloatModel FloatSpec
  FloatProofs FloatProofs2 FloatProofs3 FloatProofs4 FloatProofs5 FloatProofs6 FloatProofs7 FloatProofs8 FloatPieceProofs.
Local Open Scope R_scope.

#[local] Instance prec53 : FLX.Prec_gt_0 53. Proof. reflexivity. Qed.
#[local] Instance pe64 : Prec_lt_emax 53 1024. Proof. reflexivity. Qed.

(** The exact weight of the amplitudes held. *)
Definition held {prec emax : Z} (w : list (fc prec emax)) : R := rsum (fun a => Cmod (B2C a) ^ 2) w.

(** [prob_magnitude], in whatever order the squares are added. *)
Theorem C117_weight (prec emax : Z) (Hp : FLX.Prec_gt_0 prec) (He : Prec_lt_emax prec emax) (w : list (fc prec emax)) :
  (8 <= prec)%Z -> (8 <= emax)%Z -> Forall cfin w -> held w <= 4 ->
  let M := INR (length w) in
  2 * M * @uro prec <= 1 ->
  fsums (map fnorm_sqr w) (fprob_magnitude w) /\
  forall s, fsums (map fnorm_sqr w) s -> fin s /\ 0 <= B2R s /\
    Rabs (B2R s - held w) <= (3 * M + 3) * @uro prec * held w + 10 * M * @eta prec emax.
Proof.
  intros Pp Pe Fw H4 M HM. split; [apply fsum_fsums|]. intros s Hs.
  destruct (magnitude_err Pp Pe w s Fw H4 HM Hs) as ((G1 & G2) & G3). auto.
Qed.
Print Assumptions C117_weight.

(** The probability of an outcome computed from a piece, against the exact sum over the piece. *)
Theorem C117_prob (prec emax : Z) (Hp : FLX.Prec_gt_0 prec) (He : Prec_lt_emax prec emax) n qs m (w : list (fc prec emax)) off :
  (8 <= prec)%Z -> (8 <= emax)%Z -> (forall q, In q qs -> (q < n)%nat) -> NoDup qs -> Forall cfin w -> held w <= 4 -> (off + length w <= 2 ^ n)%nat ->
  let M := INR (2 ^ (n - length qs)) in
  2 * M * @uro prec <= 1 ->
  exists items, fmeasure_items n m qs w off = Ok items /\ fmeasure_prob n m qs w off = Ok (fsum items) /\ fsums items (fsum items) /\
    forall s, fsums items s -> fin s /\ 0 <= B2R s /\
      Rabs (B2R s - born n qs m off (map B2C w)) <= (3 * M + 3) * @uro prec * born n qs m off (map B2C w) + 10 * M * @eta prec emax.
Proof.
  intros Pp Pe Hr Hn Fw H4 Hl M HM. set (v := repeat fc0 off ++ w).
  assert (Fv : Forall cfin v) by (apply Forall_app; split; [apply Forall_forall; intros a Ha; apply repeat_spec in Ha; subst a; split; reflexivity|exact Fw]).
  assert (L : l2 n (fstate n v) <= 2). { pose proof (pad_l2 n w off Hl) as E. fold v in E. pose proof (l2_pos n (fstate n v)). unfold held in H4. unfold qsum in E. nra. }
  exists (vitems n qs m v). assert (E := fmeasure_items_ok n m qs v Hr Hn).
  assert (E' : fmeasure_items n m qs w off = Ok (vitems n qs m v)) by (rewrite pad_items by assumption; exact E).
  split; [exact E'|]. split; [unfold fmeasure_prob; rewrite E'; reflexivity|]. split; [apply fsum_fsums|].
  intros s Hs. rewrite <- pad_prob. fold v. destruct (prob_err Pp Pe n qs m v s _ Hr Hn Fv L HM E Hs) as ((G1 & G2) & G3). auto.
Qed.
Print Assumptions C117_prob.

(** A draw clear of the boundaries between the weights selects the basis state it should, counted from
    the offset of the piece. *)
Theorem C117_draw (prec emax : Z) (Hp : FLX.Prec_gt_0 prec) (He : Prec_lt_emax prec emax) random n qs m (w : list (fc prec emax)) off j :
  (8 <= prec)%Z -> (8 <= emax)%Z -> (forall q, In q qs -> (q < n)%nat) -> (m < 2 ^ length qs)%nat -> (length w < 2 ^ n)%nat -> Forall cfin w -> held w <= 1 ->
  let M := INR (length w) in
  20 * (M + 1) * @uro prec <= 1 -> fin random -> 0 <= B2R random <= 1 -> (j < length w)%nat -> shows qs m (dec n (off + j)) = true ->
  let margin := 12 * (M + 1) * @uro prec + 20 * (M + 1) * @eta prec emax in
  held (firstn j w) + margin < B2R random * held w <= held (firstn (S j) w) - margin ->
  fsoft_measure random n qs w off = Ok m.
Proof. intros Pp Pe. exact (piece_measure Pp Pe random n qs m w off j). Qed.
Print Assumptions C117_draw.

(** The collapse of one window of the state into another: each number within rounding of the exact one,
    numbers outside the overlap untouched. *)
Theorem C117_collapse (prec emax : Z) (Hp : FLX.Prec_gt_0 prec) (He : Prec_lt_emax prec emax) n qs m (p : fl prec emax) (v out : list (fc prec emax)) ioff ooff :
  (8 <= prec)%Z -> (prec + 2 <= emax)%Z -> (forall q, In q qs -> (q < n)%nat) -> NoDup qs -> Forall cfin v -> Forall cfin out -> held v <= 4 ->
  fin p -> 24 * @uro prec <= B2R p <= 5 ->
  (ioff <= ooff + length out)%nat -> (ooff <= ioff + length v)%nat -> (ooff + length out <= 2 ^ n)%nat ->
  exists w, fmeasure_state n qs (m, p) v out ioff ooff = Ok w /\ length w = length out /\ Forall cfin w /\
    forall j, (j < length out)%nat ->
      let z := collapsed n qs m (B2R p) (map B2C v) ioff (ooff + j) (B2C (nth j out fc0)) in
      Cmod (B2C (nth j w fc0) - z)%C <= 7 * @uro prec * Cmod z + 2 * @eta prec emax /\
      ((ooff + j < ioff \/ ioff + length v <= ooff + j)%nat -> nth j w fc0 = nth j out fc0).
Proof.
  intros Pp Pl Hr Hn Fv Fo H4 Fp Bp H1 H2 H3. assert (Pe : (8 <= emax)%Z) by lia.
  pose proof (@uro_pos prec) as U0. pose proof (@eta_pos prec emax) as T0.
  assert (Hz : fis0 p = false). { destruct (fis0 p) eqn:Z; [|reflexivity]. apply (fis0_ok p Fp) in Z. lra. }
  eexists. split; [apply fmeasure_state_off; assumption|]. rewrite map_length, seq_length. split; [reflexivity|].
  assert (K : forall j, let y := fcollapsed n qs m p v ioff (ooff + j) (nth j out fc0) in
     cfin y /\ Cmod (B2C y - collapsed n qs m (B2R p) (map B2C v) ioff (ooff + j) (B2C (nth j out fc0)))%C <= 7 * @uro prec * Cmod (collapsed n qs m (B2R p) (map B2C v) ioff (ooff + j) (B2C (nth j out fc0))) + 2 * @eta prec emax).
  { intros j. cbn zeta. assert (Fj : cfin (nth j out fc0)) by (apply nth_cfin; exact Fo).
    destruct (collapsed_err Pp Pl n qs m p v ioff (ooff + j) (nth j out fc0) Fv Fj H4 Fp Bp) as [K|(-> & ->)]; [exact K|].
    split; [exact Fj|]. replace (B2C (nth j out fc0) - B2C (nth j out fc0))%C with (RtoC 0) by ring. rewrite Cmod_0.
    pose proof (Cmod_ge_0 (B2C (nth j out fc0))). assert (0 <= 7 * @uro prec * Cmod (B2C (nth j out fc0))) by (apply Rmult_le_pos; lra). lra. }
  split.
  - apply Forall_forall. intros a Ha. apply in_map_iff in Ha. destruct Ha as (j & <- & _). apply K.
  - intros j Hj. cbn zeta. rewrite nth_map_seq by exact Hj. split; [apply K|]. intros Ho. unfold fcollapsed.
    destruct (Nat.leb_spec ioff (ooff + j)); destruct (Nat.ltb_spec (ooff + j) (ioff + length v)); cbn [andb]; try reflexivity. lia.
Qed.
Print Assumptions C117_collapse.

(** Two of the four amplitudes of a two-qubit state, from index 1 on, both 1/2 in f64, and the draw 3/4:
    the second of them, basis state 2, is chosen, so qubit 0 is read as 1. *)
Definition f12 : fl 53 1024 := SF2B (prec:=53) (emax:=1024) (S754_finite false 4503599627370496 (-53)) eq_refl.
Definition f34 : fl 53 1024 := SF2B (prec:=53) (emax:=1024) (S754_finite false 6755399441055744 (-53)) eq_refl.
Lemma f12_ok : fin f12 /\ B2R f12 = / 2. Proof. split; [reflexivity|]. unfold f12. cbn. unfold F2R. cbn. lra. Qed.
Lemma f34_ok : fin f34 /\ B2R f34 = 3 / 4. Proof. split; [reflexivity|]. unfold f34. cbn. unfold F2R. cbn. lra. Qed.
Definition half2 : list (fc 53 1024) := [(f12, fzero); (f12, fzero)].
Lemma half2_fin : Forall cfin half2. Proof. repeat constructor. Qed.
Lemma half_sq : Cmod (B2C (f12, fzero : fl 53 1024)) ^ 2 = / 4.
Proof.
  unfold B2C. cbn [fst snd]. change (B2R (fzero : fl 53 1024)) with 0. rewrite (proj2 f12_ok). change (/ 2, 0) with (RtoC (/ 2)).
  rewrite Cmod_R, pow2_abs. lra.
Qed.
Lemma half2_held : held half2 = / 2. Proof. unfold held, half2. cbn [rsum]. rewrite half_sq. lra. Qed.
Lemma u53 : 0 < @uro 53 <= / 1048576.
Proof. split; [apply uro_pos|]. unfold uro. eapply Rle_trans; [apply (bpow_le radix2 (-53) (-20)); lia|]. cbn. lra. Qed.
Example C117_ex : fsoft_measure f34 2 [0%nat] half2 1 = Ok 1%nat /\
  (exists items, fmeasure_items 2 1 [0%nat] half2 1 = Ok items /\ Rabs (B2R (fsum items) - / 4) <= 30 * @uro 53) /\
  (exists w, fmeasure_state 2 [0%nat] (1%nat, f12) half2 [fc0; fc1; fc1] 1 1 = Ok w /\ nth 0 w fc0 = fc0 /\ nth 2 w fc0 = fc1).
Proof.
  destruct u53 as (U0 & U1). assert (Pe : (8 <= 1024)%Z) by lia. pose proof (@eta_uro 53 1024 (big_ok Pe)) as T. pose proof (@eta_pos 53 1024) as T0.
  split; [|split].
  - apply (C117_draw 53 1024 _ _ f34 2 [0%nat] 1 half2 1 1); try lia.
    + intros q [<-|[]]. lia.
    + cbn. lia.
    + cbn. lia.
    + exact half2_fin.
    + rewrite half2_held. lra.
    + cbn [half2 length INR]. lra.
    + apply f34_ok.
    + rewrite (proj2 f34_ok). lra.
    + cbn. lia.
    + reflexivity.
    + rewrite half2_held, (proj2 f34_ok). unfold held, half2. cbn [firstn rsum length INR]. rewrite half_sq. lra.
  - assert (Bn : born 2 [0%nat] 1 1 (map B2C half2) = / 4).
    { unfold born. cbn [Nat.pow Nat.mul Nat.add seq rsum].
      assert (S0 : shows [0%nat] 1 (dec 2 0) = false) by reflexivity. assert (S1 : shows [0%nat] 1 (dec 2 1) = false) by reflexivity.
      assert (S2 : shows [0%nat] 1 (dec 2 2) = true) by reflexivity. assert (S3 : shows [0%nat] 1 (dec 2 3) = true) by reflexivity. rewrite S0, S1, S2, S3.
      assert (A2 : amp_off CN 1 (map B2C half2) 2 = B2C (f12, fzero : fl 53 1024)) by reflexivity.
      assert (A3 : amp_off CN 1 (map B2C half2) 3 = RtoC 0) by reflexivity. rewrite A2, A3, half_sq, Cmod_0. lra. }
    destruct (C117_prob 53 1024 _ _ 2 [0%nat] 1 half2 1) as (items & E & _ & Sm & G); try lia.
    + intros q [<-|[]]. lia.
    + apply NoDup_cons; [intros []|apply NoDup_nil].
    + exact half2_fin.
    + rewrite half2_held. lra.
    + cbn. lia.
    + cbn. lra.
    + exists items. split; [exact E|]. destruct (G _ Sm) as (_ & _ & G3). rewrite Bn in G3. cbn [length Nat.sub Nat.pow Nat.mul Nat.add INR] in G3. lra.
  - destruct (C117_collapse 53 1024 _ _ 2 [0%nat] 1 f12 half2 [fc0; fc1; fc1] 1 1) as (w & E & _ & _ & G); try (cbn; lia).
    + apply NoDup_cons; [intros []|apply NoDup_nil].
    + exact half2_fin.
    + repeat constructor.
    + rewrite half2_held. lra.
    + apply f12_ok.
    + rewrite (proj2 f12_ok). lra.
    + exists w. split; [exact E|]. split; [|apply (G 2%nat); cbn; lia].
      assert (X : fmeasure_state 2 [0%nat] (1%nat, f12) half2 [fc0; fc1; fc1] 1 1 = Ok w) by exact E.
      rewrite fmeasure_state_off in X; try (cbn; lia).
      * injection X as <-. reflexivity.
      * intros q [<-|[]]. lia.
      * apply NoDup_cons; [intros []|apply NoDup_nil].
Qed.
