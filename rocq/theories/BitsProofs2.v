From Coq Require Import FunctionalExtensionality NArith.
From Verif Require Import Base BitsModel BitsSpec BitsProofs.
Local Open Scope res_scope.

(** ** flip_bits *)
Lemma rev64_testbit num (j : nat) :
  N.testbit (reverse_bits64 num) (N.of_nat j) = (j <? 64) && N.testbit num (N.of_nat (63 - j)).
Proof.
  unfold reverse_bits64.
  assert (G : forall m s acc,
    s + m <= 64 ->
    N.testbit (fold_left (fun acc i =>
      if N.testbit num (N.of_nat i) then N.lor acc (N.shiftl 1 (N.of_nat (63 - i))) else acc)
      (seq s m) acc) (N.of_nat j) =
    N.testbit acc (N.of_nat j) ||
      ((s <=? 63 - j) && (63 - j <? s + m) && (j <? 64) && N.testbit num (N.of_nat (63 - j)))).
  { induction m as [|m IH]; intros s acc B; cbn [seq fold_left].
    - destruct (Nat.leb_spec s (63 - j)), (Nat.ltb_spec (63 - j) (s + 0)); try lia; cbn;
        rewrite ?orb_false_r; reflexivity.
    - rewrite IH by lia.
      destruct (N.testbit num (N.of_nat s)) eqn:E.
      + rewrite N.lor_spec, N.shiftl_1_l, N.pow2_bits_eqb.
        destruct (N.eqb_spec (N.of_nat (63 - s)) (N.of_nat j)) as [H|H].
        * assert (H0 : 63 - j = s) by lia. rewrite orb_true_r. cbn [orb]. rewrite H0, E.
          destruct (Nat.leb_spec s s), (Nat.ltb_spec s (s + S m)), (Nat.ltb_spec j 64); try lia; reflexivity.
        * rewrite orb_false_r. f_equal. f_equal.
          destruct (Nat.leb_spec (S s) (63 - j)), (Nat.ltb_spec (63 - j) (S s + m)),
            (Nat.leb_spec s (63 - j)), (Nat.ltb_spec (63 - j) (s + S m)),
            (Nat.ltb_spec j 64); cbn; try reflexivity; lia.
      + f_equal.
        destruct (Nat.eq_dec (63 - j) s) as [H|H].
        * rewrite H, E, !andb_false_r. reflexivity.
        * f_equal. f_equal. destruct (Nat.leb_spec (S s) (63 - j)), (Nat.ltb_spec (63 - j) (S s + m)),
            (Nat.leb_spec s (63 - j)), (Nat.ltb_spec (63 - j) (s + S m)); cbn; try reflexivity; lia. }
  rewrite G by lia. rewrite N.bits_0. cbn [orb].
  destruct (Nat.leb_spec 0 (63 - j)), (Nat.ltb_spec (63 - j) (0 + 64)); try lia. reflexivity.
Qed.

Lemma flip_bits64_spec n num : 1 <= n <= 64 ->
  exists r, flip_bits64 n num = Ok r /\
    forall j, N.testbit r (N.of_nat j) = (j <? n) && N.testbit num (N.of_nat (n - 1 - j)).
Proof.
  intros Hn. unfold flip_bits64. rewrite chk_sub_ok by lia. cbn [bind].
  destruct (Nat.leb_spec 64 (64 - n)); [lia|]. eexists. split; [reflexivity|].
  intros j. rewrite N.shiftr_spec', <- Nnat.Nat2N.inj_add, rev64_testbit.
  destruct (Nat.ltb_spec (j + (64 - n)) 64), (Nat.ltb_spec j n); try lia.
  cbn [andb]. f_equal. lia.
Qed.

Lemma testbit_N_of_nat a i : N.testbit (N.of_nat a) (N.of_nat i) = Nat.testbit a i.
Proof.
  revert a. induction i as [|i IH]; intros a; destruct (Nat.Even_or_Odd a) as [[k ->]|[k ->]];
    rewrite ?Nnat.Nat2N.inj_add, ?Nnat.Nat2N.inj_mul; change (N.of_nat 2) with 2%N; change (N.of_nat 1) with 1%N.
  - rewrite Nat.testbit_even_0. apply N.testbit_even_0.
  - rewrite Nat.testbit_odd_0. apply N.testbit_odd_0.
  - rewrite Nat.testbit_even_succ, <- IH by lia. rewrite Nnat.Nat2N.inj_succ.
    apply N.testbit_even_succ. lia.
  - rewrite Nat.testbit_odd_succ, <- IH by lia. rewrite Nnat.Nat2N.inj_succ.
    apply N.testbit_odd_succ. lia.
Qed.

Lemma testbit_N_to_nat a i : Nat.testbit (N.to_nat a) i = N.testbit a (N.of_nat i).
Proof. rewrite <- testbit_N_of_nat, Nnat.N2Nat.id. reflexivity. Qed.

Lemma flip_bits_ok n num : 1 <= n <= 64 ->
  exists r, flip_bits n num = Ok r /\
    forall j, Nat.testbit r j = (j <? n) && Nat.testbit num (n - 1 - j).
Proof.
  intros Hn. destruct (flip_bits64_spec n (N.of_nat num) Hn) as [r [E H]].
  exists (N.to_nat r). unfold flip_bits. rewrite E. split; [reflexivity|].
  intros j. rewrite testbit_N_to_nat, H, testbit_N_of_nat. reflexivity.
Qed.

(** flip as reversal of the big-endian bit list *)
Lemma flip_bits_be n num : 1 <= n <= 64 -> flip_bits n num = Ok (be (rev (bits_be n num))).
Proof.
  intros Hn. destruct (flip_bits_ok n num Hn) as [r [E H]]. rewrite E. f_equal.
  apply Nat.bits_inj. intros j. rewrite H, testbit_be, rev_length, length_bits_be.
  destruct (Nat.ltb_spec j n); [|reflexivity]. cbn [andb].
  rewrite rev_nth by (rewrite length_bits_be; lia). rewrite length_bits_be.
  rewrite nth_bits_be by lia. f_equal. lia.
Qed.

Lemma flip_bits_invol n a : 1 <= n <= 64 -> a < 2 ^ n ->
  exists b, flip_bits n a = Ok b /\ b < 2 ^ n /\ flip_bits n b = Ok a.
Proof.
  intros Hn Ha. rewrite flip_bits_be by auto. eexists. split; [reflexivity|].
  assert (L : length (rev (bits_be n a)) = n) by (rewrite rev_length, length_bits_be; reflexivity).
  split. { rewrite <- L at 2. apply be_lt. }
  rewrite flip_bits_be by auto. rewrite <- L at 1. rewrite bits_be_be, rev_involutive, be_bits_be by auto.
  reflexivity.
Qed.

Lemma flip_bits_bad n a : n = 0 \/ 64 < n -> flip_bits n a = Panic PUnderflow.
Proof.
  intros [->|H]; [reflexivity|]. unfold flip_bits, flip_bits64, chk_sub.
  destruct (Nat.leb_spec n 64); [lia|reflexivity].
Qed.

(** ** extract_bits *)
Lemma land1_testbit a j : Nat.testbit (Nat.land a 1) j = (j =? 0) && Nat.testbit a 0.
Proof.
  rewrite Nat.land_spec. destruct j as [|j].
  - rewrite andb_comm. reflexivity.
  - replace (Nat.testbit 1 (S j)) with false; [apply andb_false_r|].
    cbn. rewrite Nat.bits_0. reflexivity.
Qed.

Lemma testbit_shiftl_bit a i j :
  Nat.testbit (Nat.shiftl (Nat.land a 1) i) j = (j =? i) && Nat.testbit a 0.
Proof.
  destruct (Nat.lt_ge_cases j i).
  - rewrite Nat.shiftl_spec_low by lia. destruct (Nat.eqb_spec j i); [lia|reflexivity].
  - rewrite Nat.shiftl_spec_high' by lia. rewrite land1_testbit.
    destruct (Nat.eqb_spec j i), (Nat.eqb_spec (j - i) 0); try lia; reflexivity.
Qed.

Lemma extract_bits_testbit num idxs j :
  Nat.testbit (extract_bits num idxs) j = (j <? length idxs) && Nat.testbit num (nth j idxs 0).
Proof.
  unfold extract_bits. revert j. induction idxs as [|q l IH] using rev_ind; intros j.
  - cbn. apply Nat.bits_0.
  - rewrite enumerate_app_single, fold_left_app. cbn [fold_left].
    rewrite Nat.lor_spec, IH, testbit_shiftl_bit, Nat.shiftr_spec', Nat.add_0_l, app_length. cbn [length].
    destruct (Nat.ltb_spec j (length l)), (Nat.ltb_spec j (length l + 1)), (Nat.eqb_spec j (length l));
      try lia; cbn [andb].
    + rewrite app_nth1 by lia. apply orb_false_r.
    + subst. rewrite app_nth2 by lia. rewrite Nat.sub_diag. reflexivity.
Qed.

(** ** entwine_bits *)
(** number of set bits of [sel] below position [i] *)
Fixpoint ones_below (sel i : nat) : nat :=
  match i with 0 => 0 | S i' => ones_below sel i' + b2n (Nat.testbit sel i') end.

Lemma ones_below_le sel i : ones_below sel i <= i.
Proof. induction i as [|i IH]; cbn; [lia|]. destruct (Nat.testbit sel i); cbn; lia. Qed.

Lemma entwine_bits_testbit n sel off on j :
  Nat.testbit (entwine_bits n sel off on) j =
  (j <? n) && (if Nat.testbit sel j then Nat.testbit on (ones_below sel j)
               else Nat.testbit off (j - ones_below sel j)).
Proof.
  unfold entwine_bits.
  assert (G : forall m, exists r,
    fold_left entwine_step (seq 0 m) (sel, off, on, 0) =
      (Nat.shiftr sel m, Nat.shiftr off (m - ones_below sel m), Nat.shiftr on (ones_below sel m), r)
    /\ forall j, Nat.testbit r j = (j <? m) && (if Nat.testbit sel j then Nat.testbit on (ones_below sel j)
               else Nat.testbit off (j - ones_below sel j))).
  { induction m as [|m [r [E H]]].
    - exists 0. split; [reflexivity|]. intros i. rewrite Nat.bits_0. reflexivity.
    - rewrite seq_S, fold_left_app, E. cbn [fold_left Nat.add]. unfold entwine_step.
      assert (T := get_bit_testbit sel m). unfold get_bit in T.
      assert (B := ones_below_le sel m).
      cbn [ones_below].
      destruct (Nat.land (Nat.shiftr sel m) 1 =? 0); cbn [negb] in T; rewrite <- T; cbn [b2n].
      + eexists. split.
        * rewrite !Nat.shiftr_shiftr, Nat.add_0_r, Nat.add_1_r.
          replace (m - ones_below sel m + 1) with (S m - ones_below sel m) by lia. reflexivity.
        * intros i. rewrite Nat.lor_spec, H, testbit_shiftl_bit, Nat.shiftr_spec', Nat.add_0_l.
          destruct (Nat.ltb_spec i m), (Nat.ltb_spec i (S m)), (Nat.eqb_spec i m); try lia;
            cbn [andb]; rewrite ?orb_false_r; try reflexivity.
          subst. rewrite <- T. reflexivity.
      + eexists. split.
        * rewrite !Nat.shiftr_shiftr, !Nat.add_1_r.
          replace (S m - S (ones_below sel m)) with (m - ones_below sel m) by lia. reflexivity.
        * intros i. rewrite Nat.lor_spec, H, testbit_shiftl_bit, Nat.shiftr_spec', Nat.add_0_l.
          destruct (Nat.ltb_spec i m), (Nat.ltb_spec i (S m)), (Nat.eqb_spec i m); try lia;
            cbn [andb]; rewrite ?orb_false_r; try reflexivity.
          subst. rewrite <- T. reflexivity. }
  destruct (G n) as [r [E H]]. rewrite E. cbn [snd]. apply H.
Qed.

(** ** full_to_sub and sub_to_full are inverse *)
Lemma sub_to_full_index n qs s base : in_range n qs -> NoDup qs ->
  s < 2 ^ length qs -> base < 2 ^ n ->
  exists f, sub_to_full n qs s base = Ok f /\ f < 2 ^ n /\
    full_to_sub n qs f = Ok s /\
    (forall q, q < n -> ~ In q qs -> Nat.testbit f (n - 1 - q) = Nat.testbit base (n - 1 - q)) /\
    (forall j, j < length qs -> Nat.testbit f (n - 1 - nth j qs 0) = Nat.testbit s (length qs - 1 - j)).
Proof.
  intros R N Hs Hb. rewrite <- (be_bits_be (length qs) s Hs).
  rewrite sub_to_full_ok by (auto; apply length_bits_be). eexists. split; [reflexivity|].
  split; [apply enc_lt|]. split.
  - rewrite full_to_sub_ok by auto. f_equal. f_equal.
    rewrite <- (updl_map (dec n base) qs (bits_be (length qs) s)) at 2 by (auto; apply length_bits_be).
    apply map_ext_in. intros q Hq. rewrite dec_enc. destruct (Nat.ltb_spec q n); [reflexivity|].
    apply R in Hq. lia.
  - split.
    + intros q Hq Hn. rewrite testbit_enc. destruct (Nat.ltb_spec (n - 1 - q) n); [|lia]. cbn [andb].
      replace (n - 1 - (n - 1 - q)) with q by lia. rewrite updl_notin by auto.
      unfold dec. destruct (Nat.ltb_spec q n); [reflexivity|lia].
    + intros j Hj. assert (Hq : nth j qs 0 < n) by (apply R, nth_In; auto).
      rewrite testbit_enc. destruct (Nat.ltb_spec (n - 1 - nth j qs 0) n); [|lia]. cbn [andb].
      replace (n - 1 - (n - 1 - nth j qs 0)) with (nth j qs 0) by lia.
      assert (E := updl_map (dec n base) qs (bits_be (length qs) s) N (length_bits_be _ _)).
      apply (f_equal (fun l => nth j l false)) in E.
      rewrite nth_bits_be in E by auto.
      rewrite nth_indep with (d' := updl (dec n base) qs (bits_be (length qs) s) 0) in E
        by (rewrite map_length; auto).
      rewrite map_nth in E. rewrite E. rewrite be_bits_be by auto. reflexivity.
Qed.

Lemma full_sub_full n qs x : in_range n qs -> x < 2 ^ n ->
  exists s, full_to_sub n qs x = Ok s /\ s < 2 ^ length qs /\ sub_to_full n qs s x = Ok x.
Proof.
  intros R Hx. rewrite full_to_sub_ok by auto. eexists. split; [reflexivity|]. split.
  - eapply Nat.lt_le_trans; [apply be_lt|]. rewrite map_length. lia.
  - rewrite sub_to_full_ok by (auto; apply map_length). rewrite updl_self, enc_dec by auto. reflexivity.
Qed.

(** ** select_matrix_coords *)
Lemma select_matrix_coords_ok n qs row col : in_range n qs ->
  select_matrix_coords n (length qs) qs row col =
  Ok (be (map (dec n row) qs), be (map (dec n col) qs)).
Proof.
  intros R.
  assert (F : forall f, full_to_sub n qs f = Ok (be (map (dec n f) qs))) by (intros; apply full_to_sub_ok; auto).
  assert (Fr := F row). assert (Fc := F col). clear F.
  unfold full_to_sub in Fr, Fc. unfold select_matrix_coords.
  assert (G : forall l pre x y rx ry, qs = pre ++ l ->
    foldM (full_to_sub_step n (length qs) row) (combine (seq (length pre) (length l)) l) x = Ok rx ->
    foldM (full_to_sub_step n (length qs) col) (combine (seq (length pre) (length l)) l) y = Ok ry ->
    foldM (select_coords_step n (length qs) qs row col) (seq (length pre) (length l)) (x, y) = Ok (rx, ry)).
  { induction l as [|q l IH]; intros pre x y rx ry E.
    - cbn. intros E1 E2. congruence.
    - assert (Hq : q < n) by (apply R; rewrite E; apply in_app_iff; cbn; auto).
      assert (HK : length qs = length pre + S (length l)) by (rewrite E, app_length; reflexivity).
      cbn [length seq combine foldM].
      unfold full_to_sub_step at 1 3. chk. unfold select_coords_step at 1.
      replace (idx qs (length pre)) with (Ok q).
      2:{ unfold idx. rewrite E. rewrite nth_error_app2, Nat.sub_diag by lia. reflexivity. }
      chk. intros E1 E2. specialize (IH (pre ++ [q])). rewrite <- app_assoc in IH.
      rewrite app_length in IH. cbn in IH. rewrite Nat.add_1_r in IH. apply IH; auto. }
  apply (G qs []); auto.
Qed.

Lemma get_bit_digit num i : get_bit num i = Nat.odd (num / 2 ^ i).
Proof. rewrite get_bit_testbit, Nat.testbit_odd, Nat.shiftr_div_pow2. reflexivity. Qed.

Lemma ones_below_filter sel j : ones_below sel j = length (filter (Nat.testbit sel) (seq 0 j)).
Proof.
  induction j as [|j IH]; [reflexivity|]. rewrite seq_S, filter_app, app_length. cbn [ones_below filter].
  rewrite IH. f_equal. cbn. destruct (Nat.testbit sel j); reflexivity.
Qed.

Lemma entwine_bits_filter n sel off on j :
  Nat.testbit (entwine_bits n sel off on) j =
  (j <? n) &&
  (let taken_on := length (filter (Nat.testbit sel) (seq 0 j)) in
   if Nat.testbit sel j then Nat.testbit on taken_on else Nat.testbit off (j - taken_on)).
Proof. rewrite entwine_bits_testbit, ones_below_filter. reflexivity. Qed.

Lemma filter_seq_nth (f : nat -> bool) n k p :
  nth_error (filter f (seq 0 n)) k = Some p ->
  p < n /\ f p = true /\ length (filter f (seq 0 p)) = k.
Proof.
  induction n as [|n IH]; [destruct k; discriminate|].
  rewrite seq_S, filter_app. intros H.
  destruct (Nat.lt_ge_cases k (length (filter f (seq 0 n)))) as [B|B].
  - rewrite nth_error_app1 in H by auto. destruct (IH H) as (H1 & H2 & H3). auto.
  - rewrite nth_error_app2 in H by auto. cbn in H. destruct (f n) eqn:E.
    + destruct (k - length (filter f (seq 0 n))) as [|m] eqn:Ek; cbn in H.
      * inversion H; subst. repeat split; auto. lia.
      * destruct m; discriminate.
    + destruct (k - length (filter f (seq 0 n))); discriminate.
Qed.

Lemma entwine_read_on n sel off on k p :
  nth_error (filter (Nat.testbit sel) (seq 0 n)) k = Some p ->
  Nat.testbit (entwine_bits n sel off on) p = Nat.testbit on k.
Proof.
  intros H. apply filter_seq_nth in H. destruct H as (H1 & H2 & H3).
  rewrite entwine_bits_filter, H2, H3. destruct (Nat.ltb_spec p n); [reflexivity|lia].
Qed.

Lemma filter_negb_length {A} (f : A -> bool) l :
  length (filter f l) + length (filter (fun a => negb (f a)) l) = length l.
Proof. induction l as [|a l IH]; cbn; [reflexivity|]. destruct (f a); cbn; lia. Qed.

Lemma entwine_read_off n sel off on k p :
  nth_error (filter (fun i => negb (Nat.testbit sel i)) (seq 0 n)) k = Some p ->
  Nat.testbit (entwine_bits n sel off on) p = Nat.testbit off k.
Proof.
  intros H. apply filter_seq_nth in H. destruct H as (H1 & H2 & H3).
  rewrite entwine_bits_filter. apply negb_true_iff in H2. rewrite H2.
  destruct (Nat.ltb_spec p n); [|lia]. cbn [andb]. f_equal.
  assert (E := filter_negb_length (Nat.testbit sel) (seq 0 p)). rewrite seq_length in E. lia.
Qed.

Lemma select_coords_full_to_sub n qs row col : in_range n qs ->
  exists r c, select_matrix_coords n (length qs) qs row col = Ok (r, c) /\
    full_to_sub n qs row = Ok r /\ full_to_sub n qs col = Ok c.
Proof.
  intros R. rewrite select_matrix_coords_ok, !full_to_sub_ok by auto. eauto.
Qed.
