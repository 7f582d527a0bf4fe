(** Sampling and collapse. *)
From Coq Require Import Reals Lra Permutation FunctionalExtensionality.
From Coquelicot Require Import Coquelicot.
From Verif Require Import Base BitsModel BitsSpec BitsProofs BitsProofs2 OpsModel OpsSpec OpsProofs
  Instances UnitaryProofs MeasureModel MeasureSpec MeasureProofs.
Local Open Scope nat_scope.
Local Open Scope res_scope.

(** ** Collapse *)
Lemma sumn_app l x : sumn (l ++ [x]) = sumn l + x.
Proof. unfold sumn. rewrite fold_left_app. reflexivity. Qed.

Lemma sum_bits n (b : nat -> bool) qs : in_range n qs -> NoDup qs ->
  sumn (map (fun '(i, q) => Nat.shiftl (b2n (b i)) (n - 1 - q)) (enumerate qs)) =
  enc n (updl zero_bs qs (map b (seq 0 (length qs)))).
Proof.
  induction qs as [|q qs IH] using rev_ind; intros Hr Hn.
  - cbn. apply Nat.bits_inj. intros i. rewrite testbit_enc, Nat.bits_0. unfold zero_bs.
    rewrite andb_false_r. reflexivity.
  - apply in_range_app in Hr. destruct Hr as [Hr Hq].
    assert (Hqn : q < n) by (apply Hq; left; reflexivity).
    apply NoDup_app_iff in Hn. destruct Hn as (Hn & _ & Hd).
    assert (Hnq : ~ In q qs) by (intros HI; apply (Hd q HI); left; reflexivity).
    rewrite enumerate_app_single, map_app. cbn [map]. rewrite sumn_app, IH by assumption.
    rewrite app_length. cbn [length]. rewrite Nat.add_1_r, seq_S, map_app.
    rewrite updl_app by (rewrite map_length, seq_length; reflexivity). cbn [map updl Nat.add].
    set (y := updl zero_bs qs (map b (seq 0 (length qs)))).
    assert (Hy : y q = false) by (apply updl_zero_notin; exact Hnq).
    rewrite add_disjoint.
    + apply Nat.bits_inj. intros i. rewrite Nat.lor_spec, !testbit_enc.
      destruct (Nat.ltb_spec i n) as [Hi|Hi]; cbn [andb].
      * unfold upd. destruct (Nat.eqb_spec (n - 1 - i) q) as [E|E].
        -- rewrite E, Hy. cbn. rewrite Nat.shiftl_spec_high' by lia. replace (i - (n - 1 - q)) with 0 by lia.
           rewrite testbit_b2n. reflexivity.
        -- destruct (Nat.lt_ge_cases i (n - 1 - q)).
           ++ rewrite Nat.shiftl_spec_low by lia. apply orb_false_r.
           ++ rewrite Nat.shiftl_spec_high' by lia. rewrite testbit_b2n.
              destruct (Nat.eqb_spec (i - (n - 1 - q)) 0); [lia|]. apply orb_false_r.
      * rewrite Nat.shiftl_spec_high' by lia. rewrite testbit_b2n.
        destruct (Nat.eqb_spec (i - (n - 1 - q)) 0); [lia|]. reflexivity.
    + intros i. rewrite testbit_enc. destruct (Nat.ltb_spec i n) as [Hi|Hi]; cbn [andb]; [|discriminate].
      intros Hyi. destruct (Nat.lt_ge_cases i (n - 1 - q)).
      * apply Nat.shiftl_spec_low. lia.
      * rewrite Nat.shiftl_spec_high' by lia. rewrite testbit_b2n.
        destruct (Nat.eqb_spec (i - (n - 1 - q)) 0); [|reflexivity].
        replace (n - 1 - i) with q in Hyi by lia. congruence.
Qed.

Lemma land1_b2n a i : Nat.land (Nat.shiftr a i) 1 = b2n (Nat.testbit a i).
Proof.
  apply Nat.bits_inj. intros j. rewrite land1_testbit, testbit_b2n, Nat.shiftr_spec'. reflexivity.
Qed.

Lemma row_masks n qs m : in_range n qs -> NoDup qs ->
  mapM (fun index => n1 <- chk_sub n 1 ;; p <- chk_sub n1 index ;; Ok (Nat.shiftl 1 p)) qs =
    Ok (map (fun q => Nat.shiftl 1 (n - 1 - q)) qs) /\
  sumn (map (fun q => Nat.shiftl 1 (n - 1 - q)) qs) = enc n (updl zero_bs qs (map (fun _ => true) (seq 0 (length qs)))) /\
  mapM (fun '(i, index) => n1 <- chk_sub n 1 ;; p <- chk_sub n1 index ;;
                    Ok (Nat.shiftl (Nat.land (Nat.shiftr m i) 1) p)) (enumerate qs) =
    Ok (map (fun '(i, q) => Nat.shiftl (b2n (Nat.testbit m i)) (n - 1 - q)) (enumerate qs)) /\
  sumn (map (fun '(i, q) => Nat.shiftl (b2n (Nat.testbit m i)) (n - 1 - q)) (enumerate qs)) =
    enc n (updl zero_bs qs (mbits m (length qs))).
Proof.
  intros Hr Hn. repeat split.
  - apply mapM_ok. intros q Hq. assert (q < n) by auto.
    rewrite chk_sub_ok by lia. cbn [bind]. rewrite chk_sub_ok by lia. reflexivity.
  - rewrite <- (sum_bits n (fun _ => true)) by assumption. f_equal.
    transitivity (map (fun q => Nat.shiftl 1 (n - 1 - q)) (map snd (enumerate qs))).
    + f_equal. unfold enumerate. symmetry.
      assert (G : forall s, map snd (combine (seq s (length qs)) qs) = qs).
      { clear. induction qs as [|q qs IH]; intros s; cbn; [reflexivity|]. rewrite IH. reflexivity. }
      apply G.
    + rewrite map_map. apply map_ext. intros [i q]. reflexivity.
  - apply mapM_ok. intros [i q] Hiq. apply In_enumerate in Hiq. apply nth_error_In in Hiq.
    assert (q < n) by auto.
    rewrite chk_sub_ok by lia. cbn [bind]. rewrite chk_sub_ok by lia. cbn [bind]. rewrite land1_b2n. reflexivity.
  - apply (sum_bits n (Nat.testbit m)); assumption.
Qed.


Lemma mask_shows n qs m row : in_range n qs -> NoDup qs -> row < 2 ^ n ->
  (Nat.lxor (Nat.land row (enc n (updl zero_bs qs (map (fun _ => true) (seq 0 (length qs))))))
            (enc n (updl zero_bs qs (mbits m (length qs)))) =? 0) = shows qs m (dec n row).
Proof.
  intros Hr Hn Hrow.
  set (ones := map (fun _ : nat => true) (seq 0 (length qs))).
  assert (Ho : length ones = length qs) by (unfold ones; rewrite map_length, seq_length; reflexivity).
  assert (Hones : forall q, In q qs -> updl zero_bs qs ones q = true).
  { intros q Hq. assert (E := updl_map zero_bs qs ones Hn Ho).
    assert (A : forall b, In b ones -> b = true) by (unfold ones; intros b Hb; apply in_map_iff in Hb; destruct Hb as (? & <- & _); reflexivity).
    assert (I : In (updl zero_bs qs ones q) (map (updl zero_bs qs ones) qs)) by (apply in_map; exact Hq).
    rewrite E in I. apply A. exact I. }
  assert (P : Nat.land row (enc n (updl zero_bs qs ones)) = enc n (updl zero_bs qs (mbits m (length qs))) <->
              map (dec n row) qs = mbits m (length qs)).
  { split.
    - intros E. transitivity (map (updl zero_bs qs (mbits m (length qs))) qs); [|apply updl_map; [exact Hn|apply length_mbits]].
      apply map_ext_in. intros q Hq. assert (Hqn : q < n) by auto.
      assert (Et := f_equal (fun a => Nat.testbit a (n - 1 - q)) E). cbn in Et.
      rewrite Nat.land_spec, !testbit_enc in Et. replace (n - 1 - (n - 1 - q)) with q in Et by lia.
      rewrite Hones in Et by exact Hq. destruct (Nat.ltb_spec (n - 1 - q) n); [|lia]. cbn in Et.
      rewrite andb_true_r in Et. unfold dec. destruct (Nat.ltb_spec q n); [|lia]. cbn. exact Et.
    - intros E. apply Nat.bits_inj. intros i. rewrite Nat.land_spec, !testbit_enc.
      destruct (Nat.ltb_spec i n) as [Hi|Hi]; cbn [andb]; [|apply andb_false_r].
      set (q := n - 1 - i). assert (Hq : q < n) by (unfold q; lia).
      destruct (in_dec Nat.eq_dec q qs) as [I|I].
      + rewrite Hones by exact I. rewrite andb_true_r.
        replace (Nat.testbit row i) with (dec n row q) by (unfold dec; destruct (Nat.ltb_spec q n); [|lia]; cbn; f_equal; unfold q; lia).
        assert (E2 := updl_map zero_bs qs (mbits m (length qs)) Hn (length_mbits _ _)).
        rewrite <- E in E2 at 2. revert E2. generalize (updl zero_bs qs (mbits m (length qs))). clear - I.
        induction qs as [|z rs IH]; cbn in *; intros g E2; [tauto|]. inversion E2. destruct I as [->|H]; auto.
      + rewrite !updl_zero_notin by exact I. apply andb_false_r. }
  destruct (shows qs m (dec n row)) eqn:E.
  - apply shows_mbits in E. apply P in E. rewrite E, Nat.lxor_nilpotent. reflexivity.
  - apply Nat.eqb_neq. intros H. apply Nat.lxor_eq in H. apply P in H. apply shows_mbits in H. congruence.
Qed.

Lemma nth_combine_fst {A B} (l : list A) (l' : list B) i a b :
  length l = length l' -> nth i (combine l l') (a, b) = (nth i l a, nth i l' b).
Proof. intros. apply combine_nth. assumption. Qed.

Lemma nth_map_lt {A B} (f : A -> B) l i d d' : i < length l -> nth i (map f l) d = f (nth i l d').
Proof. intros H. rewrite nth_indep with (d' := f d') by (rewrite map_length; exact H). apply map_nth. Qed.

Lemma nth_firstn' {A} (l : list A) k i d : i < k -> nth i (firstn k l) d = nth i l d.
Proof.
  revert k i. induction l as [|a l IH]; intros [|k] [|i] H; cbn; try lia; try reflexivity. apply IH. lia.
Qed.
Lemma nth_skipn' {A} (l : list A) k i d : nth i (skipn k l) d = nth (k + i) l d.
Proof. revert l. induction k as [|k IH]; intros [|a l]; cbn; try reflexivity; [destruct i; reflexivity|apply IH]. Qed.

Lemma nth_enumerate {A} (l : list A) i d : i < length l -> nth i (enumerate l) (0, d) = (i, nth i l d).
Proof.
  intros H. unfold enumerate. rewrite combine_nth by (rewrite seq_length; reflexivity).
  rewrite seq_nth by exact H. reflexivity.
Qed.

Lemma measure_state_ok n qs m p v out ioff ooff : in_range n qs -> NoDup qs -> p <> 0%R ->
  ioff <= ooff + length out -> ooff <= ioff + length v -> ooff + length out <= 2 ^ n ->
  measure_state n qs (m, p) v out ioff ooff =
    Ok (map (fun j => collapsed n qs m p v ioff (ooff + j) (nth j out (RtoC 0))) (seq 0 (length out))).
Proof.
  intros Hr Hn Hp H1 H2 H3. unfold measure_state.
  destruct (Req_EM_T p 0) as [E|_]; [contradiction|].
  destruct (row_masks n qs m Hr Hn) as (E1 & E2 & E3 & E4). rewrite E1. cbn [bind]. rewrite E3. cbn [bind].
  rewrite E2, E4. set (lower := Nat.max ioff ooff). set (upper := Nat.min (ioff + length v) (ooff + length out)).
  repeat (rewrite !chk_sub_ok by lia; cbn [bind]).
  unfold slice.
  replace ((lower - ioff <=? upper - ioff) && (upper - ioff <=? length v)) with true
    by (symmetry; apply andb_true_iff; split; apply Nat.leb_le; lia).
  replace ((lower - ooff <=? upper - ooff) && (upper - ooff <=? length out)) with true
    by (symmetry; apply andb_true_iff; split; apply Nat.leb_le; lia).
  cbn [bind]. f_equal.
  set (inp := firstn (upper - ioff - (lower - ioff)) (skipn (lower - ioff) v)).
  set (ou := firstn (upper - ooff - (lower - ooff)) (skipn (lower - ooff) out)).
  assert (Li : length inp = upper - lower) by (unfold inp; rewrite firstn_length, skipn_length; lia).
  assert (Lo : length ou = upper - lower) by (unfold ou; rewrite firstn_length, skipn_length; lia).
  match goal with |- _ ++ ?c ++ _ = _ => set (cells := c) end.
  assert (Lc : length cells = upper - lower).
  { unfold cells. rewrite map_length, length_enumerate, combine_length, Li, Lo. lia. }
  apply (list_eq_nth (RtoC 0)).
  { rewrite !app_length, firstn_length, skipn_length, Lc, map_length, seq_length. lia. }
  intros j Hj.
  assert (Hj' : j < length out) by (rewrite !app_length, firstn_length, skipn_length, Lc in Hj; lia).
  rewrite (nth_map_seq (fun j => collapsed n qs m p v ioff (ooff + j) (nth j out (RtoC 0)))) by exact Hj'.
  unfold collapsed.
  assert (Lf : length (firstn (lower - ooff) out) = lower - ooff) by (rewrite firstn_length; lia).
  destruct (Nat.lt_ge_cases j (lower - ooff)) as [A|A].
  { rewrite app_nth1 by lia. rewrite nth_firstn' by lia.
    destruct (Nat.leb_spec ioff (ooff + j)); [lia|]. reflexivity. }
  rewrite app_nth2 by lia. rewrite Lf.
  destruct (Nat.lt_ge_cases (ooff + j) upper) as [B|B].
  - rewrite app_nth1 by lia.
    destruct (Nat.leb_spec ioff (ooff + j)); [|lia]. destruct (Nat.ltb_spec (ooff + j) (ioff + length v)); [|lia].
    cbn [andb]. unfold cells.
    assert (Le : j - (lower - ooff) < length (combine inp ou)) by (rewrite combine_length, Li, Lo; lia).
    rewrite (nth_map_lt _ _ _ _ (0, (RtoC 0, RtoC 0))) by (rewrite length_enumerate; exact Le).
    rewrite nth_enumerate by exact Le. rewrite combine_nth by lia.
    unfold state_cell. replace (j - (lower - ooff) + lower) with (ooff + j) by lia.
    rewrite mask_shows by (try assumption; lia).
    destruct (shows qs m (dec n (ooff + j))); cbn [negb]; [|reflexivity]. f_equal.
    unfold inp. rewrite nth_firstn' by lia. rewrite nth_skipn'. f_equal. lia.
  - rewrite app_nth2 by lia. rewrite Lc, nth_skipn'.
    replace ((ioff <=? ooff + j) && (ooff + j <? ioff + length v)) with false.
    + f_equal. lia.
    + symmetry. apply andb_false_iff. right. apply Nat.ltb_ge. lia.
Qed.

Lemma measure_state_p0 n qs m v out ioff ooff : measure_state n qs (m, 0%R) v out ioff ooff = Ok out.
Proof. unfold measure_state. destruct (Req_EM_T 0 0); [reflexivity|congruence]. Qed.

(** A whole state. *)
Lemma measure_state_full n qs m p v out : in_range n qs -> NoDup qs -> p <> 0%R ->
  length v = 2 ^ n -> length out = 2 ^ n ->
  exists w, measure_state n qs (m, p) v out 0 0 = Ok w /\ length w = 2 ^ n /\
    forall i, i < 2 ^ n -> nth i w (RtoC 0) =
      if shows qs m (dec n i) then Cmult (nth i v (RtoC 0)) (RtoC (1 / sqrt p)) else RtoC 0.
Proof.
  intros Hr Hn Hp Hv Ho. eexists. rewrite measure_state_ok by (try assumption; lia). split; [reflexivity|].
  split; [rewrite map_length, seq_length; exact Ho|]. intros i Hi.
  rewrite (nth_map_seq (fun j => collapsed n qs m p v 0 (0 + j) (nth j out (RtoC 0)))) by lia.
  unfold collapsed. cbn [Nat.add Nat.leb andb]. destruct (Nat.ltb_spec i (length v)); [|lia].
  rewrite Nat.sub_0_r. reflexivity.
Qed.

Lemma Cmod_scale_sq a (p : R) : (0 < p)%R -> (Cmod (Cmult a (RtoC (1 / sqrt p))) ^ 2 = Cmod a ^ 2 * / p)%R.
Proof.
  intros Hp. rewrite Cmod_mult, Cmod_R, Rpow_mult_distr, pow2_abs. f_equal.
  assert (0 < sqrt p)%R by (apply sqrt_lt_R0; exact Hp).
  unfold Rdiv. rewrite Rmult_1_l, pow_inv. f_equal. apply pow2_sqrt. lra.
Qed.

Lemma born_full n qs m v : born n qs m 0 v =
  rsum (fun i => if shows qs m (dec n i) then (Cmod (nth i v (RtoC 0)) ^ 2)%R else 0%R) (seq 0 (2 ^ n)).
Proof.
  apply rsum_ext. intros i _. unfold amp_off. cbn [Nat.ltb Nat.leb n0 CN]. rewrite Nat.sub_0_r. reflexivity.
Qed.

Lemma measure_state_born n qs m v out : in_range n qs -> NoDup qs ->
  length v = 2 ^ n -> length out = 2 ^ n -> (0 < born n qs m 0 v)%R ->
  exists w, measure_state n qs (m, born n qs m 0 v) v out 0 0 = Ok w /\ length w = 2 ^ n /\
    prob_magnitude w = 1%R /\ measure_prob n m qs w 0 = Ok 1%R /\
    forall m', m' < 2 ^ length qs -> m < 2 ^ length qs -> m' <> m -> measure_prob n m' qs w 0 = Ok 0%R.
Proof.
  intros Hr Hn Hv Ho Hp.
  destruct (measure_state_full n qs m (born n qs m 0 v) v out) as (w & E & L & H); try assumption; [lra|].
  exists w. split; [exact E|]. split; [exact L|].
  set (p := born n qs m 0 v) in *.
  assert (S : rsum (fun i => if shows qs m (dec n i) then (Cmod (nth i w (RtoC 0)) ^ 2)%R else 0%R) (seq 0 (2 ^ n)) = 1%R).
  { rewrite (rsum_ext _ (fun i => (/ p * (if shows qs m (dec n i) then (Cmod (nth i v (RtoC 0)) ^ 2)%R else 0%R))%R)).
    - rewrite rsum_mul, <- born_full. fold p. field. lra.
    - intros i Hi. apply in_seq in Hi. rewrite H by lia. destruct (shows qs m (dec n i)); [|ring].
      rewrite Cmod_scale_sq by exact Hp. ring. }
  split; [|split].
  - rewrite prob_magnitude_ok, <- (rsum_seq_nth w (fun a => (Cmod a ^ 2)%R)), L, <- S.
    apply rsum_ext. intros i Hi. apply in_seq in Hi. rewrite H by lia. destruct (shows qs m (dec n i)); [reflexivity|].
    rewrite Cmod_0. ring.
  - rewrite measure_prob_ok, born_full, S by assumption. reflexivity.
  - intros m' Hm' Hm Hne. rewrite measure_prob_ok, born_full by assumption. f_equal. apply rsum_zero.
    intros i Hi. apply in_seq in Hi. destruct (shows qs m' (dec n i)) eqn:E'; [|reflexivity].
    rewrite H by lia. destruct (shows qs m (dec n i)) eqn:E''; [|rewrite Cmod_0; ring].
    exfalso. apply Hne. apply shows_mbits in E', E''. apply (mbits_inj (length qs)); [assumption..|congruence].
Qed.

(** ** Sampling *)
Lemma cum_0 v : cum v 0 = 0%R.
Proof. reflexivity. Qed.
Lemma cum_S v i : i < length v -> cum v (S i) = (cum v i + Cmod (nth i v (RtoC 0)) ^ 2)%R.
Proof.
  revert i. induction v as [|a v IH]; intros [|i] H; cbn [length] in H; try lia.
  - unfold cum. cbn [firstn rsum nth]. ring.
  - assert (E := IH i ltac:(lia)). unfold cum in *. cbn [firstn rsum nth] in *. rewrite E. ring.
Qed.
Lemma cum_mono v i j : i <= j -> (cum v i <= cum v j)%R.
Proof.
  intros H. induction H as [|j H IH]; [lra|]. destruct (Nat.lt_ge_cases j (length v)) as [A|A].
  - rewrite cum_S by exact A. assert (0 <= Cmod (nth j v (RtoC 0)) ^ 2)%R by apply pow2_ge_0. lra.
  - unfold cum in *. rewrite (firstn_all2 (n := S j)) by lia. rewrite (firstn_all2 (n := j)) in IH by lia. exact IH.
Qed.
Lemma cum_all v : cum v (length v) = prob_magnitude v.
Proof. unfold cum. rewrite firstn_all, prob_magnitude_ok. reflexivity. Qed.

Lemma soft_scan_hit v : forall r i off j, j < length v ->
  (cum v j < r <= cum v (S j))%R -> soft_scan r i v off = i + j + off.
Proof.
  induction v as [|a v IH]; intros r i off j Hj Hr; cbn [length] in Hj; [lia|]. cbn [soft_scan].
  assert (Ha := norm_sqr_Cmod a).
  destruct j as [|j].
  - assert (E : cum (a :: v) 1 = (Cmod a ^ 2 + 0)%R) by reflexivity. rewrite E in Hr.
    destruct (Rle_dec (r - norm_sqr a) 0) as [_|Hn]; [lia|]. rewrite Ha in Hn. lra.
  - assert (E1 : forall k, cum (a :: v) (S k) = (Cmod a ^ 2 + cum v k)%R) by reflexivity.
    rewrite !E1 in Hr. assert (0 <= cum v j)%R by (rewrite <- (cum_0 v); apply cum_mono; lia).
    destruct (Rle_dec (r - norm_sqr a) 0) as [Hy|_]; [rewrite Ha in Hy; lra|].
    rewrite (IH _ _ _ j) by (try lia; rewrite Ha; lra). lia.
Qed.
Lemma soft_scan_over v : forall r i off, (0 < r)%R -> (prob_magnitude v < r)%R -> soft_scan r i v off = 0.
Proof.
  induction v as [|a v IH]; intros r i off H0 H; [reflexivity|]. cbn [soft_scan].
  assert (E : prob_magnitude (a :: v) = (norm_sqr a + prob_magnitude v)%R)
    by (unfold prob_magnitude; rewrite !rsum_nsum; reflexivity).
  assert (0 <= prob_magnitude v)%R by (rewrite prob_magnitude_ok; apply rsum_nonneg; intros; apply pow2_ge_0).
  rewrite E in H. destruct (Rle_dec (r - norm_sqr a) 0); [lra|]. apply IH; lra.
Qed.
Lemma hit_exists v r : (0 < r <= prob_magnitude v)%R -> exists j, j < length v /\ (cum v j < r <= cum v (S j))%R.
Proof.
  intros [H0 H]. rewrite <- cum_all in H.
  assert (G : forall k, (r <= cum v k)%R -> k <= length v -> exists j, j < length v /\ (cum v j < r <= cum v (S j))%R).
  { induction k as [|k IH]; intros Hk Hl; [rewrite cum_0 in Hk; lra|].
    destruct (Rle_lt_dec r (cum v k)) as [A|A]; [apply IH; [exact A|lia]|]. exists k. split; [lia|]. lra. }
  apply (G (length v)); [exact H|lia].
Qed.
Lemma hit_unique v r j k : j < length v -> k < length v ->
  (cum v j < r <= cum v (S j))%R -> (cum v k < r <= cum v (S k))%R -> j = k.
Proof.
  intros Hj Hk A B. destruct (Nat.lt_trichotomy j k) as [L|[L|L]]; [|exact L|].
  - assert (cum v (S j) <= cum v k)%R by (apply cum_mono; lia). lra.
  - assert (cum v (S k) <= cum v j)%R by (apply cum_mono; lia). lra.
Qed.

(** The effective draw. *)
Definition draw (random : R) (n : nat) (v : list C) : R :=
  (random * (if length v <? 2 ^ n then prob_magnitude v else 1))%R.

(** Bits of index [i] read off at the measured qubits. *)
Definition outcome_of (n : nat) (qs : list nat) (i : nat) : nat := le (map (dec n i) qs).
Lemma outcome_shows n qs i m : m < 2 ^ length qs -> (outcome_of n qs i =? m) = shows qs m (dec n i).
Proof.
  intros Hm. unfold outcome_of.
  assert (L := mbits_le (map (dec n i) qs)). rewrite map_length in L.
  assert (L2 := le_lt (map (dec n i) qs)). rewrite map_length in L2.
  destruct (shows qs m (dec n i)) eqn:E.
  - apply shows_mbits in E. apply Nat.eqb_eq. apply (mbits_inj (length qs)); try assumption. congruence.
  - apply Nat.eqb_neq. intros H. subst m. symmetry in L. apply shows_mbits in L. congruence.
Qed.
Lemma outcome_lt n qs i : outcome_of n qs i < 2 ^ length qs.
Proof. unfold outcome_of. assert (L2 := le_lt (map (dec n i) qs)). rewrite map_length in L2. exact L2. Qed.

Lemma soft_measure_scan random n qs v off : in_range n qs ->
  soft_measure random n qs v off = Ok (outcome_of n qs (soft_scan (draw random n v) 0 v off)).
Proof.
  intros Hr. unfold soft_measure. fold (draw random n v).
  rewrite (mapM_ok _ (fun q => n - 1 - q)).
  - cbn [bind]. f_equal. apply Nat.bits_inj. intros j. rewrite extract_bits_testbit, map_length.
    unfold outcome_of. rewrite testbit_le. destruct (Nat.ltb_spec j (length qs)) as [Hj|Hj]; cbn [andb].
    + rewrite (nth_map_lt _ _ _ _ 0) by exact Hj. rewrite (nth_map_lt _ _ _ _ 0) by exact Hj.
      unfold dec. assert (nth j qs 0 < n) by (apply Hr, nth_In; exact Hj).
      destruct (Nat.ltb_spec (nth j qs 0) n); [reflexivity|lia].
    + symmetry. apply nth_default. rewrite map_length. exact Hj.
  - intros q Hq. assert (q < n) by auto. rewrite chk_sub_ok by lia. cbn [bind]. apply chk_sub_ok. lia.
Qed.

(** The probability of each outcome, as the measure of the set of draws that give it. *)
Definition indicator (o : res nat) (m : nat) : R :=
  match o with Ok m' => if m' =? m then 1%R else 0%R | _ => 0%R end.

Lemma RInt_steps (v : list C) (g : R -> R) (h : nat -> R) k : k <= length v ->
  (forall j r, j < k -> (cum v j < r <= cum v (S j))%R -> g r = h j) ->
  is_RInt g 0 (cum v k) (rsum (fun j => (Cmod (nth j v (RtoC 0)) ^ 2 * h j)%R) (seq 0 k)).
Proof.
  induction k as [|k IH]; intros Hk Hg.
  - rewrite cum_0. cbn. apply (is_RInt_point g 0).
  - rewrite seq_S, rsum_app. cbn [rsum Nat.add]. rewrite Rplus_0_r.
    apply (is_RInt_Chasles g 0 (cum v k) (cum v (S k))).
    + apply IH; [lia|]. intros j r Hj Hr. apply Hg; [lia|exact Hr].
    + apply is_RInt_ext with (f := fun _ => h k).
      * intros r Hr. rewrite Rmin_left, Rmax_right in Hr by (apply cum_mono; lia). symmetry. apply Hg; [lia|lra].
      * assert (E : (Cmod (nth k v (RtoC 0)) ^ 2 * h k = scal (cum v (S k) - cum v k) (h k))%R).
        { rewrite cum_S by lia. unfold scal. cbn. unfold mult. cbn. ring. }
        rewrite E. apply (is_RInt_const (cum v k) (cum v (S k)) (h k)).
Qed.

Lemma born_chunk n qs m off v : off + length v <= 2 ^ n ->
  born n qs m off v = rsum (fun j => if shows qs m (dec n (j + off)) then (Cmod (nth j v (RtoC 0)) ^ 2)%R else 0%R) (seq 0 (length v)).
Proof.
  intros H. unfold born. replace (2 ^ n) with (off + (length v + (2 ^ n - off - length v))) by lia.
  rewrite !seq_app, !rsum_app. cbn [Nat.add].
  rewrite rsum_zero, (rsum_zero _ (seq (off + length v) _)).
  - rewrite Rplus_0_l, Rplus_0_r. replace (seq off (length v)) with (map (Nat.add off) (seq 0 (length v))) by (rewrite <- seq_shift_add, Nat.add_0_r; reflexivity). rewrite rsum_map.
    apply rsum_ext. intros j Hj. apply in_seq in Hj. rewrite Nat.add_comm.
    unfold amp_off. destruct (Nat.ltb_spec (j + off) off); [lia|]. replace (j + off - off) with j by lia. reflexivity.
  - intros i Hi. apply in_seq in Hi. unfold amp_off. destruct (Nat.ltb_spec i off); [lia|].
    rewrite nth_default by lia. cbn [n0 CN]. rewrite Cmod_0. destruct (shows _ _ _); ring.
  - intros i Hi. apply in_seq in Hi. unfold amp_off. destruct (Nat.ltb_spec i off); [|lia].
    cbn [n0 CN]. rewrite Cmod_0. destruct (shows _ _ _); ring.
Qed.

Lemma scan_integral n qs m v off : in_range n qs -> m < 2 ^ length qs -> off + length v <= 2 ^ n ->
  is_RInt (fun r => if outcome_of n qs (soft_scan r 0 v off) =? m then 1%R else 0%R) 0 (prob_magnitude v)
    (born n qs m off v).
Proof.
  intros Hr Hm Ho. rewrite <- cum_all, born_chunk by exact Ho.
  rewrite (rsum_ext _ (fun j => (Cmod (nth j v (RtoC 0)) ^ 2 * (if shows qs m (dec n (j + off)) then 1 else 0))%R)).
  - apply (RInt_steps v _ (fun j => if shows qs m (dec n (j + off)) then 1%R else 0%R)); [lia|].
    intros j r Hj Hh. rewrite (soft_scan_hit v r 0 off j Hj Hh). cbn [Nat.add].
    rewrite outcome_shows by exact Hm. reflexivity.
  - intros j _. destruct (shows _ _ _); ring.
Qed.

(** Full normalised states. *)
Lemma soft_measure_born n qs m v : in_range n qs -> m < 2 ^ length qs -> length v = 2 ^ n -> prob_magnitude v = 1%R ->
  is_RInt (fun random => indicator (soft_measure random n qs v 0) m) 0 1 (born n qs m 0 v).
Proof.
  intros Hr Hm Hv H1. assert (G := scan_integral n qs m v 0 Hr Hm ltac:(lia)). rewrite H1 in G.
  apply is_RInt_ext with (2 := G). intros r _. rewrite soft_measure_scan by exact Hr.
  unfold draw. rewrite Hv, Nat.ltb_irrefl, Rmult_1_r. reflexivity.
Qed.

(** A chunk: conditional distribution. *)
Lemma soft_measure_born_chunk n qs m v off : in_range n qs -> m < 2 ^ length qs ->
  off + length v <= 2 ^ n -> length v < 2 ^ n -> (0 < prob_magnitude v)%R ->
  is_RInt (fun random => indicator (soft_measure random n qs v off) m) 0 1 (born n qs m off v / prob_magnitude v)%R.
Proof.
  intros Hr Hm Ho Hl HT. assert (G := scan_integral n qs m v off Hr Hm Ho).
  set (T := prob_magnitude v) in *.
  set (g := fun r => if outcome_of n qs (soft_scan r 0 v off) =? m then 1%R else 0%R) in *.
  assert (G2 : is_RInt g (T * 0 + 0) (T * 1 + 0) (born n qs m off v)).
  { replace (T * 0 + 0)%R with 0%R by ring. replace (T * 1 + 0)%R with T by ring. exact G. }
  apply is_RInt_comp_lin in G2. apply (is_RInt_scal _ _ _ (/ T)) in G2.
  replace (born n qs m off v / T)%R with (scal (/ T) (born n qs m off v)).
  - apply is_RInt_ext with (2 := G2). intros r _. rewrite soft_measure_scan by exact Hr.
    unfold indicator, draw. destruct (Nat.ltb_spec (length v) (2 ^ n)); [|lia]. fold T.
    rewrite Rplus_0_r. unfold g, scal. cbn. unfold mult. cbn.
    rewrite (Rmult_comm r T). field_simplify; [reflexivity|lra].
  - unfold scal. cbn. unfold mult. cbn. unfold Rdiv. ring.
Qed.

(** Which basis state a draw selects. *)
Lemma soft_measure_selects random n qs v j : in_range n qs -> length v = 2 ^ n -> j < length v ->
  (cum v j < random <= cum v (S j))%R ->
  exists m, soft_measure random n qs v 0 = Ok m /\ m < 2 ^ length qs /\ shows qs m (dec n j) = true.
Proof.
  intros Hr Hv Hj Hh. exists (outcome_of n qs j).
  rewrite soft_measure_scan by exact Hr. unfold draw. rewrite Hv, Nat.ltb_irrefl, Rmult_1_r.
  rewrite (soft_scan_hit v random 0 0 j Hj Hh), Nat.add_0_r. split; [reflexivity|].
  split; [apply outcome_lt|]. rewrite <- outcome_shows by apply outcome_lt. apply Nat.eqb_refl.
Qed.

(** A positive draw never gives an impossible outcome. *)
Lemma soft_measure_possible random n qs v : in_range n qs -> NoDup qs -> length v = 2 ^ n -> prob_magnitude v = 1%R ->
  (0 < random <= 1)%R ->
  exists m p, soft_measure random n qs v 0 = Ok m /\ m < 2 ^ length qs /\ measure_prob n m qs v 0 = Ok p /\ (0 < p)%R.
Proof.
  intros Hr Hn Hv H1 Hd. assert (Hd' : draw random n v = random) by (unfold draw; rewrite Hv, Nat.ltb_irrefl; ring).
  destruct (hit_exists v random) as (j & Hj & Hh); [lra|].
  exists (outcome_of n qs j), (born n qs (outcome_of n qs j) 0 v).
  rewrite soft_measure_scan, Hd' by exact Hr. rewrite (soft_scan_hit v random 0 0 j Hj Hh).
  rewrite Nat.add_0_r. cbn [Nat.add]. split; [reflexivity|]. split; [apply outcome_lt|].
  split; [apply measure_prob_ok; assumption|]. rewrite born_full.
  apply (rsum_pos _ _ j).
  - intros i _. destruct (shows _ _ _); [apply pow2_ge_0|lra].
  - apply in_seq. lia.
  - rewrite <- outcome_shows by apply outcome_lt. rewrite Nat.eqb_refl.
    rewrite cum_S in Hh by exact Hj. lra.
Qed.

(** The whole [measure] call. *)
Lemma measure_ok random n qs v out : in_range n qs -> NoDup qs -> length v = 2 ^ n -> length out = 2 ^ n ->
  prob_magnitude v = 1%R -> (0 < random <= 1)%R ->
  exists m p w, measure random n qs v out None None = Ok ((m, p), w) /\
    soft_measure random n qs v 0 = Ok m /\ m < 2 ^ length qs /\ p = born n qs m 0 v /\ (0 < p)%R /\ length w = 2 ^ n /\
    prob_magnitude w = 1%R /\ measure_prob n m qs w 0 = Ok 1%R /\
    forall i, i < 2 ^ n -> nth i w (RtoC 0) =
      if shows qs m (dec n i) then Cmult (nth i v (RtoC 0)) (RtoC (1 / sqrt p)) else RtoC 0.
Proof.
  intros Hr Hn Hv Ho H1 Hd.
  destruct (soft_measure_possible random n qs v) as (m & p & E1 & Hm & E2 & Hp); try assumption.
  rewrite measure_prob_ok in E2 by assumption. inversion E2 as [E2']. subst p.
  destruct (measure_state_born n qs m v out) as (w & E & L & P1 & P2 & _); try assumption.
  exists m, (born n qs m 0 v), w. unfold measure. rewrite E1. cbn [bind].
  rewrite measure_prob_ok by assumption. cbn [bind]. rewrite E. cbn [bind].
  repeat split; try assumption.
  destruct (measure_state_full n qs m (born n qs m 0 v) v out) as (w' & E' & _ & H); try assumption; [lra|].
  rewrite E in E'. inversion E'. subst w'. exact H.
Qed.

(** A forced outcome. *)
Lemma measure_forced random n qs v out m : in_range n qs -> NoDup qs -> length v = 2 ^ n -> length out = 2 ^ n ->
  (0 < born n qs m 0 v)%R ->
  exists w, measure random n qs v out None (Some (m, None)) = Ok ((m, born n qs m 0 v), w) /\ length w = 2 ^ n /\
    prob_magnitude w = 1%R /\ measure_prob n m qs w 0 = Ok 1%R.
Proof.
  intros Hr Hn Hv Ho Hp. destruct (measure_state_born n qs m v out) as (w & E & L & P1 & P2 & _); try assumption.
  exists w. unfold measure. cbn [bind]. rewrite measure_prob_ok by assumption. cbn [bind]. rewrite E. cbn. auto.
Qed.

(** Draw 0 on |1>: outcome 0, which has probability 0. *)
Lemma soft_measure_zero_draw :
  soft_measure 0 1 [0] [RtoC 0; RtoC 1] 0 = Ok 0 /\ prob_magnitude [RtoC 0; RtoC 1] = 1%R /\
  measure_prob 1 0 [0] [RtoC 0; RtoC 1] 0 = Ok 0%R.
Proof.
  assert (Hr : in_range 1 [0]) by (intros q [<-|[]]; lia).
  split; [|split].
  - rewrite soft_measure_scan by exact Hr. unfold draw. cbn [length soft_scan]. rewrite Rmult_0_l.
    unfold norm_sqr. cbn [RtoC fst snd]. destruct (Rle_dec _ 0); [reflexivity|lra].
  - rewrite prob_magnitude_ok. cbn [rsum]. rewrite Cmod_0, Cmod_1. ring.
  - rewrite measure_prob_ok; [|exact Hr|repeat constructor; cbn; tauto]. f_equal. rewrite born_full.
    cbn [Nat.pow Nat.mul Nat.add seq rsum nth]. change (shows [0] 0 (dec 1 0)) with true. change (shows [0] 0 (dec 1 1)) with false. cbv iota. rewrite Cmod_0. ring.
Qed.
