From Coq Require Import Permutation.
From Verif Require Import Base BuilderModel RegSpec RegProofs.

Lemma map_nth_seq (r : list nat) : map (fun i => nth i r 0) (seq 0 (length r)) = r.
Proof.
  apply nth_ext with (d := 0) (d' := 0); rewrite map_length, seq_length; [reflexivity|].
  intros n Hn. rewrite nth_indep with (d' := nth 0 r 0) by (rewrite map_length, seq_length; exact Hn).
  rewrite (map_nth (fun i => nth i r 0)). rewrite seq_nth by exact Hn. reflexivity.
Qed.

Lemma filter_map_comm {A B} (f : A -> B) (p : B -> bool) l : filter p (map f l) = map f (filter (fun a => p (f a)) l).
Proof. induction l as [|a l IH]; [reflexivity|]. cbn. destruct (p (f a)); cbn; rewrite IH; reflexivity. Qed.

Lemma without_positions r is : NoDup r -> (forall i, In i is -> i < length r) ->
  without (at_positions r is) r = other_positions r is.
Proof.
  intros ND R. unfold without, other_positions.
  transitivity (filter (fun q => negb (existsb (Nat.eqb q) (at_positions r is))) (map (fun i => nth i r 0) (seq 0 (length r)))).
  { rewrite map_nth_seq. reflexivity. }
  rewrite filter_map_comm. unfold at_positions. f_equal. apply filter_ext_in. intros i Hi. f_equal.
  apply in_seq in Hi. apply Bool.eq_iff_eq_true. rewrite !existsb_eqb_In, in_map_iff. split.
  - intros (j & E & Hj). apply R in Hj as Hj'. rewrite NoDup_nth with (d := 0) in ND.
    rewrite <- (ND j i) by (try lia; exact E). exact Hj.
  - intros H. exists i. auto.
Qed.

Lemma split_rel_positions r is : NoDup r -> is <> [] -> (forall i, In i is -> i < length r) ->
  split_rel r is = Ok (if other_positions r is then Selected (at_positions r is)
                       else Split (at_positions r is) (other_positions r is)).
Proof.
  intros ND Hi R. assert (r <> []). { destruct is as [|i ?]; [congruence|]. destruct r; [|congruence]. specialize (R i (or_introl eq_refl)). cbn in R. lia. }
  rewrite split_rel_ok by assumption. cbn zeta. fold (at_positions r is).
  rewrite without_positions by assumption. destruct is as [|i is]; [congruence|].
  cbn [at_positions map]. destruct (other_positions r (i :: is)); reflexivity.
Qed.

Lemma positions_perm r is : NoDup r -> NoDup is -> (forall i, In i is -> i < length r) ->
  Permutation (at_positions r is ++ other_positions r is) r.
Proof. intros. rewrite <- without_positions by assumption. apply select_without_perm; assumption. Qed.

Lemma split_merge_id r : NoDup r -> r <> [] ->
  exists rs, split_all r = Ok rs /\ merge_registers rs = Ok (Some r) /\ rs = map (fun q => [q]) r.
Proof.
  intros ND Hr. exists (singles r). rewrite split_all_ok, merge_singles by assumption.
  repeat split. destruct r; [congruence|reflexivity].
Qed.

Lemma split_rel_merge r is r1 r2 : split_rel r is = Ok (Split r1 r2) -> merge2 r1 r2 = Ok (r1 ++ r2).
Proof.
  intros H. apply merge2_ok. intros ->. unfold split_rel in H. destruct (select r is) as [sel| |]; cbn [bind] in H; try discriminate.
  destruct sel; cbn in H; destruct (new_reg _); discriminate.
Qed.

Lemma select_ignores r is : (forall i, In i is -> i <> length r) ->
  select r is = select r (filter (fun i => i <? length r) is).
Proof.
  induction is as [|i is IH]; intros H; [reflexivity|]. cbn [select filter].
  assert (Hi := H i (or_introl eq_refl)). rewrite IH by (intros j Hj; apply H; right; exact Hj).
  destruct (Nat.leb_spec i (length r)); destruct (Nat.ltb_spec i (length r)); try lia; [|reflexivity].
  cbn [select]. destruct (Nat.leb_spec i (length r)); [reflexivity|lia].
Qed.
Lemma split_rel_ignores r is : (forall i, In i is -> i <> length r) ->
  split_rel r is = split_rel r (filter (fun i => i <? length r) is).
Proof. intros H. unfold split_rel. rewrite select_ignores by exact H. reflexivity. Qed.

Lemma idx_panic {A} (l : list A) i : length l <= i -> idx l i = Panic PIndex.
Proof. intros H. unfold idx. rewrite (proj2 (nth_error_None l i)) by exact H. reflexivity. Qed.

Lemma select_len_panics r is : In (length r) is -> select r is = Panic PIndex.
Proof.
  induction is as [|i is IH]; intros H; [destruct H|]. cbn [select].
  destruct (Nat.eq_dec i (length r)) as [->|Ne].
  - rewrite Nat.leb_refl. rewrite idx_panic by lia. reflexivity.
  - destruct H as [H|H]; [congruence|]. destruct (Nat.leb_spec i (length r)).
    + rewrite (@idx_ok _ r i 0) by lia. cbn [bind]. rewrite IH by exact H. reflexivity.
    + apply IH. exact H.
Qed.
Lemma split_rel_len_panics r is : In (length r) is -> split_rel r is = Panic PIndex.
Proof. intros H. unfold split_rel. rewrite select_len_panics by exact H. reflexivity. Qed.

Lemma split_abs_char r is : split_abs r is = split_rel r (filter (fun a => existsb (Nat.eqb a) r) is).
Proof.
  unfold split_abs. f_equal. induction is as [|a is IH]; [reflexivity|]. cbn [map concat filter]. rewrite IH.
  destruct (find _ r) as [i|] eqn:E.
  - apply find_some in E. destruct E as (Hi & E). apply Nat.eqb_eq in E. subst.
    assert (X : existsb (Nat.eqb a) r = true) by (apply existsb_eqb_In; exact Hi). rewrite X. reflexivity.
  - assert (X : existsb (Nat.eqb a) r = false).
    { apply Bool.not_true_iff_false. rewrite existsb_eqb_In. intros Hi. apply (find_none _ _ E) in Hi.
      rewrite Nat.eqb_refl in Hi. discriminate. }
    rewrite X. reflexivity.
Qed.

(** Right on a builder's first register, where index and position coincide. *)
Lemma split_abs_first n is : NoDup is -> is <> [] -> (forall i, In i is -> i < n) ->
  split_abs (seq 0 n) is = Ok (if without is (seq 0 n) then Selected is else Split is (without is (seq 0 n))).
Proof.
  intros ND Hne R. rewrite split_abs_char. rewrite filter_all_true.
  2:{ intros a Ha. apply existsb_eqb_In. apply in_seq. apply R in Ha. lia. }
  assert (Hm : map (fun i => nth i (seq 0 n) 0) is = is).
  { rewrite <- (map_id is) at 2. apply map_ext_in. intros a Ha. apply seq_nth. apply R. exact Ha. }
  rewrite split_rel_ok.
  - cbn zeta. rewrite Hm. destruct is; [congruence|]. destruct (without _ _); reflexivity.
  - destruct is as [|i ?]; [congruence|]. specialize (R i (or_introl eq_refl)). destruct n; [lia|]. cbn. congruence.
  - intros i Hi. rewrite seq_length. apply R. exact Hi.
Qed.

Lemma groups_positions r gs : NoDup r -> r <> [] -> NoDup (concat gs) ->
  (forall i, In i (concat gs) -> i < length r) -> (forall g, In g gs -> g <> []) ->
  split_groups r gs = Ok (if other_positions r (concat gs) then AllSelected (map (at_positions r) gs)
                          else Remaining (map (at_positions r) gs) (other_positions r (concat gs))).
Proof.
  intros. rewrite split_groups_ok by assumption. unfold leftover, other_positions, at_positions.
  destruct (map _ _); reflexivity.
Qed.
