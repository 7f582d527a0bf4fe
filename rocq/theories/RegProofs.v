(** Registers: splitting and merging. *)
From Coq Require Import Permutation.
From Verif Require Import Base BuilderModel.
Local Open Scope nat_scope.
Local Open Scope res_scope.

Lemma existsb_eqb_In a l : existsb (Nat.eqb a) l = true <-> In a l.
Proof.
  rewrite existsb_exists. split.
  - intros (x & Hx & E). apply Nat.eqb_eq in E. subst. exact Hx.
  - intros H. exists a. split; [exact H|apply Nat.eqb_refl].
Qed.
Lemma existsb_eqb_false a l : existsb (Nat.eqb a) l = false <-> ~ In a l.
Proof. rewrite <- existsb_eqb_In. destruct (existsb _ _); split; congruence. Qed.

Definition without (l r : list nat) : list nat := filter (fun q => negb (existsb (Nat.eqb q) l)) r.

Lemma In_without l r q : In q (without l r) <-> In q r /\ ~ In q l.
Proof. unfold without. rewrite filter_In, negb_true_iff, existsb_eqb_false. tauto. Qed.

Lemma without_nil r : without [] r = r.
Proof. unfold without. induction r as [|a r IH]; cbn; [reflexivity|]. f_equal. exact IH. Qed.

Lemma filter_all_true {A} (f : A -> bool) l : (forall a, In a l -> f a = true) -> filter f l = l.
Proof. induction l as [|a l IH]; cbn; intros H; [reflexivity|]. rewrite (H a), IH; auto. Qed.
Lemma filter_all_false {A} (f : A -> bool) l : (forall a, In a l -> f a = false) -> filter f l = [].
Proof. induction l as [|a l IH]; cbn; intros H; [reflexivity|]. rewrite (H a), IH; auto. Qed.

Lemma without_disj l r : (forall q, In q r -> ~ In q l) -> without l r = r.
Proof. intros H. apply filter_all_true. intros a Ha. rewrite negb_true_iff, existsb_eqb_false. auto. Qed.
Lemma without_incl l r : (forall q, In q r -> In q l) -> without l r = [].
Proof. intros H. apply filter_all_false. intros a Ha. rewrite negb_false_iff, existsb_eqb_In. auto. Qed.
Lemma without_app l r1 r2 : without l (r1 ++ r2) = without l r1 ++ without l r2.
Proof. unfold without. apply filter_app. Qed.
Lemma NoDup_without l r : NoDup r -> NoDup (without l r).
Proof. apply NoDup_filter. Qed.

Lemma select_ok r is : (forall i, In i is -> i < length r) ->
  select r is = Ok (map (fun i => nth i r 0) is).
Proof.
  induction is as [|i is IH]; cbn [select map]; intros H; [reflexivity|].
  assert (Hi : i < length r) by (apply H; left; reflexivity).
  destruct (Nat.leb_spec i (length r)); [|lia].
  rewrite (@idx_ok _ r i 0) by exact Hi. cbn [bind]. rewrite IH by (intros; apply H; right; auto). reflexivity.
Qed.

(** [split_rel] when the selection succeeds. *)
Lemma split_rel_sel r is sel : r <> [] -> select r is = Ok sel ->
  split_rel r is = Ok (match sel with
                       | [] => Unselected r
                       | _ => match without sel r with [] => Selected sel | r2 => Split sel r2 end
                       end).
Proof.
  intros Hr Hs. unfold split_rel. rewrite Hs. cbn [bind].
  destruct sel as [|q sel]; cbn [new_reg].
  - rewrite filter_all_true by auto. destruct r; [congruence|reflexivity].
  - change (filter _ r) with (without (q :: sel) r). destruct (without (q :: sel) r); reflexivity.
Qed.

Lemma split_rel_ok r is : r <> [] -> (forall i, In i is -> i < length r) ->
  let sel := map (fun i => nth i r 0) is in
  split_rel r is = Ok (match sel with
                       | [] => Unselected r
                       | _ => match without sel r with [] => Selected sel | r2 => Split sel r2 end
                       end).
Proof. intros Hr H sel. apply split_rel_sel; [exact Hr|]. apply select_ok. exact H. Qed.

Lemma split_rel_prefix a b : NoDup (a ++ b) -> a <> [] -> b <> [] ->
  split_rel (a ++ b) (seq 0 (length a)) = Ok (Split a b).
Proof.
  intros Hn Ha Hb. apply NoDup_app_iff in Hn as (N1 & N2 & N3).
  rewrite split_rel_ok.
  2:{ destruct a; [congruence|discriminate]. }
  2:{ intros i Hi. apply in_seq in Hi. rewrite app_length. lia. }
  assert (E : map (fun i => nth i (a ++ b) 0) (seq 0 (length a)) = a).
  { rewrite <- (seq_nth_map a 0) at 2. apply map_ext_in. intros i Hi. apply in_seq in Hi. apply app_nth1. lia. }
  rewrite E. rewrite without_app.
  rewrite (without_incl a a) by auto.
  rewrite (without_disj a b) by (intros q Hq Hq'; exact (N3 q Hq' Hq)).
  destruct a; [congruence|]. destruct b; [congruence|]. reflexivity.
Qed.

Lemma split_rel_all a : NoDup a -> a <> [] ->
  split_rel a (seq 0 (length a)) = Ok (Selected a).
Proof.
  intros Hn Ha. rewrite split_rel_ok; [|exact Ha|intros i Hi; apply in_seq in Hi; lia].
  rewrite seq_nth_map. rewrite without_incl by auto. destruct a; [congruence|reflexivity].
Qed.

Lemma split_rel_head q r : NoDup (q :: r) -> r <> [] -> split_rel (q :: r) [0] = Ok (Split [q] r).
Proof. intros Hn Hr. apply (split_rel_prefix [q] r); auto. discriminate. Qed.
Lemma split_rel_single q : split_rel [q] [0] = Ok (Selected [q]).
Proof. apply (split_rel_all [q]); [|discriminate]. constructor; [tauto|constructor]. Qed.

Definition singles (r : reg) : list reg := map (fun q => [q]) r.

Lemma concat_singles r : concat (singles r) = r.
Proof. induction r as [|q r IH]; cbn; [reflexivity|]. f_equal. exact IH. Qed.
Lemma length_singles r : length (singles r) = length r.
Proof. apply map_length. Qed.

Lemma split_helper_ok r : forall fuel acc, NoDup r -> r <> [] -> length r <= fuel ->
  split_helper fuel r acc = Ok (acc ++ singles r).
Proof.
  induction r as [|q r IH]; intros fuel acc Hn Hr Hf; [congruence|].
  destruct fuel as [|fuel]; [cbn in Hf; lia|]. cbn [split_helper].
  destruct r as [|q' r].
  - rewrite split_rel_single. reflexivity.
  - rewrite split_rel_head by (auto; discriminate). cbn [bind].
    rewrite IH; [|inversion Hn; auto|discriminate|cbn in *; lia].
    rewrite <- app_assoc. reflexivity.
Qed.

Lemma split_all_ok r : NoDup r -> r <> [] -> split_all r = Ok (singles r).
Proof. intros. unfold split_all. rewrite split_helper_ok; auto. Qed.

Lemma merge2_ok a b : a <> [] -> merge2 a b = Ok (a ++ b).
Proof. intros H. unfold merge2. destruct a; [congruence|reflexivity]. Qed.

Lemma merge_fold rs : forall a, a <> [] ->
  foldM merge_step rs (Some a) = Ok (Some (a ++ concat rs)).
Proof.
  induction rs as [|r rs IH]; intros a Ha; cbn [foldM concat].
  - rewrite app_nil_r. reflexivity.
  - cbn [merge_step]. rewrite merge2_ok by exact Ha. cbn [bind].
    rewrite IH by (destruct a; [congruence|discriminate]). rewrite app_assoc. reflexivity.
Qed.

Lemma merge_registers_ok rs : (forall r, In r rs -> r <> []) ->
  merge_registers rs = Ok (new_reg (concat rs)).
Proof.
  intros H. unfold merge_registers. destruct rs as [|r rs]; [reflexivity|]. cbn [foldM merge_step bind].
  assert (Hr : r <> []) by (apply H; left; reflexivity).
  rewrite merge_fold by exact Hr. cbn [concat]. destruct r; [congruence|reflexivity].
Qed.

Lemma singles_ne r x : In x (singles r) -> x <> [].
Proof. intros H. apply in_map_iff in H as (q & <- & _). discriminate. Qed.

Lemma merge_singles r : merge_registers (singles r) = Ok (new_reg r).
Proof. rewrite merge_registers_ok by apply singles_ne. rewrite concat_singles. reflexivity. Qed.

Lemma unwrap_new_reg (r : reg) : r <> [] -> unwrap_opt (new_reg r) = Ok r.
Proof. destruct r; [congruence|reflexivity]. Qed.

Lemma split_first_ok q r : NoDup (q :: r) -> r <> [] -> split_first_qubit (q :: r) = Ok (Some [q], r).
Proof. intros. unfold split_first_qubit. rewrite split_rel_head by auto. reflexivity. Qed.

Lemma split_last_ok a q : NoDup (a ++ [q]) -> a <> [] -> split_last_qubit (a ++ [q]) = Ok (a, Some [q]).
Proof.
  intros Hn Ha. unfold split_last_qubit. rewrite app_length. cbn [length].
  rewrite chk_sub_ok by lia. replace (length a + 1 - 1) with (length a) by lia. cbn [bind].
  apply NoDup_app_iff in Hn as (N1 & N2 & N3).
  rewrite split_rel_ok.
  2:{ destruct a; [congruence|discriminate]. }
  2:{ intros i [<-|[]]. rewrite app_length. cbn. lia. }
  cbn [map]. rewrite app_nth2 by lia. rewrite Nat.sub_diag. cbn [nth].
  rewrite without_app.
  rewrite (without_disj [q] a) by (intros x Hx [<-|[]]; apply (N3 q Hx); left; reflexivity).
  rewrite (without_incl [q] [q]) by auto.
  rewrite app_nil_r. destruct a; [congruence|reflexivity].
Qed.

Lemma split_last_single q : split_last_qubit [q] = Ok ([q], None).
Proof. unfold split_last_qubit. cbn. rewrite Nat.eqb_refl. reflexivity. Qed.

(** Selection and remainder together are a permutation of the register. *)
Lemma select_without_perm r is : NoDup r -> NoDup is -> (forall i, In i is -> i < length r) ->
  Permutation (map (fun i => nth i r 0) is ++ without (map (fun i => nth i r 0) is) r) r.
Proof.
  intros Hr Hi Hlt. apply NoDup_Permutation.
  - apply NoDup_app_iff. split; [|split].
    + revert Hi Hlt. induction is as [|i is IH]; intros Hi Hlt; cbn; [constructor|].
      inversion Hi; subst. constructor.
      * intros Hin. apply in_map_iff in Hin as (j & E & Hj).
        assert (j = i).
        { apply (proj1 (NoDup_nth r 0) Hr); auto; apply Hlt; cbn; auto. }
        subst. contradiction.
      * apply IH; auto. intros; apply Hlt; right; auto.
    + apply NoDup_without. exact Hr.
    + intros q H1 H2. apply In_without in H2. tauto.
  - exact Hr.
  - intros q. rewrite in_app_iff, In_without. split.
    + intros [H|[H _]]; [|exact H]. apply in_map_iff in H as (i & <- & Hi'). apply nth_In. auto.
    + intros H. destruct (in_dec Nat.eq_dec q (map (fun i => nth i r 0) is)); tauto.
Qed.

(** ** Groups *)
Lemma take_at_ok rs i q : nth_error rs i = Some (Some q) -> take_at rs i = Ok (q, upd_nth i None rs).
Proof. intros H. unfold take_at, idx. rewrite H. reflexivity. Qed.

(** [rs] with the positions in [is] emptied. *)
Definition blanked (r : reg) (is : list nat) : list (option reg) :=
  map (fun i => if existsb (Nat.eqb i) is then None else Some [nth i r 0]) (seq 0 (length r)).

Lemma blanked_nil r : blanked r [] = map Some (singles r).
Proof.
  unfold blanked, singles. cbn [existsb]. rewrite map_map.
  transitivity (map (fun q => Some [q]) (map (fun i => nth i r 0) (seq 0 (length r)))).
  - rewrite map_map. reflexivity.
  - rewrite seq_nth_map. reflexivity.
Qed.

Lemma nth_error_blanked r is i : i < length r ->
  nth_error (blanked r is) i = Some (if existsb (Nat.eqb i) is then None else Some [nth i r 0]).
Proof.
  intros H. unfold blanked. rewrite nth_error_map.
  rewrite (nth_error_nth' (seq 0 (length r)) 0) by (rewrite seq_length; exact H).
  rewrite seq_nth by exact H. reflexivity.
Qed.
Lemma length_blanked r is : length (blanked r is) = length r.
Proof. unfold blanked. rewrite map_length, seq_length. reflexivity. Qed.

Lemma nth_error_ext_eq {A} (l1 l2 : list A) : (forall i, nth_error l1 i = nth_error l2 i) -> l1 = l2.
Proof.
  revert l2. induction l1 as [|a l1 IH]; intros [|b l2] H; [reflexivity| | |].
  - specialize (H 0). discriminate.
  - specialize (H 0). discriminate.
  - pose proof (H 0) as H0. cbn in H0. inversion H0. f_equal. apply IH. intros i. exact (H (S i)).
Qed.

Lemma upd_blanked r is i : i < length r -> upd_nth i None (blanked r is) = blanked r (is ++ [i]).
Proof.
  intros Hi. apply nth_error_ext_eq. intros j. rewrite nth_error_upd_nth, length_blanked.
  destruct (Nat.ltb_spec i (length r)); [|lia].
  destruct (Nat.ltb_spec j (length r)) as [Hj|Hj].
  - rewrite !nth_error_blanked by exact Hj. rewrite existsb_app. cbn. rewrite andb_true_r, orb_false_r.
    destruct (j =? i); [rewrite orb_true_r; reflexivity|]. rewrite orb_false_r. reflexivity.
  - assert (E : nth_error (blanked r (is ++ [i])) j = None) by (apply nth_error_None; rewrite length_blanked; lia).
    rewrite E. destruct (Nat.eqb_spec j i); [lia|]. cbn. apply nth_error_None. rewrite length_blanked. lia.
Qed.

Lemma take_all_ok r : forall is done, NoDup (done ++ is) -> (forall i, In i is -> i < length r) ->
  take_all (blanked r done) is = Ok (map (fun i => [nth i r 0]) is, blanked r (done ++ is)).
Proof.
  induction is as [|i is IH]; intros done Hn Hlt; cbn [take_all map].
  - rewrite app_nil_r. reflexivity.
  - assert (Hi : i < length r) by (apply Hlt; left; reflexivity).
    assert (Hnd : existsb (Nat.eqb i) done = false).
    { apply existsb_eqb_false. intros H. apply NoDup_remove_2 in Hn. apply Hn. apply in_app_iff. auto. }
    rewrite (take_at_ok _ _ [nth i r 0]).
    2:{ rewrite nth_error_blanked by exact Hi. rewrite Hnd. reflexivity. }
    cbn [bind]. rewrite upd_blanked by exact Hi. rewrite IH.
    + cbn [bind]. rewrite <- app_assoc. reflexivity.
    + rewrite <- app_assoc. exact Hn.
    + intros; apply Hlt; right; auto.
Qed.

Lemma groups_ok r : forall gs done sel,
  NoDup (done ++ concat gs) -> (forall i, In i (concat gs) -> i < length r) ->
  (forall g, In g gs -> g <> []) ->
  foldM group_step gs (sel, blanked r done) =
  Ok (sel ++ map (map (fun i => nth i r 0)) gs, blanked r (done ++ concat gs)).
Proof.
  induction gs as [|g gs IH]; intros done sel Hn Hlt Hne; cbn [foldM concat map].
  - rewrite !app_nil_r. reflexivity.
  - cbn [concat] in *. cbn [group_step]. rewrite take_all_ok.
    2:{ rewrite app_assoc in Hn. apply NoDup_app_iff in Hn. tauto. }
    2:{ intros; apply Hlt; apply in_app_iff; auto. }
    cbn [bind]. rewrite merge_registers_ok.
    2:{ intros x Hx. apply in_map_iff in Hx as (i & <- & _). discriminate. }
    assert (E : concat (map (fun i => [nth i r 0]) g) = map (fun i => nth i r 0) g).
    { clear. induction g as [|i g IH]; cbn; [reflexivity|]. f_equal. exact IH. }
    rewrite E. cbn [bind].
    assert (Hg : g <> []) by (apply Hne; left; reflexivity).
    destruct (map (fun i => nth i r 0) g) as [|q0 g0] eqn:Eg.
    { destruct g; [congruence|discriminate]. }
    cbn [new_reg]. rewrite IH.
    + rewrite <- !app_assoc. reflexivity.
    + rewrite <- app_assoc. exact Hn.
    + intros; apply Hlt; apply in_app_iff; auto.
    + intros; apply Hne; right; auto.
Qed.

Lemma somes_blanked r is : concat (somes (blanked r is)) =
  map (fun i => nth i r 0) (filter (fun i => negb (existsb (Nat.eqb i) is)) (seq 0 (length r))).
Proof.
  unfold somes, blanked. rewrite map_map. induction (seq 0 (length r)) as [|i l IH]; cbn; [reflexivity|].
  destruct (existsb (Nat.eqb i) is); cbn; rewrite ?IH; reflexivity.
Qed.
Lemma somes_blanked_ne r is x : In x (somes (blanked r is)) -> x <> [].
Proof.
  unfold somes, blanked. rewrite map_map. intros H. apply in_concat in H as (l & Hl & Hx).
  apply in_map_iff in Hl as (i & <- & _). destruct (existsb (Nat.eqb i) is); cbn in Hx; [tauto|].
  destruct Hx as [<-|[]]. discriminate.
Qed.

(** The qubits of [r] at positions not in [is], in order. *)
Definition leftover (r : reg) (is : list nat) : list nat :=
  map (fun i => nth i r 0) (filter (fun i => negb (existsb (Nat.eqb i) is)) (seq 0 (length r))).

Lemma split_groups_ok r gs : NoDup r -> r <> [] -> NoDup (concat gs) ->
  (forall i, In i (concat gs) -> i < length r) -> (forall g, In g gs -> g <> []) ->
  split_groups r gs = Ok (match leftover r (concat gs) with
                          | [] => AllSelected (map (map (fun i => nth i r 0)) gs)
                          | rem => Remaining (map (map (fun i => nth i r 0)) gs) rem
                          end).
Proof.
  intros Hn Hr Hg Hlt Hne. unfold split_groups. rewrite split_all_ok by auto. cbn [bind].
  rewrite <- blanked_nil. rewrite groups_ok by auto. cbn [bind app].
  rewrite merge_registers_ok by apply somes_blanked_ne. cbn [bind]. rewrite somes_blanked.
  fold (leftover r (concat gs)). destruct (leftover r (concat gs)); reflexivity.
Qed.

Lemma ranges_concat : forall ls n, concat (ranges n ls) = seq n (fold_right Nat.add 0 ls).
Proof.
  induction ls as [|k ls IH]; intros n; cbn [ranges concat fold_right]; [reflexivity|].
  rewrite IH, seq_app. reflexivity.
Qed.

Lemma map_nth_seq_app (a b c : list nat) :
  map (fun i => nth i (a ++ b ++ c) 0) (seq (length a) (length b)) = b.
Proof.
  replace (map (fun i => nth i (a ++ b ++ c) 0) (seq (length a) (length b)))
    with (map (fun i => nth i b 0) (seq 0 (length b))); [apply seq_nth_map|].
  replace (seq (length a) (length b)) with (map (fun i => length a + i) (seq 0 (length b))).
  - rewrite map_map. apply map_ext_in. intros i Hi. apply in_seq in Hi.
    rewrite app_nth2 by lia. rewrite app_nth1 by lia. f_equal. lia.
  - replace (seq (length a)) with (seq (length a + 0)) by (f_equal; lia). generalize (length a) as k. generalize 0. intros s k. revert s.
    induction (length b) as [|m IH]; intros s; cbn [seq map]; [reflexivity|].
    rewrite IH. replace (k + S s) with (S (k + s)) by lia. reflexivity.
Qed.

Lemma ranges_map rs : forall pre, map (map (fun i => nth i (pre ++ concat rs) 0)) (ranges (length pre) (map (@length nat) rs)) = rs.
Proof.
  induction rs as [|r rs IH]; intros pre; cbn [map ranges concat]; [reflexivity|].
  rewrite map_nth_seq_app. f_equal.
  specialize (IH (pre ++ r)). rewrite app_length in IH. rewrite <- app_assoc in IH. exact IH.
Qed.

Lemma sum_lengths (rs : list reg) : fold_right Nat.add 0 (map (@length nat) rs) = length (concat rs).
Proof. induction rs as [|r rs IH]; cbn; [reflexivity|]. rewrite app_length, IH. reflexivity. Qed.

Lemma split_groups_ranges rs : NoDup (concat rs) -> rs <> [] -> (forall r, In r rs -> r <> []) ->
  split_groups (concat rs) (ranges 0 (map (@length nat) rs)) = Ok (AllSelected rs).
Proof.
  intros Hn Hrs Hne.
  assert (Hc : concat rs <> []).
  { destruct rs as [|r rs]; [congruence|]. cbn. assert (r <> []) by (apply Hne; left; reflexivity). destruct r; [congruence|discriminate]. }
  rewrite split_groups_ok; auto.
  - rewrite ranges_concat, sum_lengths. pose proof (ranges_map rs []) as E. cbn [app length] in E. rewrite E.
    replace (leftover (concat rs) (seq 0 (length (concat rs)))) with (@nil nat); [reflexivity|].
    unfold leftover. rewrite filter_all_false; [reflexivity|].
    intros i Hi. rewrite negb_false_iff, existsb_eqb_In. exact Hi.
  - rewrite ranges_concat. apply seq_NoDup.
  - intros i. rewrite ranges_concat, sum_lengths. rewrite in_seq. lia.
  - intros g. generalize 0. revert Hne. clear. induction rs as [|r rs IH]; cbn; intros Hne n; [tauto|].
    intros [<-|H].
    + assert (r <> []) by (apply Hne; auto). destruct r; [congruence|discriminate].
    + apply (IH (fun r Hr => Hne r (or_intror Hr)) _ H).
Qed.
