(** Properties C28-C31: splitting and merging registers. *)
From Coq Require Import Permutation.
From Verif Require Import Base BuilderModel RegSpec RegProofs RegProofs2.

(** *** C28 *)
Theorem C28_split_relative : forall r is, NoDup r -> is <> [] -> (forall i, In i is -> i < length r) ->
  split_rel r is = Ok (if other_positions r is then Selected (at_positions r is)
                       else Split (at_positions r is) (other_positions r is)).
Proof. exact split_rel_positions. Qed.
Print Assumptions C28_split_relative.
Theorem C28_nothing_lost : forall r is, NoDup r -> NoDup is -> (forall i, In i is -> i < length r) ->
  Permutation (at_positions r is ++ other_positions r is) r.
Proof. exact positions_perm. Qed.
Print Assumptions C28_nothing_lost.
Theorem C28_merge_concatenates : forall rs, (forall r, In r rs -> r <> []) ->
  merge_registers rs = Ok (new_reg (concat rs)).
Proof. exact merge_registers_ok. Qed.
Print Assumptions C28_merge_concatenates.
Theorem C28_split_all_merge : forall r, NoDup r -> r <> [] ->
  exists rs, split_all r = Ok rs /\ merge_registers rs = Ok (Some r) /\ rs = map (fun q => [q]) r.
Proof. exact split_merge_id. Qed.
Print Assumptions C28_split_all_merge.
Theorem C28_split_first_last : forall q r q', NoDup (q :: r ++ [q']) ->
  split_first_qubit (q :: r ++ [q']) = Ok (Some [q], r ++ [q']) /\
  split_last_qubit (q :: r ++ [q']) = Ok (q :: r, Some [q']).
Proof.
  intros q r q' H. split.
  - apply split_first_ok; [exact H|]. destruct r; discriminate.
  - apply (split_last_ok (q :: r)); [exact H|discriminate].
Qed.
Print Assumptions C28_split_first_last.
Example C28_example : split_rel [7; 4; 9; 2] [2; 0] = Ok (Split [9; 7] [4; 2]) /\
  split_rel [7; 4] [1; 0] = Ok (Selected [4; 7]) /\ split_all [7; 4] = Ok [[7]; [4]].
Proof. repeat split. Qed.

(** *** C29: false.  Position [r.n()] panics; larger ones are ignored. *)
Theorem C29_out_of_range_ignored_refuted :
  ~ (forall r is, r <> [] -> exists sp, split_rel r is = Ok sp).
Proof.
  intros H. destruct (H [3] [1]) as (sp & E); [discriminate|]. rewrite split_rel_len_panics in E by (left; reflexivity). discriminate.
Qed.
Print Assumptions C29_out_of_range_ignored_refuted.
Theorem C29_position_len_panics : forall r is, In (length r) is -> split_rel r is = Panic PIndex.
Proof. exact split_rel_len_panics. Qed.
Print Assumptions C29_position_len_panics.
Theorem C29_out_of_range_ignored_partial : forall r is, (forall i, In i is -> i <> length r) ->
  split_rel r is = split_rel r (filter (fun i => i <? length r) is).
Proof. exact split_rel_ignores. Qed.
Print Assumptions C29_out_of_range_ignored_partial.
Example C29_example : split_rel [5; 6] [3; 1; 9] = Ok (Split [6] [5]) /\ split_rel [5; 6] [2] = Panic PIndex.
Proof. split; reflexivity. Qed.

(** *** C30: false.  Absolute indices are used as positions. *)
Theorem C30_split_absolute_refuted :
  ~ (forall r is, NoDup r -> NoDup is -> is <> [] -> (forall i, In i is -> In i r) ->
     split_abs r is = Ok (if without is r then Selected is else Split is (without is r))).
Proof.
  intros H. specialize (H [1; 0] [0]). cbv in H. enough (X : Ok (Split [1] [0]) = Ok (Split [0] [1])) by discriminate.
  apply H; try discriminate; try (repeat constructor; cbn; intuition lia).
Qed.
Print Assumptions C30_split_absolute_refuted.
Theorem C30_what_it_does : forall r is, split_abs r is = split_rel r (filter (fun a => existsb (Nat.eqb a) r) is).
Proof. exact split_abs_char. Qed.
Print Assumptions C30_what_it_does.
Theorem C30_split_absolute_partial : forall n is, NoDup is -> is <> [] -> (forall i, In i is -> i < n) ->
  split_abs (seq 0 n) is = Ok (if without is (seq 0 n) then Selected is else Split is (without is (seq 0 n))).
Proof. exact split_abs_first. Qed.
Print Assumptions C30_split_absolute_partial.
Example C30_example : split_abs [0; 1; 2] [2; 0] = Ok (Split [2; 0] [1]) /\
  split_abs [2; 3] [2] = Panic PIndex /\ split_abs [4; 5; 6] [5] = Ok (Unselected [4; 5; 6]).
Proof. repeat split. Qed.

(** *** C31 *)
Theorem C31_index_groups : forall r gs, NoDup r -> r <> [] -> NoDup (concat gs) ->
  (forall i, In i (concat gs) -> i < length r) -> (forall g, In g gs -> g <> []) ->
  split_groups r gs = Ok (if other_positions r (concat gs) then AllSelected (map (at_positions r) gs)
                          else Remaining (map (at_positions r) gs) (other_positions r (concat gs))).
Proof. exact groups_positions. Qed.
Print Assumptions C31_index_groups.
Theorem C31_ranges : forall rs, NoDup (concat rs) -> rs <> [] -> (forall r, In r rs -> r <> []) ->
  split_groups (concat rs) (ranges 0 (map (@length nat) rs)) = Ok (AllSelected rs).
Proof. exact split_groups_ranges. Qed.
Print Assumptions C31_ranges.
Example C31_example : split_groups [7; 4; 9; 2] [[3]; [0; 2]] = Ok (Remaining [[2]; [7; 9]] [4]).
Proof. reflexivity. Qed.
