(** Registers are never empty. *)
From Coq Require Import Permutation Reals.
From Verif Require Import Base BuilderModel HistorySpec RegSpec RegProofs RegProofs2 SplitModel NonemptyProofs HistoryProofs2.
Local Open Scope nat_scope.

(** *** C96.  No condition on the calls made: repeated positions, failed calls, any subcircuit. *)
Theorem C96_never_empty : forall ok cl r, reach ok start cl ->
  In r (snd cl) \/ In (Some r) (conds (fst cl)) \/ In r (zeroed (bld (fst cl))) \/ (exists co, In (r, co) (pipeline (bld (fst cl)))) ->
  n_nonzero r = Ok (length r) /\ 0 < length r.
Proof.
  intros ok cl r R H. apply full_reach in R. destruct R as ((F1 & F2 & F3) & F4). rewrite Forall_forall in F1, F2, F3, F4.
  assert (N : r <> []).
  { destruct H as [H|[H|[H|(co & H)]]]; [apply F4, H| |apply F1, H|apply (F3 _ H)].
    apply F2. unfold somes. apply in_concat. exists [r]. split; [|left; reflexivity]. apply in_map_iff. exists (Some r). auto. }
  unfold n_nonzero. destruct r as [|q r]; [congruence|]. cbn. split; [reflexivity|lia].
Qed.
Print Assumptions C96_never_empty.
(** [get_all_selected] is [Ok] exactly when every position is in a group. *)
Theorem C96_selected : forall r gs, NoDup r -> r <> [] -> NoDup (concat gs) ->
  (forall i, In i (concat gs) -> i < length r) -> (forall g, In g gs -> g <> []) ->
  exists sm, split_groups r gs = Ok sm /\ get_selected sm = map (at_positions r) gs /\
    ((forall i, i < length r -> In i (concat gs)) -> get_all_selected sm = inl (map (at_positions r) gs)) /\
    ((exists i, i < length r /\ ~ In i (concat gs)) -> get_all_selected sm = inr (map (at_positions r) gs)).
Proof.
  intros r gs N Hr Ng Hlt Hne. eexists. split; [apply groups_positions; assumption|].
  assert (E : other_positions r (concat gs) = [] <-> forall i, i < length r -> In i (concat gs)).
  { unfold other_positions, at_positions. split.
    - intros X i Hi. destruct (in_dec Nat.eq_dec i (concat gs)) as [|No]; [assumption|]. exfalso.
      assert (Y : In (nth i r 0) (map (fun i => nth i r 0) (filter (fun i => negb (existsb (Nat.eqb i) (concat gs))) (seq 0 (length r))))).
      { apply in_map_iff. exists i. split; [reflexivity|]. apply filter_In. split; [apply in_seq; lia|]. apply existsb_eqb_false in No. rewrite No. reflexivity. }
      rewrite X in Y. destruct Y.
    - intros X. destruct (filter _ _) as [|i l] eqn:F; [reflexivity|]. exfalso.
      assert (Y : In i (filter (fun i => negb (existsb (Nat.eqb i) (concat gs))) (seq 0 (length r)))) by (rewrite F; left; reflexivity).
      apply filter_In in Y. destruct Y as (Y1 & Y2). apply in_seq in Y1. specialize (X i ltac:(lia)). apply (proj2 (existsb_eqb_In i (concat gs))) in X. rewrite X in Y2. discriminate. }
  destruct (other_positions r (concat gs)) as [|q l]; split; try reflexivity; split; intros X.
  - reflexivity.
  - destruct X as (i & Hi & No). destruct (No (proj1 E eq_refl i Hi)).
  - apply E in X. discriminate.
  - reflexivity.
Qed.
Print Assumptions C96_selected.
(** The history makes a split with a repeated position, and a call that fails. *)
Definition c96_calls : list (call * list nat) :=
  [(CRegister 3, []); (CSplitRel [1; 1], [0]); (CCnot, [0; 1]); (CMakeTemp, []); (CReturnTemp, [0])].
Example C96_example : exists cl, play c96_calls start = Some cl /\ reach (fun _ => True) start cl /\ zeroed (bld (fst cl)) = [[3]].
Proof.
  destruct (play c96_calls start) as [cl|] eqn:E; [|vm_compute in E; discriminate]. exists cl. split; [reflexivity|]. split.
  - apply (play_reach _ c96_calls); [|exact E]. unfold c96_calls. repeat constructor.
  - vm_compute in E. inversion E. reflexivity.
Qed.
Example C96_selected_example : split_groups [7; 4; 9] [[2]; [0; 1]] = Ok (AllSelected [[9]; [7; 4]]) /\ get_all_selected (Remaining [[9]] [7; 4]) = inr [[9]].
Proof. split; reflexivity. Qed.
