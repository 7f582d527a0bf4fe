(** What every builder call does: returns, returns [Err], or panics. *)
From Coq Require Import Permutation Reals ZArith QArith.
From Coquelicot Require Import Complex.
From Verif Require Import Base BitsSpec OpsModel BuilderModel HistorySpec RegProofs RunSpec RunProofs CondProofs ConserveProofs  HistoryProofs HistoryProofs2 TidyProofs NonemptyProofs.
From Verif Require Import OutcomeSpec OutcomeProofs OutcomeProofs2 OutcomeProofs3 OutcomeProofs4.
Local Open Scope nat_scope.

Lemma cnt_perm l1 l2 : (forall q, cnt q l1 = cnt q l2) -> Permutation l1 l2.
Proof. intros H. apply (Permutation_count_occ Nat.eq_dec). exact H. Qed.
Lemma cqs_somes c : Permutation (cqs (length c) c) (concat (somes c)).
Proof.
  induction c as [|o c IH] using rev_ind; [reflexivity|]. rewrite app_length, Nat.add_1_r. cbn [cqs length]. rewrite nth_error_app2, Nat.sub_diag by lia. cbn [nth_error].
  rewrite cqs_app by lia. unfold somes in *. rewrite map_app, concat_app, concat_app. rewrite Permutation_app_comm. apply Permutation_app; [exact IH|]. destruct o; cbn; rewrite ?app_nil_r; reflexivity.
Qed.
Lemma wrappers_wrapped cl : wrappers_ok cl -> all_full cl -> wrapped (length (conds (fst cl))) (conds (fst cl)).
Proof.
  intros W ((_ & F & _) & _) k Hk. destruct (nth_error (conds (fst cl)) k) as [[r|]|] eqn:E.
  - exists r. split; [reflexivity|]. rewrite Forall_forall in F. apply F. unfold somes. apply in_concat. exists [r]. split; [|left; reflexivity]. apply in_map_iff. exists (Some r). split; [reflexivity|].
    eapply nth_error_In, E.
  - apply nth_error_In in E. unfold wrappers_ok in W. rewrite Forall_forall in W. destruct (W _ E eq_refl).
  - apply nth_error_None in E. lia.
Qed.
Lemma reach_owns cl ps : reach distinct_positions start cl -> wrappers_ok cl -> legal (snd cl) ps ->
  owns (length (conds (fst cl))) (fst cl) (concat (pick (snd cl) ps) ++ concat (keep (snd cl) ps)) /\ Forall (fun r => r <> []) (pick (snd cl) ps).
Proof.
  intros R W L. pose proof (full_reach _ _ R) as Fu. destruct (reach_tidy cl R) as (T & Lv). split.
  - split; [exact T|]. split; [reflexivity|]. split; [apply wrappers_wrapped; assumption|]. eapply live_perm; [exact Lv|].
    rewrite Permutation_app_comm. apply Permutation_app; [symmetry; apply cqs_somes|]. apply cnt_perm. intros q. rewrite cnt_app, (pick_keep_cnt q _ _ L). reflexivity.
  - destruct Fu as (_ & F). apply Forall_forall. intros r Hr. apply in_map_iff in Hr. destruct Hr as (p & <- & Hp). rewrite Forall_forall in F. apply F. apply nth_In. apply L, Hp.
Qed.

(** *** C97.  The verdict looks at the call and the sizes of its registers only (and, for
    [split_absolute], at the qubits of its register). *)
Theorem C97_outcome : forall cl c ps, reach distinct_positions start cl -> wrappers_ok cl -> legal (snd cl) ps ->
  let d := length (conds (fst cl)) in typed d c (pick (snd cl) ps) ->
  seen (run_call d c (pick (snd cl) ps) (fst cl)) = call_verdict d c (pick (snd cl) ps).
Proof.
  intros cl c ps R W L d Ty. destruct (reach_owns cl ps R W L) as (H & F). apply (call_seen d c _ _ _ H F Ty).
Qed.
Print Assumptions C97_outcome.

(** With a condition register lost, every object panics. *)
Lemma try_lost d : forall cr r co s, cr <> [] -> (exists k, k < d /\ nth_error (conds s) k = Some None) -> seen (try_cond d cr r co s) = Panics.
Proof.
  induction d as [|d IH]; intros cr r co s Hc (k & Hk & E); [lia|]. cbn [try_cond]. unfold mbind at 1, take_cr.
  destruct (nth_error (conds s) d) as [[c|]|] eqn:Ed; [|reflexivity|reflexivity].
  unfold mbind at 1. rewrite merge2_ok by exact Hc. cbn [lift]. apply seen_bind; [discriminate|]. apply IH; [destruct cr; [congruence|discriminate]|].
  exists k. assert (k <> d) by congruence. split; [lia|]. cbn [conds]. rewrite nth_error_upd_nth. destruct (Nat.eqb_spec k d); [congruence|exact E].
Qed.
Theorem C97_lost_condition : forall cl co ps, reach distinct_positions start cl -> ~ wrappers_ok cl -> legal (snd cl) ps -> length ps = 1 ->
  seen (run_call (length (conds (fst cl))) (CApply co) (pick (snd cl) ps) (fst cl)) = Panics.
Proof.
  intros cl co ps R W L Hp. destruct ps as [|p [|]]; try discriminate. cbn [pick map run_call one]. rewrite seen_out1.
  pose proof (full_reach _ _ R) as ((_ & F & _) & _).
  assert (X : exists k, k < length (conds (fst cl)) /\ nth_error (conds (fst cl)) k = Some None).
  { unfold wrappers_ok in W. destruct (existsb (fun o => match o with None => true | _ => false end) (conds (fst cl))) eqn:E.
    - apply existsb_exists in E. destruct E as ([|] & Hi & Eo); [discriminate|]. apply In_nth_error in Hi. destruct Hi as (k & Hk). exists k. split; [|exact Hk]. apply nth_error_Some. congruence.
    - exfalso. apply W. apply Forall_forall. intros o Ho ->. apply Bool.not_true_iff_false in E. apply E. apply existsb_exists. exists None. auto. }
  destruct X as (k & Hk & E). destruct (length (conds (fst cl))) as [|d] eqn:El; [lia|]. cbn [aco]. unfold mbind at 1, take_cr. destruct (nth_error (conds (fst cl)) d) as [[c|]|] eqn:Ed; [|reflexivity|reflexivity].
  apply seen_bind; [discriminate|]. apply try_lost.
  - rewrite Forall_forall in F. apply F. unfold somes. apply in_concat. exists [c]. split; [|left; reflexivity]. apply in_map_iff. exists (Some c). split; [reflexivity|]. eapply nth_error_In, Ed.
  - exists k. assert (k <> d) by congruence. split; [lia|]. cbn [conds]. rewrite nth_error_upd_nth. destruct (Nat.eqb_spec k d); [congruence|exact E].
Qed.
Print Assumptions C97_lost_condition.

(** A client with one wrapper, a register of four qubits and one of one qubit. *)
Definition c97_calls : list (call * list nat) := [(CRegister 2, []); (CRegister 4, []); (CRegister 1, []); (CConditionWith, [0])].
Definition c97_client : client := match play c97_calls start with Some cl => cl | None => start end.
Lemma c97_reach : reach distinct_positions start c97_client.
Proof. apply (play_reach _ c97_calls); [unfold c97_calls; repeat constructor|reflexivity]. Qed.
(** [swap] objects fail, matrices panic, S works, and a subcircuit that uses S on two qubits panics. *)
Example C97_example : wrappers_ok c97_client /\ snd c97_client = [[2; 3; 4; 5]; [6]] /\
  map (fun c => call_verdict 1 c [[2; 3; 4; 5]]) [CApply (mkCO 4 (OUnit USWAP)); CMatrix []; CGate US; CSubcircuit [([3], mkCO 1 (OUnit UX)); ([0; 1], mkCO 1 (OUnit US))]; CSubcircuit [([2], mkCO 1 (OUnit UX))]; CSplitRel [4]; CSplitRel [9; 0]]
  = [Errs; Panics; Works; Panics; Panics; Panics; Works] /\
  seen (run_call 1 (CApply (mkCO 4 (OUnit USWAP))) (pick (snd c97_client) [0]) (fst c97_client)) = Errs.
Proof.
  assert (W : wrappers_ok c97_client) by (repeat constructor; discriminate). split; [exact W|]. split; [reflexivity|]. split; [reflexivity|].
  apply (C97_outcome c97_client (CApply (mkCO 4 (OUnit USWAP))) [0] c97_reach W); [|reflexivity]. split; [repeat constructor; intros []|]. intros p [<-|[]]. apply Nat.ltb_lt. reflexivity.
Qed.
(** After that failure the wrapper has no condition register. *)
Example C97_lost_example : exists cl, do_call c97_client (CApply (mkCO 4 (OUnit USWAP))) [0] = Some cl /\ ~ wrappers_ok cl /\ legal (snd cl) [0] /\
  seen (run_call 1 (CApply (mkCO 1 (OUnit UX))) (pick (snd cl) [0]) (fst cl)) = Panics.
Proof.
  eexists. split; [reflexivity|]. split; [intros W; inversion_clear W as [|? ? X _]; apply X; reflexivity|]. split; [split; [repeat constructor; intros []|intros p [<-|[]]; apply Nat.ltb_lt; reflexivity]|]. reflexivity.
Qed.
