(** Costs of programs. *)
From Coq Require Import Permutation Reals FunctionalExtensionality.
From Verif Require Import Base BitsSpec OpsModel BuilderModel RegProofs DenSpec SimSpec RunSpec LocalProofs RunProofs GateProofs ToffoliProofs CondProofs
  SubSpec SubProofs SubProofs2 SubProofs3 ProgramModel ProgramSpec ProgramProofs ProgramProofs2 ProgramProofs3 CostSpec CostProofs CostProofs3 ProgCostSpec.
Local Open Scope nat_scope.
Local Open Scope mon_scope.

Lemma cqs_empty d c : wrapped d c -> length (cqs d c) = 0 -> d = 0.
Proof.
  destruct d as [|d]; [reflexivity|]. intros W H. destruct (W d (Nat.lt_succ_diag_r d)) as (r & E & Hr). cbn [cqs] in H. rewrite E in H. rewrite app_length in H. destruct r; [congruence|cbn in H; lia].
Qed.
Lemma x_costs d s q : at_depth d s -> tidy s -> live s (cqs d (conds s) ++ [q]) ->
  costs s (g_x (aco d) [q]) [q] (not_temps (length (cqs d (conds s)))) (flip_objects (length (cqs d (conds s)))).
Proof.
  intros (El & W) T Lv. unfold flip_objects. destruct d as [|d].
  - cbn [cqs length Nat.eqb]. eapply costs_eq; [apply costs_appends; apply (appends_gate UX); [reflexivity|repeat constructor; intros []|discriminate]|reflexivity|reflexivity].
  - destruct (Nat.eqb_spec (length (cqs (S d) (conds s))) 0) as [E|E]; [apply cqs_empty in E; [discriminate|exact W]|].
    apply (gate_costs UX [q] not_temps (fun c => not_objects c 1)); try assumption; [|lia]. apply (cost_X 1 [q]). discriminate.
Qed.
Lemma x_paid d s q L : at_depth d s -> tidy s -> live s L -> NoDup (cqs d (conds s) ++ [q]) -> incl (cqs d (conds s) ++ [q]) L ->
  paid s (g_x (aco d) [q]) [q] L (not_temps (length (cqs d (conds s)))) (flip_objects (length (cqs d (conds s)))).
Proof.
  intros A T Lv N I. destruct (part_of _ _ N (proj1 Lv) I) as (rest & P).
  assert (L1 : live s (cqs d (conds s) ++ [q])) by (eapply live_incl; eassumption).
  eapply costs_paid; [apply x_costs; assumption|]. eapply does_perm; [exact P|exact P|]. apply does_frame; [eapply live_perm; [exact Lv|symmetry; exact P]|]. apply x_does; assumption.
Qed.

Lemma cleared_cons q (cr : list nat) m : cleared (length (q :: cr)) m = (if Nat.even m then 1 else 0) + cleared (length cr) (Nat.div2 m).
Proof.
  unfold cleared. cbn [length seq filter]. rewrite Nat.bit0_odd, <- Nat.negb_even, negb_involutive.
  assert (E : length (filter (fun i => negb (Nat.testbit m i)) (seq 1 (length cr))) = length (filter (fun i => negb (Nat.testbit (Nat.div2 m) i)) (seq 0 (length cr)))).
  { rewrite <- seq_shift. generalize (seq 0 (length cr)). intros l. induction l as [|i l IH]; [reflexivity|]. cbn [map filter].
    replace (Nat.testbit m (S i)) with (Nat.testbit (Nat.div2 m) i) by reflexivity. destruct (negb _); cbn [length]; rewrite IH; reflexivity. }
  destruct (Nat.even m); cbn [length]; rewrite E; reflexivity.
Qed.
Lemma negate_fold_paid d L K : forall cr m done s, at_depth d s -> cqs d (conds s) = K -> tidy s -> live s L -> NoDup (K ++ cr) -> incl (K ++ cr) L ->
  paid s (mfold (negate_step d) (singles cr) (done, m)) (done ++ singles cr, fold_left (fun m _ => Nat.div2 m) cr m) L
    (if cleared (length cr) m =? 0 then 0 else not_temps (length K)) (cleared (length cr) m * flip_objects (length K)).
Proof.
  induction cr as [|q cr IH]; intros m done s A EK T Lv N I; cbn [singles map mfold fold_left].
  - pose proof (app_nil_r done) as E0. unfold reg in *. rewrite E0. apply paid_ret; assumption.
  - assert (Nq : NoDup (K ++ [q])).
    { apply NoDup_app_iff in N. destruct N as (N1 & N2 & N3). apply NoDup_app_iff. split; [exact N1|]. split; [repeat constructor; intros []|]. intros p Hp [<-|[]]. apply (N3 q Hp). left. reflexivity. }
    assert (Iq : incl (K ++ [q]) L).
    { intros p Hp. apply I. apply in_app_or in Hp. apply in_or_app. cbn [In] in *. tauto. }
    assert (Nr : NoDup (K ++ cr)) by (apply NoDup_remove_1 in N; exact N).
    assert (Ir : incl (K ++ cr) L).
    { intros p Hp. apply I. apply in_app_or in Hp. apply in_or_app. cbn [In]. tauto. }
    assert (IHs : forall s1, conds s1 = conds s -> tidy s1 -> live s1 L -> paid s1
      (mfold (negate_step d) (singles cr) (done ++ [[q]], Nat.div2 m)) (done ++ [q] :: singles cr, fold_left (fun m _ => Nat.div2 m) cr (Nat.div2 m)) L
      (if cleared (length cr) (Nat.div2 m) =? 0 then 0 else not_temps (length K)) (cleared (length cr) (Nat.div2 m) * flip_objects (length K))).
    { intros s1 C1 T1 L1. replace (done ++ [q] :: singles cr) with ((done ++ [[q]]) ++ singles cr) by (rewrite <- app_assoc; reflexivity).
      apply IH; try assumption; [eapply at_depth_conds; eassumption|congruence]. }
    rewrite cleared_cons. unfold negate_step at 1. destruct (Nat.even m) eqn:Em.
    + eapply paid_eq.
      { eapply paid_bind with (L1 := L) (a := (done ++ [[q]], Nat.div2 m)).
        - eapply (paid_bind _ _ _ L _ _ _ _ L); [apply (x_paid d s q L); try assumption; rewrite EK; assumption|]. intros s1 C1 T1 L1. apply paid_ret; assumption.
        - cbn beta iota. exact IHs. }
      * rewrite EK. replace (1 + cleared (length cr) (Nat.div2 m) =? 0) with false by reflexivity. destruct (_ =? 0); lia.
      * rewrite EK. lia.
    + eapply paid_eq.
      { eapply paid_bind with (L1 := L) (a := (done ++ [[q]], Nat.div2 m)); [|cbn beta iota; exact IHs].
        eapply (paid_bind _ _ _ L _ _ _ _ L); [apply paid_ret; assumption|]. intros s1 C1 T1 L1. apply paid_ret; assumption. }
      * cbn [Nat.add]. destruct (_ =? 0); lia.
      * cbn [Nat.add]. lia.
Qed.
Lemma negate_paid d L cr m s : cr <> [] -> at_depth d s -> tidy s -> live s L -> NoDup (cqs d (conds s) ++ cr) -> incl (cqs d (conds s) ++ cr) L ->
  paid s (negate_bitmask d cr m) cr L (if cleared (length cr) m =? 0 then 0 else not_temps (length (cqs d (conds s)))) (cleared (length cr) m * flip_objects (length (cqs d (conds s)))).
Proof.
  intros Hc A T Lv N I. unfold negate_bitmask.
  eapply paid_lift_bind; [apply split_all_ok; [|exact Hc]|]. { apply NoDup_app_iff in N. apply N. }
  eapply paid_eq; [eapply paid_bind; [apply (negate_fold_paid d L (cqs d (conds s))); try assumption; reflexivity|]|apply Nat.max_0_r|apply Nat.add_0_r].
  intros s2 C2 T2 L2. cbn beta iota. cbn [app]. eapply paid_lift_bind; [apply merge_singles|]. rewrite unwrap_new_reg by exact Hc. apply paid_ret; assumption.
Qed.

Lemma acts_prices d f rs D k g : acts d f rs D ->
  (forall s, at_depth d s -> tidy s -> live s (cqs d (conds s) ++ concat rs) -> costs s (f d rs) rs (k (length (cqs d (conds s)))) (g (length (cqs d (conds s))))) -> prices d f rs k g.
Proof.
  intros (_ & A) H s L Ad T Lv K N I. destruct (part_of _ _ N (proj1 Lv) I) as (rest & P).
  assert (L1 : live s (K ++ concat rs)) by (eapply live_incl; eassumption).
  refine (costs_paid s L _ rs L _ _ _ (H s Ad T L1) _). eapply does_perm; [exact P|exact P|]. apply does_frame; [eapply live_perm; [exact Lv|symmetry; exact P]|]. apply A; assumption.
Qed.
Lemma prices_eq d f rs k g k' g' : prices d f rs k g -> (forall c, k c = k' c) -> (forall c, g c = g' c) -> prices d f rs k' g'.
Proof. intros H E1 E2 s L Ad T Lv K N I. rewrite <- E1, <- E2. apply H; assumption. Qed.
Lemma prices_fun d f f' rs k g : prices d f rs k g -> (forall s, f d rs s = f' d rs s) -> prices d f' rs k g.
Proof. intros H E s L Ad T Lv K N I. rewrite <- E. apply H; assumption. Qed.

Lemma in_condition_paid {A} s cr (m : M A) a L k g : paid (mkSt (bld s) (conds s ++ [Some cr])) m a L k g -> paid s (in_condition cr m) (cr, a) L k g.
Proof.
  intros (s' & E & C & T & Lv & U). exists (mkSt (bld s') (conds s)). unfold in_condition, scoped, condition_with, dissolve, mbind, ret. rewrite E, C. cbn [conds]. rewrite rev_app_distr. cbn [rev app].
  rewrite rev_involutive. split; [reflexivity|]. split; [reflexivity|]. split; [exact T|]. split; [exact Lv|]. exact U.
Qed.

(** A line. *)
Lemma call_paid d rs p s L : line_prices d rs p -> at_depth d s -> tidy s -> live s L -> NoDup (cqs d (conds s) ++ concat (line_regs rs (p_line p))) -> incl (cqs d (conds s) ++ concat (line_regs rs (p_line p))) L ->
  paid s (call_line d (p_line p) (line_regs rs (p_line p))) (line_regs rs (p_line p)) L (line_temps rs p (length (cqs d (conds s)))) (line_objects rs p (length (cqs d (conds s)))).
Proof.
  intros (Lo & Hne & H) Ad T Lv N I. set (K := cqs d (conds s)) in *. destruct Lo as (_ & Ne & Nd).
  assert (Hg : l_ctl (p_line p) <> None -> line_regs rs (p_line p) <> []).
  { intros X Y. apply Hne; [exact X|]. unfold line_regs in Y. destruct (l_args (p_line p)); [reflexivity|discriminate]. }
  unfold line_temps, line_objects, call_line, call_depth, call_targets in *. set (g := line_regs rs (p_line p)) in *. clearbody g.
  destruct (l_ctl (p_line p)) as [mask|] eqn:E.
  2: { apply H; assumption. }
  destruct g as [|cr rest]; [exfalso; apply Hg; [discriminate|reflexivity]|]. cbn [hd tl concat] in *.
  assert (Hc : cr <> []) by (inversion Ne; assumption). clear Hg Hne.
  assert (Mid : forall s1, conds s1 = conds s -> tidy s1 -> live s1 L ->
    paid s1 (in_condition cr (l_fun (p_line p) (S d) rest)) (cr, rest) L (p_temps p (length K + length cr)) (p_objects p (length K + length cr))).
  { intros s1 C1 T1 L1. destruct Ad as (El & W). apply in_condition_paid. set (s2 := mkSt (bld s1) (conds s1 ++ [Some cr])).
    assert (EK : cqs (S d) (conds s2) = cr ++ K) by (unfold s2, K; cbn [conds]; rewrite C1, <- El; apply cqs_last).
    assert (P : Permutation ((cr ++ K) ++ concat rest) (K ++ cr ++ concat rest)) by (rewrite app_assoc; apply Permutation_app_tail, Permutation_app_comm).
    pose proof (H s2 L) as X. cbv zeta in X. rewrite EK, app_length, (Nat.add_comm (length cr)) in X. apply X.
    - split; [unfold s2; cbn [conds]; rewrite app_length, C1; cbn; lia|]. unfold s2; cbn [conds]. rewrite C1, <- El. apply wrapped_last; [exact Hc|]. rewrite El. exact W.
    - exact T1.
    - exact L1.
    - eapply Permutation_NoDup; [symmetry; exact P|exact N].
    - intros q Hq. apply I. eapply Permutation_in; [exact P|exact Hq]. }
  destruct mask as [m|].
  - assert (Neg : forall s1, conds s1 = conds s -> tidy s1 -> live s1 L ->
      paid s1 (negate_bitmask d cr m) cr L (if cleared (length cr) m =? 0 then 0 else not_temps (length K)) (cleared (length cr) m * flip_objects (length K))).
    { intros s1 C1 T1 L1. pose proof (negate_paid d L cr m s1 Hc) as X. rewrite C1 in X. apply X; try assumption; [eapply at_depth_conds; eassumption| |].
      - fold K. rewrite app_assoc in N. apply NoDup_app_iff in N. apply N.
      - fold K. intros q Hq. apply I. rewrite app_assoc. apply in_or_app. left. exact Hq. }
    eapply paid_eq.
    { eapply paid_bind; [apply Neg; [reflexivity|exact T|exact Lv]|]. intros s1 C1 T1 L1.
      eapply paid_bind; [apply Mid; assumption|]. intros s2 C2 T2 L2. cbn beta iota.
      eapply paid_bind; [apply Neg; [congruence|exact T2|exact L2]|]. intros s3 C3 T3 L3. apply paid_ret; assumption. }
    + lia.
    + lia.
  - eapply paid_eq.
    { eapply paid_bind; [apply paid_ret; [exact T|exact Lv]|]. intros s1 C1 T1 L1.
      eapply paid_bind; [apply Mid; assumption|]. intros s2 C2 T2 L2. cbn beta iota.
      eapply paid_bind; [apply paid_ret; [exact T2|exact L2]|]. intros s3 C3 T3 L3. apply paid_ret; assumption. }
    + lia.
    + lia.
Qed.
Lemma run_line_paid d rs p s L : NoDup (concat rs) -> line_prices d rs p -> at_depth d s -> tidy s -> live s L -> NoDup (cqs d (conds s) ++ concat rs) -> incl (cqs d (conds s) ++ concat rs) L ->
  paid s (run_line d (holes rs (fun _ => false)) (p_line p)) (holes rs (fun _ => false)) L
    (line_temps rs p (length (cqs d (conds s)))) (line_objects rs p (length (cqs d (conds s)))).
Proof.
  intros N LP Ad T Lv NL I. pose proof (proj1 LP) as Lo. pose proof Lo as (Ao & Ne & Nd). unfold run_line.
  eapply paid_lift_bind; [apply take_groups_ok; try assumption; reflexivity|]. cbn beta iota.
  eapply paid_eq; [eapply paid_bind; [apply (call_paid d rs p s L); try assumption|]|apply Nat.max_0_r|apply Nat.add_0_r].
  - apply NoDup_app_iff in NL. destruct NL as (N1 & N2 & N3). apply NoDup_app_iff. split; [exact N1|]. split; [exact Nd|].
    intros q Hq X. apply (N3 q Hq). apply (line_regs_incl rs (p_line p) Lo). exact X.
  - intros q Hq. apply I. apply in_app_or in Hq. apply in_or_app. destruct Hq as [Hq|Hq]; [left; exact Hq|right; apply (line_regs_incl rs (p_line p) Lo); exact Hq].
  - intros s2 C2 T2 L2. unfold line_regs. rewrite put_groups_ok by assumption.
    replace (holes rs (fun q : nat => _)) with (holes rs (fun _ => false)); [apply paid_ret; assumption|]. apply holes_ext. intros q _. cbn [orb]. symmetry. apply andb_negb_r.
Qed.
Lemma lines_paid d rs L : forall ps s, NoDup (concat rs) -> Forall (line_prices d rs) ps -> at_depth d s -> tidy s -> live s L -> NoDup (cqs d (conds s) ++ concat rs) -> incl (cqs d (conds s) ++ concat rs) L ->
  paid s (mfold (run_line d) (map p_line ps) (holes rs (fun _ => false))) (holes rs (fun _ => false)) L
    (program_temps rs ps (length (cqs d (conds s)))) (program_objects rs ps (length (cqs d (conds s)))).
Proof.
  induction ps as [|p ps IH]; intros s N F Ad T Lv NL I; cbn [map mfold].
  - apply paid_ret; assumption.
  - inversion F as [|? ? F1 F2]; subst. eapply paid_bind; [apply (run_line_paid d rs p s L); assumption|]. intros s1 C1 T1 L1.
    pose proof (IH s1 N F2) as X. rewrite C1 in X. apply X; try assumption. eapply at_depth_conds; eassumption.
Qed.
Lemma program_prices d rs ps : NoDup (concat rs) -> Forall (fun r => r <> []) rs -> Forall (line_prices d rs) ps ->
  prices d (fun d rs => program d rs (map p_line ps)) rs (program_temps rs ps) (program_objects rs ps).
Proof.
  intros N Ne F s L Ad T Lv K NL I. rewrite Forall_forall in Ne. unfold program.
  assert (Hin : forall r, In r rs -> NoDup r).
  { intros r Hr. apply In_nth with (d := []) in Hr. destruct Hr as (k & _ & <-). apply NoDup_register. exact N. }
  refine (paid_lift_bind s _ (map (fun r => map Some (singles r)) rs) _ rs L _ _ _ _).
  { apply (mapM_ok _ (fun r => map Some (singles r))). intros r Hr. rewrite split_all_ok; [reflexivity|apply Hin; exact Hr|apply Ne; exact Hr]. }
  rewrite <- holes_none.
  destruct (lines_paid d rs L ps s N F Ad T Lv NL I) as (s1 & E1 & C1 & T1 & L1 & U1). exists s1. unfold mbind. rewrite E1. rewrite program_close by (apply Forall_forall; exact Ne).
  split; [reflexivity|]. auto.
Qed.
