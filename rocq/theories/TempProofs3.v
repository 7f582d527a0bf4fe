From Coq Require Import Reals Lra ZArith QArith FunctionalExtensionality Permutation.
From Coquelicot Require Import Hierarchy RInt Complex.
From Verif Require Import Base BitsSpec BitsProofs OpsModel OpsSpec ConjSpec Instances BuilderModel MeasureSpec RegProofs ConserveProofs HistorySpec HistoryProofs HistoryProofs2 TidyProofs NonemptyProofs SimModel DenSpec SimSpec DenProofs LocalProofs LinkProofs
  RunSpec RunProofs GateProofs ToffoliProofs CondProofs CondToffProofs PropCond PropGates OutcomeSpec OutcomeProofs OutcomeProofs2 OutcomeProofs4 PropOutcome MoveSpec MoveProofs ProjSpec WholeSpec WholeProofs WholeProofs2 WholeProofs3 ShapeSpec AwaySpec AwayProofs AwayProofs2 TempSpec TempProofs TempProofs2.
Local Open Scope nat_scope.
Local Open Scope mon_scope.

(** *** Taking temporaries *)
Definition shrinks {A} (m : M A) : Prop := forall s,
  let P s' := pipeline (bld s') = pipeline (bld s) /\ bn (bld s) <= bn (bld s') /\ incl (zeroed (bld s')) (zeroed (bld s)) in
  match m s with Ret _ s' => P s' | Fail _ s' => P s' | Crash _ => True end.
Lemma sh_ret {A} (a : A) : shrinks (ret a). Proof. intros s. cbn. split; [reflexivity|]. split; [lia|apply incl_refl]. Qed.
Lemma sh_lift {A} (r : res A) : shrinks (lift r). Proof. intros s. unfold lift. destruct r; cbn; [| |exact I]; (split; [reflexivity|split; [lia|apply incl_refl]]). Qed.
Lemma sh_bind {A B} (m : M A) (f : A -> M B) : shrinks m -> (forall a, shrinks (f a)) -> shrinks (mbind m f).
Proof.
  intros H G s. specialize (H s). unfold mbind. destruct (m s) as [a s1|e s1|p]; [|exact H|exact I]. specialize (G a s1). destruct H as (H1 & H2 & H3).
  destruct (f a s1) as [b s2|e s2|p]; [| |exact I]; destruct G as (G1 & G2 & G3); (split; [congruence|split; [lia|eapply incl_tran; eassumption]]).
Qed.
Lemma sh_make : shrinks make_zeroed_temp_qubit.
Proof.
  intros s. unfold make_zeroed_temp_qubit, mbind, get. destruct (rev (zeroed (bld s))) as [|r z] eqn:E.
  - cbn. rewrite <- (rev_involutive (zeroed (bld s))), E. split; [reflexivity|]. split; [lia|apply incl_refl].
  - cbn. split; [reflexivity|]. split; [lia|]. intros x Hx. rewrite <- (rev_involutive (zeroed (bld s))), E. cbn. apply in_or_app. left. exact Hx.
Qed.
Lemma sh_mmap {A B} (f : A -> M B) l : (forall a, shrinks (f a)) -> shrinks (mmap f l).
Proof. intros H. induction l as [|a l IH]; cbn [mmap]; [apply sh_ret|]. apply sh_bind; [apply H|]. intros b. apply sh_bind; [exact IH|]. intros bs. apply sh_ret. Qed.
Lemma sh_makes k : shrinks (make_zeroed_temp_register k).
Proof. unfold make_zeroed_temp_register. apply sh_bind; [apply sh_mmap; intros; apply sh_make|]. intros rs. apply sh_bind; [apply sh_lift|]. intros. apply sh_lift. Qed.
Lemma incl_concat (a b : list reg) : incl a b -> incl (concat a) (concat b).
Proof. intros H x Hx. apply in_concat in Hx. destruct Hx as (l & Hl & Hx). apply in_concat. exists l. auto. Qed.
Lemma pstep_shrinks s s' : tidy s -> pipeline (bld s') = pipeline (bld s) -> bn (bld s) <= bn (bld s') -> incl (zeroed (bld s')) (zeroed (bld s)) -> pstep s s'.
Proof.
  intros (_ & _ & T) E B Hi. apply (pstep_away s s' []); [exact B|rewrite app_nil_r; exact E|intros e q []|].
  intros q Hq. apply (incl_concat _ _ Hi) in Hq. split; [right; exact Hq|]. specialize (T q Hq). lia.
Qed.
Lemma pstep_same s s' : tidy s -> bld s' = bld s -> pstep s s'.
Proof. intros T E. apply pstep_shrinks; rewrite ?E; [exact T|reflexivity|lia|apply incl_refl]. Qed.

(** *** One call *)
Lemma seen_fail {A} (m : M A) s e s' : m s = Fail e s' -> OutcomeSpec.seen (m s) = Errs. Proof. intros ->. reflexivity. Qed.
Lemma wp_pstep {A} (m : M A) (f : A -> M (list reg)) s : (forall a s1, exists l, f a s1 = Ret l s1) -> wp m s (fun _ s' => nstep s s') -> wp (mbind m f) s (fun _ s' => pstep s s').
Proof. intros Hf (a & s' & E & H). destruct (Hf a s') as (l & El). exists l, s'. split; [unfold mbind; rewrite E; exact El|apply nstep_pstep, H]. Qed.
Lemma outcome_pstep s rs c ps s' rs' : tidy s -> do_call (s, rs) c ps = Some (s', rs') ->
  match run_call (length (conds s)) c (pick rs ps) s with Ret _ s1 => pstep s s1 | Fail _ s1 => pstep s s1 | Crash _ => True end -> pstep s s'.
Proof. intros T HC H. cbn [do_call] in HC. destruct (run_call _ c (pick rs ps) s); inversion HC; subst; exact H. Qed.
Lemma wp_outcome {A} (m : M A) s Q : wp m s (fun _ s' => Q s') -> match m s with Ret _ s1 => Q s1 | Fail _ s1 => Q s1 | Crash _ => True end.
Proof. intros (a & s' & -> & H). exact H. Qed.
Lemma dead_outcome {A} (m : M A) s : tidy s -> dead m s -> match m s with Ret _ s1 => pstep s s1 | Fail _ s1 => pstep s s1 | Crash _ => True end.
Proof. intros T D. unfold dead in D. destruct (m s); [destruct D|apply pstep_same; assumption|exact I]. Qed.
Lemma out2_ok (p : reg * reg) s1 : exists l, (let '(a, b) := p in ret [a; b]) s1 = Ret l s1.
Proof. destruct p as [a b]. eexists. reflexivity. Qed.
Lemma out1_ok (r : reg) s1 : exists l, ret [r] s1 = Ret l s1. Proof. eexists. reflexivity. Qed.
Local Ltac pair_args H := match type of H with context[pick ?rs ?ps] => destruct (pick rs ps) as [|? [|? [|? ?]]] eqn:? end.

(** Wrappers with their registers, or at least one without. *)
Lemma wrappers_cases s rs : reach distinct_positions start (s, rs) -> wrappers_ok (s, rs) \/ lost s.
Proof.
  intros Re. pose proof (full_reach _ _ Re) as ((_ & F & _) & _). cbn [fst] in F.
  destruct (existsb (fun o => match o with None => true | _ => false end) (conds s)) eqn:E.
  - right. split; [exact F|]. intros X. apply existsb_exists in E. destruct E as ([|] & Hi & Eo); [discriminate|]. rewrite Forall_forall in X. exact (X None Hi eq_refl).
  - left. apply Forall_forall. cbn [fst]. intros o Ho ->. apply Bool.not_true_iff_false in E. apply E. apply existsb_exists. exists None. auto.
Qed.
Lemma toffoli_pstep s rs ps : reach distinct_positions start (s, rs) -> legal rs ps -> careful (length (conds s)) (pick rs ps) CToffoli ->
  conds s = [] \/ (forall cr r, pick rs ps = [cr; r] -> length cr <= 2) ->
  match run_call (length (conds s)) CToffoli (pick rs ps) s with Ret _ s1 => pstep s s1 | Fail _ s1 => pstep s s1 | Crash _ => True end.
Proof.
  intros Re HL (_ & Ca) HX. destruct (reach_tidy _ Re) as (T & _). cbn [fst snd] in T. cbn [run_call]. unfold two.
  destruct (wrappers_cases s rs Re) as [W|Lo].
  2: { destruct (pick rs ps) as [|cr [|r [|? ?]]]; try exact I. apply dead_outcome; [exact T|]. unfold out2. apply dead_bind, dead_toffoli; [exact Lo|].
       destruct HX as [X|X]; [destruct Lo as (_ & Lo); rewrite X in Lo; exfalso; apply Lo; constructor|apply (X cr r eq_refl)]. }
  destruct (reach_owns _ ps Re W HL) as ((_ & _ & Wr & Lv) & Ne). cbn [fst snd] in Wr, Lv, Ne.
  destruct (pick rs ps) as [|cr [|r [|? ?]]]; try exact I. inversion Ne as [|? ? N1 N2]; subst. inversion N2 as [|? ? N3 _]; subst. cbn [concat] in Lv. rewrite app_nil_r in Lv.
  apply wp_outcome. unfold out2. apply wp_pstep; [apply out2_ok|]. rewrite app_assoc in Lv. apply live_part with (L0 := cqs (length (conds s)) (conds s) ++ cr ++ r) (F := concat (keep rs ps)) in Lv; [|reflexivity].
  destruct (conds s) as [|o cd] eqn:Ec.
  - cbn [length cqs app] in *. eapply does_wp, toffoli_does; assumption.
  - assert (Hlen : length cr <= 2) by (destruct HX as [X|X]; [discriminate|apply (X cr r eq_refl)]). rewrite <- Ec in *.
    assert (Hd : 0 < length (conds s)) by (rewrite Ec; cbn; lia). unfold toffoli. cbn [toffoli_fuel]. destruct cr as [|a [|b [|]]]; [congruence| | |cbn in Hlen; lia]; cbn [length Nat.eqb].
    + eapply does_wp, C47_conditioned_cnot; assumption.
    + assert (E1 : length r = 1) by (destruct (Ca ltac:(lia) [a; b] r eq_refl) as [X|X]; [discriminate|exact X]). destruct r as [|t [|]]; try discriminate.
      eapply does_wp, basic_toffoli_cond; assumption.
Qed.
Lemma objects_pstep s rs c ps : reach distinct_positions start (s, rs) -> legal rs ps -> careful (length (conds s)) (pick rs ps) c -> on_objects c = true -> 0 < length (conds s) ->
  match c with
  | CApply co => forall t, co_obj co <> OUnit (UPhase t)
  | CGate u => forall t, u <> UPhase t
  | _ => True
  end -> match run_call (length (conds s)) c (pick rs ps) s with Ret _ s1 => pstep s s1 | Fail _ s1 => pstep s s1 | Crash _ => True end.
Proof.
  intros Re HL (_ & Ca) HO Hd HX. destruct (reach_tidy _ Re) as (T & _). cbn [fst snd] in T.
  destruct (wrappers_cases s rs Re) as [W|Lo]; [|apply dead_outcome; [exact T|apply dead_call; assumption]].
  destruct (reach_owns _ ps Re W HL) as (Ow & Ne). cbn [fst snd] in Ow, Ne. set (d := length (conds s)) in *.
  assert (Ac : forall co r, (d <> 0 -> co_obj co = OUnit UH -> length r = 1) -> (forall t, co_obj co <> OUnit (UPhase t)) -> r <> [] -> owns d s (r ++ concat (keep rs ps)) ->
    match aco d r co s with Ret _ s1 => pstep s s1 | Fail _ s1 => pstep s s1 | Crash _ => True end).
  { intros co r Hh Hp Hr Hw. destruct (object_verdict d co (length r)) eqn:Ev.
    - apply wp_outcome. eapply wp_mono; [eapply aco_nstep; try eassumption|intros a s1; apply nstep_pstep].
      unfold tame. destruct (co_obj co) as [[]|] eqn:Eo; auto; [apply Hh; [lia|reflexivity]|exact (Hp _ eq_refl)].
    - pose proof (aco_still d r co s Hd (proj1 (proj2 (proj2 Hw)))) as S. unfold object_verdict, object_verdict1 in Ev. destruct (Nat.eqb_spec d 0); [lia|].
      destruct (co_obj co) as [[]|m]; try discriminate Ev; try (destruct (length r =? 2); discriminate Ev).
      + specialize (S (or_introl eq_refl)). destruct (aco d r co s); [apply pstep_same; assumption|apply pstep_same; assumption|exact I].
      + specialize (S (or_intror (ex_intro _ m eq_refl))). destruct (aco d r co s); [apply pstep_same; assumption|apply pstep_same; assumption|exact I].
    - pose proof (object_seen d co r s _ Hr Hw) as S. rewrite Ev in S. destruct (aco d r co s); [discriminate|discriminate|exact I]. }
  assert (Gt : forall u r, letter u -> (u = UH -> length r = 1) -> r <> [] -> forall s1, owns d s1 (r ++ concat (keep rs ps)) ->
    wp (BuilderModel.gate (aco d) u r) s1 (fun r' s' => (stays r r' /\ owns d s' (r' ++ concat (keep rs ps))) /\ nstep s1 s')).
  { intros u r Hu Hh Hr s1 Hw. apply wp_both; [apply gate_wp; assumption|]. apply wp_unwrap. eapply aco_nstep; [exact Hd|exact Hr|apply letter_works, Hu| |exact Hw]. unfold tame. cbn [co_obj]. destruct u; auto. }
  assert (O : forall (m : M reg), match m s with Ret _ s1 => pstep s s1 | Fail _ s1 => pstep s s1 | Crash _ => True end ->
    match out1 m s with Ret _ s1 => pstep s s1 | Fail _ s1 => pstep s s1 | Crash _ => True end) by (intros m; unfold out1, mbind; destruct (m s); auto).
  assert (U : forall (m : M reg), match m s with Ret _ s1 => pstep s s1 | Fail _ s1 => pstep s s1 | Crash _ => True end ->
    match unwrapM m s with Ret _ s1 => pstep s s1 | Fail _ s1 => pstep s s1 | Crash _ => True end) by (intros m; unfold unwrapM; destruct (m s); auto).
  destruct c; try discriminate HO; cbn [run_call]; unfold one, two; destruct (pick rs ps) as [|r [|r2 [|? ?]]]; try exact I; inversion Ne as [|? ? N1 N2]; subst; cbn [concat app] in Ow; rewrite ?app_nil_r in Ow; try apply O.
  - apply Ac; [intros X Y; apply (proj2 Ca X Y r); left; reflexivity|exact HX|exact N1|exact Ow].
  - unfold BuilderModel.gate. apply U, Ac; cbn [co_obj]; [intros X Y; inversion Y; subst; apply (proj2 Ca X eq_refl r); left; reflexivity|intros t Y; inversion Y; subst; exact (HX t eq_refl)|exact N1|exact Ow].
  - apply wp_outcome. unfold g_s_dagger. apply wp_bind. eapply wp_mono; [apply (Gt UZ r I ltac:(discriminate) N1 s Ow)|]. intros r1 s1 ((S1 & O1) & H1). cbv beta.
    eapply wp_mono; [apply (Gt US r1 I ltac:(discriminate) (proj1 S1) s1 O1)|]. intros r2 s2 ((S2 & O2) & H2). apply nstep_pstep. eapply nstep_trans; eassumption.
  - apply wp_outcome. unfold g_t_dagger, g_s_dagger. apply wp_bind, wp_bind. eapply wp_mono; [apply (Gt UZ r I ltac:(discriminate) N1 s Ow)|]. intros r1 s1 ((S1 & O1) & H1). cbv beta.
    eapply wp_mono; [apply (Gt US r1 I ltac:(discriminate) (proj1 S1) s1 O1)|]. intros r2 s2 ((S2 & O2) & H2). cbv beta.
    eapply wp_mono; [apply (Gt UT r2 I ltac:(discriminate) (proj1 S2) s2 O2)|]. intros r3 s3 ((S3 & O3) & H3). apply nstep_pstep. eapply nstep_trans; [eapply nstep_trans; eassumption|exact H3].
  - unfold apply_matrix. apply Ac; cbn [co_obj]; [discriminate|discriminate|exact N1|exact Ow].
  - unfold broadcast_single_qubit_matrix, apply_matrix. apply U, Ac; cbn [co_obj]; [discriminate|discriminate|exact N1|exact Ow].
  - inversion N2 as [|? ? N3 _]; subst. destruct Ow as (_ & _ & Wr & Lv). rewrite app_assoc in Lv. apply live_part with (L0 := cqs d (conds s) ++ r ++ r2) (F := concat (keep rs ps)) in Lv; [|reflexivity].
    destruct r as [|a [|b r]]; [congruence| |].
    + apply wp_outcome. unfold out2. apply wp_pstep; [apply out2_ok|]. eapply does_wp, C47_conditioned_cnot; assumption.
    + unfold out2, mbind. rewrite cnot_wide by (cbn; lia). apply pstep_same; [exact T|reflexivity].
  - inversion N2 as [|? ? N3 _]; subst. destruct Ow as (_ & _ & Wr & Lv). rewrite app_assoc in Lv. apply live_part with (L0 := cqs d (conds s) ++ r ++ r2) (F := concat (keep rs ps)) in Lv; [|reflexivity].
    destruct (Nat.eqb_spec (length r) (length r2)) as [E|E].
    + apply wp_outcome. unfold out2. apply wp_pstep; [apply out2_ok|]. eapply does_wp, C47_conditioned_swap; assumption.
    + unfold out2, mbind, swap. destruct (Nat.eqb_spec (length r) (length r2)); [congruence|]. apply pstep_same; [exact T|reflexivity].
Qed.
Lemma call_pstep s rs c ps s' rs' : reach distinct_positions start (s, rs) -> legal rs ps -> careful (length (conds s)) (pick rs ps) c -> do_call (s, rs) c ps = Some (s', rs') ->
  match c with
  | CRegister _ | CQudit _ | CReturnTemp | CSubcircuit _ | CInverter _ | CInvMacro _ => False
  | CToffoli => conds s = [] \/ forall cr r, pick rs ps = [cr; r] -> length cr <= 2
  | CApply co => conds s = [] \/ forall t, co_obj co <> OUnit (UPhase t)
  | CGate u => conds s = [] \/ forall t, u <> UPhase t
  | _ => True
  end -> pstep s s'.
Proof.
  intros Re HL (HD & Ca) HC HX. destruct (reach_tidy _ Re) as (T & _). cbn [fst snd] in T.
  destruct (allocates c) eqn:EA.
  - (* temporaries and toffoli *)
    destruct c; try discriminate EA; try destruct HX.
    + eapply outcome_pstep; [exact T|exact HC|]. apply toffoli_pstep; [exact Re|exact HL|split; assumption|]. left. assumption.
    + eapply outcome_pstep; [exact T|exact HC|]. apply toffoli_pstep; [exact Re|exact HL|split; assumption|]. right. assumption.
    + cbn [do_call run_call] in HC. pose proof (sh_bind _ (fun r => ret [r]) sh_make (fun r => sh_ret [r]) s) as S. cbv zeta in S.
      fold (out1 make_zeroed_temp_qubit) in S. destruct (out1 make_zeroed_temp_qubit s); inversion HC; subst; apply pstep_shrinks; tauto.
    + cbn [do_call run_call] in HC. pose proof (sh_bind _ (fun r => ret [r]) (sh_makes k) (fun r => sh_ret [r]) s) as S. cbv zeta in S.
      fold (out1 (make_zeroed_temp_register k)) in S. destruct (out1 (make_zeroed_temp_register k) s); inversion HC; subst; apply pstep_shrinks; tauto.
  - destruct (length (conds s)) as [|d] eqn:El; [|destruct (on_objects c) eqn:EO].
    + eapply steady_pstep; [exact Re|exact HD|exact HL|exact HC|]. rewrite El. apply steady_call; auto.
    + eapply outcome_pstep; [exact T|exact HC|]. apply objects_pstep; [exact Re|exact HL|rewrite El; split; assumption|exact EO|lia|].
      destruct c; auto; (destruct HX as [X|X]; [rewrite X in El; discriminate|exact X]).
    + eapply steady_pstep; [exact Re|exact HD|exact HL|exact HC|]. apply steady_call; auto.
Qed.
