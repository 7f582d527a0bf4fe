(** Every builder function obeys the conservation law. *)
From Coq Require Import Permutation ZArith QArith Reals.
From Verif Require Import Base BuilderModel RegProofs ConserveProofs.
Local Open Scope nat_scope.

Ltac liar := first [lia | unfold reg in *; lia].
Definition nomeas (c : cobj) : Prop := match co_obj c with OMeas _ => False | _ => True end.
Definition nomeas_pipe (sc : pipe) : Prop := Forall (fun e => nomeas (snd e)) sc.

Lemma spec_same {A} P ins (m : M A) outs outs' : spec P ins m outs -> (forall a, outs a = outs' a) -> spec P ins m outs'.
Proof. intros H E s. specialize (H s). destruct (m s); auto. rewrite <- E. exact H. Qed.

Section S.
Context (P : Prop).

Lemma s_register k : spec P [] (register k) (fun r => [r]).
Proof.
  intros s. unfold register, mbind, get, lift, put, ret. destruct (new_reg (seq (bn (bld s)) k)) as [r|] eqn:E; cbn [unwrap_opt]; [|exact I].
  apply new_reg_qs in E. cbn [oregs] in E. subst r. split; [cbn; liar|]. split.
  - exists []. cbn. rewrite app_nil_r. split; [reflexivity|]. split; [intros _; reflexivity|intros e q []].
  - intros q. cbn [concat]. rewrite app_nil_r, cnt_seq, cnt_nil. unfold reserve, ConserveProofs.fresh. cbn [bld bn conds zeroed]. liar.
Qed.
Lemma s_qubit : spec P [] qubit (fun r => [r]).
Proof. apply s_register. Qed.
Lemma s_qudit k : spec P [] (qudit k) (fun o => [oregs o]).
Proof.
  unfold qudit. destruct (k =? 0); [apply spec_ret; cn|]. use (s_register k). apply spec_ret. cn.
Qed.

Lemma s_put b' s ins outs p : bn (bld s) <= bn b' -> pipeline b' = pipeline (bld s) ++ p ->
  (P -> nmeas p + meas (bld s) = meas b') ->
  (forall e q, In e p -> cnt q (fst e) <= cnt q (concat ins)) ->
  (forall q, cnt q (concat outs) + cnt q (concat (zeroed b')) <= cnt q (concat ins) + cnt q (concat (zeroed (bld s)))) ->
  post P s ins (mkSt b' (conds s)) outs.
Proof.
  intros B E M C D. split; [exact B|]. split.
  - exists p. split; [exact E|]. split; [exact M|]. intros e q He. specialize (C e q He). liar.
  - intros q. specialize (D q). unfold reserve. cbn [bld conds]. rewrite !cnt_app. liar.
Qed.

Lemma s_push e : (P -> is_meas e = false) -> spec P [fst e] (push e) (fun _ => [fst e]).
Proof.
  intros H s. unfold push, mbind, get, put. apply (s_put _ _ _ _ [e]).
  - reflexivity.
  - reflexivity.
  - intros HP. unfold nmeas. cbn [filter]. rewrite (H HP). reflexivity.
  - intros e' q [<-|[]]. cn.
  - intros q. cbn [zeroed]. liar.
Qed.

Lemma s_split_rel r is : NoDup is -> spec P [r] (lift (split_rel r is)) (fun sp => [sp_qs sp]).
Proof. intros ND. apply spec_lift. intros a q H. apply (split_rel_cnt q) in H; [|exact ND]. cn. Qed.
Lemma s_split_all r : spec P [r] (lift (split_all r)) (fun rs => [concat rs]).
Proof. apply spec_lift. intros a q H. apply (split_all_cnt q) in H. cn. Qed.
Lemma s_merge rs : spec P [concat rs] (lift (merge_registers rs)) (fun o => [oregs o]).
Proof. apply spec_lift. intros a q H. apply merge_registers_inv in H. cn. rewrite H. liar. Qed.
Lemma s_unwrap o : spec P [oregs o] (lift (unwrap_opt o)) (fun r => [r]).
Proof. apply spec_lift. intros a q H. apply unwrap_inv in H. subst. cn. Qed.
Lemma s_merge2 a b : spec P [a; b] (lift (merge2 a b)) (fun r => [r]).
Proof. apply spec_lift. intros r q H. apply merge2_inv in H. subst. cn. Qed.
Lemma s_split_last r : spec P [r] (lift (split_last_qubit r)) (fun x => [fst x; oregs (snd x)]).
Proof. apply spec_lift. intros [a o] q H. apply (split_last_cnt q) in H. cn. Qed.
Lemma s_split_first r : spec P [r] (lift (split_first_qubit r)) (fun x => [oregs (fst x); snd x]).
Proof. apply spec_lift. intros [a o] q H. apply (split_first_cnt q) in H. cn. Qed.
Lemma s_pure {A} (r : res A) : spec P [] (lift r) (fun _ => []).
Proof. apply spec_lift. cn. Qed.
Lemma s_assert b : spec P [] (massert b) (fun _ => []).
Proof. apply spec_assert. Qed.

(** Merge and unwrap at the end. *)
Lemma s_merge_unwrap rs : spec P [concat rs] (mbind (lift (merge_registers rs)) (fun m => lift (unwrap_opt m))) (fun r => [r]).
Proof. use (s_merge rs). apply s_unwrap. Qed.

Lemma s_local_aco r c : (P -> nomeas c) -> spec P [r] (local_aco r c) (fun r => [r]).
Proof.
  intros H. assert (Hm : forall r', P -> is_meas (r', c) = false).
  { intros r' HP. specialize (H HP). unfold nomeas in H. unfold is_meas. cbn. destruct (co_obj c); [reflexivity|destruct H]. }
  unfold local_aco. destruct (_ || _); [|apply spec_fail]. destruct (_ && _).
  - use (s_split_all r). rename a into rs.
    apply (spec_bind P [concat rs] _ (fun _ => [concat rs]) []); [|cn|].
    + assert (F : forall l, spec P [concat l] (mfold (fun _ r => push (r, c)) l tt) (fun _ => [concat l])).
      { induction l as [|r' l IH]; cbn [mfold]; [apply spec_ret; cn|].
        apply (spec_bind P [r'] _ (fun _ => [r']) [concat l]); [apply (s_push (r', c)), Hm|cn|]. intros []. cbn [app].
        eapply spec_weak with (ins := [concat l; r']) (outs := fun _ => [concat l; r']); [|cn|cn].
        intros s. specialize (IH s). destruct (mfold _ l tt s) as [a s'|e s'|p]; [| |exact I].
        - eapply (post_trans P s s' s' [concat l] [concat l] [r']); [exact IH|cn|apply post_refl; cn].
        - eapply (post_trans P s s' s' [concat l] [] [r']); [exact IH|cn|apply post_refl; cn]. }
      apply F.
    + intros u. cbn [app]. use (s_merge rs). apply s_unwrap.
  - use (s_push (r, c) (Hm r)). apply spec_ret. cn.
Qed.

Lemma concat_rev_cnt q (l : list reg) : cnt q (concat (rev l)) = cnt q (concat l).
Proof. induction l as [|a l IH]; [reflexivity|]. cbn. rewrite concat_app, !cnt_app, IH. cbn. rewrite app_nil_r. liar. Qed.

Lemma s_make_temp : spec P [] make_zeroed_temp_qubit (fun r => [r]).
Proof.
  intros s. unfold make_zeroed_temp_qubit, mbind, get. destruct (rev (zeroed (bld s))) as [|r z] eqn:E.
  - apply s_qubit.
  - cbn [put ret]. apply (s_put _ _ _ _ []).
    + reflexivity.
    + cbn. rewrite app_nil_r. reflexivity.
    + intros _. reflexivity.
    + intros e q [].
    + intros q. pose proof (concat_rev_cnt q (zeroed (bld s))) as H. rewrite E in H. cbn [zeroed]. rewrite concat_rev_cnt. cbn in *. cn.
Qed.
Lemma s_return_temp r : spec P [r] (return_zeroed_temp_register r) (fun _ => []).
Proof.
  unfold return_zeroed_temp_register. use (s_split_all r). rename a into rs. intros s. cbn. apply (s_put _ _ _ _ []).
  - reflexivity.
  - cbn. rewrite app_nil_r. reflexivity.
  - intros _. reflexivity.
  - intros e q [].
  - intros q. cbn [zeroed]. cn.
Qed.
Lemma s_make_temp_reg n : spec P [] (make_zeroed_temp_register n) (fun r => [r]).
Proof.
  unfold make_zeroed_temp_register.
  assert (H : forall l : list nat, spec P [] (mmap (fun _ => make_zeroed_temp_qubit) l) (fun rs => [concat rs])).
  { intros l. pose proof (spec_mmap P (fun _ : nat => make_zeroed_temp_qubit) (fun _ => []) (fun r => r)) as X.
    eapply spec_weak; [apply X| |].
    - intros _. eapply spec_weak; [apply s_make_temp|cn|cn].
    - intros q. assert (Z : concat (map (fun _ : nat => @nil nat) l) = []) by (clear; induction l; cbn; auto). cbn. rewrite Z. cn.
    - cn. rewrite map_id. cn. }
  use (H (seq 0 n)). apply s_merge_unwrap.
Qed.

Lemma s_measure m r : spec P [r] (measure_with m r) (fun x => [fst x]).
Proof.
  intros s. unfold measure_with, mbind, get, put, ret. apply (s_put _ _ _ _ [(r, mkCO (length r) (OMeas m))]); try reflexivity.
  - intros e q [<-|[]]. cn.
Qed.

(** *** Trait methods *)
Section Aco.
Context (ac : reg -> cobj -> M reg).
Context (Hac : forall r c, (P -> nomeas c) -> spec P [r] (ac r c) (fun r => [r])).

Lemma s_gate u r : spec P [r] (gate ac u r) (fun r => [r]).
Proof. apply spec_unwrap, Hac. intros _. exact I. Qed.
Lemma s_sdg r : spec P [r] (g_s_dagger ac r) (fun r => [r]).
Proof. unfold g_s_dagger. use (s_gate UZ r). apply s_gate. Qed.
Lemma s_tdg r : spec P [r] (g_t_dagger ac r) (fun r => [r]).
Proof. unfold g_t_dagger. use (s_sdg r). apply s_gate. Qed.
Lemma s_apply_matrix r d : spec P [r] (apply_matrix ac r d) (fun r => [r]).
Proof. apply Hac. intros _. exact I. Qed.
Lemma s_broadcast r d : spec P [r] (broadcast_single_qubit_matrix ac r d) (fun r => [r]).
Proof. apply spec_unwrap, s_apply_matrix. Qed.

Lemma s_cnot_step acc r : spec P [fst acc ++ concat (snd acc); r] (cnot_step ac acc r) (fun acc => [fst acc ++ concat (snd acc)]).
Proof.
  destruct acc as [cr acc]. cbn [fst snd cnot_step]. eapply spec_weak with (ins := [cr; r; concat acc]); [|cn|intros; apply Nat.le_refl].
  use (s_merge2 cr r). rename a into r'. use (Hac r' (mkCO 2 (OUnit UCNOT)) (fun _ => I)). rename a into r2.
  use (s_split_rel r2 [0] NoDup_0). destruct a as [x|x|x y]; try apply spec_crash. apply spec_ret. cn. cbn. cn.
Qed.
Lemma s_cnot cr r : spec P [cr; r] (cnot ac cr r) (fun x => [fst x; snd x]).
Proof.
  unfold cnot. destruct (1 <? length cr); [apply spec_fail|]. use (s_split_all r). rename a into rs.
  apply (spec_bind P [cr; concat rs] _ (fun acc => [fst acc; concat (snd acc)]) []); [|cn|].
  - pose proof (spec_mfold P (cnot_step ac) (fun acc => fst acc ++ concat (snd acc)) (fun r => r) s_cnot_step rs (cr, [])) as X.
    eapply spec_weak; [exact X| |]; cn; rewrite ?map_id; cn.
  - intros [cr' rs']. cbn [fst snd app]. use (s_merge rs'). use (s_unwrap a). apply spec_ret. cn.
Qed.
Lemma s_swap_pair p : spec P [fst p; snd p] (swap_pair ac p) (fun x => [fst x; snd x]).
Proof.
  destruct p as [ra rb]. cbn [fst snd swap_pair]. use (s_assert (length ra =? 1)). use (s_assert (length rb =? 1)).
  apply spec_unwrap. use (s_cnot ra rb). destruct a1 as [x y]. cbn [fst snd app]. use (s_cnot y x). destruct a1 as [z w]. cbn [fst snd app].
  eapply spec_weak; [apply s_cnot|cn|cn].
Qed.
Lemma s_swap ra rb : spec P [ra; rb] (swap ac ra rb) (fun x => [fst x; snd x]).
Proof.
  unfold swap. destruct (_ =? _); [|apply spec_fail]. use (s_split_all ra). rename a into ras. use (s_split_all rb). rename a into rbs.
  apply (spec_bind P [concat rbs; concat ras] _ (fun l => [concat (map fst l); concat (map snd l)]) []); [|cn|].
  - assert (X : forall a, spec P [fst a ++ snd a] (swap_pair ac a) (fun b => [fst b ++ snd b])).
    { intros a. eapply spec_weak; [apply s_swap_pair|cn|cn]. }
    pose proof (spec_mmap P (swap_pair ac) (fun p => fst p ++ snd p) (fun p => fst p ++ snd p) X) as Y.
    assert (CC : forall q (l : list (reg * reg)), cnt q (concat (map (fun p => fst p ++ snd p) l)) = cnt q (concat (map fst l)) + cnt q (concat (map snd l))).
    { intros q l. induction l as [|p l IH]; cbn; [reflexivity|]. rewrite !cnt_app, IH. liar. }
    eapply spec_weak; [apply Y| |].
    + intros q. cbn [concat]. rewrite !app_nil_r, cnt_app, CC.
      assert (L : forall (a b : list reg), cnt q (concat (map fst (combine a b))) <= cnt q (concat a)).
      { induction a as [|x a IH]; intros [|y b]; cbn; rewrite ?cnt_nil; try liar. rewrite !cnt_app. specialize (IH b). liar. }
      pose proof (L ras rbs). pose proof (combine_snd_cnt q ras rbs). liar.
    + intros l q. cbn [concat]. rewrite !app_nil_r, cnt_app, CC. liar.
  - intros prs. cbn [app]. assert (E : forall (l : list (reg * reg)), List.split l = (map fst l, map snd l)).
    { induction l as [|[x y] l IH]; [reflexivity|]. cbn. rewrite IH. reflexivity. }
    rewrite E. use (s_merge (map fst prs)). use (s_unwrap a). use (s_merge (map snd prs)). use (s_unwrap a1). apply spec_ret. cn.
Qed.

Ltac one lem := use lem.
Ltac two lem := use lem; match goal with x : (_ * _)%type |- _ => destruct x; cbn [fst snd app] end.

Lemma s_basic_toffoli cr r : spec P [cr; r] (basic_toffoli ac cr r) (fun x => [fst x; snd x]).
Proof.
  unfold basic_toffoli. destruct (_ =? 2); [|apply spec_fail]. use (s_split_rel cr [0] NoDup_0).
  destruct a as [x|x|cra crb]; try apply spec_crash. cbn [sp_qs app].
  eapply spec_weak with (ins := [cra; crb; r]); [|cn|intros; apply Nat.le_refl].
  use (s_gate UH r). rename a into r1. use (spec_unwrap P _ _ _ (s_cnot crb r1)). destruct a as [crb1 r2]. cbn [fst snd app].
  use (s_tdg r2). rename a into r3. use (spec_unwrap P _ _ _ (s_cnot cra r3)). destruct a as [cra1 r4]. cbn [fst snd app].
  use (s_gate UT r4). rename a into r5. use (spec_unwrap P _ _ _ (s_cnot crb1 r5)). destruct a as [crb2 r6]. cbn [fst snd app].
  use (s_tdg r6). rename a into r7. use (spec_unwrap P _ _ _ (s_cnot cra1 r7)). destruct a as [cra2 r8]. cbn [fst snd app].
  use (s_gate UT crb2). rename a into crb3. use (s_gate UT r8). rename a into r9.
  use (spec_unwrap P _ _ _ (s_cnot cra2 crb3)). destruct a as [cra3 crb4]. cbn [fst snd app].
  use (s_gate UH r9). rename a into r10. use (s_gate UT cra3). rename a into cra4. use (s_tdg crb4). rename a into crb5.
  use (spec_unwrap P _ _ _ (s_cnot cra4 crb5)). destruct a as [cra5 crb6]. cbn [fst snd app].
  use (s_merge2 cra5 crb6). apply spec_ret. cn.
Qed.

Lemma s_toffoli_fuel fuel : forall cr r, spec P [cr; r] (toffoli_fuel ac fuel cr r) (fun x => [fst x; snd x]).
Proof.
  induction fuel as [|f IH]; intros cr r; cbn [toffoli_fuel]; [apply spec_crash|].
  destruct (_ =? 1); [apply s_cnot|]. destruct (_ =? 2); [apply s_basic_toffoli|].
  use (s_split_rel cr [0; 1] NoDup_01). destruct a as [x|x|h t]; try apply spec_crash. cbn [sp_qs app].
  eapply spec_weak with (ins := [h; t; r]); [|cn|intros; apply Nat.le_refl].
  use s_make_temp. rename a into tr. use (spec_unwrap P _ _ _ (IH h tr)). destruct a as [h1 tr1]. cbn [fst snd app].
  use (s_merge2 t tr1). rename a into cr1. use (spec_unwrap P _ _ _ (IH cr1 r)). destruct a as [cr2 r2]. cbn [fst snd app].
  use (s_split_last cr2). destruct a as [t2 o]. cbn [fst snd app]. use (s_unwrap o). rename a into tr2.
  use (spec_unwrap P _ _ _ (IH h1 tr2)). destruct a as [h3 tr3]. cbn [fst snd app]. use (s_return_temp tr3). use (s_merge2 h3 t2).
  apply spec_ret. cn.
Qed.
Lemma s_toffoli cr r : spec P [cr; r] (toffoli ac cr r) (fun x => [fst x; snd x]).
Proof. apply s_toffoli_fuel. Qed.

Lemma s_apply_entry rs e : (P -> nomeas (snd e)) -> spec P [oqs rs] (apply_entry ac rs e) (fun rs => [oqs rs]).
Proof.
  destruct e as [is co]. intros Hn. cbn [apply_entry].
  assert (T : spec P [oqs rs] (lift (take_all rs is)) (fun x => [concat (fst x); oqs (snd x)])).
  { apply spec_lift. intros [l rs'] q H. apply (take_all_cnt q) in H. cn. }
  use T. destruct a as [l rs1]. cbn [fst snd app]. use (s_merge l). use (s_unwrap a). use (Hac a0 co Hn). use (s_split_all a1).
  assert (F : spec P [concat a2; oqs rs1] (lift (foldM put_back (combine is a2) rs1)) (fun rs => [oqs rs])).
  { apply spec_lift. intros x q H. apply (put_back_cnt q) in H. pose proof (combine_snd_cnt q is a2). cn. }
  use F. use (s_assert (forallb (fun o => match o with Some _ => true | None => false end) a3)). apply spec_ret. cn.
Qed.

Lemma s_entries sc : (P -> nomeas_pipe sc) -> forall rs, spec P [oqs rs] (mfold (apply_entry ac) sc rs) (fun rs => [oqs rs]).
Proof.
  induction sc as [|e sc IH]; intros Hn rs; cbn [mfold]; [apply spec_ret; cn|].
  use (s_apply_entry rs e (fun HP => Forall_inv (Hn HP))). apply IH. intros HP. exact (Forall_inv_tail (Hn HP)).
Qed.

Lemma mapM_unwrap rs : forall rs', mapM (@unwrap_opt reg) rs = Ok rs' -> concat rs' = oqs rs.
Proof.
  induction rs as [|o rs IH]; intros rs' H; cbn [mapM] in H; [inversion H; reflexivity|].
  destruct o as [r|]; cbn [unwrap_opt bind] in H; try discriminate.
  destruct (mapM unwrap_opt rs); cbn [bind] in H; try discriminate. inversion H; subst. rewrite oqs_cons. cbn [concat oregs]. f_equal. apply IH. reflexivity.
Qed.

Lemma s_pipeline_objects sc r : (P -> nomeas_pipe sc) -> spec P [r] (apply_pipeline_objects ac sc r) (fun r => [r]).
Proof.
  intros Hn. unfold apply_pipeline_objects. use (s_split_all r). rename a into rs. cbn zeta.
  match goal with |- spec _ _ (mbind (lift ?x) _) _ => use (s_pure x) end.
  match goal with |- spec _ _ (mbind (lift ?x) _) _ => use (s_pure x) end.
  apply (spec_bind P [concat rs] _ (fun rs => [concat rs]) []); [|cn|].
  - destruct (_ =? 0); [apply spec_ret; cn|]. use (s_make_temp_reg a0). use (s_split_all a1). apply spec_ret. cn.
  - intros rs1. cbn [app]. assert (X : spec P [concat rs1] (mfold (apply_entry ac) sc (map Some rs1)) (fun rs => [oqs rs])).
    { rewrite <- oqs_map_Some. apply s_entries. exact Hn. }
    use X. rename a1 into ors.
    assert (U : spec P [oqs ors] (lift (mapM (@unwrap_opt reg) ors)) (fun rs => [concat rs])).
    { apply spec_lift. intros x q H. apply mapM_unwrap in H. cn. rewrite H. liar. }
    use U. rename a1 into rs2.
    assert (V : spec P [concat rs2] (split_vector_at rs2 (length r)) (fun x => [concat (fst x); concat (snd x)])).
    { unfold split_vector_at. use (s_assert (length r <=? length rs2)). apply spec_ret.
      intros q. cbn [fst snd concat]. rewrite !app_nil_r, !cnt_app. rewrite <- (firstn_skipn (length r) rs2) at 3. cn. }
    use V. destruct a1 as [rs3 trs]. cbn [fst snd app]. use (s_merge trs).
    apply (spec_bind P [oregs a1] _ (fun _ => []) [concat rs3]); [|cn|].
    + destruct a1 as [tr|]; [apply s_return_temp|apply spec_ret; cn].
    + intros []. cbn [app]. apply s_merge_unwrap.
Qed.
End Aco.

(** *** Rotations *)
Lemma s_lunit r n u : spec P [r] (local_aco r (mkCO n (OUnit u))) (fun r => [r]).
Proof. apply s_local_aco. intros _. exact I. Qed.
Lemma s_rz r t : spec P [r] (rz r t) (fun r => [r]).
Proof. apply spec_unwrap, s_lunit. Qed.
Lemma s_lgate u r : spec P [r] (gate local_aco u r) (fun r => [r]).
Proof. apply s_gate. exact s_local_aco. Qed.
Lemma s_lsdg r : spec P [r] (g_s_dagger local_aco r) (fun r => [r]).
Proof. apply s_sdg. exact s_local_aco. Qed.
Lemma s_rz_pi_by r m : spec P [r] (rz_pi_by r m) (fun r => [r]).
Proof. unfold rz_pi_by. destruct (_ =? 0)%Z; [apply spec_fail|]. use (s_pure (ratio_1 m)). apply s_lunit. Qed.
Lemma s_rx r t : spec P [r] (rx r t) (fun r => [r]).
Proof. unfold rx. use (s_lgate UH r). use (s_rz a t). apply s_lgate. Qed.
Lemma s_ry r t : spec P [r] (ry r t) (fun r => [r]).
Proof. unfold ry. use (s_lsdg r). use (s_lgate UH a). use (s_rz a0 (- t)%R). use (s_lgate UH a1). apply s_lgate. Qed.
Lemma s_rz_ratio r q : spec P [r] (rz_ratio r q) (fun r => [r]).
Proof. apply s_rz. Qed.
Lemma s_rx_ratio r q : spec P [r] (rx_ratio r q) (fun r => [r]).
Proof. unfold rx_ratio. use (s_lgate UH r). use (s_rz_ratio a q). apply s_lgate. Qed.
Lemma s_ry_ratio r q : spec P [r] (ry_ratio r q) (fun r => [r]).
Proof. unfold ry_ratio. use (s_lgate US r). use (s_lgate UH a). use (s_rz_ratio a0 (Qopp q)). use (s_lgate UH a1). apply s_lsdg. Qed.
Lemma s_rx_pi_by r m : spec P [r] (rx_pi_by r m) (fun r => [r]).
Proof. unfold rx_pi_by. use (s_pure (ratio_1 m)). apply s_rx_ratio. Qed.
Lemma s_ry_pi_by r m : spec P [r] (ry_pi_by r m) (fun r => [r]).
Proof. unfold ry_pi_by. use (s_pure (ratio_1 m)). apply s_ry_ratio. Qed.
Lemma s_phase r t : spec P [r] (apply_global_phase r t) (fun r => [r]).
Proof. apply spec_unwrap, s_lunit. Qed.
Lemma s_phase_ratio r q : spec P [r] (apply_global_phase_ratio r q) (fun r => [r]).
Proof. apply spec_unwrap, s_lunit. Qed.
Lemma s_phase_pi_by r m : spec P [r] (apply_global_phase_pi_by r m) (fun r => [r]).
Proof. unfold apply_global_phase_pi_by. use (s_pure (ratio_1 m)). apply s_phase_ratio. Qed.

(** *** Conditioning *)
Lemma s_ltoffoli cr r : spec P [cr; r] (toffoli local_aco cr r) (fun x => [fst x; snd x]).
Proof. apply s_toffoli. exact s_local_aco. Qed.
Lemma s_lcnot cr r : spec P [cr; r] (cnot local_aco cr r) (fun x => [fst x; snd x]).
Proof. apply s_cnot. exact s_local_aco. Qed.

Lemma s_cond_phase g cr r : (forall r, spec P [r] (g r) (fun r => [r])) -> spec P [cr; r] (cond_phase g cr r) (fun x => [fst x; snd x]).
Proof.
  intros Hg. unfold cond_phase. use (s_merge2 cr r). use s_make_temp. use (s_ltoffoli a a0). destruct a1 as [c t]. cbn [fst snd app].
  use (Hg t). use (s_ltoffoli c a1). destruct a2 as [c2 t2]. cbn [fst snd app]. use (s_return_temp t2). use (s_split_last c2).
  destruct a3 as [c3 o]. cbn [fst snd app]. use (s_unwrap o). apply spec_ret. cn.
Qed.
Lemma s_cond_swap_half cr ra rb : spec P [cr; ra; rb] (cond_swap_half cr ra rb) (fun x => [fst (fst x); snd (fst x); snd x]).
Proof.
  unfold cond_swap_half. use (s_merge2 cr ra). use (s_lcnot a rb). destruct a0 as [c b]. cbn [fst snd app]. use (s_split_last c).
  destruct a0 as [c2 o]. cbn [fst snd app]. use (s_unwrap o). apply spec_ret. cn.
Qed.
Definition sw_qs (acc : reg * list reg * list reg) : list nat := fst (fst acc) ++ concat (snd (fst acc)) ++ concat (snd acc).
Lemma s_cond_swap_step acc p : spec P [sw_qs acc; fst p ++ snd p] (cond_swap_step acc p) (fun acc => [sw_qs acc]).
Proof.
  destruct acc as [[cr ras] rbs]. destruct p as [ra rb]. cbn [cond_swap_step fst snd sw_qs].
  eapply spec_weak with (ins := [cr; concat ras; concat rbs; ra; rb]); [|unfold sw_qs; cn|intros; apply Nat.le_refl].
  use (s_assert (length ra =? 1)). use (s_assert (length rb =? 1)).
  use (s_cond_swap_half cr ra rb). destruct a1 as [[c1 a1] b1]. cbn [fst snd app].
  use (s_cond_swap_half c1 b1 a1). destruct a2 as [[c2 b2] a2]. cbn [fst snd app].
  use (s_cond_swap_half c2 a2 b2). destruct a3 as [[c3 a3] b3]. cbn [fst snd app].
  apply spec_ret. unfold sw_qs. cn. cbn. cn.
Qed.

Lemma s_local_try cr r co : spec P [cr; r] (local_try cr r co) (fun x => [fst x; snd x]).
Proof.
  unfold local_try. destruct (co_obj co) as [u|m]; [|apply spec_fail]. destruct u.
  - apply s_ltoffoli.
  - use (s_lgate US r). use (s_ltoffoli cr a). destruct a0 as [c x]. cbn [fst snd app]. use (s_lsdg x). apply spec_ret. cn.
  - use (s_lgate UH r). use (s_ltoffoli cr a). destruct a0 as [c x]. cbn [fst snd app]. use (s_lgate UH x). apply spec_ret. cn.
  - use (s_ry_pi_by r 4). use (s_ltoffoli cr a). destruct a0 as [c x]. cbn [fst snd app]. use (s_ry_pi_by x (-4)). apply spec_ret. cn.
  - apply s_cond_phase. apply s_lgate.
  - apply s_cond_phase. apply s_lgate.
  - use (s_assert (length r =? 2)). use (s_split_first r). destruct a0 as [o x]. cbn [fst snd app]. use (s_unwrap o). use (s_merge2 cr a0).
    use (s_ltoffoli a1 x). destruct a2 as [c y]. cbn [fst snd app]. use (s_split_last c). destruct a2 as [c2 o2]. cbn [fst snd app].
    use (s_unwrap o2). use (s_merge2 a2 y). apply spec_ret. cn.
  - cbn zeta. use (s_assert (length r mod 2 =? 0)). use (s_split_all r). rename a0 into rs.
    assert (V : spec P [concat rs] (split_vector_at rs (length r / 2)) (fun x => [concat (fst x) ++ concat (snd x)])).
    { unfold split_vector_at. use (s_assert (length r / 2 <=? length rs)). apply spec_ret.
      intros q. cbn [fst snd concat]. rewrite !app_nil_r, !cnt_app. rewrite <- (firstn_skipn (length r / 2) rs) at 3. cn. }
    use V. destruct a0 as [ra rb]. cbn [fst snd app].
    apply (spec_bind P [cr; concat ra ++ concat rb] _ (fun acc => [sw_qs acc]) []); [|cn|].
    + pose proof (spec_mfold P cond_swap_step sw_qs (fun p => fst p ++ snd p) s_cond_swap_step (combine ra rb) (cr, [], [])) as X.
      eapply spec_weak; [exact X| |intros; apply Nat.le_refl]. intros q. unfold sw_qs. cbn [fst snd concat]. rewrite !app_nil_r, !cnt_app.
      assert (CC : forall (l : list (reg * reg)), cnt q (concat (map (fun p => fst p ++ snd p) l)) = cnt q (concat (map fst l)) + cnt q (concat (map snd l))).
      { intros l. induction l as [|p l IH]; cbn; [reflexivity|]. rewrite !cnt_app, IH. liar. }
      assert (L : forall (a b : list reg), cnt q (concat (map fst (combine a b))) <= cnt q (concat a)).
      { induction a0 as [|x a0 IH]; intros [|y b]; cbn; rewrite ?cnt_nil; try liar. rewrite !cnt_app. specialize (IH b). liar. }
      rewrite CC. pose proof (L ra rb). pose proof (combine_snd_cnt q ra rb). cn.
    + intros [[c ras] rbs]. cbn [app]. eapply spec_weak with (ins := [c; concat (ras ++ rbs)]); [|unfold sw_qs; cn; cbn; cn|intros; apply Nat.le_refl].
      use (s_merge (ras ++ rbs)). use (s_unwrap a0). apply spec_ret. cn.
  - use (s_merge2 cr r). use s_make_temp. use (s_ltoffoli a a0). destruct a1 as [c t]. cbn [fst snd app].
    apply (spec_bind P [t] _ (fun t => [t]) [c]); [|cn|].
    { destruct theta; [apply s_rz|apply s_rz_ratio]. }
    intros t1. cbn [app]. use (s_ltoffoli c t1). destruct a1 as [c2 t2]. cbn [fst snd app]. use (s_return_temp t2).
    use (s_split_rel c2 (seq 0 (length cr)) (seq_NoDup _ _)). destruct a2 as [x|x|x y]; try apply spec_crash. apply spec_ret. cn.
  - apply spec_crash.
  - use s_make_temp. use (s_ltoffoli cr a). destruct a0 as [c t]. cbn [fst snd app].
    apply (spec_bind P [t] _ (fun t => [t]) [c; r]); [|cn|].
    { destruct theta; cbn zeta.
      - use (s_rz t (theta * (1 / 2))%R). apply s_phase.
      - use (s_rz_ratio t (q / 2)%Q). apply s_phase_ratio. }
    intros t1. cbn [app]. use (s_ltoffoli c t1). destruct a0 as [c2 t2]. cbn [fst snd app]. use (s_return_temp t2). apply spec_ret. cn.
Qed.

Lemma s_take_cr k : spec P [] (take_cr k) (fun r => [r]).
Proof.
  intros s. unfold take_cr. destruct (nth_error (conds s) k) as [[r|]|] eqn:E; try exact I.
  split; [cbn; liar|]. split.
  - exists []. cbn. rewrite app_nil_r. split; [reflexivity|]. split; [intros _; reflexivity|intros e q []].
  - intros q. unfold reserve. cbn [bld conds concat]. rewrite !app_nil_r, !cnt_app, cnt_nil.
    pose proof (oqs_upd q k None (conds s) _ E) as X. cbn [oregs] in X. rewrite cnt_nil in X. liar.
Qed.
Lemma s_put_cr k r : spec P [r] (put_cr k r) (fun _ => []).
Proof.
  intros s. cbn. split; [cbn; liar|]. split.
  - exists []. cbn. rewrite app_nil_r. split; [reflexivity|]. split; [intros _; reflexivity|intros e q []].
  - intros q. unfold reserve. cbn [bld conds concat]. rewrite !app_nil_r, !cnt_app, cnt_nil.
    pose proof (oqs_upd_le q k (Some r) (conds s)) as X. cbn [oregs] in X. liar.
Qed.
Lemma s_give_back k ncr cr r : spec P [cr; r] (give_back k ncr cr r) (fun x => [fst x; snd x]).
Proof.
  unfold give_back. use (s_split_rel cr (seq 0 ncr) (seq_NoDup _ _)). destruct a as [x|x|x y]; try apply spec_crash. cbn [sp_qs app].
  eapply spec_weak with (ins := [x; y; r]); [|cn|intros; apply Nat.le_refl]. use (s_put_cr k y). apply spec_ret. cn.
Qed.
Lemma s_try_cond d : forall cr r co, spec P [cr; r] (try_cond d cr r co) (fun x => [fst x; snd x]).
Proof.
  induction d as [|k IH]; intros cr r co; cbn [try_cond]; [apply s_local_try|]. cbn zeta.
  use (s_take_cr k). use (s_merge2 cr a). use (IH a0 r co). destruct a1 as [c x]. cbn [fst snd app]. apply s_give_back.
Qed.
Lemma s_aco d r c : (P -> nomeas c) -> spec P [r] (aco d r c) (fun r => [r]).
Proof.
  intros Hn. destruct d as [|k]; cbn [aco]; [apply s_local_aco; exact Hn|].
  use (s_take_cr k). use (s_try_cond k a r c). destruct a0 as [x y]. cbn [fst snd app]. use (s_put_cr k x). apply spec_ret. cn.
Qed.
Lemma s_condition_with cr : spec P [cr] (condition_with cr) (fun _ => []).
Proof.
  intros s. cbn. split; [cbn; liar|]. split.
  - exists []. cbn. rewrite app_nil_r. split; [reflexivity|]. split; [intros _; reflexivity|intros e q []].
  - intros q. unfold reserve. cbn [bld conds concat]. rewrite oqs_app, oqs_cons. cbn. rewrite !cnt_app, cnt_nil. liar.
Qed.
Lemma s_dissolve : spec P [] dissolve (fun r => [r]).
Proof.
  intros s. unfold dissolve. destruct (rev (conds s)) as [|[r|] c] eqn:E; try exact I.
  assert (E2 : conds s = rev c ++ [Some r]) by (rewrite <- (rev_involutive (conds s)), E; reflexivity).
  split; [cbn; liar|]. split.
  - exists []. cbn. rewrite app_nil_r. split; [reflexivity|]. split; [intros _; reflexivity|intros e q []].
  - intros q. unfold reserve. cbn [bld conds concat]. rewrite E2, oqs_app, oqs_cons. cbn. rewrite !cnt_app, !cnt_nil. liar.
Qed.
Lemma oqs_firstn q n rs : cnt q (oqs (firstn n rs)) <= cnt q (oqs rs).
Proof. rewrite <- (firstn_skipn n rs) at 2. rewrite oqs_app, cnt_app. liar. Qed.
Lemma post_conds s ins s' outs c : (forall q, cnt q (oqs c) <= cnt q (oqs (conds s'))) -> post P s ins s' outs -> post P s ins (mkSt (bld s') c) outs.
Proof.
  intros H (B & C & D). split; [exact B|]. split; [exact C|]. intros q. specialize (D q). specialize (H q). unfold reserve, ConserveProofs.fresh in *. cbn [bld conds] in *.
  rewrite !cnt_app in *. liar.
Qed.
Lemma s_scoped {A} ins (m : M A) outs : spec P ins m outs -> spec P ins (scoped m) outs.
Proof.
  intros H s. specialize (H s). unfold scoped. destruct (m s) as [a s'|e s'|p]; auto. apply post_conds; [intros q; apply oqs_firstn|exact H].
Qed.

(** *** Subcircuits *)
Lemma s_with_conds {A} c ins (m : M A) outs : spec P ins m outs -> spec P (ins ++ [oqs c]) (with_conds c m) outs.
Proof.
  intros H s. specialize (H (mkSt (bld s) c)). unfold with_conds. destruct (m (mkSt (bld s) c)) as [a s'|e s'|p]; [| |exact I];
  destruct H as (B & (p & E & Mm & C) & D); cbn [bld] in *; (split; [exact B|]; split;
  [exists p; split; [exact E|]; split; [exact Mm|]; intros e0 q He; specialize (C e0 q He)|intros q; specialize (D q)]);
  unfold reserve, ConserveProofs.fresh in *; cbn [bld conds] in *; rewrite ?concat_app, ?cnt_app in *; cbn [concat] in *; rewrite ?app_nil_r, ?cnt_nil in *; liar.
Qed.
Lemma s_local_cond_sub sc cr r : (P -> nomeas_pipe sc) -> spec P [cr; r] (local_cond_subcircuit sc cr r) (fun x => [fst x; snd x]).
Proof.
  intros Hn. unfold local_cond_subcircuit. eapply spec_weak with (ins := [r] ++ [oqs [Some cr]]); [|unfold oqs, somes; cn; cbn; cn|intros; apply Nat.le_refl].
  apply s_with_conds. use (s_pipeline_objects (aco 1) (s_aco 1) sc r Hn). use s_dissolve. apply spec_ret. cn.
Qed.
Lemma s_cond_sub d sc : (P -> nomeas_pipe sc) -> forall cr r, spec P [cr; r] (apply_cond_subcircuit d sc cr r) (fun x => [fst x; snd x]).
Proof.
  intros Hn. induction d as [|k IH]; intros cr r; cbn [apply_cond_subcircuit]; [apply s_local_cond_sub; exact Hn|]. cbn zeta.
  use (s_take_cr k). use (s_merge2 cr a). use (IH a0 r). destruct a1 as [x y]. cbn [fst snd app]. apply s_give_back.
Qed.
Lemma s_apply_sub d sc r : (P -> nomeas_pipe sc) -> spec P [r] (apply_subcircuit d sc r) (fun r => [r]).
Proof.
  intros Hn. destruct d as [|k]; cbn [apply_subcircuit]; [apply s_pipeline_objects; [exact s_local_aco|exact Hn]|].
  use (s_take_cr k). use (s_cond_sub k sc Hn a r). destruct a0 as [x y]. cbn [fst snd app]. use (s_put_cr k x). apply spec_ret. cn.
Qed.
Lemma invert_object_nomeas co cos : invert_circuit_object co = Ok cos -> Forall nomeas cos.
Proof.
  unfold invert_circuit_object. destruct (co_obj co) as [u|]; [|discriminate]. intros H.
  match type of H with bind ?x _ = _ => destruct x as [us| |]; cbn [bind] in H; try discriminate end.
  inversion H. apply Forall_map. apply Forall_forall. intros x _. exact I.
Qed.
Lemma invert_nomeas_acc l : forall acc sc', nomeas_pipe acc -> foldM (fun acc e => let '(indices, co) := e in
      bind (invert_circuit_object co) (fun cos => Ok (acc ++ map (fun co => (indices, co)) cos))) l acc = Ok sc' -> nomeas_pipe sc'.
Proof.
  induction l as [|[is co] l IH]; intros acc sc' Ha H; cbn [foldM] in H; [inversion H; subst; exact Ha|].
  destruct (invert_circuit_object co) as [cos| |] eqn:E; cbn [bind] in H; try discriminate. apply IH in H; [exact H|].
  apply Forall_app. split; [exact Ha|]. apply Forall_map. apply invert_object_nomeas in E. exact E.
Qed.
Lemma invert_nomeas sc sc' : invert_subcircuit sc = Ok sc' -> nomeas_pipe sc'.
Proof. apply invert_nomeas_acc. constructor. Qed.
Lemma s_apply_inverted d sc r : spec P [r] (apply_inverted_subcircuit d sc r) (fun r => [r]).
Proof.
  unfold apply_inverted_subcircuit. destruct (invert_subcircuit sc) as [sc'|e|p] eqn:E.
  - intros s. unfold mbind, lift. apply s_apply_sub. intros _. apply invert_nomeas in E. exact E.
  - intros s. cbn. apply post_refl. cn.
  - intros s. exact I.
Qed.
Lemma s_on_new {A} (m : M A) : spec P [] (on_new m) (fun _ => []).
Proof. intros s. unfold on_new. destruct (m _); [| |exact I]; apply post_refl; cn. Qed.
Lemma s_inverter d rs f : spec P [concat rs] (inverter d rs f) (fun rs => [concat rs]).
Proof.
  unfold inverter. match goal with |- spec _ _ (mbind (on_new ?x) _) _ => use (s_on_new x) end.
  use (s_merge rs). use (s_unwrap a0). use (s_apply_inverted d a a1).
  assert (G : spec P [a2] (lift (split_groups a2 (ranges 0 (map (@length nat) rs)))) (fun sm => [sm_qs sm])).
  { apply spec_lift. intros x q H. apply (split_groups_cnt q) in H. cn. }
  use G. destruct a3; [|apply spec_crash]. apply spec_ret. cn.
Qed.
Lemma s_inv_macro d rs f : spec P [concat rs] (inv_macro d rs f) (fun rs => [concat rs]).
Proof.
  unfold inv_macro. match goal with |- spec _ _ (mbind (on_new ?x) _) _ => use (s_on_new x) end.
  use (s_merge rs). use (s_unwrap a0). use (s_apply_inverted d a a1).
  assert (G : spec P [a2] (lift (split_groups a2 (ranges 0 (map (@length nat) rs)))) (fun sm => [sm_qs sm])).
  { apply spec_lift. intros x q H. apply (split_groups_cnt q) in H. cn. }
  use G. destruct a3; [|apply spec_crash]. apply spec_ret. cn.
Qed.
End S.
