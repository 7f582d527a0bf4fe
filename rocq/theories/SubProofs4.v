(** Exactly which objects applying a subcircuit appends. *)
From Coq Require Import Reals FunctionalExtensionality Permutation.
From Coquelicot Require Import Complex.
From Verif Require Import Base BitsSpec BitsProofs OpsModel OpsSpec Instances BuilderModel RegProofs ConserveProofs DenSpec DenProofs SimSpec SimProofs LocalProofs
  RunSpec RunProofs GateProofs ToffoliProofs SwapProofs CondProofs SubSpec InvertProofs SubProofs SubProofs2.
Local Open Scope nat_scope.
Local Open Scope mon_scope.

Definition logs {A} (s : st) (L : list nat) (m : M A) (a : A) (L' : list nat) (p : pipe) : Prop :=
  exists s', m s = Ret a s' /\ conds s' = conds s /\ meas (bld s') = meas (bld s) /\ bn (bld s) <= bn (bld s') /\
    pipeline (bld s') = pipeline (bld s) ++ p /\ tidy s' /\ live s' L' /\ (forall q, idle s' q \/ In q L' <-> idle s q \/ In q L).
Lemma quiet_logs {A} s L (m : M A) a L' : quiet s L m a L' -> logs s L m a L' [].
Proof. intros (s' & H1 & H2 & H3 & H4 & H5 & H). exists s'. rewrite app_nil_r. auto 10. Qed.
Lemma logs_bind {A B} s L (m : M A) a L1 p (f : A -> M B) b L2 q : logs s L m a L1 p ->
  (forall s1, conds s1 = conds s -> tidy s1 -> live s1 L1 -> logs s1 L1 (f a) b L2 q) -> logs s L (mbind m f) b L2 (p ++ q).
Proof.
  intros (s1 & H1 & H2 & H3 & H4 & H5 & H6 & H7 & H8) H. destruct (H s1 H2 H6 H7) as (s2 & G1 & G2 & G3 & G4 & G5 & G6 & G7 & G8).
  exists s2. unfold mbind. rewrite H1. split; [exact G1|]. split; [congruence|]. split; [congruence|]. split; [lia|].
  split; [rewrite G5, H5, app_assoc; reflexivity|]. split; [exact G6|]. split; [exact G7|]. intros x. rewrite G8. apply H8.
Qed.
Lemma quiet_then_logs {A B} s L (m : M A) a L1 (f : A -> M B) b L2 q : quiet s L m a L1 ->
  (forall s1, conds s1 = conds s -> tidy s1 -> live s1 L1 -> logs s1 L1 (f a) b L2 q) -> logs s L (mbind m f) b L2 q.
Proof. intros Q H. apply quiet_logs in Q. apply (logs_bind s L m a L1 [] f b L2 q Q H). Qed.
Lemma logs_then_quiet {A B} s L (m : M A) a L1 p (f : A -> M B) b L2 : logs s L m a L1 p ->
  (forall s1, conds s1 = conds s -> tidy s1 -> live s1 L1 -> quiet s1 L1 (f a) b L2) -> logs s L (mbind m f) b L2 p.
Proof. intros Q H. rewrite <- (app_nil_r p). eapply logs_bind; [exact Q|]. intros. apply quiet_logs, H; assumption. Qed.
Lemma logs_aco s L qs co : tidy s -> live s L -> co_n co = length qs -> logs s L (local_aco qs co) qs L [(qs, co)].
Proof.
  intros T Lv Sz. unfold local_aco. rewrite Sz, Nat.eqb_refl, orb_true_r. replace ((length qs =? 1) && (1 <? length qs)) with false.
  2:{ destruct (Nat.eqb_spec (length qs) 1) as [->|]; reflexivity. }
  eapply logs_then_quiet with (a := tt) (L1 := L); [|intros; apply quiet_ret; assumption].
  exists (appended s [(qs, co)]). split; [reflexivity|]. repeat (split; [reflexivity || (cbn; lia)|]). split; [exact T|]. split; [exact Lv|]. intros q. tauto.
Qed.

Lemma entry_logs rho L e s : tidy s -> live s L -> NoDup rho -> sized_entry (length rho) e ->
  logs s L (apply_entry local_aco (map Some (singles rho)) e) (map Some (singles rho)) L (ren rho [e]).
Proof.
  intros T Lv Nr (N & R & Hne & Sz). destruct e as [is co]. cbn [fst snd ren map] in *.
  set (qs := map (fun j => nth j rho 0) is). assert (Nq : NoDup qs) by (apply map_inj_NoDup; assumption).
  assert (Hq : qs <> []) by (unfold qs; destruct is; [congruence|discriminate]).
  assert (Es : map (fun i => [nth i rho 0]) is = singles qs) by (unfold qs, singles; rewrite map_map; reflexivity).
  unfold apply_entry. rewrite <- blanked_nil.
  eapply quiet_then_logs; [apply quiet_lift; [apply (take_all_ok rho is []); [exact N|exact R]|exact T|exact Lv]|].
  intros s1 C1 T1 L1. cbn beta iota. cbn [app]. rewrite Es.
  eapply quiet_then_logs; [apply quiet_lift; [apply merge_singles|exact T1|exact L1]|]. intros s2 C2 T2 L2.
  eapply quiet_then_logs; [apply quiet_lift; [apply unwrap_new_reg; exact Hq|exact T2|exact L2]|]. intros s3 C3 T3 L3.
  eapply logs_then_quiet; [apply logs_aco; [exact T3|exact L3|unfold qs; rewrite map_length; exact Sz]|].
  intros s4 C4 T4 L4. eapply quiet_bind; [apply quiet_lift; [apply split_all_ok; assumption|exact T4|exact L4]|]. intros s5 C5 T5 L5.
  eapply quiet_bind; [apply quiet_lift; [etransitivity; [|apply (put_back_ok rho is); assumption]; rewrite Es; reflexivity|exact T5|exact L5]|]. intros s6 C6 T6 L6. rewrite blanked_nil.
  replace (forallb _ (map Some (singles rho))) with true; [eapply quiet_bind; [apply quiet_ret; assumption|]; intros s7 C7 T7 L7; apply quiet_ret; assumption|].
  symmetry. apply forallb_forall. intros o Ho'. apply in_map_iff in Ho'. destruct Ho' as (r & <- & _). reflexivity.
Qed.
Lemma entries_log rho L sc : forall s, tidy s -> live s L -> NoDup rho -> Forall (sized_entry (length rho)) sc ->
  logs s L (mfold (apply_entry local_aco) sc (map Some (singles rho))) (map Some (singles rho)) L (ren rho sc).
Proof.
  induction sc as [|e sc IH]; intros s T Lv N W; cbn [mfold].
  - apply quiet_logs, quiet_ret; assumption.
  - inversion_clear W as [|? ? W1 W2]. apply (logs_bind s L _ (map Some (singles rho)) L (ren rho [e])); [apply entry_logs; assumption|]. intros. apply IH; assumption.
Qed.
Lemma top_index_sized n sc : Forall (sized_entry n) sc -> (exists e, In e sc /\ In (n - 1) (fst e)) ->
  list_max (concat (map (fun e : list nat * cobj => match list_max (fst e) with Some m => [m] | None => [] end) sc)) = Some (n - 1).
Proof.
  intros W Top. set (bare := map (fun e : list nat * cobj => (fst e, mkCO 1 (OMeas MStoch))) sc).
  replace (map (fun e : list nat * cobj => match list_max (fst e) with Some m => [m] | None => [] end) sc)
    with (map (fun e : list nat * cobj => match list_max (fst e) with Some m => [m] | None => [] end) bare) by (unfold bare; rewrite map_map; reflexivity).
  apply top_index.
  - unfold bare. apply Forall_map. eapply Forall_impl; [|exact W]. intros e (A & B & _). split; [exact A|]. split; [exact B|exact Logic.I].
  - destruct Top as (e & He & Hl). exists (fst e, mkCO 1 (OMeas MStoch)). split; [unfold bare; apply in_map_iff; exists e; auto|exact Hl].
Qed.
Lemma pipe_logs n (r : reg) sc s : length r <= n -> Forall (sized_entry n) sc -> (exists e, In e sc /\ In (n - 1) (fst e)) -> tidy s -> live s r -> r <> [] ->
  exists ts, length r + length ts = n /\ NoDup (r ++ ts) /\ (forall t, In t ts -> idle s t) /\
    logs s r (apply_pipeline_objects local_aco sc r) r r (ren (r ++ ts) sc).
Proof.
  intros Hk W Top T Lv Hr. assert (Nr : NoDup r) by apply Lv.
  assert (Hn : 0 < n) by (destruct r; [congruence|cbn in Hk; lia]).
  set (rest := fun rs : list reg => rs <- mfold (apply_entry local_aco) sc (map Some rs) ;; rs <- lift (mapM unwrap_opt rs) ;; '(rs, trs) <- split_vector_at rs (length r) ;;
     m <- lift (merge_registers trs) ;; _ <- match m with Some tr => return_zeroed_temp_register tr | None => ret tt end ;; m <- lift (merge_registers rs) ;; lift (unwrap_opt m)).
  assert (Rest : forall ts s, length r + length ts = n -> tidy s -> live s (r ++ ts) ->
    logs s (r ++ ts) (rest (singles (r ++ ts))) r r (ren (r ++ ts) sc)).
  { intros ts s4 Hl T4 L4. assert (N4 : NoDup (r ++ ts)) by (destruct L4 as (X & _); exact X).
    unfold rest. eapply logs_then_quiet; [apply entries_log; [exact T4|exact L4|exact N4|rewrite app_length, Hl; exact W]|]. intros s5 C5 T5 L5.
    assert (Mu : mapM unwrap_opt (map Some (singles (r ++ ts))) = Ok (singles (r ++ ts))).
    { clear. induction (singles (r ++ ts)) as [|a l IH]; [reflexivity|]. cbn. cbn in IH. rewrite IH. reflexivity. }
    eapply quiet_bind; [apply quiet_lift; [exact Mu|exact T5|exact L5]|]. intros s6 C6 T6 L6.
    unfold split_vector_at. rewrite length_singles, app_length. destruct (Nat.leb_spec (length r) (length r + length ts)); [|lia].
    assert (Ef : firstn (length r) (singles (r ++ ts)) = singles r /\ skipn (length r) (singles (r ++ ts)) = singles ts).
    { unfold singles. rewrite map_app. rewrite <- (map_length (fun q => [q]) r). rewrite firstn_app, skipn_app, firstn_all, skipn_all, Nat.sub_diag. cbn. rewrite app_nil_r. auto. }
    destruct Ef as (-> & ->).
    eapply quiet_bind with (a := (singles r, singles ts)) (L1 := r ++ ts); [eapply quiet_bind; [apply quiet_ret; assumption|]; intros; apply quiet_ret; assumption|].
    intros s7 C7 T7 L7. cbn beta iota.
    eapply quiet_bind; [apply quiet_lift; [apply merge_singles|exact T7|exact L7]|]. intros s8 C8 T8 L8.
    eapply quiet_bind with (a := tt) (L1 := r).
    - destruct ts as [|t ts]; cbn [new_reg]; [rewrite app_nil_r in L8 |- *; apply quiet_ret; assumption|].
      assert (Pm : Permutation ((t :: ts) ++ r) (r ++ t :: ts)) by apply Permutation_app_comm.
      destruct (quiet_return s8 (t :: ts) r T8) as (s9 & G1 & G2 & G3 & G4 & G5 & G6 & G7 & G8); [eapply live_perm; [exact L8|symmetry; exact Pm]|discriminate|].
      exists s9. do 7 (split; [assumption|]). intros q. rewrite G8. rewrite !in_app_iff. tauto.
    - intros s9 C9 T9 L9. eapply quiet_bind; [apply quiet_lift; [apply merge_singles|exact T9|exact L9]|]. intros s10 C10 T10 L10.
      apply quiet_lift; [apply unwrap_new_reg; exact Hr|exact T10|exact L10]. }
  assert (Assoc : forall A B (m : M A) (f : A -> M B) (g : B -> M reg), mbind (mbind m f) g = mbind m (fun a => mbind (f a) g)).
  { intros. extensionality s0. unfold mbind. destruct (m s0); reflexivity. }
  assert (Head : apply_pipeline_objects local_aco sc r s = (rs <- (if n - length r =? 0 then ret (singles r)
         else temp <- make_zeroed_temp_register (n - length r) ;; ts <- lift (split_all temp) ;; ret (singles r ++ ts)) ;; rest rs) s).
  { unfold apply_pipeline_objects. cbv zeta. unfold mbind at 1, lift at 1. rewrite split_all_ok by assumption. unfold ret at 1.
    unfold mbind at 1, lift at 1. rewrite (top_index_sized n sc W Top). cbn [unwrap_opt]. unfold mbind at 1, lift at 1. rewrite chk_sub_ok by lia.
    replace (1 + (n - 1) - length r) with (n - length r) by lia. reflexivity. }
  destruct (Nat.eqb_spec (n - length r) 0) as [E|E].
  - exists []. rewrite app_nil_r. split; [cbn; lia|]. split; [exact Nr|]. split; [intros t []|]. unfold logs. rewrite Head.
    pose proof (Rest [] s) as X. rewrite app_nil_r in X. apply X; [cbn; lia|exact T|exact Lv].
  - destruct (quiet_make_reg s r (n - length r) T Lv) as (ts & Hl & It & Q); [lia|]. exists ts. split; [lia|]. pose proof Q as (s1 & H1 & H2 & H3 & H4 & H5 & H6 & H7 & H8).
    assert (Pm : Permutation (ts ++ r) (r ++ ts)) by apply Permutation_app_comm.
    split; [eapply Permutation_NoDup; [exact Pm|apply H7]|]. split; [intros t Ht; apply It; exact Ht|].
    unfold logs. rewrite Head, Assoc. fold (logs s r (mbind (make_zeroed_temp_register (n - length r)) (fun a => mbind (mbind (lift (split_all a)) (fun ts => ret (singles r ++ ts))) (fun rs => rest rs))) r r (ren (r ++ ts) sc)).
    eapply quiet_then_logs; [exact Q|]. intros s2 C2 T2 L2.
    assert (L2' : live s2 (r ++ ts)) by (eapply live_perm; [exact L2|exact Pm]). assert (N4 : NoDup (r ++ ts)) by apply L2'.
    assert (X : logs s2 (r ++ ts) (mbind (mbind (lift (split_all ts)) (fun ts => ret (singles r ++ ts))) (fun rs => rest rs)) r r (ren (r ++ ts) sc)).
    { rewrite Assoc. eapply quiet_then_logs; [apply quiet_lift; [apply split_all_ok; [apply NoDup_app_iff in N4; apply N4|destruct ts; [cbn in Hl; lia|discriminate]]|exact T2|exact L2']|].
      intros s5 C5 T5 L5. cbn beta. replace (singles r ++ singles ts) with (singles (r ++ ts)) by (unfold singles; apply map_app).
      eapply quiet_then_logs; [apply quiet_ret; [exact T5|exact L5]|]. intros s6 C6 T6 L6. apply Rest; [lia|exact T6|exact L6]. }
    destruct X as (s3 & G1 & G2 & G3 & G4 & G5 & G6 & G7 & G8). exists s3. do 7 (split; [assumption|]). intros q. rewrite G8. rewrite !in_app_iff. tauto.
Qed.
