(** Qubit conservation: no builder function creates or copies a qubit, and none alters what is
    already in the pipeline.  Stated without any assumption on the arguments. *)
From Coq Require Import Permutation.
From Verif Require Import Base BuilderModel RegProofs.
Local Open Scope nat_scope.

Definition cnt (q : nat) (l : list nat) : nat := count_occ Nat.eq_dec l q.
Lemma cnt_nil q : cnt q [] = 0. Proof. reflexivity. Qed.
Lemma cnt_cons q a l : cnt q (a :: l) = (if a =? q then 1 else 0) + cnt q l.
Proof. unfold cnt. cbn. destruct (Nat.eq_dec a q), (Nat.eqb_spec a q); try lia; try congruence. Qed.
Lemma cnt_app q a b : cnt q (a ++ b) = cnt q a + cnt q b.
Proof. unfold cnt. apply count_occ_app. Qed.
Lemma cnt_In q l : In q l <-> 1 <= cnt q l.
Proof. unfold cnt. rewrite (count_occ_In Nat.eq_dec). lia. Qed.
Lemma cnt_NoDup l : NoDup l <-> forall q, cnt q l <= 1.
Proof. apply NoDup_count_occ. Qed.
Lemma cnt_perm q a b : Permutation a b -> cnt q a = cnt q b.
Proof. intros H. unfold cnt. apply Permutation_count_occ. exact H. Qed.
Lemma cnt_seq q a k : cnt q (seq a k) = if (a <=? q) && (q <? a + k) then 1 else 0.
Proof.
  revert a. induction k as [|k IH]; intros a; cbn [seq].
  - rewrite cnt_nil. destruct (Nat.leb_spec a q), (Nat.ltb_spec q (a + 0)); try reflexivity; lia.
  - rewrite cnt_cons, IH. destruct (Nat.eqb_spec a q), (Nat.leb_spec (S a) q), (Nat.ltb_spec q (S a + k)), (Nat.leb_spec a q), (Nat.ltb_spec q (a + S k)); cbn; lia.
Qed.
Global Opaque cnt.

Definition oregs (o : option (list nat)) : list nat := match o with Some r => r | None => [] end.
Definition sp_qs (sp : split_result) : list nat :=
  match sp with Selected r => r | Unselected r => r | Split r1 r2 => r1 ++ r2 end.
Definition sm_qs (sm : split_many) : list nat :=
  match sm with AllSelected rs => concat rs | Remaining rs r => concat rs ++ r end.

(** *** Registers *)
Lemma new_reg_qs l r : new_reg l = r -> oregs r = l.
Proof. intros <-. destruct l; reflexivity. Qed.
Lemma merge2_inv a b c : merge2 a b = Ok c -> c = a ++ b.
Proof. unfold merge2. destruct (new_reg (a ++ b)) eqn:E; cbn; [|discriminate]. intros H. inversion H; subst. apply new_reg_qs in E. exact E. Qed.
Lemma merge_fold_inv rs : forall a o, foldM merge_step rs a = Ok o -> oregs o = oregs a ++ concat rs.
Proof.
  induction rs as [|r rs IH]; intros a o H; cbn [foldM] in H.
  - inversion H. cbn. rewrite app_nil_r. reflexivity.
  - destruct a as [a|]; cbn [merge_step bind] in H.
    + destruct (merge2 a r) eqn:E; cbn [bind] in H; try discriminate. apply merge2_inv in E. subst.
      apply IH in H. rewrite H. cbn. rewrite app_assoc. reflexivity.
    + apply IH in H. rewrite H. reflexivity.
Qed.
Lemma merge_registers_inv rs o : merge_registers rs = Ok o -> oregs o = concat rs.
Proof. intros H. apply merge_fold_inv in H. exact H. Qed.
Lemma unwrap_inv {A} (o : option A) a : unwrap_opt o = Ok a -> o = Some a.
Proof. destruct o; cbn; intros H; inversion H; reflexivity. Qed.
Lemma idx_inv {A} (l : list A) i a : idx l i = Ok a -> nth_error l i = Some a.
Proof. unfold idx. destruct (nth_error l i); intros H; inversion H; reflexivity. Qed.

Lemma cnt_filter q f l : cnt q (filter f l) = if f q then cnt q l else 0.
Proof.
  induction l as [|a l IH]; [cbn; rewrite cnt_nil; destruct (f q); reflexivity|]. cbn [filter].
  destruct (f a) eqn:E; rewrite ?cnt_cons, IH; destruct (Nat.eqb_spec a q); subst; try rewrite E; try reflexivity.
Qed.
(** distinct positions select each occurrence at most once *)
Lemma cnt_positions q r is : NoDup is -> (forall i, In i is -> i < length r) ->
  cnt q (map (fun i => nth i r 0) is) <= cnt q r.
Proof.
  intros ND R.
  assert (P : Permutation (is ++ filter (fun i => negb (existsb (Nat.eqb i) is)) (seq 0 (length r))) (seq 0 (length r))).
  { apply NoDup_Permutation.
    - apply NoDup_app_iff. split; [exact ND|]. split; [apply NoDup_filter, seq_NoDup|].
      intros i Hi Hf. apply filter_In in Hf. destruct Hf as (_ & Hf).
      apply (proj2 (existsb_eqb_In i is)) in Hi. rewrite Hi in Hf. discriminate.
    - apply seq_NoDup.
    - intros i. rewrite in_app_iff, filter_In, in_seq. destruct (existsb (Nat.eqb i) is) eqn:E.
      + apply existsb_eqb_In in E. apply R in E as E'. cbn. intuition lia.
      + assert (~ In i is) by (intros Hi; apply (proj2 (existsb_eqb_In i is)) in Hi; congruence). cbn. intuition. }
  apply (Permutation_map (fun i => nth i r 0)) in P. rewrite map_app in P. apply (cnt_perm q) in P. rewrite cnt_app in P.
  assert (E : map (fun i => nth i r 0) (seq 0 (length r)) = r).
  { apply nth_ext with (d := 0) (d' := 0); rewrite map_length, seq_length; [reflexivity|]. intros n Hn.
    rewrite nth_indep with (d' := nth 0 r 0) by (rewrite map_length, seq_length; exact Hn).
    rewrite (map_nth (fun i => nth i r 0)), seq_nth by exact Hn. reflexivity. }
  rewrite E in P. lia.
Qed.

Lemma select_inv r is : forall sel, select r is = Ok sel ->
  sel = map (fun i => nth i r 0) (filter (fun i => i <? length r) is).
Proof.
  induction is as [|i is IH]; intros sel H; cbn [select filter] in *; [inversion H; reflexivity|].
  destruct (Nat.leb_spec i (length r)).
  - destruct (idx r i) as [q| |] eqn:E; cbn [bind] in H; try discriminate.
    destruct (select r is) as [qs| |]; cbn [bind] in H; try discriminate. inversion H; subst.
    apply idx_inv in E. assert (i < length r) by (apply nth_error_Some; congruence).
    destruct (Nat.ltb_spec i (length r)); [|lia]. cbn [map]. f_equal; [|apply IH; reflexivity].
    symmetry. apply nth_error_nth. exact E.
  - destruct (Nat.ltb_spec i (length r)); [lia|]. apply IH. exact H.
Qed.

Lemma split_rel_cnt q r is sp : NoDup is -> split_rel r is = Ok sp -> cnt q (sp_qs sp) <= cnt q r.
Proof.
  intros ND H. unfold split_rel in H. destruct (select r is) as [sel| |] eqn:E; cbn [bind] in H; try discriminate.
  apply select_inv in E.
  assert (C1 : cnt q sel <= cnt q r).
  { rewrite E. apply cnt_positions; [apply NoDup_filter; exact ND|]. intros i Hi. apply filter_In in Hi.
    destruct Hi as (_ & Hi). apply Nat.ltb_lt in Hi. exact Hi. }
  clear E.
  destruct sel as [|a sel]; cbn [new_reg] in H.
  - assert (E2 : filter (fun _ : nat => true) r = r) by (apply filter_all_true; reflexivity). rewrite E2 in H.
    destruct r; cbn in H; inversion H; subst. cbn. lia.
  - set (l := a :: sel) in *. remember (filter (fun oi => negb (existsb (Nat.eqb oi) l)) r) as rest.
    assert (C2 : cnt q (l ++ rest) <= cnt q r).
    { rewrite cnt_app, Heqrest, cnt_filter. destruct (existsb (Nat.eqb q) l) eqn:X; cbn; [lia|].
      assert (cnt q l = 0); [|lia]. destruct (cnt q l) eqn:Y; [reflexivity|].
      assert (In q l) by (apply cnt_In; lia). apply existsb_eqb_In in H0. congruence. }
    destruct rest; cbn in H; inversion H; subst; cbn [sp_qs].
    + rewrite app_nil_r in C2. exact C2.
    + exact C2.
Qed.

Lemma NoDup_0 : NoDup [0]. Proof. repeat constructor; cbn; tauto. Qed.
Lemma NoDup_01 : NoDup [0; 1]. Proof. repeat constructor; cbn; intuition lia. Qed.

Lemma split_helper_cnt q fuel : forall r acc rs, split_helper fuel r acc = Ok rs ->
  cnt q (concat rs) <= cnt q (concat acc) + cnt q r.
Proof.
  induction fuel as [|f IH]; intros r acc rs H; cbn [split_helper] in H; [discriminate|].
  destruct (split_rel r [0]) as [sp| |] eqn:E; cbn [bind] in H; try discriminate.
  apply (split_rel_cnt q) in E; [|exact NoDup_0].
  destruct sp as [r1|r1|r1 r2]; cbn [sp_qs] in E; try discriminate.
  - inversion H; subst. rewrite concat_app, cnt_app. cbn. rewrite app_nil_r. lia.
  - apply IH in H. rewrite concat_app, cnt_app in H. cbn in H. rewrite app_nil_r in H. rewrite cnt_app in E. lia.
Qed.
Lemma split_all_cnt q r rs : split_all r = Ok rs -> cnt q (concat rs) <= cnt q r.
Proof. intros H. apply (split_helper_cnt q) in H. cbn in H. rewrite cnt_nil in H. lia. Qed.

Lemma split_first_cnt q r o r' : split_first_qubit r = Ok (o, r') -> cnt q (oregs o) + cnt q r' <= cnt q r.
Proof.
  intros H. unfold split_first_qubit in H. destruct (split_rel r [0]) as [sp| |] eqn:E; cbn [bind] in H; try discriminate.
  apply (split_rel_cnt q) in E; [|exact NoDup_0]. destruct sp; cbn [sp_qs] in E; inversion H; subst; cbn [oregs]; rewrite ?cnt_app, ?cnt_nil in *; lia.
Qed.
Lemma split_last_cnt q r o r' : split_last_qubit r = Ok (r', o) -> cnt q r' + cnt q (oregs o) <= cnt q r.
Proof.
  intros H. unfold split_last_qubit in H. destruct (chk_sub (length r) 1) as [n1| |]; cbn [bind] in H; try discriminate.
  destruct (split_rel r [n1]) as [sp| |] eqn:E; cbn [bind] in H; try discriminate.
  apply (split_rel_cnt q) in E; [|repeat constructor; cbn; tauto].
  destruct sp; cbn [sp_qs] in E; inversion H; subst; cbn [oregs]; rewrite ?cnt_app, ?cnt_nil in *; lia.
Qed.

(** *** Lists of options *)
Definition oqs (rs : list (option reg)) : list nat := concat (somes rs).
Lemma oqs_cons o rs : oqs (o :: rs) = oregs o ++ oqs rs.
Proof. unfold oqs, somes. destruct o; reflexivity. Qed.
Lemma oqs_map_Some rs : oqs (map Some rs) = concat rs.
Proof. induction rs as [|r rs IH]; [reflexivity|]. cbn [map]. rewrite oqs_cons, IH. reflexivity. Qed.
Lemma oqs_app a b : oqs (a ++ b) = oqs a ++ oqs b.
Proof. unfold oqs, somes. rewrite map_app, !concat_app. reflexivity. Qed.
Lemma oqs_upd q i o' rs : forall o, nth_error rs i = Some o ->
  cnt q (oqs (upd_nth i o' rs)) + cnt q (oregs o) = cnt q (oqs rs) + cnt q (oregs o').
Proof.
  revert i. induction rs as [|a rs IH]; intros [|i] o H; cbn in H; try discriminate; cbn [upd_nth].
  - inversion H; subst. rewrite !oqs_cons, !cnt_app. lia.
  - rewrite !oqs_cons, !cnt_app. specialize (IH _ _ H). lia.
Qed.
Lemma upd_nth_out {A} i (a : A) l : nth_error l i = None -> upd_nth i a l = l.
Proof. revert i. induction l as [|x l IH]; intros [|i] H; cbn in *; try reflexivity; try discriminate. rewrite IH by exact H. reflexivity. Qed.
Lemma oqs_upd_le q i o' rs : cnt q (oqs (upd_nth i o' rs)) <= cnt q (oqs rs) + cnt q (oregs o').
Proof.
  destruct (nth_error rs i) as [o|] eqn:E.
  - pose proof (oqs_upd q i o' rs o E). lia.
  - rewrite upd_nth_out by exact E. lia.
Qed.

Lemma take_at_cnt q rs i r rs' : take_at rs i = Ok (r, rs') -> cnt q r + cnt q (oqs rs') <= cnt q (oqs rs).
Proof.
  unfold take_at. intros H. destruct (idx rs i) as [o| |] eqn:E; cbn [bind] in H; try discriminate.
  destruct o; cbn [unwrap_opt bind] in H; try discriminate. inversion H; subst. apply idx_inv in E.
  pose proof (oqs_upd q i None rs _ E) as X. cbn [oregs] in X. rewrite cnt_nil in X. lia.
Qed.
Lemma take_all_cnt q is : forall rs l rs', take_all rs is = Ok (l, rs') -> cnt q (concat l) + cnt q (oqs rs') <= cnt q (oqs rs).
Proof.
  induction is as [|i is IH]; intros rs l rs' H; cbn [take_all] in H.
  - inversion H; subst. cbn. rewrite cnt_nil. lia.
  - destruct (take_at rs i) as [[r rs1]| |] eqn:E; cbn [bind] in H; try discriminate.
    destruct (take_all rs1 is) as [[l1 rs2]| |] eqn:E2; cbn [bind] in H; try discriminate. inversion H; subst.
    apply (take_at_cnt q) in E. apply IH in E2. cbn. rewrite cnt_app. lia.
Qed.
Lemma put_back_cnt q l : forall rs rs', foldM put_back l rs = Ok rs' ->
  cnt q (oqs rs') <= cnt q (oqs rs) + cnt q (concat (map snd l)).
Proof.
  induction l as [|[i r] l IH]; intros rs rs' H; cbn [foldM] in H.
  - inversion H; subst. lia.
  - cbn [put_back] in H. destruct (idx rs i) as [o| |]; cbn [bind] in H; try discriminate. apply IH in H.
    pose proof (oqs_upd_le q i (Some r) rs) as X. cbn [oregs] in X. cbn. rewrite cnt_app. lia.
Qed.
Lemma combine_snd_cnt {A} q (is : list A) : forall rs, cnt q (concat (map snd (combine is rs))) <= cnt q (concat rs).
Proof.
  induction is as [|i is IH]; intros [|r rs]; cbn; rewrite ?cnt_nil; try lia. rewrite !cnt_app. specialize (IH rs). lia.
Qed.
Lemma groups_cnt q gs : forall sel rs sel' rs', foldM group_step gs (sel, rs) = Ok (sel', rs') ->
  cnt q (concat sel') + cnt q (oqs rs') <= cnt q (concat sel) + cnt q (oqs rs).
Proof.
  induction gs as [|g gs IH]; intros sel rs sel' rs' H; cbn [foldM] in H.
  - inversion H; subst. lia.
  - unfold group_step in H at 1. destruct (take_all rs g) as [[l rs1]| |] eqn:E; cbn [bind] in H; try discriminate.
    destruct (merge_registers l) as [m| |] eqn:E2; cbn [bind] in H; try discriminate.
    apply IH in H. apply (take_all_cnt q) in E. apply merge_registers_inv in E2.
    rewrite concat_app, cnt_app in H. rewrite <- E2 in E. destruct m; cbn in *; rewrite ?app_nil_r, ?cnt_nil in *; lia.
Qed.
Lemma split_groups_cnt q r gs sm : split_groups r gs = Ok sm -> cnt q (sm_qs sm) <= cnt q r.
Proof.
  unfold split_groups. intros H. destruct (split_all r) as [rs| |] eqn:E; cbn [bind] in H; try discriminate.
  destruct (foldM group_step gs ([], map Some rs)) as [[sel rs1]| |] eqn:E1; cbn [bind] in H; try discriminate.
  destruct (merge_registers (somes rs1)) as [m| |] eqn:E2; cbn [bind] in H; try discriminate.
  apply (split_all_cnt q) in E. apply (groups_cnt q) in E1. apply merge_registers_inv in E2.
  rewrite oqs_map_Some in E1. cbn in E1. rewrite cnt_nil in E1. unfold oqs in E1. rewrite <- E2 in E1.
  destruct m; inversion H; subst; cbn in *; rewrite ?cnt_app, ?cnt_nil in *; lia.
Qed.

(** *** The law *)
Definition reserve (s : st) : list nat := concat (zeroed (bld s)) ++ oqs (conds s).
Definition fresh (s s' : st) (q : nat) : nat := if (bn (bld s) <=? q) && (q <? bn (bld s')) then 1 else 0.
Definition is_meas (e : list nat * cobj) : bool := match co_obj (snd e) with OMeas _ => true | _ => false end.
Definition nmeas (p : pipe) : nat := length (filter is_meas p).

(** From [s] to [s'] the pipeline only grew, by entries on qubits available; the qubits handed
    out and reserved afterwards were available before or are new; each measurement entry was
    counted (if [P]). *)
Definition post (P : Prop) (s : st) (ins : list reg) (s' : st) (outs : list reg) : Prop :=
  bn (bld s) <= bn (bld s') /\
  (exists p, pipeline (bld s') = pipeline (bld s) ++ p /\ (P -> nmeas p + meas (bld s) = meas (bld s')) /\
    forall e q, In e p -> cnt q (fst e) <= cnt q (concat ins) + cnt q (reserve s) + fresh s s' q) /\
  forall q, cnt q (concat outs) + cnt q (reserve s') <= cnt q (concat ins) + cnt q (reserve s) + fresh s s' q.

Definition spec {A} (P : Prop) (ins : list reg) (m : M A) (outs : A -> list reg) : Prop :=
  forall s, match m s with
            | Ret a s' => post P s ins s' (outs a)
            | Fail _ s' => post P s ins s' []
            | Crash _ => True
            end.

Lemma fresh_trans s1 s2 s3 q : bn (bld s1) <= bn (bld s2) -> bn (bld s2) <= bn (bld s3) ->
  fresh s1 s2 q + fresh s2 s3 q = fresh s1 s3 q.
Proof.
  unfold fresh. intros. destruct (Nat.leb_spec (bn (bld s1)) q), (Nat.ltb_spec q (bn (bld s2))), (Nat.leb_spec (bn (bld s2)) q),
    (Nat.ltb_spec q (bn (bld s3))); cbn; lia.
Qed.
Lemma fresh_refl s q : fresh s s q = 0.
Proof. unfold fresh. destruct (Nat.leb_spec (bn (bld s)) q), (Nat.ltb_spec q (bn (bld s))); cbn; lia. Qed.

Lemma nmeas_app p1 p2 : nmeas (p1 ++ p2) = nmeas p1 + nmeas p2.
Proof. unfold nmeas. rewrite filter_app, app_length. reflexivity. Qed.

Lemma post_refl P s ins outs : (forall q, cnt q (concat outs) <= cnt q (concat ins)) -> post P s ins s outs.
Proof.
  intros H. split; [lia|]. split.
  - exists []. rewrite app_nil_r. split; [reflexivity|]. split; [intros _; reflexivity|intros e q []].
  - intros q. specialize (H q). lia.
Qed.

Lemma post_trans P s1 s2 s3 i1 m1 G ins outs : post P s1 i1 s2 m1 ->
  (forall q, cnt q (concat i1) + cnt q (concat G) <= cnt q (concat ins)) ->
  post P s2 (m1 ++ G) s3 outs -> post P s1 ins s3 outs.
Proof.
  intros (B1 & (p1 & E1 & M1 & C1) & D1) HG (B2 & (p2 & E2 & M2 & C2) & D2).
  assert (F := fun q => fresh_trans s1 s2 s3 q B1 B2).
  split; [lia|]. split.
  - exists (p1 ++ p2). rewrite E2, E1, app_assoc. split; [reflexivity|]. split.
    + intros HP. rewrite nmeas_app. specialize (M1 HP). specialize (M2 HP). lia.
    + intros e q He. specialize (F q). specialize (HG q). specialize (D1 q). apply in_app_iff in He. destruct He as [He|He].
      * specialize (C1 e q He). lia.
      * specialize (C2 e q He). rewrite concat_app, cnt_app in C2. lia.
  - intros q. specialize (F q). specialize (HG q). specialize (D1 q). specialize (D2 q). rewrite concat_app, cnt_app in D2. lia.
Qed.

Lemma post_weak P s ins s' outs outs' : post P s ins s' outs -> (forall q, cnt q (concat outs') <= cnt q (concat outs)) ->
  post P s ins s' outs'.
Proof. intros (B & C & D) H. split; [exact B|]. split; [exact C|]. intros q. specialize (D q). specialize (H q). lia. Qed.

Section Rules.
Context (P : Prop).

Lemma spec_bind {A B} i1 (m : M A) mid G ins (f : A -> M B) outs :
  spec P i1 m mid -> (forall q, cnt q (concat i1) + cnt q (concat G) <= cnt q (concat ins)) ->
  (forall a, spec P (mid a ++ G) (f a) outs) -> spec P ins (mbind m f) outs.
Proof.
  intros H HG K s. specialize (H s). unfold mbind. destruct (m s) as [a s'|e s'|p]; [| |exact I].
  - specialize (K a s'). destruct (f a s') as [b s2|e s2|p]; [| |exact I]; eapply post_trans; eauto.
  - eapply post_trans; [exact H|exact HG|]. apply post_refl. intros q. rewrite cnt_nil. lia.
Qed.
Lemma spec_ret {A} (a : A) ins outs : (forall q, cnt q (concat (outs a)) <= cnt q (concat ins)) -> spec P ins (ret a) outs.
Proof. intros H s. cbn. apply post_refl. exact H. Qed.
Lemma spec_fail {A} e ins (outs : A -> list reg) : spec P ins (fail e) outs.
Proof. intros s. cbn. apply post_refl. intros q. rewrite cnt_nil. lia. Qed.
Lemma spec_crash {A} p ins (outs : A -> list reg) : spec P ins (crash p) outs.
Proof. intros s. exact I. Qed.
Lemma spec_lift {A} (r : res A) ins outs : (forall a q, r = Ok a -> cnt q (concat (outs a)) <= cnt q (concat ins)) -> spec P ins (lift r) outs.
Proof. intros H s. unfold lift. destruct r; try exact I; apply post_refl; intros q; [apply H; reflexivity|rewrite cnt_nil; lia]. Qed.
Lemma spec_unwrap {A} (m : M A) ins outs : spec P ins m outs -> spec P ins (unwrapM m) outs.
Proof. intros H s. specialize (H s). unfold unwrapM. destruct (m s); auto. Qed.
Lemma spec_assert b ins : spec P ins (massert b) (fun _ => ins).
Proof. intros s. unfold massert. destruct b; cbn; [|exact I]. apply post_refl. intros q. lia. Qed.
Lemma spec_weak {A} ins (m : M A) outs ins' outs' : spec P ins m outs ->
  (forall q, cnt q (concat ins) <= cnt q (concat ins')) -> (forall a q, cnt q (concat (outs' a)) <= cnt q (concat (outs a))) ->
  spec P ins' m outs'.
Proof.
  intros H H1 H2 s. specialize (H s). destruct (m s) as [a s'|e s'|p]; [| |exact I].
  - eapply post_trans with (G := []); [exact H|intros q; cbn; rewrite cnt_nil; specialize (H1 q); lia|].
    rewrite app_nil_r. apply post_refl. apply H2.
  - eapply post_trans with (G := []); [exact H|intros q; cbn; rewrite cnt_nil; specialize (H1 q); lia|]. apply post_refl. intros q. cbn. lia.
Qed.
Lemma spec_mfold {A B} (f : A -> B -> M A) (I' : A -> list nat) (J : B -> list nat) :
  (forall a b, spec P [I' a; J b] (f a b) (fun a => [I' a])) ->
  forall l a, spec P [I' a; concat (map J l)] (mfold f l a) (fun a => [I' a]).
Proof.
  intros H l. induction l as [|b l IH]; intros a; cbn [mfold].
  - apply spec_ret. intros q. cbn. rewrite !cnt_app. lia.
  - eapply (spec_bind [I' a; J b] _ _ [concat (map J l)]); [apply H| |intros a'; apply IH].
    intros q. cbn. rewrite !cnt_app, !cnt_nil. lia.
Qed.
Lemma spec_mmap {A B} (f : A -> M B) (J : A -> list nat) (O : B -> list nat) :
  (forall a, spec P [J a] (f a) (fun b => [O b])) ->
  forall l, spec P [concat (map J l)] (mmap f l) (fun l => [concat (map O l)]).
Proof.
  intros H l. induction l as [|a l IH]; cbn [mmap].
  - apply spec_ret. intros q. cbn. lia.
  - eapply (spec_bind [J a] _ _ [concat (map J l)]); [apply H| |].
    { intros q. cbn. rewrite !cnt_app, !cnt_nil. lia. }
    intros b. eapply (spec_bind [concat (map J l)] _ _ [O b]); [exact IH| |].
    { intros q. cbn. rewrite !cnt_app, !cnt_nil. lia. }
    intros bs. apply spec_ret. intros q. cbn. rewrite !cnt_app, !cnt_nil. lia.
Qed.
End Rules.

(** *** Tactics *)
Ltac rem x L := match L with
  | x :: ?t => t
  | ?y :: ?t => let t' := rem x t in constr:(y :: t')
  end.
Ltac rems I L := match I with
  | [] => L
  | ?x :: ?I' => let L' := rem x L in rems I' L'
  end.
Ltac cn := intros; cbn [concat app fst snd map oregs sp_qs sm_qs]; repeat (rewrite ?cnt_app, ?cnt_nil, ?concat_app in * ); try lia; try (unfold reg in *; lia).
Ltac use lem :=
  let H := fresh "H" in pose proof lem as H;
  match type of H with spec ?P ?I ?m ?mid =>
    match goal with |- spec _ ?L (mbind _ _) _ =>
      let L' := eval cbn [app fst snd] in L in
      let I' := eval cbn [app fst snd] in I in
      let G := rems I' L' in
      apply (spec_bind P I m mid G); [exact H|cn|]; clear H; intros; cbn [app]
    end
  end.
Ltac useL lem := use lem.
