(** Subcircuits and gates through wrappers; the outcome of every call. *)
From Coq Require Import Permutation Reals ZArith QArith.
From Coquelicot Require Import Complex.
From Verif Require Import Base BitsSpec OpsModel BuilderModel HistorySpec RegProofs RegProofs2 DenSpec SimSpec RunSpec LocalProofs RunProofs GateProofs ToffoliProofs SwapProofs CondProofs SubProofs SubProofs2 CostSpec CostProofs.
From Verif Require Import OutcomeSpec OutcomeProofs OutcomeProofs2.
Local Open Scope nat_scope.
Local Open Scope mon_scope.

(** *** Subcircuits *)
Definition maxes (sc : pipe) : list nat := concat (map (fun e : list nat * cobj => match list_max (fst e) with Some m => [m] | None => [] end) sc).
Lemma maxes_le sc i : In i (positions sc) -> exists m, In m (maxes sc) /\ i <= m.
Proof.
  unfold positions, maxes. intros H. apply in_concat in H. destruct H as (x & Hx & Hi). apply in_map_iff in Hx. destruct Hx as (e & <- & He).
  destruct (list_max_spec (fst e)) as (m & E & I & G); [intros X; rewrite X in Hi; destruct Hi|]. exists m. split; [|apply G, Hi].
  apply in_concat. exists [m]. split; [|left; reflexivity]. apply in_map_iff. exists e. rewrite E. auto.
Qed.
Lemma maxes_in sc m : In m (maxes sc) -> In m (positions sc).
Proof.
  unfold positions, maxes. intros H. apply in_concat in H. destruct H as (x & Hx & Hm). apply in_map_iff in Hx. destruct Hx as (e & <- & He).
  destruct (fst e) as [|a r] eqn:E; [destruct Hm|]. destruct (list_max_spec (a :: r)) as (m' & E' & I' & _); [discriminate|]. rewrite E' in Hm. destruct Hm as [<-|[]].
  apply in_concat. exists (a :: r). split; [apply in_map_iff; exists e; auto|exact I'].
Qed.
Lemma pipe_cases d sc r s F : owns d s (r ++ F) -> r <> [] ->
  (existsb (fun i => length r <=? S i) (positions sc) = false /\ seen (apply_pipeline_objects (aco d) sc r s) = Panics) \/
  (existsb (fun i => length r <=? S i) (positions sc) = true /\ exists ts s', owns d s' ((r ++ ts) ++ F) /\ conds s' = conds s /\ (forall i, In i (positions sc) -> i < length (r ++ ts)) /\
    apply_pipeline_objects (aco d) sc r s = (rs <- mfold (apply_entry (aco d)) sc (map Some (singles (r ++ ts))) ;; rs <- lift (mapM unwrap_opt rs) ;; '(rs, trs) <- split_vector_at rs (length r) ;;
     m <- lift (merge_registers trs) ;; _ <- match m with Some tr => return_zeroed_temp_register tr | None => ret tt end ;; m <- lift (merge_registers rs) ;; lift (unwrap_opt m)) s').
Proof.
  intros Hd Hr. pose proof (owns_part _ _ _ _ Hd) as Nr.
  destruct (existsb (fun i => length r <=? S i) (positions sc)) eqn:Ex.
  - right. split; [reflexivity|]. apply existsb_exists in Ex. destruct Ex as (i & Hi & Li). apply Nat.leb_le in Li. destruct (maxes_le sc i Hi) as (m0 & M1 & M2).
    destruct (list_max_spec (maxes sc)) as (m & E & I & G); [intros X; rewrite X in M1; destruct M1|]. specialize (G m0 M1) as Gm.
    assert (Up : forall j, In j (positions sc) -> j <= m). { intros j Hj. destruct (maxes_le sc j Hj) as (m1 & M3 & M4). specialize (G m1 M3). lia. }
    assert (E0 : apply_pipeline_objects (aco d) sc r s = (rs <- (if 1 + m - length r =? 0 then ret (singles r)
         else temp <- make_zeroed_temp_register (1 + m - length r) ;; ts <- lift (split_all temp) ;; ret (singles r ++ ts)) ;; rs <- mfold (apply_entry (aco d)) sc (map Some rs) ;; rs <- lift (mapM unwrap_opt rs) ;; '(rs, trs) <- split_vector_at rs (length r) ;;
     m <- lift (merge_registers trs) ;; _ <- match m with Some tr => return_zeroed_temp_register tr | None => ret tt end ;; m <- lift (merge_registers rs) ;; lift (unwrap_opt m)) s).
    { unfold apply_pipeline_objects. cbv zeta. fold (maxes sc). unfold mbind at 1. rewrite split_all_ok by assumption. cbn [lift]. unfold mbind at 1. rewrite E. cbn [unwrap_opt lift].
      unfold mbind at 1. rewrite chk_sub_ok by lia. reflexivity. }
    destruct (Nat.eqb_spec (1 + m - length r) 0) as [Z|Z].
    + exists [], s. rewrite app_nil_r. split; [exact Hd|]. split; [reflexivity|]. split; [intros j Hj; specialize (Up j Hj); lia|]. exact E0.
    + destruct Hd as (T & El & W & Lv). destruct (quiet_make_reg s _ (1 + m - length r) T Lv ltac:(lia)) as (ts & Hl & _ & s1 & H1 & H2 & H3 & H4 & H5 & H6 & H7 & H8).
      exists ts, s1. assert (Hd1 : owns d s1 ((r ++ ts) ++ F)).
      { split; [exact H6|]. rewrite H2. split; [exact El|]. split; [exact W|]. eapply live_perm; [exact H7|]. rewrite <- app_assoc. etransitivity; [apply Permutation_app_swap_app|]. apply Permutation_app_head. apply Permutation_app_swap_app. }
      split; [exact Hd1|]. split; [exact H2|]. split; [intros j Hj; specialize (Up j Hj); rewrite app_length; lia|].
      pose proof (owns_part _ _ _ _ Hd1) as N1. apply NoDup_app_iff in N1.
      rewrite E0. unfold mbind at 1. unfold mbind at 1. rewrite H1. unfold mbind at 1. rewrite split_all_ok; [|apply N1|destruct ts; [cbn [length] in Hl; lia|discriminate]]. cbn [lift ret].
      replace (singles r ++ singles ts) with (singles (r ++ ts)) by (unfold singles; apply map_app). reflexivity.
  - left. split; [reflexivity|]. unfold apply_pipeline_objects. cbv zeta. fold (maxes sc). unfold mbind at 1. rewrite split_all_ok by assumption. cbn [lift]. destruct (maxes sc) as [|m0 l] eqn:Em; [reflexivity|]. rewrite <- Em.
    destruct (list_max_spec (maxes sc)) as (m & E & I & G); [rewrite Em; discriminate|]. rewrite E. unfold mbind at 1. cbn [unwrap_opt lift].
    apply maxes_in in I. assert (Lt : ~ length r <= S m).
    { intros X. assert (Y : existsb (fun i => length r <=? S i) (positions sc) = true) by (apply existsb_exists; exists m; split; [exact I|apply Nat.leb_le, X]). congruence. }
    unfold mbind at 1, chk_sub. destruct (Nat.leb_spec (length r) (1 + m)); [lia|]. reflexivity.
Qed.
Lemma pipe_wp d sc r s F : owns d s (r ++ F) -> r <> [] -> subcircuit_verdict d sc (length r) = Works ->
  wp (apply_pipeline_objects (aco d) sc r) s (fun r' s' => r' = r /\ owns d s' (r ++ F) /\ conds s' = conds s).
Proof.
  intros Hd Hr Hv. unfold subcircuit_verdict in Hv. destruct (pipe_cases d sc r s F Hd Hr) as [(X & _)|(X & ts & s1 & Hd1 & C1 & R & Eq)]; rewrite X in Hv; [discriminate|].
  assert (Y : wp (rs <- mfold (apply_entry (aco d)) sc (map Some (singles (r ++ ts))) ;; rs <- lift (mapM unwrap_opt rs) ;; '(rs, trs) <- split_vector_at rs (length r) ;;
     m <- lift (merge_registers trs) ;; _ <- match m with Some tr => return_zeroed_temp_register tr | None => ret tt end ;; m <- lift (merge_registers rs) ;; lift (unwrap_opt m)) s1
     (fun r' s' => r' = r /\ owns d s' (r ++ F) /\ conds s' = conds s1)).
  { apply wp_bind. eapply wp_mono; [apply (entries_wp d (r ++ ts) F sc s1 Hd1 R Hv)|]. intros rs s2 (-> & Hd2 & C2).
    assert (Mu : mapM unwrap_opt (map Some (singles (r ++ ts))) = Ok (singles (r ++ ts))).
    { clear. induction (singles (r ++ ts)) as [|a l IH]; [reflexivity|]. cbn. cbn in IH. rewrite IH. reflexivity. }
    apply wp_bind. eapply wp_lift; [exact Mu|].
    unfold split_vector_at. rewrite length_singles, app_length. destruct (Nat.leb_spec (length r) (length r + length ts)); [|lia].
    assert (Ef : firstn (length r) (singles (r ++ ts)) = singles r /\ skipn (length r) (singles (r ++ ts)) = singles ts).
    { unfold singles. rewrite map_app. rewrite <- (map_length (fun q => [q]) r). rewrite firstn_app, skipn_app, firstn_all, skipn_all, Nat.sub_diag. cbn. rewrite app_nil_r. auto. }
    destruct Ef as (-> & ->). apply wp_bind, wp_bind, wp_ret, wp_ret. apply wp_bind. eapply wp_lift; [apply merge_singles|].
    apply wp_bind. apply wp_mono with (Q := fun _ s' => owns d s' (r ++ F) /\ conds s' = conds s1).
    - destruct ts as [|t ts]; cbn [new_reg].
      + apply wp_ret. rewrite app_nil_r in Hd2. auto.
      + destruct Hd2 as (T2 & El & W & Lv). destruct (quiet_return s2 (t :: ts) (cqs d (conds s2) ++ r ++ F) T2) as (s3 & H1 & H2 & H3 & H4 & H5 & H6 & H7 & H8); [|discriminate|].
        { eapply live_perm; [exact Lv|]. rewrite <- app_assoc. symmetry. etransitivity; [apply Permutation_app_swap_app|]. apply Permutation_app_head. apply Permutation_app_swap_app. }
        exists tt, s3. split; [exact H1|]. split; [|congruence]. split; [exact H6|]. rewrite H2. auto.
    - intros [] s3 (Hd3 & C3). apply wp_bind. eapply wp_lift; [apply merge_singles|]. eapply wp_lift; [apply unwrap_new_reg; exact Hr|]. auto. }
  destruct Y as (a & s' & E & -> & H1 & H2). exists r, s'. split; [rewrite Eq; exact E|]. split; [reflexivity|]. split; [exact H1|congruence].
Qed.
Lemma pipe_seen d sc r s F : owns d s (r ++ F) -> r <> [] -> subcircuit_verdict d sc (length r) <> Works -> seen (apply_pipeline_objects (aco d) sc r s) = subcircuit_verdict d sc (length r).
Proof.
  intros Hd Hr Hv. unfold subcircuit_verdict in *. destruct (pipe_cases d sc r s F Hd Hr) as [(X & E)|(X & ts & s1 & Hd1 & C1 & R & Eq)]; rewrite X in *; [exact E|].
  rewrite Eq. apply seen_bind; [exact Hv|]. eapply entries_seen; [exact Hd1|exact R|exact Hv].
Qed.
Lemma entries_deep k sc : entries_verdict (S k) sc = entries_verdict 1 sc.
Proof. induction sc as [|[is co] sc IH]; [reflexivity|]. cbn [entries_verdict]. rewrite IH. reflexivity. Qed.
Lemma owns_one b cs r : cs <> [] -> tidy (mkSt b [Some cs]) -> live (mkSt b [Some cs]) (cs ++ r) -> owns 1 (mkSt b [Some cs]) r.
Proof.
  intros Hc T Lv. split; [exact T|]. split; [reflexivity|]. split; [intros [|k] Hk; [exists cs; auto|lia]|]. cbn. rewrite app_nil_r. exact Lv.
Qed.
Lemma subcircuit_wp d sc r s F : owns d s (r ++ F) -> r <> [] -> subcircuit_verdict d sc (length r) = Works -> wp (apply_subcircuit d sc r) s (fun r' s' => r' = r /\ owns d s' (r ++ F) /\ conds s' = conds s).
Proof.
  intros Hd Hr Hv. destruct d as [|k]; [apply (pipe_wp 0); assumption|]. destruct Hd as (T & El & W & Lv).
  change (apply_subcircuit (S k) sc r) with (top (fun d cr r => apply_cond_subcircuit d sc cr r) k r).
  destruct (top_went (fun d cr r => apply_cond_subcircuit d sc cr r) r [] r (r ++ F) F) with (k := k) (s := s) as (s' & H1 & H2 & H3 & H4); [reflexivity| |reflexivity|exact W|exact T|exact Lv|].
  - intros s0 cs Hc T0 L0. cbn [apply_cond_subcircuit]. unfold local_cond_subcircuit.
    destruct (pipe_wp 1 sc r (mkSt (bld s0) [Some cs]) F) as (a & s1 & G1 & -> & G2 & G3); [apply owns_one; assumption|exact Hr|unfold subcircuit_verdict in *; rewrite entries_deep in Hv; exact Hv|].
    cbn [conds] in G3. exists (mkSt (bld s1) (conds s0)). split; [unfold with_conds, mbind; unfold reg in *; rewrite G1; unfold dissolve; rewrite G3; cbn; rewrite app_nil_r; reflexivity|].
    split; [reflexivity|]. destruct G2 as (T1 & _ & _ & L1). split; [exact T1|]. rewrite G3 in L1. cbn in L1. rewrite app_nil_r in L1. exact L1.
  - exists r, s'. split; [exact H1|]. split; [reflexivity|]. rewrite grown_nil in H2. split; [|exact H2]. split; [exact H3|]. rewrite H2. auto.
Qed.
Lemma subcircuit_seen d sc r s F : owns d s (r ++ F) -> r <> [] -> seen (apply_subcircuit d sc r s) = subcircuit_verdict d sc (length r).
Proof.
  intros Hd Hr. destruct (subcircuit_verdict d sc (length r)) eqn:Hv; [eapply wp_seen, subcircuit_wp; eassumption| |]; rewrite <- Hv;
  assert (Hv' : subcircuit_verdict d sc (length r) <> Works) by congruence; clear Hv;
  (destruct d as [|k]; [apply (pipe_seen 0 sc r s F); assumption|]; destruct Hd as (T & El & W & Lv);
   change (apply_subcircuit (S k) sc r) with (top (fun d cr r => apply_cond_subcircuit d sc cr r) k r);
   eapply top_seen; [reflexivity|exact Hv'| |exact W|exact T|exact Lv];
   intros s0 cs Hc T0 L0; cbn [apply_cond_subcircuit]; unfold local_cond_subcircuit, subcircuit_verdict in *; rewrite entries_deep in *;
   pose proof (pipe_seen 1 sc r (mkSt (bld s0) [Some cs]) F (owns_one _ _ _ Hc T0 L0) Hr Hv') as Y; unfold subcircuit_verdict in Y;
   rewrite <- Y in *; unfold with_conds, mbind; destruct (apply_pipeline_objects (aco 1) sc r _) as [? ?|? ?|?]; cbn in *; [congruence|reflexivity|reflexivity]).
Qed.
