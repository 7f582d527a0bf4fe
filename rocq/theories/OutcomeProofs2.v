(** Objects and subcircuits through wrappers: when they return, and what they leave. *)
From Coq Require Import Permutation Reals ZArith QArith.
From Coquelicot Require Import Complex.
From Verif Require Import Base BitsSpec OpsModel BuilderModel RegProofs DenSpec SimSpec RunSpec LocalProofs RunProofs GateProofs ToffoliProofs SwapProofs CondProofs SubProofs2 SubProofs CostSpec CostProofs.
From Verif Require Import OutcomeSpec OutcomeProofs.
Local Open Scope nat_scope.
Local Open Scope mon_scope.

(** The wrapper right around the LocalBuilder gets the qubits [x]. *)
Definition grown (d : nat) (x : reg) (c : list (option reg)) : list (option reg) :=
  match d, c with S _, Some r :: c => Some (r ++ x) :: c | _, _ => c end.
Lemma grown_nil d c : grown d [] c = c.
Proof. destruct d, c as [|[r|] c]; cbn; rewrite ?app_nil_r; reflexivity. Qed.
Lemma grown_upd k x y c : 0 < k -> upd_nth k y (grown k x c) = grown (S k) x (upd_nth k y c).
Proof. destruct k; [lia|]. destruct c as [|[r|] c]; reflexivity. Qed.
Lemma wrapped_grown d x c : wrapped d c -> wrapped d (grown d x c).
Proof.
  intros W k Hk. destruct (W k Hk) as (r & E & Hr). destruct d; [lia|]. destruct c as [|[r0|] c]; destruct k; cbn in *; try discriminate.
  - inversion E; subst. exists (r ++ x). split; [reflexivity|]. destruct r; [congruence|discriminate].
  - exists r. auto.
  - exists r. auto.
Qed.
Lemma cqs_cons d r c : cqs (S d) (Some r :: c) = cqs d c ++ r.
Proof. induction d as [|d IH]; [cbn; rewrite app_nil_r; reflexivity|]. cbn [cqs nth_error] in *. rewrite IH. destruct (nth_error c d) as [[z|]|]; cbn; rewrite ?app_assoc; reflexivity. Qed.
Lemma cqs_grown d x c : 0 < d -> wrapped d c -> cqs d (grown d x c) = cqs d c ++ x.
Proof.
  intros Hd W. destruct (W 0 Hd) as (r & E & Hr). destruct d; [lia|]. destruct c as [|o c]; [discriminate|]. cbn in E. inversion E; subst. cbn [grown]. rewrite !cqs_cons, app_assoc. reflexivity.
Qed.
Lemma length_grown d x c : length (grown d x c) = length c.
Proof. destruct d, c as [|[r|] c]; reflexivity. Qed.

(** [m] returns [a] and leaves the qubits [L] in use, the condition registers [c]. *)
Definition went {A} (s : st) (m : M A) (a : A) (L : list nat) (c : list (option reg)) : Prop :=
  exists s', m s = Ret a s' /\ conds s' = c /\ tidy s' /\ live s' L.
Lemma went_goes {A} s L F (m : M A) a L' c : live s (L ++ F) -> goes s L m a L' c -> went s m a (L' ++ F) c.
Proof. intros Lv H. destruct (goes_frame s L m a L' c F Lv H) as (s' & H1 & H2 & H3 & H4 & _). exists s'. auto. Qed.
(** Take a condition register, do something, put it back. *)
Lemma went_take {A B} k c c' s (m : M A) a L cm (g : reg -> M B) (f : A -> M B) b :
  nth_error (conds s) k = Some (Some c) -> (forall s, g c s = mbind m f s) ->
  went (mkSt (bld s) (upd_nth k None (conds s))) m a L cm ->
  (forall s2, conds s2 = cm -> f a s2 = Ret b (mkSt (bld s2) (upd_nth k (Some c') (conds s2)))) ->
  went s (mbind (take_cr k) g) b L (upd_nth k (Some c') cm).
Proof.
  intros E Eg (s1 & H1 & H2 & H3 & H4) Hf. exists (mkSt (bld s1) (upd_nth k (Some c') cm)).
  split; [unfold mbind at 1; unfold take_cr; rewrite E, Eg; unfold mbind; rewrite H1, (Hf s1 H2), H2; reflexivity|]. auto.
Qed.

Section Chain.
(** [try_apply_with_condition] and [apply_conditioned_subcircuit] pass through wrappers alike. *)
Context (F : nat -> reg -> reg -> M (reg * reg)).
Hypothesis FS : forall k cr r, F (S k) cr r = (ccr <- take_cr k ;; cr1 <- lift (merge2 cr ccr) ;; '(cr2, r') <- F k cr1 r ;; give_back k (length cr) cr2 r').
Context (r x r' : reg) (G fr : list nat).
Lemma chain_went : (forall s cs, cs <> [] -> tidy s -> live s (cs ++ G) -> went s (F 0 cs r) (cs ++ x, r') (cs ++ G) (conds s)) ->
  Permutation (x ++ r' ++ fr) G ->
  forall d s cr, wrapped d (conds s) -> tidy s -> cr <> [] -> live s ((cr ++ cqs d (conds s)) ++ G) ->
  went s (F d cr r) ((if d =? 0 then cr ++ x else cr), r') ((cr ++ cqs d (conds s)) ++ G) (grown d x (conds s)).
Proof.
  intros H P. induction d as [|k IH]; intros s cr Hh T Hc Lv.
  - cbn [cqs grown Nat.eqb] in *. rewrite app_nil_r in *. apply H; assumption.
  - destruct (Hh k (Nat.lt_succ_diag_r k)) as (c & E & Hcne).
    cbn [cqs] in *. rewrite E in *. rewrite FS. cbn [Nat.eqb].
    assert (Q : cr ++ c ++ cqs k (conds s) = (cr ++ c) ++ cqs k (upd_nth k None (conds s))) by (rewrite cqs_upd by lia; apply app_assoc).
    assert (X : grown (S k) x (conds s) = upd_nth k (Some (if k =? 0 then c ++ x else c)) (grown k x (upd_nth k None (conds s)))).
    { destruct k as [|k]; cbn [Nat.eqb].
      - destruct (conds s) as [|o l]; [discriminate|]. cbn in E. inversion E; subst. reflexivity.
      - rewrite grown_upd by lia. rewrite upd_nth_twice, upd_nth_same by exact E. destruct (conds s) as [|[z|] l]; reflexivity. }
    assert (N : NoDup (cr ++ c ++ x)).
    { destruct Lv as (N & _). assert (P' : Permutation ((cr ++ c ++ cqs k (conds s)) ++ G) ((cr ++ c ++ x) ++ cqs k (conds s) ++ r' ++ fr)).
      { rewrite <- P, <- !app_assoc. apply Permutation_app_head, Permutation_app_head. apply Permutation_app_swap_app. }
      apply (Permutation_NoDup P') in N. apply NoDup_app_iff in N. apply N. }
    rewrite X. rewrite Q in *. eapply went_take with (m := F k (cr ++ c) r); [exact E| | |].
    + intros s0. unfold mbind at 1. rewrite merge2_ok by exact Hc. reflexivity.
    + apply (IH (mkSt (bld s) (upd_nth k None (conds s))) (cr ++ c)).
      * apply wrapped_upd; [lia|]. eapply wrapped_le; [|exact Hh]. lia.
      * exact T.
      * destruct cr; [congruence|discriminate].
      * exact Lv.
    + intros s2 E2. cbn beta iota. unfold give_back, mbind, lift. destruct (Nat.eqb_spec k 0).
      * rewrite <- app_assoc, split_rel_prefix; [reflexivity|exact N|exact Hc|destruct c; [congruence|discriminate]].
      * rewrite split_rel_prefix; [reflexivity| |exact Hc|exact Hcne]. rewrite app_assoc in N. apply NoDup_app_iff in N. apply N.
Qed.
Lemma chain_seen v : v <> Works -> (forall s cs, cs <> [] -> tidy s -> live s (cs ++ G) -> seen (F 0 cs r s) = v) ->
  forall d s cr, wrapped d (conds s) -> tidy s -> cr <> [] -> live s ((cr ++ cqs d (conds s)) ++ G) -> seen (F d cr r s) = v.
Proof.
  intros Hv H. induction d as [|k IH]; intros s cr Hh T Hc Lv.
  - cbn [cqs] in *. rewrite app_nil_r in *. apply H; assumption.
  - destruct (Hh k (Nat.lt_succ_diag_r k)) as (c & E & Hcne). rewrite FS. cbn [cqs] in *. rewrite E in *.
    unfold mbind at 1. unfold take_cr. rewrite E. unfold mbind at 1. rewrite merge2_ok by exact Hc. cbn [lift]. unfold mbind.
    assert (Y : seen (F k (cr ++ c) r (mkSt (bld s) (upd_nth k None (conds s)))) = v).
    { apply IH; [apply wrapped_upd; [lia|]; eapply wrapped_le; [|exact Hh]; lia|exact T|destruct cr; [congruence|discriminate]|].
      cbn [conds]. rewrite cqs_upd by lia. rewrite (app_assoc cr c) in Lv. exact Lv. }
    destruct (F k (cr ++ c) r _) as [[? ?] ?|?|?]; cbn in *; congruence.
Qed.
End Chain.

Definition top (F : nat -> reg -> reg -> M (reg * reg)) (k : nat) (r : reg) : M reg :=
  cr <- take_cr k ;; '(cr, r) <- F k cr r ;; _ <- put_cr k cr ;; ret r.
Lemma top_went F r x r' G fr : (forall k cr r, F (S k) cr r = (ccr <- take_cr k ;; cr1 <- lift (merge2 cr ccr) ;; '(cr2, r') <- F k cr1 r ;; give_back k (length cr) cr2 r')) ->
  (forall s cs, cs <> [] -> tidy s -> live s (cs ++ G) -> went s (F 0 cs r) (cs ++ x, r') (cs ++ G) (conds s)) -> Permutation (x ++ r' ++ fr) G ->
  forall k s, wrapped (S k) (conds s) -> tidy s -> live s (cqs (S k) (conds s) ++ G) ->
  went s (top F k r) r' (cqs (S k) (conds s) ++ G) (grown (S k) x (conds s)).
Proof.
  intros FS H P k s Hh T Lv. destruct (Hh k (Nat.lt_succ_diag_r k)) as (c & E & Hcne).
  cbn [cqs] in *. rewrite E in *. unfold top.
  assert (Q : c ++ cqs k (conds s) = c ++ cqs k (upd_nth k None (conds s))) by (rewrite cqs_upd by lia; reflexivity).
  assert (X : grown (S k) x (conds s) = upd_nth k (Some (if k =? 0 then c ++ x else c)) (grown k x (upd_nth k None (conds s)))).
  { destruct k as [|k]; cbn [Nat.eqb].
    - destruct (conds s) as [|o l]; [discriminate|]. cbn in E. inversion E; subst. reflexivity.
    - rewrite grown_upd by lia. rewrite upd_nth_twice, upd_nth_same by exact E. destruct (conds s) as [|[z|] l]; reflexivity. }
  rewrite X. rewrite Q in *. eapply went_take with (m := F k c r); [exact E|reflexivity| |].
  - apply (chain_went F FS r x r' G fr H P k (mkSt (bld s) (upd_nth k None (conds s))) c).
    * apply wrapped_upd; [lia|]. eapply wrapped_le; [|exact Hh]. lia.
    * exact T.
    * exact Hcne.
    * exact Lv.
  - intros s2 E2. reflexivity.
Qed.
Lemma top_seen F r G v : (forall k cr r, F (S k) cr r = (ccr <- take_cr k ;; cr1 <- lift (merge2 cr ccr) ;; '(cr2, r') <- F k cr1 r ;; give_back k (length cr) cr2 r')) -> v <> Works ->
  (forall s cs, cs <> [] -> tidy s -> live s (cs ++ G) -> seen (F 0 cs r s) = v) ->
  forall k s, wrapped (S k) (conds s) -> tidy s -> live s (cqs (S k) (conds s) ++ G) -> seen (top F k r s) = v.
Proof.
  intros FS Hv H k s Hh T Lv. destruct (Hh k (Nat.lt_succ_diag_r k)) as (c & E & Hcne). cbn [cqs] in *. rewrite E in *.
  unfold top, mbind at 1. unfold take_cr. rewrite E. unfold mbind.
  assert (Y : seen (F k c r (mkSt (bld s) (upd_nth k None (conds s)))) = v).
  { apply (chain_seen F FS r G v Hv H); [apply wrapped_upd; [lia|]; eapply wrapped_le; [|exact Hh]; lia|exact T|exact Hcne|]. cbn [conds]. rewrite cqs_upd by lia. exact Lv. }
  destruct (F k c r _) as [[? ?] ?|?|?]; cbn in *; congruence.
Qed.

(** *** Objects *)
Definition is_st (co : cobj) : bool := match co_obj co with OUnit US | OUnit UT => true | _ => false end.
(** What comes back of a register, and what the wrapper keeps. *)
Definition back (d : nat) (co : cobj) (r : reg) : reg := if (0 <? d) && is_st co then [last r 0] else r.
Definition kept (d : nat) (co : cobj) (r : reg) : reg := if (0 <? d) && is_st co then removelast r else [].
Lemma kept_back d co r : r <> [] -> kept d co r ++ back d co r = r.
Proof. intros H. unfold kept, back. destruct ((0 <? d) && is_st co); [symmetry; apply app_removelast_last; exact H|reflexivity]. Qed.
Lemma back_ne d co r : r <> [] -> back d co r <> [].
Proof. unfold back. destruct ((0 <? d) && is_st co); [discriminate|auto]. Qed.
Lemma back_length d co r : length (back d co r) = length r \/ length (back d co r) = 1.
Proof. unfold back. destruct ((0 <? d) && is_st co); auto. Qed.

Lemma try_goes co r : r <> [] -> object_verdict1 co (length r) = Works -> goes_try co r (kept 1 co r) (back 1 co r).
Proof.
  intros Hr. unfold object_verdict1, kept, back, is_st. destruct co as [k o]. cbn [co_obj Nat.ltb Nat.leb andb]. destruct o as [[]|m]; try discriminate; intros Hv.
  - eapply goes_cond_ok, try_X; exact Hr.
  - eapply goes_cond_ok, try_Y; exact Hr.
  - eapply goes_cond_ok, try_Z; exact Hr.
  - apply try_goes_H; exact Hr.
  - pose proof (try_goes_ST k US (removelast r) (last r 0)) as H. rewrite <- app_removelast_last in H by exact Hr. apply H. auto.
  - pose proof (try_goes_ST k UT (removelast r) (last r 0)) as H. rewrite <- app_removelast_last in H by exact Hr. apply H. auto.
  - destruct (Nat.eqb_spec (length r) 2) as [E|]; [|discriminate]. destruct r as [|a [|b [|]]]; try discriminate. eapply goes_cond_ok, try_CNOT.
  - destruct (Nat.even _) in Hv; discriminate.
  - eapply goes_cond_ok, try_Rz; exact Hr.
  - apply try_goes_phase; exact Hr.
Qed.
Lemma even_mod n : (n mod 2 =? 0) = Nat.even n.
Proof.
  destruct (Nat.even n) eqn:E; apply Nat.eqb_eq || apply Nat.eqb_neq.
  - apply Nat.even_spec in E. destruct E as (m & ->). rewrite Nat.mul_comm. apply Nat.mod_mul. lia.
  - intros X. apply Nat.mod_divides in X; [|lia]. destruct X as (m & ->). rewrite Nat.even_mul in E. discriminate.
Qed.
Lemma try_seen co r s cs : r <> [] -> object_verdict1 co (length r) <> Works -> cs <> [] -> live s (cs ++ r) -> seen (local_try cs r co s) = object_verdict1 co (length r).
Proof.
  intros Hr. unfold object_verdict1, local_try. destruct co as [k o]. cbn [co_obj]. destruct o as [[]|m]; try congruence; intros Hv Hc Lv.
  - destruct (Nat.eqb_spec (length r) 2); [congruence|]. reflexivity.
  - cbv zeta. rewrite even_mod. destruct (Nat.even (length r)) eqn:E; [|reflexivity].
    destruct (live_split _ _ _ Lv) as (_ & N & _). unfold mbind at 1. cbn [massert ret]. unfold mbind at 1. rewrite split_all_ok by assumption. cbn [lift].
    assert (L2 : 2 <= length r). { destruct r as [|a [|b r]]; [congruence|discriminate|cbn; lia]. }
    assert (Dv : 0 < length r / 2 /\ length r / 2 < length r). { split; [apply Nat.div_str_pos; lia|apply Nat.div_lt; lia]. }
    unfold mbind at 1. unfold split_vector_at. rewrite length_singles. destruct (Nat.leb_spec (length r / 2) (length r)); [|lia]. cbn [massert]. unfold mbind at 1. cbn [ret].
    assert (X : exists a b l, combine (firstn (length r / 2) (singles r)) (skipn (length r / 2) (singles r)) = ([a], [b]) :: l).
    { assert (F : forall n, Forall (fun x => exists q, x = [q]) (firstn n (singles r)) /\ Forall (fun x => exists q, x = [q]) (skipn n (singles r))).
      { intros n. apply Forall_app. rewrite firstn_skipn. apply Forall_forall. intros x Hx. apply in_map_iff in Hx. destruct Hx as (q & <- & _). eauto. }
      destruct (F (length r / 2)) as (F1 & F2). pose proof (firstn_length_le (singles r) (n := length r / 2)) as L1. pose proof (skipn_length (length r / 2) (singles r)) as L3.
      rewrite length_singles in L1, L3. specialize (L1 ltac:(lia)).
      destruct (firstn _ _) as [|x1 l1]; [cbn [length] in L1; lia|]. destruct (skipn _ _) as [|x2 l2]; [cbn [length] in L3; lia|]. inversion_clear F1 as [|? ? (a & ->) _]. inversion_clear F2 as [|? ? (b & ->) _].
      cbn [combine]. eauto. }
    destruct X as (a & b & l & ->). cbn [mfold]. unfold cond_swap_step at 1, cond_swap_half at 1. unfold mbind. cbn [length Nat.eqb massert ret]. rewrite merge2_ok by exact Hc. cbn [lift].
    unfold cnot at 1. destruct (Nat.ltb_spec 1 (length (cs ++ [a]))) as [_|G]; [reflexivity|]. rewrite app_length in G. destruct cs; [congruence|cbn in G; lia].
  - reflexivity.
  - reflexivity.
Qed.

(** *** Through [d] wrappers *)
Definition owns (d : nat) (s : st) (X : list nat) : Prop := tidy s /\ length (conds s) = d /\ wrapped d (conds s) /\ live s (cqs d (conds s) ++ X).
Lemma owns_perm d s X Y : Permutation X Y -> owns d s X -> owns d s Y.
Proof. intros P (T & E & W & L). do 3 (split; [assumption|]). eapply live_perm; [exact L|]. apply Permutation_app_head, P. Qed.
Lemma owns_part d s X Y : owns d s (X ++ Y) -> NoDup X.
Proof. intros (_ & _ & _ & N & _). apply NoDup_app_iff in N. destruct N as (_ & N & _). apply NoDup_app_iff in N. apply N. Qed.
Lemma aco_went d co r s F : r <> [] -> object_verdict d co (length r) = Works -> owns d s (r ++ F) ->
  went s (aco d r co) (back d co r) (cqs d (conds s) ++ r ++ F) (grown d (kept d co r) (conds s)).
Proof.
  intros Hr Hv Hd. pose proof (owns_part _ _ _ _ Hd) as N. destruct Hd as (T & E & W & Lv).
  unfold object_verdict in Hv. destruct d as [|k]; cbn [Nat.eqb] in Hv.
  - cbn [cqs aco grown app] in *. unfold object_verdict0 in Hv. destruct (appends_fit r co N Hr) as (g & G).
    + destruct (Nat.eqb_spec (co_n co) 1); [auto|]. destruct (Nat.eqb_spec (co_n co) (length r)); [auto|discriminate].
    + eapply went_goes; [exact Lv|]. eapply goes_appends; [exact G|exact T|]. eapply live_part; [reflexivity|exact Lv].
  - change (aco (S k) r co) with (top (fun d cr r => try_cond d cr r co) k r). change (back (S k) co r) with (back 1 co r). change (kept (S k) co r) with (kept 1 co r).
    apply top_went with (fr := F); [reflexivity| |rewrite app_assoc, kept_back by exact Hr; reflexivity|exact W|exact T|exact Lv].
    intros s0 cs Hc T0 L0. rewrite app_assoc in *. eapply went_goes; [exact L0|]. apply (try_goes co r Hr Hv s0 cs Hc T0). eapply live_part; [reflexivity|exact L0].
Qed.
Lemma aco_seen d co r s F : r <> [] -> object_verdict d co (length r) <> Works -> owns d s (r ++ F) -> seen (aco d r co s) = object_verdict d co (length r).
Proof.
  intros Hr Hv Hd. pose proof (owns_part _ _ _ _ Hd) as N. destruct Hd as (T & E & W & Lv).
  unfold object_verdict in *. destruct d as [|k]; cbn [Nat.eqb] in *.
  - unfold object_verdict0 in *. cbn [aco]. unfold local_aco. destruct ((co_n co =? 1) || (co_n co =? length r)); [congruence|reflexivity].
  - change (aco (S k) r co) with (top (fun d cr r => try_cond d cr r co) k r). eapply top_seen; [reflexivity|exact Hv| |exact W|exact T|exact Lv].
    intros s0 cs Hc T0 L0. apply try_seen; try assumption. rewrite app_assoc in L0. eapply live_part; [reflexivity|exact L0].
Qed.
Definition wp {A} (m : M A) (s : st) (Q : A -> st -> Prop) : Prop := exists a s', m s = Ret a s' /\ Q a s'.
Lemma wp_seen {A} (m : M A) s Q : wp m s Q -> seen (m s) = Works. Proof. intros (a & s' & -> & _). reflexivity. Qed.
Lemma wp_ret {A} (a : A) s (Q : A -> st -> Prop) : Q a s -> wp (ret a) s Q. Proof. intros H. exists a, s. auto. Qed.
Lemma wp_bind {A B} (m : M A) (f : A -> M B) s Q : wp m s (fun a s' => wp (f a) s' Q) -> wp (mbind m f) s Q.
Proof. intros (a & s' & E & b & s2 & E2 & H). exists b, s2. unfold mbind. rewrite E. auto. Qed.
Lemma wp_lift {A} (r : res A) a s (Q : A -> st -> Prop) : r = Ok a -> Q a s -> wp (lift r) s Q. Proof. intros -> H. exists a, s. auto. Qed.
Lemma wp_unwrap {A} (m : M A) s Q : wp m s Q -> wp (unwrapM m) s Q. Proof. intros (a & s' & E & H). exists a, s'. unfold unwrapM. rewrite E. auto. Qed.
Lemma wp_mono {A} (m : M A) s (Q Q' : A -> st -> Prop) : wp m s Q -> (forall a s', Q a s' -> Q' a s') -> wp m s Q'.
Proof. intros (a & s' & E & H) K. exists a, s'. auto. Qed.
Lemma aco_wp d co r s F : r <> [] -> object_verdict d co (length r) = Works -> owns d s (r ++ F) ->
  wp (aco d r co) s (fun r' s' => r' = back d co r /\ owns d s' (r' ++ F) /\ conds s' = grown d (kept d co r) (conds s)).
Proof.
  intros Hr Hv Hd. destruct (aco_went d co r s F Hr Hv Hd) as (s' & H1 & H2 & H3 & H4). exists (back d co r), s'. split; [exact H1|]. split; [reflexivity|].
  split; [|exact H2]. destruct Hd as (T & E & W & Lv). split; [exact H3|]. rewrite H2. split; [rewrite length_grown; exact E|]. split; [apply wrapped_grown, W|].
  destruct d as [|k]; [exact H4|]. rewrite cqs_grown by (assumption || lia). rewrite <- app_assoc, (app_assoc (kept _ _ _)), kept_back by exact Hr. exact H4.
Qed.

(** *** Entries of a subcircuit *)
Lemma distinct_NoDup l : distinct l = true <-> NoDup l.
Proof.
  induction l as [|a l IH]; [split; [constructor|reflexivity]|]. cbn [distinct]. rewrite andb_true_iff, negb_true_iff, IH. unfold mem. rewrite existsb_eqb_false.
  split; [intros (H & K); constructor; assumption|intros H; inversion H; auto].
Qed.
(** Taking a position twice, or one that is not there. *)
Lemma take_all_panics rho : forall is done, ~ (NoDup is /\ (forall i, In i is -> i < length rho /\ ~ In i done)) -> exists p, take_all (blanked rho done) is = Panic p.
Proof.
  induction is as [|i is IH]; intros done H; [exfalso; apply H; split; [constructor|intros i []]|]. cbn [take_all].
  destruct (Nat.ltb_spec i (length rho)) as [Hi|Hi].
  - unfold take_at. rewrite (@idx_ok _ (blanked rho done) i None) by (rewrite length_blanked; exact Hi). cbn [bind].
    rewrite (nth_error_nth (blanked rho done) i None (nth_error_blanked rho done i Hi)). destruct (existsb (Nat.eqb i) done) eqn:E; [eexists; reflexivity|]. cbn [unwrap_opt bind].
    rewrite upd_blanked by exact Hi. destruct (IH (done ++ [i])) as (p & ->); [|eexists; reflexivity].
    intros (N & K). apply H. apply existsb_eqb_false in E. split.
    + constructor; [|exact N]. intros X. apply (proj2 (K i X)), in_or_app. right. left. reflexivity.
    + intros j [<-|Hj]; [auto|]. destruct (K j Hj) as (K1 & K2). rewrite in_app_iff in K2. tauto.
  - unfold take_at, idx. rewrite (proj2 (nth_error_None _ _)) by (rewrite length_blanked; exact Hi). eexists. reflexivity.
Qed.
Lemma entry_wp d rho is co s F : owns d s (rho ++ F) -> (forall i, In i is -> i < length rho) -> is <> [] -> NoDup is -> entry_verdict d co (length is) = Works ->
  wp (apply_entry (aco d) (map Some (singles rho)) (is, co)) s (fun rs s' => rs = map Some (singles rho) /\ owns d s' (rho ++ F) /\ conds s' = conds s).
Proof.
  intros Hd R Hne N Hv. pose proof (owns_part _ _ _ _ Hd) as Nr.
  set (qs := map (fun j => nth j rho 0) is). assert (Nq : NoDup qs) by (apply map_inj_NoDup; assumption).
  assert (Lq : length qs = length is) by apply map_length.
  assert (Iq : incl qs rho) by (intros q Hq; unfold qs in Hq; apply in_map_iff in Hq; destruct Hq as (j & <- & Hj); apply nth_In, R, Hj).
  assert (Hq : qs <> []) by (unfold qs; destruct is; [congruence|discriminate]).
  assert (Es : map (fun i => [nth i rho 0]) is = singles qs) by (unfold qs, singles; rewrite map_map; reflexivity).
  destruct (part_of qs rho Nq Nr Iq) as (rest & Pm).
  assert (Pm' : Permutation (rho ++ F) (qs ++ rest ++ F)) by (rewrite app_assoc; apply Permutation_app_tail; symmetry; exact Pm).
  assert (Hv' : object_verdict d co (length qs) = Works /\ back d co qs = qs /\ kept d co qs = []).
  { rewrite Lq. unfold entry_verdict, object_verdict, back, kept, is_st in *. destruct d as [|k]; cbn [Nat.eqb Nat.ltb Nat.leb andb] in *; [auto|].
    unfold entry_verdict1, object_verdict1 in *. destruct (co_obj co) as [[]|]; auto; (destruct (Nat.eqb_spec (length is) 1) as [X|]; [|discriminate]; rewrite X in Lq; destruct qs as [|q [|]]; try discriminate; auto). }
  destruct Hv' as (V1 & V2 & V3).
  unfold apply_entry. rewrite <- blanked_nil.
  apply wp_bind. eapply wp_lift; [apply (take_all_ok rho is []); [exact N|exact R]|]. cbn beta iota. cbn [app]. rewrite Es.
  apply wp_bind. eapply wp_lift; [apply merge_singles|]. apply wp_bind. eapply wp_lift; [apply unwrap_new_reg; exact Hq|].
  apply wp_bind. eapply wp_mono; [apply (aco_wp d co qs s (rest ++ F)); [exact Hq|exact V1|eapply owns_perm; [exact Pm'|exact Hd]]|].
  intros r' s' (-> & Hd' & C'). rewrite V2 in *. rewrite V3, grown_nil in C'. apply wp_bind. eapply wp_lift; [apply split_all_ok; assumption|].
  apply wp_bind. eapply wp_lift; [etransitivity; [|apply (put_back_ok rho is); assumption]; rewrite Es; reflexivity|]. rewrite blanked_nil.
  replace (forallb _ (map Some (singles rho))) with true.
  2:{ symmetry. apply forallb_forall. intros o Ho'. apply in_map_iff in Ho'. destruct Ho' as (r & <- & _). reflexivity. }
  apply wp_bind, wp_ret, wp_ret. split; [reflexivity|]. split; [|exact C']. eapply owns_perm; [symmetry; exact Pm'|exact Hd'].
Qed.
Lemma seen_bind {A B} (m : M A) (f : A -> M B) s v : v <> Works -> seen (m s) = v -> seen (mbind m f s) = v.
Proof. unfold mbind. destruct (m s); cbn; congruence. Qed.
Lemma wp_seen_bind {A B} (m : M A) (f : A -> M B) s Q v : wp m s Q -> (forall a s', Q a s' -> seen (f a s') = v) -> seen (mbind m f s) = v.
Proof. intros (a & s' & E & H) K. unfold mbind. rewrite E. apply K, H. Qed.
Definition entry_seen_as (d : nat) (e : list nat * cobj) : verdict :=
  match fst e with [] => Panics | _ => if distinct (fst e) then entry_verdict d (snd e) (length (fst e)) else Panics end.
Lemma entry_seen d rho is co s F : owns d s (rho ++ F) -> (forall i, In i is -> i < length rho) -> entry_seen_as d (is, co) <> Works ->
  seen (apply_entry (aco d) (map Some (singles rho)) (is, co) s) = entry_seen_as d (is, co).
Proof.
  intros Hd R Hv. pose proof (owns_part _ _ _ _ Hd) as Nr. unfold entry_seen_as in *. cbn [fst snd] in *. unfold apply_entry. rewrite <- blanked_nil.
  destruct (distinct is) eqn:Di.
  2:{ assert (E : match is with [] => Panics | _ => Panics end = Panics) by (destruct is; reflexivity). rewrite E in *.
      destruct (take_all_panics rho is []) as (p & Ep); [|unfold mbind; rewrite Ep; reflexivity]. intros (N & _). apply distinct_NoDup in N. congruence. }
  apply distinct_NoDup in Di. unfold mbind at 1. rewrite (take_all_ok rho is []) by assumption. cbn [lift app].
  destruct is as [|i0 is0] eqn:Eis; [reflexivity|]. rewrite <- Eis in *. assert (Hne : is <> []) by (rewrite Eis; discriminate). clear Eis.
  set (qs := map (fun j => nth j rho 0) is). assert (Nq : NoDup qs) by (apply map_inj_NoDup; assumption).
  assert (Lq : length qs = length is) by apply map_length.
  assert (Iq : incl qs rho) by (intros q Hq; unfold qs in Hq; apply in_map_iff in Hq; destruct Hq as (j & <- & Hj); apply nth_In, R, Hj).
  assert (Hq : qs <> []) by (unfold qs; destruct is; [congruence|discriminate]).
  assert (Es : map (fun i => [nth i rho 0]) is = singles qs) by (unfold qs, singles; rewrite map_map; reflexivity).
  destruct (part_of qs rho Nq Nr Iq) as (rest & Pm).
  assert (Pm' : Permutation (rho ++ F) (qs ++ rest ++ F)) by (rewrite app_assoc; apply Permutation_app_tail; symmetry; exact Pm).
  assert (Hd2 : owns d s (qs ++ rest ++ F)) by (eapply owns_perm; [exact Pm'|exact Hd]).
  rewrite Es. unfold mbind at 1. rewrite merge_singles. cbn [lift]. unfold mbind at 1. rewrite unwrap_new_reg by exact Hq. cbn [lift].
  assert (Hv2 : entry_verdict d co (length is) = object_verdict d co (length qs) \/ 0 < d /\ is_st co = true /\ entry_verdict d co (length is) = Panics /\ 2 <= length is).
  { rewrite Lq. unfold entry_verdict, object_verdict, is_st in *. destruct d as [|k]; cbn [Nat.eqb] in *; [auto|].
    unfold entry_verdict1, object_verdict1 in *. destruct (co_obj co) as [[]|]; auto; (destruct (Nat.eqb_spec (length is) 1) as [X|]; [congruence|]; right; split; [lia|]; do 2 (split; [reflexivity|]); destruct is as [|? [|]]; cbn in *; (congruence || lia)). }
  destruct Hv2 as [V|(Hd0 & V1 & V2 & V3)].
  - rewrite V in *. apply seen_bind; [exact Hv|]. eapply aco_seen; [exact Hq|exact Hv|exact Hd2].
  - rewrite V2. eapply wp_seen_bind; [apply (aco_wp d co qs s (rest ++ F)); [exact Hq| |exact Hd2]|].
    + unfold object_verdict, object_verdict1, is_st in *. destruct d; [lia|]. cbn [Nat.eqb]. destruct (co_obj co) as [[]|]; try discriminate; reflexivity.
    + intros r' s' (-> & _ & _). unfold back. destruct d as [|k]; [lia|]. rewrite V1. change ((0 <? S k) && true) with true. cbv iota.
      unfold mbind at 1. assert (Sp : forall q, split_all [q] = Ok [[q]]) by (intros q; apply (split_all_ok [q]); [repeat constructor; intros []|discriminate]). rewrite Sp. cbn [lift].
      destruct is as [|i [|j is]]; [cbn in V3; lia|cbn in V3; lia|]. cbn [combine foldM]. unfold put_back. cbn beta iota.
      rewrite (@idx_ok _ (blanked rho (i :: j :: is)) i None) by (rewrite length_blanked; apply R; left; reflexivity). cbn [bind].
      unfold mbind at 1. cbn [lift]. 
      replace (forallb _ _) with false; [reflexivity|]. symmetry. apply Bool.not_true_is_false. intros X. rewrite forallb_forall in X.
      assert (Hj : j < length rho) by (apply R; right; left; reflexivity).
      assert (Y : nth_error (upd_nth i (Some [last qs 0]) (blanked rho (i :: j :: is))) j = Some None).
      { rewrite nth_error_upd_nth. inversion_clear Di as [|? ? D1 D2]. destruct (Nat.eqb_spec j i) as [->|]; [exfalso; apply D1; left; reflexivity|]. cbn [andb].
        rewrite nth_error_blanked by exact Hj. cbn [existsb]. rewrite Nat.eqb_refl, orb_true_r. reflexivity. }
      apply nth_error_In in Y. specialize (X _ Y). discriminate.
Qed.
Lemma entries_cons d e sc : entries_verdict d (e :: sc) = match entry_seen_as d e with Works => entries_verdict d sc | v => v end.
Proof. destruct e as [is co]. unfold entry_seen_as. cbn [entries_verdict fst snd]. destruct is; [reflexivity|]. destruct (distinct _); reflexivity. Qed.
Lemma entry_seen_works d is co : entry_seen_as d (is, co) = Works -> is <> [] /\ NoDup is /\ entry_verdict d co (length is) = Works.
Proof. unfold entry_seen_as. cbn [fst snd]. destruct is; [discriminate|]. destruct (distinct _) eqn:E; [|discriminate]. intros H. split; [discriminate|]. split; [apply distinct_NoDup, E|exact H]. Qed.
Lemma entries_wp d rho F : forall sc s, owns d s (rho ++ F) -> (forall i, In i (positions sc) -> i < length rho) -> entries_verdict d sc = Works ->
  wp (mfold (apply_entry (aco d)) sc (map Some (singles rho))) s (fun rs s' => rs = map Some (singles rho) /\ owns d s' (rho ++ F) /\ conds s' = conds s).
Proof.
  induction sc as [|[is co] sc IH]; intros s Hd R Hv; cbn [mfold]; [apply wp_ret; auto|]. rewrite entries_cons in Hv. unfold positions in R. cbn [map concat fst] in R.
  destruct (entry_seen_as d (is, co)) eqn:E; try discriminate. apply entry_seen_works in E. destruct E as (E1 & E2 & E3).
  apply wp_bind. eapply wp_mono; [apply (entry_wp d rho is co s F); auto; intros i Hi; apply R, in_or_app; auto|]. intros rs s' (-> & Hd' & C').
  eapply wp_mono; [apply IH; [exact Hd'| |exact Hv]|]; [intros i Hi; apply R, in_or_app; auto|]. intros rs s2 (-> & H2 & C2). split; [reflexivity|]. split; [exact H2|congruence].
Qed.
Lemma entries_seen d rho F : forall sc s, owns d s (rho ++ F) -> (forall i, In i (positions sc) -> i < length rho) -> entries_verdict d sc <> Works ->
  seen (mfold (apply_entry (aco d)) sc (map Some (singles rho)) s) = entries_verdict d sc.
Proof.
  induction sc as [|[is co] sc IH]; intros s Hd R Hv; cbn [mfold]; [cbn in Hv; congruence|]. rewrite entries_cons in *. unfold positions in R. cbn [map concat fst] in R.
  destruct (entry_seen_as d (is, co)) eqn:E.
  - apply entry_seen_works in E. destruct E as (E1 & E2 & E3).
    eapply wp_seen_bind; [apply (entry_wp d rho is co s F); auto; intros i Hi; apply R, in_or_app; auto|]. intros rs s' (-> & Hd' & C'). apply IH; [exact Hd'| |exact Hv]. intros i Hi. apply R, in_or_app. auto.
  - apply seen_bind; [discriminate|]. rewrite <- E. eapply entry_seen; [exact Hd|intros i Hi; apply R, in_or_app; auto|congruence].
  - apply seen_bind; [discriminate|]. rewrite <- E. eapply entry_seen; [exact Hd|intros i Hi; apply R, in_or_app; auto|congruence].
Qed.
