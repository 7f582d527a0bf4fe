(** Subcircuits whatever their objects do: what is appended, without asking that the temporaries come back to 0. *)
From Coq Require Import Reals Lra FunctionalExtensionality Permutation.
From Coquelicot Require Import Complex.
From Verif Require Import Base BitsSpec BitsProofs OpsModel OpsSpec ConjSpec Instances BuilderModel RegProofs ConserveProofs DenSpec DenProofs SimSpec UnitaryProofs SimProofs LocalProofs
  RunSpec RunProofs GateProofs ToffoliProofs SwapProofs CondProofs SubSpec LinkProofs InvertProofs SubProofs SubProofs2 SubProofs3 SubProofs5 ProgramModel ProgramSpec ProgramProofs ProgramProofs2 WeakProofs TraceProofs.
Local Open Scope nat_scope.
Local Open Scope mon_scope.

(** What applying [sc] to [r] under the conditions [K] appends: the entries act on [r] and on
    temporaries [ts], 0 beforehand. *)
Definition tr_steps (F : list nat -> list nat * cobj -> state -> state) (n : nat) (sc : pipe) (r K : list nat) : tr := fun s s' p =>
  bn (bld s) <= bn (bld s') /\ (forall q, idle s' q <-> idle s q) /\ Forall (wf_entry (bn (bld s'))) p /\ Forall proper_entry p /\
  exists ts, length r + length ts = n /\ NoDup (K ++ r ++ ts) /\ (forall q, In q ts -> idle s q /\ q < bn (bld s')) /\
    forall psi, (forall q, idle s q -> q < bn (bld s') -> clean [q] psi) -> den p psi = steps (F K) (ren (r ++ ts) sc) psi.
Lemma tr_steps_bld F n sc r K s s' s1 s2 p : bld s = bld s1 -> bld s' = bld s2 -> tr_steps F n sc r K s1 s2 p -> tr_steps F n sc r K s s' p.
Proof. unfold tr_steps, idle, pool. intros -> ->. auto. Qed.

Section Apply.
Context (ac : reg -> cobj -> M reg) (K : list nat) (cond : list (option reg)) (F : list nat -> list nat * cobj -> state -> state).
Definition obj_acts (e : list nat * cobj) : Prop := forall s, conds s = cond -> tidy s -> live s (K ++ fst e) ->
  does s (K ++ fst e) (ac (fst e) (snd e)) (fst e) (K ++ fst e) (F K e).
Notation rn rho := (fun e : list nat * cobj => (map (fun j => nth j rho 0) (fst e), snd e)).
Definition placed (n : nat) (e : list nat * cobj) : Prop := NoDup (fst e) /\ (forall j, In j (fst e) -> j < n) /\ fst e <> [].

Lemma entry_acts rho e s : conds s = cond -> tidy s -> live s (K ++ rho) -> placed (length rho) e -> obj_acts (rn rho e) ->
  does s (K ++ rho) (apply_entry ac (map Some (singles rho)) e) (map Some (singles rho)) (K ++ rho) (F K (rn rho e)).
Proof.
  intros HC T Lv (N & R & Hne) Ho. destruct e as [is co]. cbn [fst snd] in *.
  assert (Nr : NoDup rho) by (destruct Lv as (X & _); apply NoDup_app_iff in X; apply X).
  set (qs := map (fun j => nth j rho 0) is). assert (Nq : NoDup qs) by (apply map_inj_NoDup; assumption).
  assert (Iq : incl qs rho) by (intros q Hq; unfold qs in Hq; apply in_map_iff in Hq; destruct Hq as (j & <- & Hj); apply nth_In, R, Hj).
  assert (Hq : qs <> []) by (unfold qs; destruct is; [congruence|discriminate]).
  assert (Es : map (fun i => [nth i rho 0]) is = singles qs) by (unfold qs, singles; rewrite map_map; reflexivity).
  unfold apply_entry. rewrite <- blanked_nil.
  eapply quiet_then_does; [apply quiet_lift; [apply (take_all_ok rho is []); [exact N|exact R]|exact T|exact Lv]|apply incl_refl|apply incl_refl|].
  intros s1 C1 T1 L1. cbn beta iota. cbn [app]. rewrite Es.
  eapply quiet_then_does; [apply quiet_lift; [apply merge_singles|exact T1|exact L1]|apply incl_refl|apply incl_refl|]. intros s2 C2 T2 L2.
  eapply quiet_then_does; [apply quiet_lift; [apply unwrap_new_reg; exact Hq|exact T2|exact L2]|apply incl_refl|apply incl_refl|]. intros s3 C3 T3 L3.
  destruct (part_of qs rho Nq Nr Iq) as (rest & Pm).
  assert (Pm' : Permutation ((K ++ qs) ++ rest) (K ++ rho)) by (rewrite <- app_assoc; apply Permutation_app_head; exact Pm).
  eapply does_then_quiet.
  - eapply does_perm; [exact Pm'|exact Pm'|]. apply does_frame; [eapply live_perm; [exact L3|symmetry; exact Pm']|].
    apply Ho; [congruence|exact T3|]. cbn [fst]. eapply live_incl; [exact L3| |].
    + pose proof (Permutation_NoDup (Permutation_sym Pm') (proj1 L3)) as X. apply NoDup_app_iff in X. apply X.
    + intros q Hx. eapply Permutation_in; [exact Pm'|]. apply in_or_app. left. exact Hx.
  - intros s4 C4 T4 L4. eapply quiet_bind; [apply quiet_lift; [apply split_all_ok; assumption|exact T4|exact L4]|]. intros s5 C5 T5 L5.
    eapply quiet_bind; [apply quiet_lift; [etransitivity; [|apply (put_back_ok rho is); assumption]; rewrite Es; reflexivity|exact T5|exact L5]|]. intros s6 C6 T6 L6. rewrite blanked_nil.
    replace (forallb _ (map Some (singles rho))) with true; [eapply quiet_bind; [apply quiet_ret; assumption|]; intros s7 C7 T7 L7; apply quiet_ret; assumption|].
    symmetry. apply forallb_forall. intros o Ho'. apply in_map_iff in Ho'. destruct Ho' as (r & <- & _). reflexivity.
Qed.
Lemma entries_act rho sc : forall s, conds s = cond -> tidy s -> live s (K ++ rho) -> Forall (placed (length rho)) sc -> Forall obj_acts (ren rho sc) ->
  does s (K ++ rho) (mfold (apply_entry ac) sc (map Some (singles rho))) (map Some (singles rho)) (K ++ rho) (steps (F K) (ren rho sc)).
Proof.
  induction sc as [|e sc IH]; intros s HC T Lv W Ho; cbn [mfold].
  - apply does_ret; assumption.
  - inversion_clear W as [|? ? W1 W2]. cbn [ren map] in Ho. inversion_clear Ho as [|? ? O1 O2]. eapply does_eq.
    + eapply does_bind; [apply entry_acts; assumption|apply incl_refl|apply incl_refl|]. intros s1 C1 T1 L1. apply IH; try assumption; congruence.
    + intros psi. reflexivity.
Qed.
Lemma top_placed n sc : Forall (placed n) sc -> (exists e, In e sc /\ In (n - 1) (fst e)) ->
  list_max (concat (map (fun e : list nat * cobj => match list_max (fst e) with Some m => [m] | None => [] end) sc)) = Some (n - 1).
Proof.
  intros W (e & He & Hl). set (l := concat _).
  assert (Up : forall m, In m l -> m <= n - 1).
  { intros m Hm. unfold l in Hm. apply in_concat in Hm. destruct Hm as (x & Hx & Hm). apply in_map_iff in Hx. destruct Hx as (e' & <- & He').
    destruct (fst e') as [|a r] eqn:E; [destruct Hm|]. destruct (list_max_spec (a :: r)) as (m' & E' & I' & _); [discriminate|]. rewrite E' in Hm. destruct Hm as [<-|[]].
    rewrite Forall_forall in W. pose proof (proj1 (proj2 (W e' He')) m') as X. rewrite E in X. specialize (X I'). lia. }
  assert (Lo : In (n - 1) l).
  { destruct (list_max_spec (fst e)) as (m' & E' & I' & G'); [intros X; rewrite X in Hl; destruct Hl|].
    assert (m' = n - 1) as <-.
    { specialize (G' _ Hl). rewrite Forall_forall in W. pose proof (proj1 (proj2 (W e He)) m' I'). lia. }
    unfold l. apply in_concat. exists [m']. split; [|left; reflexivity]. apply in_map_iff. exists e. rewrite E'. auto. }
  destruct (list_max_spec l) as (m & E & I & G); [intros X; rewrite X in Lo; destruct Lo|]. rewrite E. f_equal. specialize (Up m I). specialize (G _ Lo). lia.
Qed.
Lemma pipe_x n (r : reg) sc s : length r <= n -> Forall (placed n) sc -> (exists e, In e sc /\ In (n - 1) (fst e)) -> (forall rho, length rho = n -> NoDup rho -> Forall obj_acts (ren rho sc)) ->
  conds s = cond -> tidy s -> live s (K ++ r) -> r <> [] ->
  xdoes (tr_steps F n sc r K) s (K ++ r) (apply_pipeline_objects ac sc r) r (K ++ r).
Proof.
  intros Hk W Top Ho HC T Lv Hr.
  assert (NKr : NoDup (K ++ r)) by apply Lv. assert (Nr : NoDup r) by (apply NoDup_app_iff in NKr; apply NKr).
  assert (Hn : 0 < n) by (destruct r; [congruence|cbn in Hk; lia]).
  assert (TopE := top_placed n sc W Top).
  (* the rest, for any list of temporaries *)
  set (rest := fun rs : list reg => rs <- mfold (apply_entry ac) sc (map Some rs) ;; rs <- lift (mapM unwrap_opt rs) ;; '(rs, trs) <- split_vector_at rs (length r) ;;
     m <- lift (merge_registers trs) ;; _ <- match m with Some tr => return_zeroed_temp_register tr | None => ret tt end ;; m <- lift (merge_registers rs) ;; lift (unwrap_opt m)).
  assert (Rest : forall ts s, length r + length ts = n -> conds s = cond -> tidy s -> live s (K ++ r ++ ts) ->
    does s (K ++ r ++ ts) (rest (singles (r ++ ts))) r (K ++ r) (steps (F K) (ren (r ++ ts) sc))).
  { intros ts s4 Hl C4 T4 L4. assert (N4 : NoDup (r ++ ts)) by (destruct L4 as (X & _); apply NoDup_app_iff in X; apply X).
    unfold rest. eapply does_then_quiet.
    - apply entries_act; [exact C4|exact T4|exact L4|rewrite app_length, Hl; exact W|apply Ho; [rewrite app_length; exact Hl|exact N4]].
    - intros s5 C5 T5 L5.
      assert (Mu : mapM unwrap_opt (map Some (singles (r ++ ts))) = Ok (singles (r ++ ts))).
      { clear. induction (singles (r ++ ts)) as [|a l IH]; [reflexivity|]. cbn. cbn in IH. rewrite IH. reflexivity. }
      eapply quiet_bind; [apply quiet_lift; [exact Mu|exact T5|exact L5]|]. intros s6 C6 T6 L6.
      unfold split_vector_at. rewrite length_singles, app_length. destruct (Nat.leb_spec (length r) (length r + length ts)); [|lia].
      assert (Ef : firstn (length r) (singles (r ++ ts)) = singles r /\ skipn (length r) (singles (r ++ ts)) = singles ts).
      { unfold singles. rewrite map_app. rewrite <- (map_length (fun q => [q]) r). rewrite firstn_app, skipn_app, firstn_all, skipn_all, Nat.sub_diag. cbn. rewrite app_nil_r. auto. }
      destruct Ef as (-> & ->).
      eapply quiet_bind with (a := (singles r, singles ts)) (L1 := K ++ r ++ ts); [eapply quiet_bind; [apply quiet_ret; assumption|]; intros; apply quiet_ret; assumption|].
      intros s7 C7 T7 L7. cbn beta iota.
      eapply quiet_bind; [apply quiet_lift; [apply merge_singles|exact T7|exact L7]|]. intros s8 C8 T8 L8.
      eapply quiet_bind with (a := tt) (L1 := K ++ r).
      + destruct ts as [|t ts]; cbn [new_reg]; [rewrite app_nil_r in L8 |- *; apply quiet_ret; assumption|].
        assert (Pm : Permutation ((t :: ts) ++ K ++ r) (K ++ r ++ t :: ts)) by (rewrite (app_assoc K r); apply Permutation_app_comm).
        destruct (quiet_return s8 (t :: ts) (K ++ r) T8) as (s9 & G1 & G2 & G3 & G4 & G5 & G6 & G7 & G8); [eapply live_perm; [exact L8|symmetry; exact Pm]|discriminate|].
        exists s9. do 7 (split; [assumption|]). intros q. rewrite G8. rewrite !in_app_iff. tauto.
      + intros s9 C9 T9 L9. eapply quiet_bind; [apply quiet_lift; [apply merge_singles|exact T9|exact L9]|]. intros s10 C10 T10 L10.
        apply quiet_lift; [apply unwrap_new_reg; exact Hr|exact T10|exact L10]. }
  assert (S0 : forall s0, split_all r = Ok (singles r) /\ lift (split_all r) s0 = Ret (singles r) s0) by (intros s0; rewrite split_all_ok by assumption; auto).
  assert (Ex : exists ts s1, length r + length ts = n /\ (forall t, In t ts -> idle s t) /\ apply_pipeline_objects ac sc r s = rest (singles (r ++ ts)) s1 /\
    conds s1 = conds s /\ meas (bld s1) = meas (bld s) /\ bn (bld s) <= bn (bld s1) /\ pipeline (bld s1) = pipeline (bld s) /\ tidy s1 /\ live s1 (K ++ r ++ ts) /\ (forall q, idle s1 q \/ In q (K ++ r ++ ts) <-> idle s q \/ In q (K ++ r))).
  { unfold apply_pipeline_objects. cbv zeta. destruct (Nat.eqb_spec (n - length r) 0) as [E|E].
    - exists [], s. rewrite app_nil_r. split; [cbn; lia|]. split; [intros t []|]. split; [|auto 10 using Nat.le_refl; repeat (split; [first [reflexivity|lia|assumption]|]); tauto].
      unfold mbind at 1. rewrite (proj2 (S0 s)). unfold mbind at 1. rewrite TopE. cbn [unwrap_opt lift]. unfold mbind at 1. rewrite chk_sub_ok by lia. cbn [lift].
      replace (1 + (n - 1) - length r) with (n - length r) by lia. rewrite E. cbn [Nat.eqb]. unfold rest. reflexivity.
    - destruct (quiet_make_reg s (K ++ r) (n - length r) T Lv ltac:(lia)) as (ts & Hl & It & s1 & H1 & H2 & H3 & H4 & H5 & H6 & H7 & H8).
      assert (Pm : Permutation (ts ++ K ++ r) (K ++ r ++ ts)) by (rewrite (app_assoc K r); apply Permutation_app_comm).
      assert (L4 : live s1 (K ++ r ++ ts)) by (eapply live_perm; [exact H7|exact Pm]).
      assert (N4 : NoDup (r ++ ts)) by (destruct L4 as (X & _); apply NoDup_app_iff in X; apply X).
      exists ts, s1. split; [lia|]. split; [intros t Ht; apply It; exact Ht|]. split.
      + unfold mbind at 1. rewrite (proj2 (S0 s)). unfold mbind at 1. rewrite TopE. cbn [unwrap_opt lift]. unfold mbind at 1. rewrite chk_sub_ok by lia. cbn [lift].
        replace (1 + (n - 1) - length r) with (n - length r) by lia. destruct (Nat.eqb_spec (n - length r) 0) as [X|_]; [congruence|].
        unfold mbind at 1. unfold mbind at 1. rewrite H1. unfold mbind at 1. rewrite split_all_ok; [|apply NoDup_app_iff in N4; apply N4|destruct ts; [cbn in Hl; lia|discriminate]].
        cbn [lift]. unfold rest. replace (singles (r ++ ts)) with (singles r ++ singles ts) by (unfold singles; symmetry; apply map_app). reflexivity.
      + do 5 (split; [assumption|]). split; [exact L4|]. intros q. rewrite <- H8. assert (X : In q (K ++ r ++ ts) <-> In q (ts ++ K ++ r)) by (split; apply Permutation_in; [symmetry; exact Pm|exact Pm]). rewrite X. reflexivity. }
  destruct Ex as (ts & s1 & Hl & It & E1 & H2 & H3 & H4 & H5 & H6 & H7 & H8).
  destruct (Rest ts s1 Hl ltac:(congruence) H6 H7) as (s2 & p & G1 & G2 & G3 & G4 & G5 & G6 & G7 & G8 & G9 & G10 & G11 & G12).
  assert (Id : forall q, idle s2 q \/ In q (K ++ r) <-> idle s q \/ In q (K ++ r)) by (intros q; eapply iff_trans; [apply G10|apply H8]).
  exists s2, p. split; [rewrite E1; exact G1|]. split; [congruence|]. split; [congruence|]. split; [lia|]. split; [congruence|]. do 5 (split; [assumption|]).
  assert (Hb : forall q, In q ts -> q < bn (bld s1)).
  { intros q Hq. destruct (Nat.lt_ge_cases q (bn (bld s1))) as [Y|Y]; [exact Y|]. exfalso. destruct H7 as (_ & X). apply (X q); [rewrite !in_app_iff; tauto|left; exact Y]. }
  split; [lia|]. split; [eapply same_idle; eassumption|]. split; [exact G6|]. split; [exact G7|]. exists ts. split; [exact Hl|]. split; [apply H7|]. split; [intros q Hq; split; [apply It; exact Hq|specialize (Hb q Hq); lia]|].
  intros psi Hp. apply G12. intros q Hq Hlt. apply Hp; [|exact Hlt]. destruct (proj1 (H8 q) (or_introl Hq)) as [X|X]; [exact X|]. exfalso. destruct H7 as (_ & Y). apply (Y q); [rewrite in_app_iff in X; rewrite !in_app_iff; tauto|exact Hq].
Qed.
End Apply.

(** *** Depth *)
Lemma x_take {A B} (Q : tr) k c s L (m : M A) a L' (g : reg -> M B) (f : A -> M B) b :
  (forall s s' s1 s2 p, bld s = bld s1 -> bld s' = bld s2 -> Q s1 s2 p -> Q s s' p) ->
  nth_error (conds s) k = Some (Some c) -> (forall s, g c s = mbind m f s) ->
  xdoes Q (mkSt (bld s) (upd_nth k None (conds s))) L m a L' ->
  (forall s2, conds s2 = upd_nth k None (conds s) -> f a s2 = Ret b (mkSt (bld s2) (upd_nth k (Some c) (conds s2)))) ->
  xdoes Q s L (mbind (take_cr k) g) b L'.
Proof.
  intros HQ E Eg (s1 & p & H1 & H2 & H3 & H4 & H5 & H6 & H7 & H8 & H9 & H10 & H11) Hf.
  exists (mkSt (bld s1) (conds s)), p. split; [unfold mbind at 1; unfold take_cr; rewrite E, Eg; unfold mbind; rewrite H1, (Hf s1 H2), H2; cbn [conds]; rewrite upd_nth_twice, upd_nth_same by exact E; reflexivity|].
  cbn [bld conds] in *. split; [reflexivity|]. do 8 (split; [assumption|]). eapply HQ; [| |exact H11]; reflexivity.
Qed.
Section Depth.
Context (sc : pipe) (r : reg) (Q : list nat -> tr) (HQ : forall K s s' s1 s2 p, bld s = bld s1 -> bld s' = bld s2 -> Q K s1 s2 p -> Q K s s' p).
Context (H : forall s (cr : reg), cr <> [] -> tidy s -> live s (cr ++ r) -> xdoes (Q cr) s (cr ++ r) (local_cond_subcircuit sc cr r) (cr, r) (cr ++ r)).
Lemma cond_sub_x : forall d s (cr : reg), wrapped d (conds s) -> tidy s -> cr <> [] -> live s ((cr ++ cqs d (conds s)) ++ r) ->
  xdoes (Q (cr ++ cqs d (conds s))) s ((cr ++ cqs d (conds s)) ++ r) (apply_cond_subcircuit d sc cr r) (cr, r) ((cr ++ cqs d (conds s)) ++ r).
Proof.
  induction d as [|k IH]; intros s cr Hh T Hc Lv.
  - cbn [cqs apply_cond_subcircuit] in *. rewrite app_nil_r in *. apply H; assumption.
  - destruct (Hh k (Nat.lt_succ_diag_r k)) as (c & E & Hcne).
    cbn [cqs] in *. rewrite E in *. cbn [apply_cond_subcircuit].
    assert (Qe : cr ++ c ++ cqs k (conds s) = (cr ++ c) ++ cqs k (upd_nth k None (conds s))) by (rewrite cqs_upd by lia; apply app_assoc).
    rewrite Qe in *. eapply x_take with (m := apply_cond_subcircuit k sc (cr ++ c) r); [apply HQ|exact E| | |].
    + intros s0. unfold mbind at 1. rewrite merge2_ok by exact Hc. reflexivity.
    + apply (IH (mkSt (bld s) (upd_nth k None (conds s))) (cr ++ c)).
      * apply wrapped_upd; [lia|]. eapply wrapped_le; [|exact Hh]. lia.
      * exact T.
      * destruct cr; [congruence|discriminate].
      * exact Lv.
    + intros s2 E2. cbn beta iota. unfold give_back, mbind, lift. rewrite split_rel_prefix; [reflexivity| |exact Hc|exact Hcne].
      rewrite <- !app_assoc in Lv. destruct Lv as (N & _). rewrite app_assoc in N. apply NoDup_app_iff in N. apply N.
Qed.
Lemma sub_depth_x : forall d s, 0 < d -> wrapped d (conds s) -> tidy s -> live s (cqs d (conds s) ++ r) ->
  xdoes (Q (cqs d (conds s))) s (cqs d (conds s) ++ r) (apply_subcircuit d sc r) r (cqs d (conds s) ++ r).
Proof.
  intros [|k] s Hd Hh T Lv; [lia|]. destruct (Hh k (Nat.lt_succ_diag_r k)) as (c & E & Hcne).
  cbn [cqs] in *. rewrite E in *. cbn [apply_subcircuit].
  assert (Qe : c ++ cqs k (conds s) = c ++ cqs k (upd_nth k None (conds s))) by (rewrite cqs_upd by lia; reflexivity).
  rewrite Qe in *. eapply x_take with (m := apply_cond_subcircuit k sc c r); [apply HQ|exact E|reflexivity| |].
  - apply (cond_sub_x k (mkSt (bld s) (upd_nth k None (conds s))) c).
    * apply wrapped_upd; [lia|]. eapply wrapped_le; [|exact Hh]. lia.
    * exact T.
    * exact Hcne.
    * exact Lv.
  - intros s2 E2. reflexivity.
Qed.
End Depth.

(** *** The objects *)
Lemma kept_cond_ok n e cs : wf_entry n e -> kept e -> cs <> [] -> forall s, tidy s -> live s (cs ++ fst e) -> does s (cs ++ fst e) (local_try cs (fst e) (snd e)) (cs, fst e) (cs ++ fst e) (act_under cs e).
Proof.
  intros W F Hc s T Lv. destruct e as [qs [k o]]. unfold kept in F. cbn [fst snd co_obj] in *. destruct o as [u|m]; [|destruct F].
  assert (G : carried (qs, mkCO k (OUnit u)) -> (forall th, u <> URz th) -> does s (cs ++ qs) (local_try cs qs (mkCO k (OUnit u))) (cs, qs) (cs ++ qs) (act_under cs (qs, mkCO k (OUnit u)))).
  { intros Ca Nz. eapply does_eq; [apply (carried_cond_ok n (qs, mkCO k (OUnit u)) W Ca); assumption|]. intros psi. unfold act_under. cbn [snd fst co_obj]. destruct cs; [congruence|]. destruct u; try reflexivity. exfalso. eapply Nz. reflexivity. }
  destruct u; try destruct F; try (apply G; [exact I|intros; discriminate]).
  destruct W as (_ & _ & W). cbn in W. destruct qs as [|q [|q' qs]]; try discriminate W. eapply does_eq; [apply (try_Rz k _ [q] ltac:(discriminate)); assumption|].
  intros psi. unfold act_under. cbn [snd fst co_obj]. destruct cs; [congruence|]. reflexivity.
Qed.
Lemma wf_placed n e : wf_entry n e -> kept e -> placed n e.
Proof.
  intros (N & R & W) F. split; [exact N|]. split; [exact R|]. destruct e as [qs [k o]]. unfold kept in F. cbn [fst snd co_obj] in *. destruct o as [u|m]; [|destruct F].
  intros ->. destruct u; try destruct F; cbn in W; discriminate W.
Qed.
Lemma aco1_kept n cr e : cr <> [] -> wf_entry n e -> kept e -> obj_acts (aco 1) cr [Some cr] act_under e.
Proof.
  intros Hc W F s HC T Lv.
  cbn [aco]. eapply does_take with (c := cr) (m := try_cond 0 cr (fst e) (snd e)) (a := (cr, fst e)); [rewrite HC; reflexivity|reflexivity| |intros s2 E2; reflexivity].
  cbn [try_cond]. apply (kept_cond_ok n); try assumption.
Qed.
(** All depths at once. *)
Theorem sub_x n (r : reg) sc d s : length r <= n -> Forall (wf_entry n) sc -> Forall proper_entry sc -> (exists e, In e sc /\ In (n - 1) (fst e)) -> Forall kept sc ->
  wrapped d (conds s) -> tidy s -> live s (cqs d (conds s) ++ r) -> r <> [] ->
  xdoes (tr_steps act_under n sc r (cqs d (conds s))) s (cqs d (conds s) ++ r) (apply_subcircuit d sc r) r (cqs d (conds s) ++ r).
Proof.
  intros Hk W Pr Top Kp Wr T Lv Hr.
  assert (Pl : Forall (placed n) sc) by (rewrite Forall_forall in *; intros e He; apply wf_placed; [apply W; exact He|apply Kp; exact He]).
  assert (Ren : forall rho, length rho = n -> NoDup rho -> forall e, In e (ren rho sc) -> wf_entry (big rho) e /\ proper_entry e /\ kept e).
  { intros rho Hl N e He. rewrite <- Hl in W. pose proof (wf_rens rho sc N W) as W'. rewrite Forall_forall in *. split; [apply W'; exact He|].
    unfold ren in He. apply in_map_iff in He. destruct He as (e' & <- & He'). split; [apply proper_ren, Pr, He'|exact (Kp e' He')]. }
  destruct d as [|d].
  - cbn [cqs app apply_subcircuit] in *. apply (pipe_x local_aco [] (conds s) act_under n r sc s); try assumption; [|reflexivity].
    intros rho Hl N. apply Forall_forall. intros e He. destruct (Ren rho Hl N e He) as (We & Pe & Ke).
    intros s0 C0 T0 L0. eapply does_eq; [apply (local_obj_ok (big rho) (conds s) e We Pe); assumption|]. intros psi. unfold act_under. apply controlled_nil.
  - apply (sub_depth_x sc r (tr_steps act_under n sc r)); try assumption; [intros; eapply tr_steps_bld; eassumption| |lia].
    intros s0 cr Hc T0 L0. unfold local_cond_subcircuit.
    destruct (pipe_x (aco 1) cr [Some cr] act_under n r sc (mkSt (bld s0) [Some cr])) as (s1 & p & H1 & H2 & H3 & H4 & H5 & H6 & H7 & H8 & H9 & H10 & H11); try assumption; [|reflexivity|].
    + intros rho Hl N. apply Forall_forall. intros e He. destruct (Ren rho Hl N e He) as (We & Pe & Ke). apply (aco1_kept (big rho)); assumption.
    + exists (mkSt (bld s1) (conds s0)), p. split.
      * unfold with_conds, mbind. rewrite H1. cbn [conds] in H2. unfold dissolve. rewrite H2. reflexivity.
      * split; [reflexivity|]. do 8 (split; [assumption|]). eapply tr_steps_bld; [| |exact H11]; reflexivity.
Qed.
