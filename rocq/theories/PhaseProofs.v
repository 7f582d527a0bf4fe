(** Global phase objects on conditioned builders. *)
From Coq Require Import Reals QArith Qreals ZArith FunctionalExtensionality Lra Permutation.
From Coquelicot Require Import Complex.
From Verif Require Import Base BitsSpec BitsProofs OpsModel OpsSpec Instances BuilderModel RegProofs SimModel DenSpec DenProofs SimSpec SimProofs LocalProofs
  RunSpec RunProofs GateProofs ToffoliProofs SwapProofs LinkProofs RotProofs CondProofs SubSpec SubProofs SubProofs2 SubProofs3 PropCond InvertProofs TraceProofs PropSub.
Local Open Scope nat_scope.
Local Open Scope mon_scope.

(** Leaving the builder as [R] says, giving back registers and wrappers; a relation on builders only. *)
Definition leaves {A} (R : builder -> builder -> Prop) (s : st) (m : M A) (a : A) : Prop :=
  exists s', m s = Ret a s' /\ conds s' = conds s /\ R (bld s) (bld s').
Lemma leaves_take {A B} R k c s (m : M A) a (g : reg -> M B) (f : A -> M B) b :
  nth_error (conds s) k = Some (Some c) -> (forall s, g c s = mbind m f s) ->
  leaves R (mkSt (bld s) (upd_nth k None (conds s))) m a ->
  (forall s2, conds s2 = upd_nth k None (conds s) -> f a s2 = Ret b (mkSt (bld s2) (upd_nth k (Some c) (conds s2)))) ->
  leaves R s (mbind (take_cr k) g) b.
Proof.
  intros E Eg (s1 & H1 & H2 & H3) Hf. exists (mkSt (bld s1) (conds s)).
  split; [unfold mbind at 1; unfold take_cr; rewrite E, Eg; unfold mbind; rewrite H1, (Hf s1 H2), H2; cbn [conds]; rewrite upd_nth_twice, upd_nth_same by exact E; reflexivity|].
  split; [reflexivity|exact H3].
Qed.
Section Lift.
Context (R : list nat -> builder -> builder -> Prop).
Lemma try_leaves co (r : reg) : (forall s (cr : reg), cr <> [] -> tidy s -> live s (cr ++ r) -> leaves (R cr) s (local_try cr r co) (cr, r)) ->
  forall d s (cr : reg), wrapped d (conds s) -> tidy s -> cr <> [] -> live s ((cr ++ cqs d (conds s)) ++ r) ->
  leaves (R (cr ++ cqs d (conds s))) s (try_cond d cr r co) (cr, r).
Proof.
  intros H. induction d as [|k IH]; intros s cr Hh T Hc Lv.
  - cbn [cqs try_cond] in *. rewrite app_nil_r in *. apply H; assumption.
  - destruct (Hh k (Nat.lt_succ_diag_r k)) as (c & E & Hcne).
    cbn [cqs] in *. rewrite E in *. cbn [try_cond].
    assert (Q : cr ++ c ++ cqs k (conds s) = (cr ++ c) ++ cqs k (upd_nth k None (conds s))) by (rewrite cqs_upd by lia; apply app_assoc).
    rewrite Q in *. eapply leaves_take with (m := try_cond k (cr ++ c) r co); [exact E| | |].
    + intros s0. unfold mbind at 1. rewrite merge2_ok by exact Hc. reflexivity.
    + apply (IH (mkSt (bld s) (upd_nth k None (conds s))) (cr ++ c)).
      * apply wrapped_upd; [lia|]. eapply wrapped_le; [|exact Hh]. lia.
      * exact T.
      * destruct cr; [congruence|discriminate].
      * exact Lv.
    + intros s2 E2. cbn beta iota. unfold give_back, mbind, lift. rewrite split_rel_prefix; [reflexivity| |exact Hc|exact Hcne].
      rewrite <- !app_assoc in Lv. destruct Lv as (N & _). rewrite app_assoc in N. apply NoDup_app_iff in N. apply N.
Qed.
Lemma aco_leaves co (r : reg) : (forall s (cr : reg), cr <> [] -> tidy s -> live s (cr ++ r) -> leaves (R cr) s (local_try cr r co) (cr, r)) ->
  forall d s, 0 < d -> wrapped d (conds s) -> tidy s -> live s (cqs d (conds s) ++ r) -> leaves (R (cqs d (conds s))) s (aco d r co) r.
Proof.
  intros H [|k] s Hd Hh T Lv; [lia|]. destruct (Hh k (Nat.lt_succ_diag_r k)) as (c & E & Hcne).
  cbn [cqs] in *. rewrite E in *. cbn [aco].
  assert (Q : c ++ cqs k (conds s) = c ++ cqs k (upd_nth k None (conds s))) by (rewrite cqs_upd by lia; reflexivity).
  rewrite Q in *. eapply leaves_take with (m := try_cond k c r co); [exact E|reflexivity| |].
  - apply (try_leaves co r H k (mkSt (bld s) (upd_nth k None (conds s))) c).
    * apply wrapped_upd; [lia|]. eapply wrapped_le; [|exact Hh]. lia.
    * exact T.
    * exact Hcne.
    * exact Lv.
  - intros s2 E2. reflexivity.
Qed.
Lemma sub_leaves sc (r : reg) : (forall s (cr : reg), cr <> [] -> tidy s -> live s (cr ++ r) -> leaves (R cr) s (local_cond_subcircuit sc cr r) (cr, r)) ->
  forall d s (cr : reg), wrapped d (conds s) -> tidy s -> cr <> [] -> live s ((cr ++ cqs d (conds s)) ++ r) ->
  leaves (R (cr ++ cqs d (conds s))) s (apply_cond_subcircuit d sc cr r) (cr, r).
Proof.
  intros H. induction d as [|k IH]; intros s cr Hh T Hc Lv.
  - cbn [cqs apply_cond_subcircuit] in *. rewrite app_nil_r in *. apply H; assumption.
  - destruct (Hh k (Nat.lt_succ_diag_r k)) as (c & E & Hcne).
    cbn [cqs] in *. rewrite E in *. cbn [apply_cond_subcircuit].
    assert (Q : cr ++ c ++ cqs k (conds s) = (cr ++ c) ++ cqs k (upd_nth k None (conds s))) by (rewrite cqs_upd by lia; apply app_assoc).
    rewrite Q in *. eapply leaves_take with (m := apply_cond_subcircuit k sc (cr ++ c) r); [exact E| | |].
    + intros s0. unfold mbind at 1. rewrite merge2_ok by exact Hc. reflexivity.
    + apply (IH (mkSt (bld s) (upd_nth k None (conds s))) (cr ++ c)).
      * apply wrapped_upd; [lia|]. eapply wrapped_le; [|exact Hh]. lia.
      * exact T.
      * destruct cr; [congruence|discriminate].
      * exact Lv.
    + intros s2 E2. cbn beta iota. unfold give_back, mbind, lift. rewrite split_rel_prefix; [reflexivity| |exact Hc|exact Hcne].
      rewrite <- !app_assoc in Lv. destruct Lv as (N & _). rewrite app_assoc in N. apply NoDup_app_iff in N. apply N.
Qed.
Lemma sub_depth_leaves sc (r : reg) : (forall s (cr : reg), cr <> [] -> tidy s -> live s (cr ++ r) -> leaves (R cr) s (local_cond_subcircuit sc cr r) (cr, r)) ->
  forall d s, 0 < d -> wrapped d (conds s) -> tidy s -> live s (cqs d (conds s) ++ r) -> leaves (R (cqs d (conds s))) s (apply_subcircuit d sc r) r.
Proof.
  intros H [|k] s Hd Hh T Lv; [lia|]. destruct (Hh k (Nat.lt_succ_diag_r k)) as (c & E & Hcne).
  cbn [cqs] in *. rewrite E in *. cbn [apply_subcircuit].
  assert (Q : c ++ cqs k (conds s) = c ++ cqs k (upd_nth k None (conds s))) by (rewrite cqs_upd by lia; reflexivity).
  rewrite Q in *. eapply leaves_take with (m := apply_cond_subcircuit k sc c r); [exact E|reflexivity| |].
  - apply (sub_leaves sc r H k (mkSt (bld s) (upd_nth k None (conds s))) c).
    * apply wrapped_upd; [lia|]. eapply wrapped_le; [|exact Hh]. lia.
    * exact T.
    * exact Hcne.
    * exact Lv.
  - intros s2 E2. reflexivity.
Qed.
End Lift.

(** One object on one qubit. *)
Lemma one_entry_leaves R ac co t s : leaves R s (ac [t] co) [t] -> leaves R s (apply_pipeline_objects ac [([0], co)] [t]) [t].
Proof.
  intros (s1 & H1 & H). exists s1. split; [|exact H].
  assert (S1 : forall s, lift (split_all [t]) s = Ret [[t]] s).
  { intros s0. unfold lift. rewrite split_all_ok; [reflexivity|repeat constructor; intros []|discriminate]. }
  unfold apply_pipeline_objects. cbv zeta. unfold mbind at 1. rewrite S1. do 7 (cbn -[split_all]; unfold mbind at 1). cbn -[split_all].
  repeat (unfold mbind at 1; cbn -[split_all lift]; rewrite ?H1, ?S1). reflexivity.
Qed.
Lemma one_cond_leaves R co t : (forall s (cr : reg), cr <> [] -> tidy s -> live s (cr ++ [t]) -> leaves (R cr) s (local_try cr [t] co) (cr, [t])) ->
  forall s (cr : reg), cr <> [] -> tidy s -> live s (cr ++ [t]) -> leaves (R cr) s (local_cond_subcircuit [([0], co)] cr [t]) (cr, [t]).
Proof.
  intros H s cr Hc T Lv. unfold local_cond_subcircuit.
  pose proof (aco_leaves R co [t] H 1 (mkSt (bld s) [Some cr])) as G. cbn [conds cqs nth_error] in G. rewrite app_nil_r in G.
  destruct (one_entry_leaves (R cr) (aco 1) co t (mkSt (bld s) [Some cr])) as (s1 & H1 & H2 & H3).
  - apply G; [lia| |exact T|exact Lv]. intros [|k] Hk; [exists cr; auto|lia].
  - exists (mkSt (bld s1) (conds s)). split; [|split; [reflexivity|exact H3]].
    unfold with_conds, mbind. rewrite H1. cbn [conds] in H2. unfold dissolve. rewrite H2. reflexivity.
Qed.

(** *** Global phases *)
(** Between two halves that undo each other: an Rz and a global phase object, both by half the
    angle, on a temporary that is 1 where the condition holds. *)
Definition b_idle (b : builder) (q : nat) : Prop := bn b <= q \/ In q (concat (zeroed b)).
Definition phased (th : rot) (L K : list nat) (b b' : builder) : Prop :=
  exists t a h p1 p3, meas b' = meas b /\ bn b <= bn b' /\
    pipeline b' = pipeline b ++ p1 ++ [([t], mkCO 1 (OUnit (URz a))); ([t], mkCO 1 (OUnit (UPhase h)))] ++ p3 /\
    angle a = (angle th / 2)%R /\ angle h = (angle th / 2)%R /\
    Forall (wf_entry (bn b')) p1 /\ Forall proper_entry p1 /\ Forall (wf_entry (bn b')) p3 /\ Forall proper_entry p3 /\ t < bn b' /\ b_idle b t /\
    tidy (mkSt b' []) /\ live (mkSt b' []) L /\ (forall q, b_idle b' q <-> b_idle b q) /\
    forall psi, (forall q, b_idle b q -> q < bn b' -> clean [q] psi) ->
      den (p1 ++ p3) psi = psi /\
      den (p1 ++ [([t], mkCO 1 (OUnit (URz a))); ([t], mkCO 1 (OUnit (UPhase h)))] ++ p3) psi =
      fun x => Cmult (if forallb x K then expi (angle th / 4) else expi (- (angle th / 4))) (psi x).

Lemma phase_pair t h1 h2 s : rz [t] h1 s = Ret [t] (appended s [([t], mkCO 1 (OUnit (URz (Floating h1))))]) /\
  unwrapM (local_aco [t] (mkCO (length [t]) (OUnit (UPhase h2)))) s = Ret [t] (appended s [([t], mkCO 1 (OUnit (UPhase h2)))]).
Proof.
  unfold rz, unwrapM. rewrite !local_aco_ok by (try discriminate; repeat constructor; intros []). split; reflexivity.
Qed.
Lemma phase_mid th t s : exists a h, angle a = (angle th / 2)%R /\ angle h = (angle th / 2)%R /\
  match th with
  | Floating theta => let half := (theta * (1/2))%R in tq <- rz [t] half ;; apply_global_phase tq half
  | PiRational q => let half := (q / 2)%Q in tq <- rz_ratio [t] half ;; apply_global_phase_ratio tq half
  end s = Ret [t] (appended s [([t], mkCO 1 (OUnit (URz a))); ([t], mkCO 1 (OUnit (UPhase h)))]).
Proof.
  destruct th as [f|q].
  - exists (Floating (f * (1/2))), (Floating (f * (1/2))). cbn [angle]. split; [lra|]. split; [lra|]. cbv zeta. unfold mbind. rewrite (proj1 (phase_pair t _ (Floating 0) s)).
    unfold apply_global_phase. rewrite (proj2 (phase_pair t 0 _ _)), appended_app. reflexivity.
  - exists (Floating (Q2R (q / 2))), (PiRational (q / 2)). cbn [angle]. assert (E : Q2R (q / 2) = (Q2R q / 2)%R).
    { unfold Qdiv. rewrite Q2R_mult. change (/ 2)%Q with (1 # 2). unfold Q2R at 2. cbn. lra. }
    split; [exact E|]. split; [exact E|]. cbv zeta. unfold rz_ratio, mbind. rewrite (proj1 (phase_pair t _ (Floating 0) s)).
    unfold apply_global_phase_ratio. rewrite (proj2 (phase_pair t 0 _ _)), appended_app. reflexivity.
Qed.

Lemma ctl_not_twice cs t psi : ~ In t cs -> ctl_not cs t (ctl_not cs t psi) = psi.
Proof. intros H. extensionality x. unfold ctl_not. f_equal. apply cflip_invol. exact H. Qed.

Lemma try_phase k th (r : reg) s (cr : reg) : cr <> [] -> tidy s -> live s (cr ++ r) -> leaves (phased th (cr ++ r) cr) s (local_try cr r (mkCO k (OUnit (UPhase th)))) (cr, r).
Proof.
  intros Hc T Lv. cbn [local_try co_obj].
  destruct (quiet_make s (cr ++ r) T Lv) as (t & It & Nt & s1 & A1 & A2 & A3 & A4 & A5 & A6 & A7 & A8).
  assert (P : Permutation ((cr ++ [t]) ++ r) (t :: cr ++ r)) by (rewrite <- app_assoc; cbn; symmetry; apply Permutation_middle).
  assert (L1 : live s1 ((cr ++ [t]) ++ r)) by (eapply live_perm; [exact A7|symmetry; exact P]).
  assert (Tof : forall s0, tidy s0 -> live s0 ((cr ++ [t]) ++ r) -> does s0 ((cr ++ [t]) ++ r) (toffoli local_aco cr [t]) (cr, [t]) ((cr ++ [t]) ++ r) (ctl_not cr t)).
  { intros s0 T0 L0. apply does_frame; [exact L0|]. apply toffoli_one; [exact T0| |exact Hc]. eapply live_incl; [exact L0| |intros q Hq; apply in_or_app; left; exact Hq]. destruct L0 as (X & _). apply NoDup_app_iff in X. apply X. }
  destruct (Tof s1 A6 L1) as (s2 & p1 & B1 & B2 & B3 & B4 & B5 & B6 & B7 & B8 & B9 & B10 & B11 & B12).
  destruct (phase_mid th t s2) as (a & h & Ea & Eh & Em). set (s3 := appended s2 _) in Em.
  assert (L3 : live s3 ((cr ++ [t]) ++ r)) by exact B9. assert (T3 : tidy s3) by exact B8.
  destruct (Tof s3 T3 L3) as (s4 & p3 & C1 & C2 & C3 & C4 & C5 & C6 & C7 & C8 & C9 & C10 & C11 & C12).
  assert (L4 : live s4 ([t] ++ cr ++ r)) by (eapply live_perm; [exact C9|exact P]).
  destruct (quiet_return s4 [t] (cr ++ r) C8 L4) as (s5 & D1 & D2 & D3 & D4 & D5 & D6 & D7 & D8); [discriminate|].
  assert (Ht : t < bn (bld s1)).
  { destruct (Nat.lt_ge_cases t (bn (bld s1))) as [Y|Y]; [exact Y|]. exfalso. destruct L1 as (_ & X). apply (X t); [rewrite !in_app_iff; cbn; tauto|left; exact Y]. }
  change (bn (bld s3)) with (bn (bld s2)) in C4.
  assert (I12 : forall q, idle s2 q <-> idle s1 q) by (eapply same_idle; eassumption).
  assert (I34 : forall q, idle s4 q <-> idle s3 q) by (eapply same_idle; eassumption).
  assert (I1 : forall q, idle s1 q -> idle s q).
  { intros q Hq. destruct (proj1 (A8 q) (or_introl Hq)) as [X|X]; [exact X|]. exfalso. destruct A7 as (_ & Y). apply (Y q); [right; exact X|exact Hq]. }
  assert (Sm : forall (b : builder) c c', idle (mkSt b c) = idle (mkSt b c')) by reflexivity.
  assert (Bi : forall s0 q, b_idle (bld s0) q <-> idle s0 q) by (intros [[? ? ? ?] ?] q; reflexivity).
  assert (I5 : forall q, idle s5 q <-> idle s q).
  { eapply (same_idle s s5 (cr ++ r)); [exact Lv|exact D7|]. intros q. rewrite D8. cbn [app In]. rewrite <- (A8 q). cbn [In]. rewrite I34. change (idle s3 q) with (idle s2 q). rewrite I12. tauto. }
  exists s5. split.
  - unfold mbind at 1. rewrite A1. unfold mbind at 1. rewrite B1. cbn beta iota. unfold mbind at 1.
    match goal with |- match ?X with _ => _ end = _ => replace X with (Ret ([t] : reg) s3) by (symmetry; exact Em) end. unfold mbind at 1. rewrite C1. cbn beta iota. unfold mbind at 1. rewrite D1. reflexivity.
  - split; [rewrite D2, C2; change (conds s3) with (conds s2); congruence|].
    exists t, a, h, p1, p3. split; [rewrite D3, C3; change (meas (bld s3)) with (meas (bld s2)); congruence|]. split; [lia|].
    split; [rewrite D5, C5; unfold s3, appended; cbn [pipeline bld]; rewrite B5, A5, <- !app_assoc; reflexivity|].
    split; [exact Ea|]. split; [exact Eh|].
    assert (W1 : Forall (wf_entry (bn (bld s5))) p1) by (eapply Forall_impl; [|exact B6]; intros e (? & X & ?); split; [assumption|split; [intros q Hq; specialize (X q Hq); lia|assumption]]).
    assert (W3 : Forall (wf_entry (bn (bld s5))) p3) by (eapply Forall_impl; [|exact C6]; intros e (? & X & ?); split; [assumption|split; [intros q Hq; specialize (X q Hq); lia|assumption]]).
    do 4 (split; [assumption|]). split; [lia|]. split; [apply Bi; exact It|]. split; [exact D6|]. split; [exact D7|]. split; [intros q; rewrite !Bi; apply I5|].
    intros psi Hp. assert (Ht0 : ~ In t cr) by (intros X; apply Nt, in_or_app; left; exact X).
    assert (Hp1 : forall q, idle s q -> q < bn (bld s5) -> clean [q] psi) by (intros q Hq; apply Hp, Bi, Hq).
    assert (E1 : den p1 psi = ctl_not cr t psi) by (apply B12; intros q Hq Hl; apply Hp1; [apply I1; exact Hq|lia]).
    assert (Cl : forall D, local [t] D \/ D = ctl_not cr t -> forall phi, (forall q, idle s1 q -> q < bn (bld s5) -> clean [q] phi) -> forall q, idle s1 q -> q < bn (bld s5) -> clean [q] (D phi)).
    { intros D [HD| ->] phi Hphi q Hq Hl.
      - apply HD; [|apply Hphi; assumption]. intros [<-|[]]. destruct A7 as (_ & Y). apply (Y t); [left; reflexivity|exact Hq].
      - apply B11; [|apply Hphi; assumption]. intros X. destruct L1 as (_ & Y). apply (Y q X Hq). }
    assert (E3 : forall phi, (forall q, idle s1 q -> q < bn (bld s5) -> clean [q] phi) -> den p3 phi = ctl_not cr t phi).
    { intros phi Hphi. apply C12. intros q Hq Hl. apply Hphi; [apply I12; exact Hq|lia]. }
    assert (H0 : forall q, idle s1 q -> q < bn (bld s5) -> clean [q] psi) by (intros q Hq; apply Hp1, I1, Hq).
    split.
    + rewrite den_app, E1, E3; [apply ctl_not_twice; exact Ht0|]. apply Cl; [right; reflexivity|exact H0].
    + rewrite !den_app, E1. unfold den at 2. cbn [fold_left fst snd]. unfold oden. cbn [co_obj uden]. rewrite Ea.
      assert (Eq : (angle th / 2 / 2 = angle th / 4)%R) by lra.
      rewrite E3.
      * change (on1 (mRz (angle th / 2)) t (ctl_not cr t psi)) with (each (diag (expi (- (angle th / 2 / 2))) (expi (angle th / 2 / 2))) [t] (ctl_not cr t psi)).
        rewrite conj_temp, Eq; [reflexivity|exact Ht0|apply Hp1; [exact It|lia]].
      * apply (Cl (on1 (mRz (angle th / 2)) t)); [left|apply Cl; [right; reflexivity|exact H0]].
        change (local [t] (each (mRz (angle th / 2)) [t])). exact (local_onall (fun _ => mRz (angle th / 2)) [t]).
Qed.
