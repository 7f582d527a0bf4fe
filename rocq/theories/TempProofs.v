From Coq Require Import Reals Lra QArith FunctionalExtensionality Permutation.
From Coquelicot Require Import Complex.
From Verif Require Import Base BitsSpec BitsProofs OpsModel OpsSpec Instances BuilderModel RegProofs ConserveProofs HistorySpec HistoryProofs HistoryProofs2 TidyProofs SimModel DenSpec SimSpec DenProofs LocalProofs LinkProofs
  RunSpec RunProofs GateProofs ProjSpec WholeSpec WholeProofs WholeProofs2 WholeProofs3 ShapeSpec AwaySpec AwayProofs AwayProofs2 TempSpec.
Local Open Scope nat_scope.
Local Open Scope mon_scope.

(** *** Calls that do not look at the pool *)
Definition setz (Z : list reg) (s : st) : st := mkSt (mkB (pipeline (bld s)) (bn (bld s)) Z (meas (bld s))) (conds s).
Definition steady {A} (m : M A) : Prop := forall s, match m s with
  | Ret a s' => bn (bld s') = bn (bld s) /\ zeroed (bld s') = zeroed (bld s) /\ forall Z, m (setz Z s) = Ret a (setz Z s')
  | Fail e s' => bn (bld s') = bn (bld s) /\ zeroed (bld s') = zeroed (bld s) /\ forall Z, m (setz Z s) = Fail e (setz Z s')
  | Crash p => forall Z, m (setz Z s) = Crash p
  end.
Lemma st_ret {A} (a : A) : steady (ret a). Proof. intros s. cbn. auto. Qed.
Lemma st_fail {A} e : steady (@fail A e). Proof. intros s. cbn. auto. Qed.
Lemma st_crash {A} p : steady (@crash A p). Proof. intros s. cbn. auto. Qed.
Lemma st_lift {A} (r : res A) : steady (lift r). Proof. intros s. unfold lift. destruct r; auto. Qed.
Lemma st_bind {A B} (m : M A) (f : A -> M B) : steady m -> (forall a, steady (f a)) -> steady (mbind m f).
Proof.
  intros H G s. specialize (H s). unfold mbind in *. destruct (m s) as [a s1|e s1|p].
  - destruct H as (H1 & H2 & H3). specialize (G a s1). destruct (f a s1) as [b s2|e s2|p].
    + destruct G as (G1 & G2 & G3). split; [congruence|]. split; [congruence|]. intros Z. rewrite H3. apply G3.
    + destruct G as (G1 & G2 & G3). split; [congruence|]. split; [congruence|]. intros Z. rewrite H3. apply G3.
    + intros Z. rewrite H3. apply G.
  - destruct H as (H1 & H2 & H3). split; [exact H1|]. split; [exact H2|]. intros Z. rewrite H3. reflexivity.
  - intros Z. rewrite H. reflexivity.
Qed.
Lemma st_unwrap {A} (m : M A) : steady m -> steady (unwrapM m).
Proof.
  intros H s. specialize (H s). unfold unwrapM. destruct (m s) as [a s1|e s1|p].
  - destruct H as (H1 & H2 & H3). split; [exact H1|]. split; [exact H2|]. intros Z. rewrite H3. reflexivity.
  - intros Z. destruct H as (_ & _ & H3). rewrite H3. reflexivity.
  - intros Z. rewrite H. reflexivity.
Qed.
Lemma st_massert b : steady (massert b). Proof. unfold massert. destruct b; [apply st_ret|apply st_crash]. Qed.
Lemma st_mfold {A B} (f : A -> B -> M A) l : (forall a b, steady (f a b)) -> forall a, steady (mfold f l a).
Proof. intros H. induction l as [|b l IH]; intros a; cbn [mfold]; [apply st_ret|apply st_bind; auto]. Qed.
Lemma st_mmap {A B} (f : A -> M B) l : (forall a, steady (f a)) -> steady (mmap f l).
Proof. intros H. induction l as [|b l IH]; cbn [mmap]; [apply st_ret|]. apply st_bind; [auto|]. intros a. apply st_bind; [auto|intros; apply st_ret]. Qed.
Lemma st_push e : steady (push e). Proof. intros s. cbn. auto. Qed.
Lemma st_measure m r : steady (measure_with m r). Proof. intros s. cbn. auto. Qed.
Lemma st_condition r : steady (condition_with r). Proof. intros s. cbn. auto. Qed.
Lemma st_dissolve : steady dissolve.
Proof. intros s. unfold dissolve. cbn [conds setz]. destruct (rev (conds s)) as [|[r|] c]; cbn; auto. Qed.
Lemma st_drop : steady drop_wrapper. Proof. intros s. cbn. auto. Qed.
Ltac st := repeat match goal with
  | |- forall _, _ => intro
  | |- steady (let '(_, _) := ?x in _) => destruct x
  | |- steady (ret _) => apply st_ret
  | |- steady (fail _) => apply st_fail
  | |- steady (crash _) => apply st_crash
  | |- steady (lift _) => apply st_lift
  | |- steady (massert _) => apply st_massert
  | |- steady (push _) => apply st_push
  | |- steady (unwrapM _) => apply st_unwrap
  | |- steady (mbind _ _) => apply st_bind
  | |- steady (mfold _ _ _) => apply st_mfold
  | |- steady (mmap _ _) => apply st_mmap
  | |- steady (if ?b then _ else _) => destruct b
  | |- steady (match ?x with _ => _ end) => destruct x
  | _ => solve [auto]
  end.
Lemma st_local r c : steady (local_aco r c). Proof. unfold local_aco. st. Qed.
Section Any.
Context (ac : reg -> cobj -> M reg).
Hypothesis H : forall r c, steady (ac r c).
Lemma st_gate u r : steady (gate ac u r). Proof. unfold gate. st. Qed.
Lemma st_cnot a b : steady (cnot ac a b). Proof. unfold cnot, cnot_step. st. Qed.
Lemma st_swap a b : steady (swap ac a b).
Proof.
  unfold swap. destruct (length a =? length b); [|apply st_fail]. st. unfold swap_pair. st; apply st_cnot.
Qed.
End Any.
Lemma st_rz r t : steady (rz r t). Proof. unfold rz. st. apply st_local. Qed.
Local Ltac go := unfold out1, out2, one, two, g_s_dagger, g_t_dagger, g_s, g_t, g_z, g_h, apply_matrix, broadcast_single_qubit_matrix, rx, ry, rz_ratio, rx_ratio, ry_ratio, rx_pi_by, ry_pi_by, rz_pi_by,
  apply_global_phase, apply_global_phase_ratio, apply_global_phase_pi_by, measure_single, measure_stochastic, apply_matrix;
  st; first [apply st_local | apply st_gate; apply st_local | apply st_rz | apply st_cnot; apply st_local | apply st_swap; apply st_local | apply st_measure | apply st_condition | apply st_dissolve | apply st_drop | idtac].

(** Calls on objects: these look at the pool through wrappers. *)
Definition on_objects (c : call) : bool :=
  match c with CApply _ | CGate _ | CSDagger | CTDagger | CMatrix _ | CBroadcast _ | CCnot | CSwap => true | _ => false end.
(** Calls that change the pool or the number of qubits. *)
Definition allocates (c : call) : bool :=
  match c with CRegister _ | CQudit _ | CMakeTemp | CMakeTemps _ | CReturnTemp | CToffoli | CSubcircuit _ | CInverter _ | CInvMacro _ => true | _ => false end.
Lemma steady_call d c args : allocates c = false -> d = 0 \/ on_objects c = false -> steady (run_call d c args).
Proof.
  intros HA HD. assert (HL : forall r c, steady (aco 0 r c)) by exact st_local.
  destruct c; try discriminate HA; try (destruct HD as [->|X]; [|discriminate X]); cbn [run_call]; go; try (apply st_gate; exact HL); try (apply st_cnot; exact HL); try (apply st_swap; exact HL).
  all: go; try (apply st_gate; exact HL). all: go.
Qed.

(** *** Steps that keep the pool at 0 *)
Definition pstep (s s' : st) : Prop := bn (bld s) <= bn (bld s') /\ exists p, pipeline (bld s') = pipeline (bld s) ++ p /\
  forall ms psi, (forall q, idle s q -> q < bn (bld s') -> clean [q] psi) -> clean (pool s') (branch p ms psi).
Definition pool_zero (N : nat) (x : bs) (s : st) : Prop := forall ms, In ms (outcomes (measured (pipeline (bld s)))) -> clean (pool s) (branch (pipeline (bld s)) ms (ket N x)).

Lemma clean_all r psi : (forall q, In q r -> clean [q] psi) -> clean r psi.
Proof. intros H x t Ht Hx. apply (H t Ht x t); [left; reflexivity|exact Hx]. Qed.
Lemma clean_one r q psi : clean r psi -> In q r -> clean [q] psi.
Proof. intros H Hq. apply clean1. intros x Hx. apply (H x q Hq Hx). Qed.
Lemma clean_proj q psi : clean [q] psi <-> proj [q] 0 psi = psi.
Proof.
  rewrite clean1. split.
  - intros H. extensionality x. unfold proj. rewrite shows1 by lia. cbn. destruct (x q) eqn:E; cbn; [symmetry; apply H; exact E|reflexivity].
  - intros H x Hx. rewrite <- H. unfold proj. rewrite shows1 by lia. cbn. rewrite Hx. reflexivity.
Qed.
Lemma branch_untouched p q ms psi : (forall e, In e p -> ~ In q (fst e)) -> clean [q] psi -> clean [q] (branch p ms psi).
Proof.
  intros H C. apply clean_proj. rewrite <- branch_proj.
  - apply clean_proj in C. rewrite C. reflexivity.
  - apply Forall_forall. intros e He x [<-|[]]. apply H, He.
Qed.
Lemma outcomes_app q1 q2 ms : In ms (outcomes (q1 ++ q2)) -> exists m1 m2, ms = m1 ++ m2 /\ In m1 (outcomes q1) /\ length m1 = length q1.
Proof.
  intros H. apply outcomes_ok in H. apply Forall2_app_inv_l in H. destruct H as (m1 & m2 & H1 & H2 & ->). exists m1, m2. split; [reflexivity|]. split; [apply outcomes_ok, H1|].
  symmetry. eapply Forall2_length'. exact H1.
Qed.
Lemma pool_step N x s s' : Forall (fun e => forall q, In q (fst e) -> q < bn (bld s)) (pipeline (bld s)) -> (forall q, In q (pool s) -> q < bn (bld s)) -> bn (bld s') <= N ->
  (forall i, bn (bld s) <= i < bn (bld s') -> x i = false) -> pstep s s' -> pool_zero N x s -> pool_zero N x s'.
Proof.
  intros R Pl HN Hx (B & p & E & H) Z ms Hm. rewrite E, measured_app in Hm. apply outcomes_app in Hm. destruct Hm as (m1 & m2 & -> & H1 & L1).
  rewrite E, branch_app by exact L1. apply H. intros q [Hq|Hq] Hlt.
  - apply branch_untouched.
    + intros e He Hi. rewrite Forall_forall in R. specialize (R e He q Hi). lia.
    + apply ket_clean; [lia|apply Hx; lia].
  - apply (clean_one (pool s)); [apply Z, H1|exact Hq].
Qed.
(** No entries on the pool, and the pool no larger. *)
Lemma pstep_away s s' p : bn (bld s) <= bn (bld s') -> pipeline (bld s') = pipeline (bld s) ++ p -> (forall e q, In e p -> In q (fst e) -> ~ idle s q) ->
  (forall q, In q (pool s') -> idle s q /\ q < bn (bld s')) -> pstep s s'.
Proof.
  intros B E H I. split; [exact B|]. exists p. split; [exact E|]. intros ms psi C. apply clean_all. intros q Hq. destruct (I q Hq) as (Hi & Hlt).
  apply branch_untouched; [|apply C; assumption]. intros e He Hf. exact (H e q He Hf Hi).
Qed.
Lemma does_plain p : Forall proper_entry p -> Forall plain_entry p.
Proof. intros H. eapply Forall_impl; [|exact H]. intros e X. apply X. Qed.
Lemma setz_id s : setz (zeroed (bld s)) s = s. Proof. destruct s as [[p n z m] c]. reflexivity. Qed.

Lemma steady_pstep s rs c ps s' rs' : reach distinct_positions start (s, rs) -> distinct_positions c -> legal rs ps -> do_call (s, rs) c ps = Some (s', rs') ->
  steady (run_call (length (conds s)) c (pick rs ps)) -> pstep s s'.
Proof.
  intros Re HD HL HC St. destruct (reach_tidy _ Re) as ((_ & _ & T) & Lv). cbn [fst snd] in *.
  assert (X : bn (bld s') = bn (bld s) /\ zeroed (bld s') = zeroed (bld s) /\ do_call (setz [] s, rs) c ps = Some (setz [] s', rs')).
  { cbn [do_call conds setz] in *. specialize (St s). destruct (run_call _ c (pick rs ps) s) as [o s1|e s1|p]; inversion HC; subst; destruct St as (S1 & S2 & S3); rewrite S3; auto. }
  destruct X as (B & Z & HC'). destruct (call_entries _ _ _ _ _ _ HD HL HC') as (_ & (p & E & P) & K & _).
  assert (EO : entries_ok (s', rs')) by (apply reach_no_cloning; eapply reach_step; eauto).
  apply (pstep_away s s' p).
  - lia.
  - exact E.
  - intros e q He Hq. assert (Hlt : q < bn (bld s)).
    { unfold entries_ok in EO. cbn [fst] in EO. rewrite Forall_forall in EO. rewrite <- B. refine (proj2 (EO e _) q Hq). cbn [setz bld pipeline] in E. rewrite E. apply in_or_app. right. exact He. }
    apply Lv. apply in_or_app. destruct (P e q He Hq) as [X|[X|X]]; [left; apply K; left; exact X|right|cbn in X; lia]. unfold reserve in X. cbn in X. exact X.
  - intros q Hq. unfold pool in *. rewrite Z in Hq. split; [right; exact Hq|]. rewrite B. apply T, Hq.
Qed.
