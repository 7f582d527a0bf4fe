(** Exact behaviour of apply_circuit_object on a LocalBuilder, and of the stale buffers. *)
From Coq Require Import Reals QArith Qreals FunctionalExtensionality Lra.
From Coquelicot Require Import Complex.
From Verif Require Import Base BitsSpec BitsProofs OpsModel OpsSpec Instances MeasureModel MeasureSpec MeasureProofs BuilderModel RegProofs
  SimModel DenSpec DenProofs SimSpec HandleProofs SimProofs.
Local Open Scope nat_scope.

(** Append to the pipeline, nothing else. *)
Definition appended (s : st) (p : pipe) : st :=
  mkSt (mkB (pipeline (bld s) ++ p) (bn (bld s)) (zeroed (bld s)) (meas (bld s))) (conds s).

Lemma appended_nil s : appended s [] = s.
Proof. destruct s as [[? ? ? ?] ?]. unfold appended. cbn. rewrite app_nil_r. reflexivity. Qed.
Lemma appended_app s p1 p2 : appended (appended s p1) p2 = appended s (p1 ++ p2).
Proof. unfold appended. cbn. rewrite app_assoc. reflexivity. Qed.
Lemma push_ok e s : push e s = Ret tt (appended s [e]).
Proof. reflexivity. Qed.
Lemma push_all (c : cobj) (l : list reg) : forall s,
  mfold (fun _ r => push (r, c)) l tt s = Ret tt (appended s (map (fun r => (r, c)) l)).
Proof.
  induction l as [|r l IH]; intros s; cbn [mfold map]; [rewrite appended_nil; reflexivity|].
  unfold mbind. rewrite push_ok, IH, appended_app. reflexivity.
Qed.

(** What [apply_circuit_object] appends: one entry per qubit for a 1-qubit object, one entry
    for an object of the register's size. *)
Definition placed (r : reg) (c : cobj) : option pipe :=
  if co_n c =? 1 then Some (map (fun q => ([q], c)) r)
  else if co_n c =? length r then Some [(r, c)] else None.

Lemma local_aco_ok r c s : NoDup r -> r <> [] ->
  local_aco r c s = match placed r c with Some p => Ret r (appended s p) | None => Fail EObjSize s end.
Proof.
  intros ND Hne. unfold local_aco, placed. destruct (Nat.eqb_spec (co_n c) 1) as [E1|E1]; cbn [orb andb].
  - destruct (Nat.ltb_spec 1 (length r)).
    + unfold mbind, lift. rewrite split_all_ok by assumption. rewrite push_all, merge_singles.
      destruct r as [|q r]; [congruence|]. cbn [new_reg unwrap_opt]. unfold singles. rewrite map_map. reflexivity.
    + destruct r as [|q [|? ?]]; [congruence| |cbn in *; lia]. reflexivity.
  - destruct (Nat.eqb_spec (co_n c) (length r)) as [E2|E2]; reflexivity.
Qed.

(** *** Stale buffers *)
Lemma sim_step_phase n draws v a ms qs k t : sim_step n draws (v, a, ms) (qs, mkCO k (OUnit (UPhase t))) = Ok (a, v, ms).
Proof. reflexivity. Qed.

Definition with_pipeline (b : builder) (p : pipe) : builder := mkB p (bn b) (zeroed b) (meas b).

Lemma calculate_plain b p it x draws : (forall r v, In (r, v) it -> in_range (bn b) r) -> loads it x ->
  Forall (wf_entry (bn b)) p -> Forall plain_entry p ->
  exists v a, calculate_state_with_init (with_pipeline b p) it draws = Ok (v, []) /\ length v = 2 ^ bn b /\ length a = 2 ^ bn b /\
    foldM (sim_step (bn b) draws) p (upd_nth (enc (bn b) x) (RtoC 1) (repeat (RtoC 0) (2 ^ bn b)), repeat (RtoC 0) (2 ^ bn b), []) = Ok (v, a, []).
Proof.
  intros R L W Pl. unfold calculate_state_with_init. cbn [bn with_pipeline pipeline]. rewrite (initial_index_ok _ _ x R L). cbn [bind].
  rewrite sim_start by apply enc_lt. cbn [bind].
  destruct (sim_plain (bn b) draws p (upd_nth (enc (bn b) x) (RtoC 1) (repeat (RtoC 0) (2 ^ bn b))) (repeat (RtoC 0) (2 ^ bn b)) [] W Pl)
    as (v & a & E & L1 & L2 & H).
  - rewrite upd_nth_length. apply repeat_length.
  - apply repeat_length.
  - exists v, a. rewrite E. auto.
Qed.

Lemma calculate_from_fold b p it x draws v a ms : (forall r v, In (r, v) it -> in_range (bn b) r) -> loads it x ->
  foldM (sim_step (bn b) draws) p (upd_nth (enc (bn b) x) (RtoC 1) (repeat (RtoC 0) (2 ^ bn b)), repeat (RtoC 0) (2 ^ bn b), []) = Ok (v, a, ms) ->
  calculate_state_with_init (with_pipeline b p) it draws = Ok (v, ms).
Proof.
  intros R L H. unfold calculate_state_with_init. cbn [bn with_pipeline pipeline]. rewrite (initial_index_ok _ _ x R L). cbn [bind].
  rewrite sim_start by apply enc_lt. cbn [bind]. rewrite H. reflexivity.
Qed.

(** A global phase undoes the gate before it. *)
Lemma phase_undoes b p e qs k t it x draws : (forall r v, In (r, v) it -> in_range (bn b) r) -> loads it x ->
  Forall (wf_entry (bn b)) (p ++ [e]) -> Forall plain_entry (p ++ [e]) ->
  calculate_state_with_init (with_pipeline b (p ++ [e; (qs, mkCO k (OUnit (UPhase t)))])) it draws =
  calculate_state_with_init (with_pipeline b p) it draws.
Proof.
  intros R L W Pl. apply Forall_app in W. apply Forall_app in Pl. destruct W as (W & We), Pl as (Pl & Pe).
  destruct (calculate_plain b p it x draws R L W Pl) as (v & a & E & Lv & La & F). rewrite E.
  destruct (sim_step_plain (bn b) draws v a [] e (Forall_inv We) (Forall_inv Pe) Lv La) as (v' & S & _ & _).
  eapply calculate_from_fold; [exact R|exact L|].
  rewrite foldM_app, F. cbn [bind foldM]. rewrite S. cbn [bind]. rewrite sim_step_phase. cbn [bind]. reflexivity.
Qed.
(** So does a stochastic measurement. *)
Lemma stochastic_undoes b p e qs k it x draws : (forall r v, In (r, v) it -> in_range (bn b) r) -> loads it x ->
  Forall (wf_entry (bn b)) (p ++ [e]) -> Forall plain_entry (p ++ [e]) -> in_range (bn b) qs -> NoDup qs ->
  exists v ps, calculate_state_with_init (with_pipeline b p) it draws = Ok (v, []) /\
    calculate_state_with_init (with_pipeline b (p ++ [e; (qs, mkCO k (OMeas MStoch))])) it draws = Ok (v, [RStochastic ps]).
Proof.
  intros R L W Pl Rq Nq. apply Forall_app in W. apply Forall_app in Pl. destruct W as (W & We), Pl as (Pl & Pe).
  destruct (calculate_plain b p it x draws R L W Pl) as (v & a & E & Lv & La & F).
  destruct (sim_step_plain (bn b) draws v a [] e (Forall_inv We) (Forall_inv Pe) Lv La) as (v' & S & Lv' & _).
  destruct (measure_probs_ok (bn b) qs v' Rq Nq Lv') as (ps & Ep & _).
  exists v, ps. split; [exact E|]. eapply calculate_from_fold; [exact R|exact L|].
  rewrite foldM_app, F. cbn [bind foldM]. rewrite S. cbn [bind]. unfold sim_step. cbn [co_obj]. rewrite Ep. cbn [bind]. reflexivity.
Qed.
(** As the first object they yield the zero vector. *)
Lemma phase_first b qs k t it x draws : (forall r v, In (r, v) it -> in_range (bn b) r) -> loads it x ->
  calculate_state_with_init (with_pipeline b [(qs, mkCO k (OUnit (UPhase t)))]) it draws = Ok (repeat (RtoC 0) (2 ^ bn b), []).
Proof. intros R L. eapply calculate_from_fold; [exact R|exact L|]. cbn [foldM]. rewrite sim_step_phase. reflexivity. Qed.
Lemma stochastic_first b qs k it x draws : (forall r v, In (r, v) it -> in_range (bn b) r) -> loads it x -> in_range (bn b) qs -> NoDup qs ->
  exists ps, calculate_state_with_init (with_pipeline b [(qs, mkCO k (OMeas MStoch))]) it draws = Ok (repeat (RtoC 0) (2 ^ bn b), [RStochastic ps]).
Proof.
  intros R L Rq Nq.
  destruct (measure_probs_ok (bn b) qs (upd_nth (enc (bn b) x) (RtoC 1) (repeat (RtoC 0) (2 ^ bn b))) Rq Nq) as (ps & Ep & _).
  { rewrite upd_nth_length. apply repeat_length. }
  exists ps. eapply calculate_from_fold; [exact R|exact L|]. cbn [foldM]. unfold sim_step. cbn [co_obj]. rewrite Ep. reflexivity.
Qed.
(** Two in a row cancel. *)
Lemma phase_twice n draws v a ms qs k t qs' k' t' :
  foldM (sim_step n draws) [(qs, mkCO k (OUnit (UPhase t))); (qs', mkCO k' (OUnit (UPhase t')))] (v, a, ms) = Ok (v, a, ms).
Proof. reflexivity. Qed.
