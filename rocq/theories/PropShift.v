(** Programs run one after the other on registers of their own: C103. *)
From Coq Require Import Reals Lra FunctionalExtensionality.
From Coquelicot Require Import Complex.
From Verif Require Import Base BitsSpec BitsProofs OpsModel OpsSpec OpsProofs Instances BuilderModel SimModel HistorySpec DenSpec DenProofs SimSpec SimProofs MeasureSpec MeasureProofs ProjSpec WholeSpec WholeProofs WholeProofs2 AwaySpec AwayProofs AwayProofs2 LinkProofs WholeProofs3 ShiftSpec ShiftProofs2.
Local Open Scope nat_scope.

(** *** C103: a program that is run after another one, or on a builder with other registers, returns, fails and
    panics as on a new builder, with the same objects on the qubits that follow. *)
Theorem C103_same_calls : forall p cl0, at_rest cl0 -> Forall (fun c => no_absolute (fst c)) p ->
  play (behind (length (snd cl0)) p) cl0 = option_map (after cl0) (play p start).
Proof. intros p cl0 R H. rewrite <- (after_start cl0 R) at 2. apply play_after. exact H. Qed.
Print Assumptions C103_same_calls.
(** split_register_absolute is the exception: alone this program splits its register, after another register
    it does not. *)
Theorem C103_absolute_differs : exists p cl0 cl cl', at_rest cl0 /\ play p start = Some cl /\ play (behind (length (snd cl0)) p) cl0 = Some cl' /\
  length (snd cl') <> length (snd (after cl0 cl)).
Proof.
  exists [(CRegister 2, []); (CSplitAbs [0], [0])]. exists (mkSt (mkB [] 3 [] 0) [], [[0; 1; 2]]). eexists. eexists.
  split; [split; reflexivity|]. split; [vm_compute; reflexivity|]. split; [vm_compute; reflexivity|]. vm_compute. discriminate.
Qed.
Print Assumptions C103_absolute_differs.

Definition init_after (cl0 : client) (it0 it : list (reg * nat)) : list (reg * nat) := it0 ++ map (fun '(r, v) => (moved (bn (bld (fst cl0))) r, v)) it.
Definition usable (cl : client) (it : list (reg * nat)) (x : bs) : Prop :=
  (forall r v, In (r, v) it -> in_range (bn (bld (fst cl))) r) /\ loads it x /\ Forall (wf_entry (bn (bld (fst cl)))) (pipeline (bld (fst cl))).
(** The state is the product of the two states. *)
Theorem C103_product_state : forall cl0 cl it0 it x0 x draws, usable cl0 it0 x0 -> usable cl it x ->
  let b0 := bld (fst cl0) in let b := bld (fst cl) in Forall plain_entry (pipeline b0) -> Forall plain_entry (pipeline b) ->
  exists v0 v w, calculate_state_with_init b0 it0 draws = Ok (v0, []) /\ calculate_state_with_init b it draws = Ok (v, []) /\
    calculate_state_with_init (bld (fst (after cl0 cl))) (init_after cl0 it0 it) draws = Ok (w, []) /\ length w = 2 ^ (bn b0 + bn b) /\
    forall i j, i < 2 ^ bn b0 -> j < 2 ^ bn b -> nth (i * 2 ^ bn b + j) w (RtoC 0) = Cmult (nth i v0 (RtoC 0)) (nth j v (RtoC 0)).
Proof.
  intros cl0 cl it0 it x0 x draws (R0 & L0 & W0) (R & L & W) b0 b P0 P.
  destruct (simulate_ok b0 it0 x0 draws R0 L0 W0 P0) as (v0 & E0 & Lv0 & S0). destruct (simulate_ok b it x draws R L W P) as (v & E & Lv & S).
  destruct (simulate_ok (bld (fst (after cl0 cl))) (init_after cl0 it0 it) (joined (bn b0) x0 x) draws) as (w & E' & Lw & S').
  - exact (range_joined (bn b0) (bn b) it0 it R0 R).
  - apply loads_joined; assumption.
  - apply Forall_app. split; [eapply wf_wider; [|exact W0]; cbn; lia|apply wf_moved; exact W].
  - apply Forall_app. split; [exact P0|apply plain_moved; exact P].
  - exists v0, v, w. split; [exact E0|]. split; [exact E|]. split; [exact E'|]. split; [exact Lw|]. intros i j Hi Hj.
    assert (Hij : i * 2 ^ bn b + j < 2 ^ (bn b0 + bn b)) by (rewrite Nat.pow_add_r; nia).
    rewrite <- (nth_st (bn b0 + bn b)) by exact Hij. change (bn (bld (fst (after cl0 cl)))) with (bn b0 + bn b) in S'. rewrite S'. rewrite <- (nth_st (bn b0)), <- (nth_st (bn b)) by assumption. rewrite S0, S.
    change (pipeline (bld (fst (after cl0 cl)))) with (pipeline b0 ++ moved_pipe (bn b0) (pipeline b)).
    assert (G : forall p, Forall plain_entry p -> Forall gate_or_meas p). { intros p H. eapply Forall_impl; [|exact H]. intros [qs [k [u|m]]] X; [|destruct X]. destruct u; try exact I. destruct X. }
    assert (P' : Forall plain_entry (pipeline b0 ++ moved_pipe (bn b0) (pipeline b))) by (apply Forall_app; split; [exact P0|apply plain_moved; exact P]).
    assert (M : measured (pipeline b0) = []). { clear - P0. induction P0 as [|[qs [k [u|m]]] p X _ IH]; [reflexivity|exact IH|destruct X]. }
    rewrite <- (plain_branch _ P' ([] ++ [])), branch_product by (auto; rewrite M; reflexivity). rewrite !plain_branch by assumption. unfold tensor.
    f_equal; [apply (vec_dep (bn b0))|apply (vec_dep (bn b))].
    + exists v0. rewrite <- S0. auto.
    + intros q Hq. rewrite dec_sum by lia. unfold joined. rewrite (proj2 (Nat.ltb_lt q (bn b0)) Hq). reflexivity.
    + exists v. rewrite <- S. auto.
    + intros q Hq. rewrite dec_sum by lia. unfold joined. destruct (Nat.ltb_spec (bn b0 + q) (bn b0)); [lia|]. f_equal. lia.
Qed.
Print Assumptions C103_product_state.
(** The outcomes of the two programs are independent, and distributed as if they were run alone. *)
Theorem C103_independent : forall cl0 cl it0 it x0 x, usable cl0 it0 x0 -> usable cl it x ->
  let b0 := bld (fst cl0) in let b := bld (fst cl) in
  Forall unitary_entry (pipeline b0) -> Forall gate_or_meas (pipeline b0) -> Forall unitary_entry (pipeline b) -> Forall gate_or_meas (pipeline b) ->
  forall ms0 ms, Forall2 (fun qs m => m < 2 ^ length qs) (measured (pipeline b0)) ms0 -> Forall2 (fun qs m => m < 2 ^ length qs) (measured (pipeline b)) ms ->
  exists a0 a, over_draws (length ms0) (fun d => gives (calculate_state_with_init b0 it0 d) ms0) a0 /\ over_draws (length ms) (fun d => gives (calculate_state_with_init b it d) ms) a /\
    over_draws (length (ms0 ++ ms)) (fun d => gives (calculate_state_with_init (bld (fst (after cl0 cl))) (init_after cl0 it0 it) d) (ms0 ++ ms)) (a0 * a).
Proof.
  intros cl0 cl it0 it x0 x (R0 & L0 & W0) (R & L & W) b0 b U0 G0 U G ms0 ms H0 H.
  exists (weight (bn b0) (branch (pipeline b0) ms0 (ket (bn b0) x0))), (weight (bn b) (branch (pipeline b) ms (ket (bn b) x))).
  split; [apply joint_born; assumption|]. split; [apply joint_born; assumption|].
  rewrite <- weight_tensor by (apply branch_vec; auto; apply vec_ket). rewrite <- branch_product by (auto; symmetry; eapply Forall2_length'; exact H0).
  apply (joint_born (bld (fst (after cl0 cl)))).
  - exact (range_joined (bn b0) (bn b) it0 it R0 R).
  - apply loads_joined; assumption.
  - apply Forall_app. split; [eapply wf_wider; [|exact W0]; cbn; lia|apply wf_moved; exact W].
  - apply Forall_app. split; [exact U0|apply unitary_moved; exact U].
  - apply Forall_app. split; [exact G0|apply gate_or_meas_moved; exact G].
  - change (pipeline (bld (fst (after cl0 cl)))) with (pipeline b0 ++ moved_pipe (bn b0) (pipeline b)). rewrite measured_app, measured_moved. apply Forall2_app; [exact H0|].
    clear - H. induction H as [|qs m l l' Hm _ IH]; cbn [map]; constructor; [|exact IH]. unfold moved. rewrite map_length. exact Hm.
Qed.
Print Assumptions C103_independent.
(** A Bell pair is made and one half of it measured, after a program that did something else. *)
Definition bell_script : script := [(CRegister 1, []); (CRegister 1, []); (CGate UH, [0]); (CCnot, [1; 0]); (CMeasure, [0])].
Definition bell_alone : client := (mkSt (mkB [([0], mkCO 1 (OUnit UH)); ([0; 1], mkCO 2 (OUnit UCNOT)); ([0], mkCO 1 (OMeas MSingle))] 2 [] 1) [], [[1]; [0]]).
Definition other : client := (mkSt (mkB [([0; 1], mkCO 2 (OUnit UCNOT)); ([2], mkCO 1 (OMeas MSingle))] 3 [] 1) [], [[0; 1]; [2]]).
Example C103_example : play bell_script start = Some bell_alone /\ at_rest other /\ usable other [] (fun _ => false) /\ usable bell_alone [] (fun _ => false) /\
  play (behind 2 bell_script) other = Some (after other bell_alone) /\
  after other bell_alone = (mkSt (mkB [([0; 1], mkCO 2 (OUnit UCNOT)); ([2], mkCO 1 (OMeas MSingle)); ([3], mkCO 1 (OUnit UH)); ([3; 4], mkCO 2 (OUnit UCNOT)); ([3], mkCO 1 (OMeas MSingle))] 5 [] 2) [], [[0; 1]; [2]; [4]; [3]]) /\
  Forall unitary_entry (pipeline (bld (fst bell_alone))) /\ Forall gate_or_meas (pipeline (bld (fst bell_alone))) /\
  Forall unitary_entry (pipeline (bld (fst other))) /\ Forall gate_or_meas (pipeline (bld (fst other))) /\
  Forall2 (fun qs m => m < 2 ^ length qs) (measured (pipeline (bld (fst other)))) [0] /\ Forall2 (fun qs m => m < 2 ^ length qs) (measured (pipeline (bld (fst bell_alone)))) [1].
Proof.
  split; [vm_compute; reflexivity|]. split; [split; reflexivity|].
  split; [split; [intros r v []|split; [split; [intros ? ? []|reflexivity]|]]|].
  { unfold wf_entry. cbn [pipeline other bld fst]. repeat apply Forall_cons; try apply Forall_nil; cbn; (split; [repeat constructor; cbn; intuition lia|split; [intuition lia|exact I || reflexivity]]). }
  split; [split; [intros r v []|split; [split; [intros ? ? []|reflexivity]|]]|].
  { unfold wf_entry. cbn [pipeline bell_alone bld fst]. repeat apply Forall_cons; try apply Forall_nil; cbn; (split; [repeat constructor; cbn; intuition lia|split; [intuition lia|exact I || reflexivity]]). }
  split; [vm_compute; reflexivity|]. split; [reflexivity|]. repeat split; repeat constructor.
Qed.
