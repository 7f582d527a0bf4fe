(** Property C116: a state kept in pieces. *)
From Coq Require Import Reals Lra.
From Coquelicot Require Import Coquelicot.
From Verif Require Import Base BitsModel BitsSpec BitsProofs BitsProofs2 OpsModel OpsSpec OpsProofs OpsProofs2 Instances UnitaryProofs StateOpsModel MeasureModel MeasureSpec MeasureProofs MeasureProofs2
  BuilderModel SimModel DenSpec DenProofs SimSpec SimProofs ProjSpec WholeSpec WholeProofs3 DistSpec DistProofs PropRun.
Local Open Scope nat_scope.

(** *** C116 *)
(** Operators and collapses on the pieces give the pieces of the vector that the same steps on one
    vector give, and the same probabilities; the pieces may be cut anew at every operator. *)
Theorem C116_pieces : forall n ss chunks, Forall (step_fits n) ss -> length (concat chunks) = 2 ^ n ->
  exists cs ps, dist_run n ss chunks = Ok (cs, ps) /\ whole_run n ss (concat chunks) = Ok (concat cs, ps).
Proof. intros n ss chunks F Lc. destruct (pieces_ok n ss F chunks Lc) as (cs & ps & E & W & _). exists cs, ps. auto. Qed.
Print Assumptions C116_pieces.

(** A recorded circuit run in pieces, with the outcomes that the simulator drew, ends in the pieces of the
    simulator's vector, with the probabilities that it reports. *)
Theorem C116_circuit : forall b it x draws layouts chunks, (forall r v, In (r, v) it -> in_range (bn b) r) -> loads it x ->
  Forall (wf_entry (bn b)) (pipeline b) -> Forall unitary_entry (pipeline b) -> Forall gate_or_meas (pipeline b) -> (forall j, (0 < draws j <= 1)%R) ->
  length layouts = length (pipeline b) -> Forall (fun l => list_sum l = 2 ^ bn b) layouts ->
  concat chunks = upd_nth (enc (bn b) x) (RtoC 1) (repeat (RtoC 0) (2 ^ bn b)) ->
  exists v out cs, calculate_state_with_init b it draws = Ok (v, results out) /\
    dist_run (bn b) (steps_of (pipeline b) (map fst out) layouts) chunks = Ok (cs, map snd out) /\ concat cs = v.
Proof.
  intros b it x draws layouts chunks R L W U G D Ll Fl Ec. destruct (run_branch b it x draws R L W U G D) as (v & out & E & F & _).
  assert (Lc : length (concat chunks) = 2 ^ bn b) by (rewrite Ec, upd_nth_length; apply repeat_length).
  assert (E' := E). unfold calculate_state_with_init in E'. rewrite (initial_index_ok _ _ x R L) in E'. cbn [bind] in E'. rewrite sim_start in E' by apply enc_lt. cbn [bind] in E'. rewrite <- Ec in E'.
  destruct (foldM (sim_step (bn b) draws) (pipeline b) (concat chunks, repeat (RtoC 0) (2 ^ bn b), [])) as [[[v1 a1] ms1]| |] eqn:Ef; [|discriminate|discriminate]. injection E' as -> Em.
  destruct (sim_whole (bn b) draws (pipeline b) W G _ _ _ _ _ _ Lc (repeat_length _ _) Ef) as (out1 & Em1 & H). cbn [app] in Em1. rewrite Em in Em1. apply results_inj in Em1. subst out1.
  destruct H with (layouts := layouts) as (Hw & Hf); [|assumption|assumption|].
  - clear - F. induction F as [|qs o l l' (_ & P) _ IH]; constructor; [lra|exact IH].
  - destruct (pieces_ok _ _ Hf chunks Lc) as (cs & ps & E1 & E2 & _). rewrite Hw in E2. injection E2 as -> <-. exists (concat cs), out, cs. auto.
Qed.
Print Assumptions C116_circuit.

(** Choosing a piece by its weight and sampling in the piece is sampling from the whole. *)
Lemma magnitude_0 c : prob_magnitude c = 0%R -> forall a, In a c -> Cmod a = 0%R.
Proof.
  rewrite prob_magnitude_ok. induction c as [|b c IH]; intros H a Ha; [destruct Ha|]. cbn [rsum] in H. assert (P : (0 <= rsum (fun a : C => (Cmod a ^ 2)%R) c)%R) by (apply rsum_nonneg; intros; apply pow2_ge_0).
  assert (Q := pow2_ge_0 (Cmod b)). destruct Ha as [<-|Ha]; [|apply IH; [lra|exact Ha]]. assert (Z : (Cmod b ^ 2 = 0)%R) by lra. destruct (Req_dec (Cmod b) 0) as [X|X]; [exact X|]. exfalso. apply (pow_nonzero _ 2 X). exact Z.
Qed.
Lemma born_0 n qs m off c : prob_magnitude c = 0%R -> born n qs m off c = 0%R.
Proof.
  intros H. unfold born. transitivity (rsum (fun _ : nat => 0%R) (seq 0 (2 ^ n))).
  - apply rsum_ext. intros i _. destruct (shows _ _ _); [|reflexivity]. assert (Z : Cmod (amp_off CN off c i) = 0%R); [|rewrite Z; ring].
    unfold amp_off. destruct (i <? off); [apply Cmod_0|]. destruct (Nat.lt_ge_cases (i - off) (length c)) as [X|X]; [apply (magnitude_0 c H), nth_In, X|rewrite nth_overflow by exact X; apply Cmod_0].
  - generalize (seq 0 (2 ^ n)). induction l as [|a l IH]; [reflexivity|]. cbn [rsum]. rewrite IH. ring.
Qed.
Lemma placed_in off' c : forall chunks off, In (off', c) (placed off chunks) -> off' + length c <= off + length (concat chunks) /\ In c chunks.
Proof.
  induction chunks as [|c1 chunks IH]; intros off H; [destruct H|]. cbn [placed concat] in *. rewrite app_length. destruct H as [H|H]; [injection H as -> ->; split; [lia|left; reflexivity]|].
  apply IH in H. split; [lia|right; tauto].
Qed.
Theorem C116_sampling : forall n qs m chunks, in_range n qs -> m < 2 ^ length qs -> length (concat chunks) = 2 ^ n -> Forall (fun c => length c < 2 ^ n) chunks ->
  exists q, (forall off c, In (off, c) (placed 0 chunks) -> (0 < prob_magnitude c)%R ->
      is_RInt (fun random => match soft_measure random n qs c off with Ok m' => if m' =? m then 1%R else 0%R | _ => 0%R end) 0 1 (q off c)) /\
    rsum (fun '(off, c) => prob_magnitude c * q off c)%R (placed 0 chunks) = born n qs m 0 (concat chunks).
Proof.
  intros n qs m chunks R Hm Lc Fc. exists (fun off c => born n qs m off c / prob_magnitude c)%R. split.
  - intros off c Hin Hp. apply placed_in in Hin. apply (soft_measure_born_chunk n qs m c off R Hm); [lia| |exact Hp]. rewrite Forall_forall in Fc. apply Fc. tauto.
  - rewrite <- pieces_born. apply rsum_ext. intros [off c] _. destruct (Req_dec (prob_magnitude c) 0) as [Z|Z]; [rewrite (born_0 n qs m off c Z), Z; unfold Rdiv; ring|field; exact Z].
Qed.
Print Assumptions C116_sampling.

(** Two windows of the state with a gap between them: nothing is to be copied, but measure_state panics. *)
Theorem C116_apart : forall n qs m p v out ioff ooff, in_range n qs -> NoDup qs -> p <> 0%R ->
  ioff + length v < ooff \/ ooff + length out < ioff -> measure_state n qs (m, p) v out ioff ooff = Panic PUnderflow.
Proof.
  intros n qs m p v out ioff ooff R ND Hp H. unfold measure_state. destruct (Req_EM_T p 0) as [?|_]; [contradiction|].
  destruct (row_masks n qs m R ND) as (E1 & _ & E3 & _). rewrite E1. cbn [bind]. rewrite E3. cbn [bind]. unfold chk_sub.
  replace (ioff <=? Nat.max ioff ooff) with true by (symmetry; apply Nat.leb_le; lia). cbn [bind]. destruct (Nat.leb_spec ioff (Nat.min (ioff + length v) (ooff + length out))) as [A|A]; [|reflexivity]. cbn [bind].
  replace (ooff <=? Nat.max ioff ooff) with true by (symmetry; apply Nat.leb_le; lia). cbn [bind]. destruct (Nat.leb_spec ooff (Nat.min (ioff + length v) (ooff + length out))) as [B|B]; [lia|reflexivity].
Qed.
Print Assumptions C116_apart.

(** Two qubits in pieces of 1, 2 and 1 amplitudes, then of 3, 0 and 1: an x on qubit 1 takes the amplitude
    from index 2 to index 3; then qubit 0 is collapsed to 1, piece by piece. *)
Definition x_on_1 : mop C := Matrix [1] [RtoC 0; RtoC 1; RtoC 1; RtoC 0].
Definition three : list (list C) := [[RtoC 0]; [RtoC 0; RtoC 1]; [RtoC 0]].
Lemma x_fits : step_fits 2 (DGate x_on_1 [3; 0; 1]) /\ step_fits 2 (DShow [0] 1).
Proof.
  split; [split; [reflexivity|]; split; [intros q [<-|[]]; lia|reflexivity]|]. split; [repeat constructor; intros []|intros q [<-|[]]; lia].
Qed.
Example C116_example : Forall (step_fits 2) [DGate x_on_1 [3; 0; 1]; DShow [0] 1] /\ length (concat three) = 2 ^ 2 /\ Forall (fun c => length c < 2 ^ 2) three /\
  dist_run 2 [DGate x_on_1 [3; 0; 1]] three = Ok ([[RtoC 0; RtoC 0; RtoC 0]; []; [RtoC 1]], []) /\
  exists a b c p, dist_run 2 [DGate x_on_1 [3; 0; 1]; DShow [0] 1] three = Ok ([a; b; c], [p]) /\ length a = 3 /\ length b = 0 /\ length c = 1.
Proof.
  destruct x_fits as (F1 & F2). split; [constructor; [exact F1|constructor; [exact F2|constructor]]|]. split; [reflexivity|]. split; [repeat constructor|]. split.
  - destruct F1 as (W & R & _). cbn [dist_run dist_step out_pieces]. rewrite !piece_ok by (assumption || (cbn; lia)). cbn [bind app].
    unfold row_value, x_on_1, three. cbn. unfold amp_off. cbn.
    repeat match goal with |- context[dec 2 ?i ?q] => let r := eval vm_compute in (dec 2 i q) in change (dec 2 i q) with r end. cbn.
    repeat match goal with |- context[?a <? ?b] => let r := eval vm_compute in (a <? b) in change (a <? b) with r end. cbv iota.
    repeat f_equal; apply injective_projections; cbn; ring.
  - destruct (step_ok 2 _ three F1 eq_refl) as (c1 & p1 & E1 & _ & L1 & S1). destruct (step_ok 2 _ c1 F2 L1) as (c2 & p2 & E2 & _ & _ & S2). cbn in S1. rewrite S1 in S2.
    cbn [dist_run]. rewrite E1. cbn [bind]. rewrite E2. cbn [bind]. destruct c2 as [|a [|b [|c [|? ?]]]]; try discriminate. injection S2 as Ha Hb Hc. exists a, b, c.
    assert (P1 : p1 = []) by (cbn [dist_step] in E1; destruct (out_pieces _ _ _ _ _); cbn [bind] in E1; [injection E1 as _ <-; reflexivity|discriminate|discriminate]).
    assert (P2 : exists p, p2 = [p]).
    { cbn [dist_step] in E2. destruct (chunk_probs _ _ _ _ _) as [ps| |]; cbn [bind] in E2; [|discriminate|discriminate]. destruct (collapse_pieces _ _ _ _ _ _); cbn [bind] in E2; [injection E2 as _ <-; eexists; reflexivity|discriminate|discriminate]. }
    destruct P2 as (p & ->). subst p1. exists p. auto.
Qed.
(** The Bell pair of C82 in pieces of one and three amplitudes. *)
Example C116_bell : exists v out cs, calculate_state_with_init epr [] (fun _ => (1/2)%R) = Ok (v, results out) /\
  dist_run 2 (steps_of (pipeline epr) (map fst out) [[1; 3]; [2; 2]; [4]; [4]]) [[RtoC 1]; [RtoC 0; RtoC 0; RtoC 0]] = Ok (cs, map snd out) /\ concat cs = v.
Proof.
  destruct epr_wf as (W & U & G). destruct epr_loads as (R & L). apply (C116_circuit epr [] (fun _ => false) (fun _ => (1/2)%R) [[1; 3]; [2; 2]; [4]; [4]] [[RtoC 1]; [RtoC 0; RtoC 0; RtoC 0]] R L W U G).
  - intros j. lra.
  - reflexivity.
  - repeat constructor.
  - reflexivity.
Qed.
Example C116_apart_example : measure_state 2 [0] (1, 1%R) [RtoC 0] [RtoC 0; RtoC 0] 0 2 = Panic PUnderflow.
Proof. apply C116_apart; [intros q [<-|[]]; lia|repeat constructor; intros []|lra|cbn; lia]. Qed.
