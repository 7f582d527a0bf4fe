(** Indices are 64-bit words: C104. *)
From Coq Require Import Reals NArith Lra FunctionalExtensionality.
From Coquelicot Require Import Complex.
From Verif Require Import Base BitsModel BitsSpec BitsProofs OpsModel OpsSpec OpsProofs StateOpsModel Instances MeasureModel BuilderModel SimModel HistorySpec HistoryProofs DenSpec DenProofs SimSpec SimProofs ShapeSpec ShapeProofs3 ShapeProofs4 WordModel WordSpec WordProofs WordProofs2.
Local Open Scope nat_scope.

(** *** C104: on 64-bit words nothing overflows for up to 63 qubits, in debug and in release builds. *)
Theorem C104_bit_functions : forall m n, n <= 64 ->
  (forall qs i, in_range n qs -> length qs <= 64 -> wfull_to_sub m n qs i = Ok (be (map (dec n i) qs))) /\
  (forall qs c i, in_range n qs -> length qs <= 64 -> length c = length qs -> i < 2 ^ n -> wsub_to_full m n qs (be c) i = Ok (enc n (updl (dec n i) qs c))) /\
  (forall i, 1 <= n -> wflip_bits m n i = flip_bits n i) /\
  (forall i qs, in_range n qs -> length qs <= 64 -> wextract_bits m i qs = Ok (extract_bits i qs)) /\
  (forall s a b, wentwine_bits m n s a b = Ok (entwine_bits n s a b)).
Proof.
  intros m n Hn. split; [|split; [|split; [|split]]].
  - intros qs i R L. rewrite wfull_to_sub_ok by assumption. apply full_to_sub_ok. exact R.
  - intros qs c i R L Lc Hi. rewrite wsub_to_full_ok by assumption. apply sub_to_full_ok; assumption.
  - intros i H. apply wflip_bits_ok. lia.
  - intros i qs R L. apply wextract_bits_ok; [exact L|]. intros q Hq. specialize (R q Hq). lia.
  - intros s a b. apply wentwine_bits_ok. exact Hn.
Qed.
Print Assumptions C104_bit_functions.

(** Operators, on any part of the rows, with any kind of numbers. *)
Theorem C104_apply : forall m P (N : num P) n op input output ioff ooff, n <= 64 -> wf_op op -> small_op op -> length (op_indices op) <= 63 ->
  in_range n (op_indices op) -> ooff + length output <= 2 ^ n ->
  wapply_op m N n op input output ioff ooff = apply_op N n op input output ioff ooff /\
  wapply_op_overwrite m N n op input output ioff ooff = apply_op_overwrite N n op input output ioff ooff.
Proof. intros. split; [apply wapply_op_ok|apply wapply_op_overwrite_ok]; assumption. Qed.
Print Assumptions C104_apply.
Theorem C104_apply_matrix : forall m P (N : num P), num_laws N -> forall n op input output, n <= 64 -> wf_op op -> small_op op -> length (op_indices op) <= 63 ->
  in_range n (op_indices op) -> length input = 2 ^ n -> length output = 2 ^ n ->
  exists out', wapply_op_overwrite m N n op input output 0 0 = Ok out' /\ length out' = 2 ^ n /\
    forall x, st_of N n out' x = act N (op_indices op) (op_mat N op) (st_of N n input) x.
Proof.
  intros m P N L n op input output Hn W S Hk R Li Lo. rewrite wapply_op_overwrite_ok by (try assumption; lia). apply apply_op_overwrite_act; assumption.
Qed.
Print Assumptions C104_apply_matrix.

Theorem C104_measure : forall m draw n qs v out ioff ooff k, n <= 63 -> in_range n qs -> NoDup qs ->
  ioff <= ooff + length out -> ooff <= ioff + length v -> ioff + length v <= 2 ^ n -> ooff + length out <= 2 ^ n ->
  wmeasure m draw n qs v out (Some (ioff, ooff)) k = measure draw n qs v out (Some (ioff, ooff)) k /\
  wmeasure_probs m n qs v ioff = measure_probs n qs v ioff.
Proof. intros. split; [apply wmeasure_ok|apply wmeasure_probs_ok]; auto. Qed.
Print Assumptions C104_measure.

(** Whole simulations: every random draw, every initial value. *)
Theorem C104_simulation : forall m b it draws, bn b <= 63 -> Forall (wf_entry (bn b)) (pipeline b) -> Forall small_entry (pipeline b) ->
  (forall r v, In (r, v) it -> in_range (bn b) r /\ length r <= 64) ->
  wcalculate_state_with_init m b it draws = calculate_state_with_init b it draws.
Proof. exact wcalculate_ok. Qed.
Print Assumptions C104_simulation.
(** In particular what any sequence of calls has built, started in values of registers in hand. *)
Theorem C104_histories : forall m cl it draws, history cl -> bn (bld (fst cl)) <= 63 -> Forall small_entry (pipeline (bld (fst cl))) ->
  (forall r v, In (r, v) it -> In r (snd cl)) ->
  wcalculate_state_with_init m (bld (fst cl)) it draws = calculate_state_with_init (bld (fst cl)) it draws.
Proof.
  intros m cl it draws H Hn S I. apply wcalculate_ok; [exact Hn|exact (history_wf cl H)|exact S|].
  intros r v Hin. destruct (history_inv cl H) as (_ & _ & R). destruct (reach_no_cloning cl R) as ((ND & B) & _).
  assert (Hr := I r v Hin). unfold held in ND, B.
  assert (Rr : in_range (bn (bld (fst cl))) r) by (intros q Hq; apply B; apply in_or_app; left; apply in_concat; exists r; split; assumption).
  split; [exact Rr|].
  assert (L : length r <= bn (bld (fst cl))); [|lia]. apply in_range_NoDup_length; [exact Rr|].
  apply NoDup_app_iff in ND. destruct ND as (ND & _ & _). apply in_split in Hr. destruct Hr as (l1 & l2 & E). rewrite E, concat_app in ND. cbn [concat] in ND.
  apply NoDup_app_iff in ND. destruct ND as (_ & ND & _). apply NoDup_app_iff in ND. apply ND.
Qed.
Print Assumptions C104_histories.
(** The final state of a circuit without measurements. *)
Theorem C104_state : forall m b it x draws, bn b <= 63 -> Forall (wf_entry (bn b)) (pipeline b) -> Forall small_entry (pipeline b) -> Forall plain_entry (pipeline b) ->
  (forall r v, In (r, v) it -> in_range (bn b) r /\ length r <= 64) -> loads it x ->
  exists v, wcalculate_state_with_init m b it draws = Ok (v, []) /\ length v = 2 ^ bn b /\ st_of CN (bn b) v = den (pipeline b) (ket (bn b) x).
Proof.
  intros m b it x draws Hn W S Pl R L. rewrite wcalculate_ok by assumption. apply simulate_ok; try assumption. intros r v Hin. apply (R r v Hin).
Qed.
Print Assumptions C104_state.

(** The bound: with 64 qubits or more a debug build panics. *)
Theorem C104_too_many_debug : forall b it draws, 64 <= bn b -> wcalculate_state_with_init Debug b it draws = Panic PUnderflow.
Proof.
  intros b it draws H. unfold wcalculate_state_with_init, wshl, amount. cbn zeta. rewrite (proj2 (Nat.ltb_ge (bn b) 64) H). reflexivity.
Qed.
Print Assumptions C104_too_many_debug.
(** A release build goes on with a vector that has room for the qubits above the 64th only. *)
Theorem C104_too_many_release : forall b draws, 64 <= bn b -> pipeline b = [] ->
  wcalculate_state_with_init Release b [] draws = Ok (upd_nth 0 (RtoC 1) (repeat (RtoC 0) (2 ^ (bn b mod 64))), []).
Proof.
  intros b draws H E. assert (A : amount Release (bn b) = Ok (bn b mod 64)) by (unfold amount; rewrite (proj2 (Nat.ltb_ge (bn b) 64) H); reflexivity).
  assert (B : bn b mod 64 < 64) by (apply Nat.mod_upper_bound; lia). assert (p := pow2_pos (bn b mod 64)).
  unfold wcalculate_state_with_init, wshl. cbn zeta. rewrite A. cbn [bind]. rewrite wrap_fits.
  2:{ rewrite Nat.shiftl_1_l. apply (fits_le (bn b mod 64)); lia. }
  rewrite Nat.shiftl_1_l. cbn [winitial_index mapM bind concat foldM]. rewrite sim_start by exact p. cbn [bind]. rewrite E. reflexivity.
Qed.
Print Assumptions C104_too_many_release.

(** 64 qubits and an x: the release build returns the zero vector, of length 1, for a state of norm 1. *)
Definition x64 : builder := mkB [([0], mkCO 1 (OUnit UX))] 64 [] 0.
Theorem C104_x_on_64_release : forall draws, wcalculate_state_with_init Release x64 [] draws = Ok ([RtoC 0], []) /\
  den (pipeline x64) (ket 64 (fun _ => false)) (fun q => q =? 0) = RtoC 1.
Proof.
  intros draws. split.
  - unfold wcalculate_state_with_init. cbn [bn x64 pipeline]. change (wshl Release 1 64) with (Ok (wrap 1)). cbn [bind]. change (wrap 1) with 1. cbn [repeat winitial_index mapM bind concat foldM idx nth_error upd_nth].
    unfold wsim_step. cbn [co_obj]. 
    change (wunitary_op Release [0] UX) with (wmake_matrix_op Release [0] [RtoC 0; RtoC 1; RtoC 1; RtoC 0]). rewrite wmake_matrix_op_ok by (cbn; lia).
    change (make_matrix_op [0] [RtoC 0; RtoC 1; RtoC 1; RtoC 0]) with (Ok (Matrix [0] [RtoC 0; RtoC 1; RtoC 1; RtoC 0])). cbn [bind].
    set (op := Matrix [0] [RtoC 0; RtoC 1; RtoC 1; RtoC 0]).
    assert (p := pow2_pos 64). assert (R : in_range 64 (op_indices op)) by (intros q [<-|[]]; lia). assert (W : wf_op op) by reflexivity.
    rewrite wapply_op_overwrite_ok; [|lia|exact W|exact one_small|cbn; lia|exact R|cbn [length Nat.add]; exact p].
    rewrite (apply_op_overwrite_ok CN CN_laws 64 op _ _ 0 0 W R) by (cbn [length Nat.add]; exact p). cbn [bind length seq map]. f_equal. f_equal. f_equal.
    unfold row_value. cbn [op_indices op length bools map app big op_mat Nat.add].
    assert (G : 0 < enc 64 (updl (dec 64 0) [0] [true])).
    { assert (T : Nat.testbit (enc 64 (updl (dec 64 0) [0] [true])) 63 = true) by (rewrite testbit_enc; reflexivity).
      destruct (enc 64 (updl (dec 64 0) [0] [true])); [rewrite Nat.bits_0 in T; discriminate|lia]. }
    replace (dec 64 0 0) with false by (unfold dec; rewrite Nat.bits_0; reflexivity). 
    generalize dependent (enc 64 (updl (dec 64 0) [0] [true])). generalize (enc 64 (updl (dec 64 0) [0] [false])). clear. intros e0 e1 G.
    replace (amp_off CN 0 [RtoC 1] e1) with (RtoC 0). 2:{ unfold amp_off. destruct e1 as [|e1]; [lia|]. cbn. destruct e1; reflexivity. }
    cbn. ring.
  - unfold den, x64. cbn [pipeline fold_left fst snd]. unfold oden. cbn [co_obj uden]. unfold on1. cbn [Nat.eqb mX eqb].
    unfold ket. replace (upd (fun q => q =? 0) 0 false) with (fun _ : nat => false). 2:{ extensionality q. unfold upd. destruct q; reflexivity. }
    rewrite Nat.eqb_refl. ring.
Qed.
Print Assumptions C104_x_on_64_release.

(** The size of a matrix is checked against 1 << 2n: for 32 indices a debug build panics, and a release build
    takes a matrix of one entry. *)
Theorem C104_matrix_of_one_entry : forall P (v : P) qs, length qs = 32 ->
  wmake_matrix_op Debug qs [v] = Panic PUnderflow /\ wmake_matrix_op Release qs [v] = Ok (Matrix qs [v]).
Proof. intros P v qs H. unfold wmake_matrix_op. cbn zeta. rewrite H. split; reflexivity. Qed.
Print Assumptions C104_matrix_of_one_entry.

(** 63 qubits, an x, a cnot between the outermost qubits, a measurement of both. *)
Definition b63 : builder := mkB [([0], mkCO 1 (OUnit UX)); ([0; 62], mkCO 2 (OUnit UCNOT)); ([62; 0], mkCO 2 (OMeas MSingle))] 63 [] 1.
Example C104_example : forall m draws, wcalculate_state_with_init m b63 [([1; 2], 3)] draws = calculate_state_with_init b63 [([1; 2], 3)] draws.
Proof.
  intros m draws. apply C104_simulation.
  - cbn. lia.
  - unfold wf_entry. repeat apply Forall_cons; try apply Forall_nil; cbn; (split; [repeat constructor; cbn; intuition lia|split; [intuition lia|exact I || reflexivity]]).
  - repeat apply Forall_cons; try apply Forall_nil; exact I.
  - intros r v [E|[]]. inversion E. subst. split; [intros q [<-|[<-|[]]]; cbn; lia|cbn; lia].
Qed.
(** The same expression in the two builds. *)
Example C104_builds_differ : wsub Debug 0 1 = Panic PUnderflow /\ wshr Debug 6 65 = Panic PUnderflow /\ wshr Release 6 65 = Ok 3 /\ wadd Debug 5 6 = Ok 11 /\ wadd Release 5 6 = Ok 11.
Proof. repeat split. Qed.
