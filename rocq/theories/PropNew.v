(** Property C108: the public constructors MatrixOp::new_matrix, new_sparse, new_swap, new_control, which check
    nothing (ops.rs:49-91). *)
From Coq Require Import ZArith.
From Verif Require Import Base BitsModel BitsSpec BitsProofs OpsModel OpsSpec OpsProofs OpsProofs2 OpsProofs3 OpsProofs4
  StateOpsModel StateOpsProofs ScheduleModel Instances OpsFinal.

(** *** C108 *)
Theorem C108_matrix : forall P (N : num P), num_laws N -> forall n ind data v w,
  length data = 4 ^ length ind -> in_range n ind -> length v = 2 ^ n -> length w = 2 ^ n ->
  exists out, apply_op_overwrite N n (new_matrix ind data) v w 0 0 = Ok out /\ length out = 2 ^ n /\
    forall x, st_of N n out x = act N ind (fun r c => nth (be r * 2 ^ length ind + be c) data (n0 N)) (st_of N n v) x.
Proof.
  intros P N L n ind data v w Hd R Hv Hw. apply (apply_op_overwrite_act N L n (new_matrix ind data)); auto.
  cbn [new_matrix wf_op]. rewrite Nat.pow_mul_r. exact Hd.
Qed.
Print Assumptions C108_matrix.

Theorem C108_sparse : forall P (N : num P), num_laws N -> forall n ind rows v w,
  length rows = 2 ^ length ind -> (forall row, In row rows -> forall e, In e row -> fst e < 2 ^ length ind) ->
  in_range n ind -> length v = 2 ^ n -> length w = 2 ^ n ->
  exists out, apply_op_overwrite N n (new_sparse ind rows) v w 0 0 = Ok out /\ length out = 2 ^ n /\
    forall x, st_of N n out x =
      act N ind (fun r c => big N (fun e => if fst e =? be c then snd e else n0 N) (nth (be r) rows [])) (st_of N n v) x.
Proof. intros P N L n ind rows v w Hl He R Hv Hw. apply (apply_op_overwrite_act N L n (new_sparse ind rows)); auto. split; assumption. Qed.
Print Assumptions C108_sparse.

(** Two lists of the same length, also empty ones, are exchanged; lists of two lengths panic. *)
Theorem C108_swap : forall P (N : num P), num_laws N -> forall n a b v w,
  length a = length b -> NoDup (a ++ b) -> in_range n (a ++ b) -> length v = 2 ^ n -> length w = 2 ^ n ->
  exists op out, new_swap a b = Ok op /\ apply_op_overwrite N n op v w 0 0 = Ok out /\ length out = 2 ^ n /\
    forall x y, (forall i, i < length a -> y (nth i a 0) = x (nth i b 0) /\ y (nth i b 0) = x (nth i a 0)) ->
      (forall q, ~ In q (a ++ b) -> y q = x q) ->
      st_of N n out x = st_of N n v y.
Proof.
  intros P N L n a b v w Hl ND R Hv Hw. exists (Swap (length a) (a ++ b)).
  assert (W : wf_op (@Swap P (length a) (a ++ b))) by (cbn; rewrite app_length; lia).
  destruct (apply_op_overwrite_act N L n (Swap (length a) (a ++ b)) v w W R Hv Hw) as [out (E & Lo & H)].
  exists out. split; [unfold new_swap; rewrite Hl, Nat.eqb_refl; reflexivity|]. split; [exact E|]. split; [exact Lo|].
  intros x y H1 H2. rewrite H. apply (act_swap_qubits N L); auto.
Qed.
Print Assumptions C108_swap.
Theorem C108_swap_lengths : forall P a b, length a <> length b -> new_swap (P := P) a b = Panic PAssert.
Proof. intros P a b H. unfold new_swap. apply Nat.eqb_neq in H. rewrite H. reflexivity. Qed.
Print Assumptions C108_swap_lengths.

(** The operator within is applied to [r], whatever indices it was made with, where all of [c] are 1. *)
Theorem C108_control : forall P (N : num P), num_laws N -> forall n c r (op : mop P) v w,
  wf_op op -> length r = length (op_indices op) -> in_range n (c ++ r) -> (forall q, In q c -> ~ In q r) ->
  length v = 2 ^ n -> length w = 2 ^ n ->
  exists out, apply_op_overwrite N n (new_control c r op) v w 0 0 = Ok out /\ length out = 2 ^ n /\
    forall x, st_of N n out x = if forallb x c then act N r (op_mat N op) (st_of N n v) x else st_of N n v x.
Proof.
  intros P N L n c r op v w W Hl R D Hv Hw.
  destruct (apply_op_overwrite_act N L n (Control (length c) (c ++ r) op) v w) as [out (E & Lo & H)]; auto.
  { split; [rewrite app_length; lia|exact W]. }
  exists out. split; [exact E|]. split; [exact Lo|]. intros x. rewrite H. apply (act_control N L); auto.
Qed.
Print Assumptions C108_control.

(** On the operator's own indices it is make_control_op. *)
Theorem C108_control_checked : forall P (N : num P), num_laws N -> forall n c (op cop : mop P) v w,
  wf_op op -> make_control_op c op = Ok cop -> in_range n (c ++ op_indices op) -> (forall q, In q c -> ~ In q (op_indices op)) ->
  length v = 2 ^ n -> length w = 2 ^ n ->
  apply_op_overwrite N n (new_control c (op_indices op) op) v w 0 0 = apply_op_overwrite N n cop v w 0 0.
Proof.
  intros P N L n c op cop v w W E R D Hv Hw. assert (Hc : c <> []) by (apply make_control_op_ok in E; tauto).
  destruct (C108_control P N L n c (op_indices op) op v w) as (o1 & E1 & L1 & H1); auto.
  destruct (final_control N L n c op v w) as (cop' & o2 & inn & E2 & E3 & E4 & H2); auto.
  rewrite E in E2. injection E2 as <-. rewrite E1, E3. f_equal.
  destruct (apply_op_overwrite_act N L n cop v w) as (o3 & E5 & L3 & _); auto.
  1: apply (make_control_op_wf c op cop W E).
  1: destruct (make_control_op_wf c op cop W E) as [_ ->]; exact R.
  rewrite E3 in E5. injection E5 as <-.
  destruct (apply_op_overwrite_act N L n op v w) as (i2 & E6 & _ & H6); auto.
  { intros q Hq. apply R, in_app_iff. auto. }
  rewrite E4 in E6. injection E6 as <-.
  apply (nth_ext _ _ (n0 N) (n0 N)); [congruence|]. intros i Hi. rewrite L1 in Hi.
  pose proof (H1 (dec n i)) as A1. pose proof (H2 (dec n i)) as A2. rewrite H6, <- A1 in A2.
  unfold st_of in A2. rewrite enc_dec in A2 by exact Hi. symmetry. exact A2.
Qed.
Print Assumptions C108_control_checked.

(** A NOT made for qubit 0, put on qubit 2 under qubit 1; a swap; an empty swap. *)
Example C108_example :
  let op := new_control [1] [2] (new_matrix [0] [0;1;1;0]%Z) in
  apply_op_overwrite ZN 3 op [1;2;3;4;5;6;7;8]%Z (repeat 0%Z 8) 0 0 = Ok [1;2;4;3;5;6;8;7]%Z /\
  apply_op_overwrite ZN 3 (new_control [1] [2] (new_sparse [0] [[(1, 1%Z)]; [(0, 1%Z)]])) [1;2;3;4;5;6;7;8]%Z (repeat 0%Z 8) 0 0 = Ok [1;2;4;3;5;6;8;7]%Z /\
  new_swap (P := Z) [0] [2] = Ok (Swap 1 [0; 2]) /\ new_swap (P := Z) [] [] = Ok (Swap 0 []) /\
  (forall q, In q [1] -> ~ In q [2]) /\ length [2] = length (op_indices (new_matrix [0] [0;1;1;0]%Z)) /\ NoDup ([0] ++ [2]) /\ in_range 3 ([1] ++ [2]).
Proof.
  cbv zeta. repeat (match goal with |- _ = _ /\ _ => split; [reflexivity|] end).
  split; [intros q [<-|[]] [?|[]]; lia|]. split; [reflexivity|]. split; [repeat constructor; cbn; intuition lia|]. intros q Hq. cbn in Hq. lia.
Qed.
