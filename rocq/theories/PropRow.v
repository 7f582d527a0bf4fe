(** Single rows: C07; the depth of the pipeline: C95. *)
From Coq Require Import ZArith Reals.
From Verif Require Import Base BitsModel BitsSpec BitsProofs OpsModel OpsSpec OpsProofs Instances BuilderModel DenSpec RegProofs ProgramProofs RunSpec CondProofs SubSpec CostSpec SplitModel PropCost PropCost2.
Local Open Scope nat_scope.

(** *** C07: apply_op_row gives one row of the product *)
Theorem C07_row : forall P (N : num P), num_laws N -> forall n op input row ioff ooff,
  wf_op op -> in_range n (op_indices op) -> ooff + row < 2 ^ n ->
  apply_op_row N n op input row ioff ooff =
  Ok (act N (op_indices op) (op_mat N op) (fun y => amp_off N ioff input (enc n y)) (dec n (ooff + row))).
Proof. intros P N L n op input row ioff ooff W R B. unfold apply_op_row. rewrite wf_mat_indices by exact W. cbn [bind]. exact (apply_row_ok N L n op input row ioff ooff W R B). Qed.
Print Assumptions C07_row.
(** The loops of apply_op and apply_op_overwrite, cell by cell. *)
Theorem C07_row_cells : forall P (N : num P), num_laws N -> forall n op input output ioff ooff,
  wf_op op -> in_range n (op_indices op) -> ooff + length output <= 2 ^ n ->
  exists added written, apply_op N n op input output ioff ooff = Ok added /\ apply_op_overwrite N n op input output ioff ooff = Ok written /\
    length added = length output /\ length written = length output /\
    forall row, row < length output -> exists v, apply_op_row N n op input row ioff ooff = Ok v /\
      nth row added (n0 N) = nadd N (nth row output (n0 N)) v /\ nth row written (n0 N) = v.
Proof.
  intros P N L n op input output ioff ooff W R B. do 2 eexists. split; [apply (apply_op_ok N L); assumption|]. split; [apply (apply_op_overwrite_ok N L); assumption|].
  rewrite !map_length, !seq_length. split; [reflexivity|]. split; [reflexivity|]. intros row Hr. eexists. split; [apply C07_row; [exact L|exact W|exact R|lia]|].
  rewrite !nth_map_seq by exact Hr. split; reflexivity.
Qed.
Print Assumptions C07_row_cells.
Example C07_row_example :
  apply_op_row ZN 3 (Matrix [2] [1;2;3;4]%Z) [1;2;3;4;5;6;7;8]%Z 3 0 0 = Ok 25%Z /\
  apply_op_row ZN 3 (Matrix [2] [1;2;3;4]%Z) [3;4]%Z 1 2 2 = Ok 25%Z /\
  apply_op_row ZN 3 (Matrix [2] [1;2;3;4]%Z) [3]%Z 1 2 2 = Ok 9%Z.
Proof. vm_compute. auto. Qed.

(** *** C95: pipeline_depth counts what a subcircuit records *)
Theorem C95_depth : forall n r sc s, conds s = [] -> length r <= n -> Forall (sized_entry n) sc -> (exists e, In e sc /\ In (n - 1) (fst e)) ->
  tidy s -> live s r -> r <> [] ->
  exists s', apply_subcircuit 0 sc r s = Ret r s' /\ pipeline_depth (bld s') = pipeline_depth (bld s) + length sc.
Proof. intros n r sc s H1 H2 H3 H4 H5 H6 H7. destruct (C95_subcircuit_cost n r sc s H1 H2 H3 H4 H5 H6 H7) as (s' & E & _ & _ & _ & U). exists s'. split; [exact E|exact U]. Qed.
Print Assumptions C95_depth.
(** One object: an object on one qubit is recorded for every qubit of the register, others once; a failed call records nothing. *)
Lemma push_each (c : cobj) : forall (rs : list reg) u s, exists s', mfold (fun _ r => push (r, c)) rs u s = Ret tt s' /\ length (pipeline (bld s')) = length (pipeline (bld s)) + length rs.
Proof.
  induction rs as [|r rs IH]; intros u s; [exists s; destruct u; split; [reflexivity|cbn; lia]|]. cbn [mfold]. unfold mbind at 1. cbn.
  match goal with |- context [mfold _ rs tt ?x] => destruct (IH tt x) as (s' & E & L) end. exists s'. split; [exact E|]. rewrite L. cbn. rewrite app_length. cbn. lia.
Qed.
Theorem C95_depth_object : forall r co s, r <> [] -> NoDup r ->
  (co_n co = 1 \/ co_n co = length r ->
    exists s', local_aco r co s = Ret r s' /\ pipeline_depth (bld s') = pipeline_depth (bld s) + (if co_n co =? 1 then length r else 1)) /\
  (co_n co <> 1 -> co_n co <> length r -> local_aco r co s = Fail EObjSize s).
Proof.
  intros r co s H Nd. unfold local_aco, pipeline_depth. split.
  - intros E. replace ((co_n co =? 1) || (co_n co =? length r)) with true.
    2:{ symmetry. apply orb_true_iff. rewrite !Nat.eqb_eq. exact E. }
    destruct (Nat.eqb_spec (co_n co) 1) as [F|F]; cbn [andb]; [destruct (Nat.ltb_spec 1 (length r)) as [G|G]|].
    + unfold mbind at 1, lift at 1. rewrite split_all_ok by assumption. destruct (push_each co (singles r) tt s) as (s' & P & L). exists s'.
      unfold mbind at 1. rewrite P. rewrite length_singles in L. split; [|exact L]. unfold mbind, lift. rewrite merge_singles. rewrite unwrap_new_reg by exact H. reflexivity.
    + eexists. split; [reflexivity|]. cbn. rewrite app_length. cbn. destruct r as [|a [|b r]]; [congruence|reflexivity|cbn in G; lia].
    + eexists. split; [reflexivity|]. cbn. rewrite app_length. reflexivity.
  - intros E F. apply Nat.eqb_neq in E, F. rewrite E, F. reflexivity.
Qed.
Print Assumptions C95_depth_object.
Example C95_depth_example : exists s', local_aco [4; 2; 0] (mkCO 1 (OUnit UX)) (mkSt (mkB [] 5 [] 0) []) = Ret [4; 2; 0] s' /\ pipeline_depth (bld s') = 3.
Proof. eexists. split; reflexivity. Qed.
