(** C14, continued: the parallel loops for every number type and every input. *)
From Coq Require Import ZArith Reals Permutation SpecFloat.
From Flocq Require Import IEEE754.BinarySingleNaN.
From Flocq Require Core.Core.
From Coquelicot Require Import Complex.
From Verif Require Import Base BitsModel OpsModel OpsSpec MeasureModel ScheduleModel ScheduleModel2 ScheduleProofs FloatModel Instances.
Local Open Scope nat_scope.

(** No law of the numbers is used (so also floats, NaN included), nothing is assumed of the operator, the offsets or the
    lengths: a run that ends well in one order ends well, with the same vector, in every order. *)
Theorem C14_apply_op_any_numbers : forall P (N : num P) n op input output ioff ooff sched w,
  Permutation sched (seq 0 (length output)) ->
  (apply_op_par N n op input output ioff ooff sched = Ok w <-> apply_op N n op input output ioff ooff = Ok w) /\
  (apply_op_overwrite_par N n op input output ioff ooff sched = Ok w <-> apply_op_overwrite N n op input output ioff ooff = Ok w).
Proof. exact @apply_op_any. Qed.
Print Assumptions C14_apply_op_any_numbers.

(** [apply_ops] with two operators or more (with fewer it calls [apply_op]). *)
Theorem C14_apply_ops_any_numbers : forall P (N : num P) n op1 op2 ops input output ioff ooff sched w,
  Permutation sched (seq 0 (length output)) ->
  (apply_ops_par N n (op1 :: op2 :: ops) input output ioff ooff sched = Ok w <->
   apply_ops N n (op1 :: op2 :: ops) input output ioff ooff = Ok w).
Proof. exact @apply_ops_any. Qed.
Print Assumptions C14_apply_ops_any_numbers.

(** Collapse: the cells of the common window, in any order. *)
Theorem C14_collapse_any_order : forall n qs m input output ioff ooff sched,
  Permutation sched (seq 0 (Nat.min (ioff + length input) (ooff + length output) - Nat.max ioff ooff)) ->
  measure_state_par n qs m input output ioff ooff sched = measure_state n qs m input output ioff ooff.
Proof. exact measure_state_any. Qed.
Print Assumptions C14_collapse_any_order.

(** The table of probabilities, its entries computed in any order. *)
Theorem C14_probabilities_any_order : forall n qs v ioff sched w, Permutation sched (seq 0 (2 ^ length qs)) ->
  (measure_probs_par n qs v ioff sched = Ok w <-> measure_probs n qs v ioff = Ok w).
Proof. exact probs_par_any. Qed.
Print Assumptions C14_probabilities_any_order.

#[local] Instance prec53 : FLX.Prec_gt_0 53. Proof. reflexivity. Qed.
#[local] Instance pe64 : Prec_lt_emax 53 1024. Proof. reflexivity. Qed.
Definition f_1 : fc 53 1024 := fc1.
(** 2^-53 *)
Definition f_e : fc 53 1024 := (SF2B (prec:=53) (emax:=1024) (S754_finite false 4503599627370496 (-105)) eq_refl, fzero).

(** The law of the numbers in [C14_sum_any_tree] is needed: in f64 the tree shows in the sum. *)
Theorem C14_float_sum_depends : exists t1 t2 : rtree (fc 53 1024), leaves t1 = leaves t2 /\ par_sum FN t1 <> par_sum FN t2.
Proof.
  exists (Node (Node (Leaf f_1) (Leaf f_e)) (Leaf f_e)), (Node (Leaf f_1) (Node (Leaf f_e) (Leaf f_e))). split; [reflexivity|]. intros E.
  apply (f_equal (fun a => B2SF (fst a))) in E. vm_compute in E. discriminate.
Qed.
Print Assumptions C14_float_sum_depends.

Definition bits_of (r : res (list (fc 53 1024))) : option (list spec_float) :=
  match r with Ok v => Some (map (fun a => B2SF (fst a)) v) | _ => None end.
(** In f64, rows in the order 2, 0, 3, 1. *)
Example C14_float_example :
  let a := apply_op_par FN 2 (Matrix [0] [f_1; f_e; f_e; f_1]) [f_1; f_e; f_e; f_1] [fc0; fc0; fc0; fc0] 0 0 in
  bits_of (a [2;0;3;1]) = bits_of (a [0;1;2;3]) /\ bits_of (a [0;1;2;3]) <> None /\ Permutation [2;0;3;1] (seq 0 4).
Proof.
  cbv zeta. split; [vm_compute; reflexivity|]. split; [vm_compute; discriminate|].
  apply (NoDup_Permutation_bis (l := [2;0;3;1]) (l' := seq 0 4)); cbn.
  - repeat (apply NoDup_cons; [cbn; lia|]). apply NoDup_nil.
  - lia.
  - intros x; cbn. lia.
Qed.
(** An operator on a qubit that is not there fails in every order. *)
Example C14_bad_operator_example : forall sched w, Permutation sched (seq 0 2) -> apply_op_par ZN 1 (Matrix [3] [1;2;3;4]%Z) [1;2]%Z [0;0]%Z 0 0 sched <> Ok w.
Proof.
  intros sched w HP E. destruct (C14_apply_op_any_numbers _ ZN 1 (Matrix [3] [1;2;3;4]%Z) [1;2]%Z [0;0]%Z 0 0 sched w HP) as [H _]. apply H in E.
  vm_compute in E. discriminate.
Qed.
Example C14_ops_example :
  apply_ops_par ZN 2 [Matrix [0] [1;2;3;4]%Z; Matrix [1] [1;1;0;1]%Z] [1;2;3;4]%Z [0;0;0;0]%Z 0 0 [2;0;3;1] =
  apply_ops ZN 2 [Matrix [0] [1;2;3;4]%Z; Matrix [1] [1;1;0;1]%Z] [1;2;3;4]%Z [0;0;0;0]%Z 0 0 /\
  apply_ops ZN 2 [Matrix [0] [1;2;3;4]%Z; Matrix [1] [1;1;0;1]%Z] [1;2;3;4]%Z [0;0;0;0]%Z 0 0 = Ok [17; 37; 10; 22]%Z.
Proof. vm_compute. auto. Qed.
Example C14_collapse_example : measure_state_par 1 [0] (1, 1%R) [RtoC 0; RtoC 1] [RtoC 0; RtoC 0] 0 0 [1; 0] = measure_state 1 [0] (1, 1%R) [RtoC 0; RtoC 1] [RtoC 0; RtoC 0] 0 0.
Proof. apply C14_collapse_any_order. apply perm_swap. Qed.
