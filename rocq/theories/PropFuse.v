(** Property C115: an operator is its table, and operators one after the other are the product. *)
From Coq Require Import ZArith.
From Verif Require Import Base BitsSpec BitsProofs OpsModel OpsSpec OpsProofs StateOpsModel ConjSpec ConjProofs Instances UnitaryProofs OpsFinal MatProofs KronSpec KronProofs FuseSpec FuseProofs.

(** *** C115 *)
Definition usable {P} (n : nat) (op : mop P) : Prop := wf_op op /\ NoDup (op_indices op) /\ in_range n (op_indices op).
(** Each operator applied to what the last one left, into zeros. *)
Definition in_turn {P} (N : num P) (n : nat) (ops : list (mop P)) (v : list P) : res (list P) :=
  foldM (fun v op => apply_op N n op v (repeat (n0 N) (2 ^ n)) 0 0) ops v.
Definition dense_on_all {P} (n : nat) (A : list (list P)) : mop P := Matrix (seq 0 n) (concat A).

(** The table of [make_op_matrix], rows and columns exchanged, is a dense operator on all qubits that
    does what the operator does. *)
Theorem C115_table_acts_alike : forall P (N : num P), num_laws N -> forall n (op : mop P), usable n op ->
  exists m, make_op_matrix N n op = Ok m /\ forall v, length v = 2 ^ n ->
    apply_op N n (dense_on_all n (flip N (2 ^ n) m)) v (repeat (n0 N) (2 ^ n)) 0 0 = apply_op N n op v (repeat (n0 N) (2 ^ n)) 0 0.
Proof.
  intros P N L n op (W & ND & R). eexists. split; [apply (make_op_matrix_ok N L); assumption|]. intros v Lv.
  destruct (apply_tabulated N L n op v W ND R Lv) as (m & E & A). rewrite (make_op_matrix_ok N L) in E by assumption. injection E as <-. rewrite A. apply (apply_whole N L); [apply shape_flip|exact Lv].
Qed.
Print Assumptions C115_table_acts_alike.

(** Any number of operators of any kinds in turn: one dense operator, the product of their tables. *)
Theorem C115_product : forall P (N : num P), num_laws N -> forall n (ops : list (mop P)), Forall (usable n) ops ->
  exists ms, mapM (make_op_matrix N n) ops = Ok ms /\ forall v, length v = 2 ^ n ->
    in_turn N n ops v = apply_op N n (dense_on_all n (mat_prod N (2 ^ n) (map (flip N (2 ^ n)) ms))) v (repeat (n0 N) (2 ^ n)) 0 0.
Proof.
  intros P N L n ops U.
  assert (G : forall ops, Forall (usable n) ops -> exists ms, mapM (make_op_matrix N n) ops = Ok ms /\ forall acc v, shape acc (2 ^ n) (2 ^ n) -> length v = 2 ^ n ->
    in_turn N n ops (mat_vec N acc v) = Ok (mat_vec N (fold_left (fun acc A => mat_mul N (2 ^ n) A acc) (map (flip N (2 ^ n)) ms) acc) v) /\
    shape (fold_left (fun acc A => mat_mul N (2 ^ n) A acc) (map (flip N (2 ^ n)) ms) acc) (2 ^ n) (2 ^ n)).
  { clear ops U. induction ops as [|op ops IH]; intros U; [exists []; split; [reflexivity|]; intros acc v Ha Hv; split; [reflexivity|exact Ha]|].
    inversion U as [|? ? (W & ND & R) U' E]; subst. destruct (IH U') as (ms & Em & H). eexists. split; [cbn [mapM]; rewrite (make_op_matrix_ok N L) by assumption; cbn [bind]; rewrite Em; reflexivity|].
    intros acc v Ha Hv. cbn [map fold_left]. assert (La : length (mat_vec N acc v) = 2 ^ n) by (rewrite length_mat_vec; apply Ha).
    destruct (apply_tabulated N L n op _ W ND R La) as (m & E & A). rewrite (make_op_matrix_ok N L) in E by assumption. injection E as <-.
    unfold in_turn. cbn [foldM]. rewrite A. cbn [bind]. rewrite <- (mat_vec_mul N L (2 ^ n)); [|apply shape_flip|exact Ha|exact Hv].
    apply H; [apply shape_mul|exact Hv]. }
  destruct (G ops U) as (ms & Em & H). exists ms. split; [exact Em|]. intros v Hv. destruct (H (ident N (2 ^ n)) v (shape_ident N _) Hv) as [H1 H2].
  rewrite (mat_vec_ident N L _ v Hv) in H1. rewrite H1. symmetry. unfold dense_on_all. apply (apply_whole N L); [exact H2|exact Hv].
Qed.
Print Assumptions C115_product.

(** How the entries are stored does not matter, also on windows of the state. *)
Theorem C115_same_entries : forall P (N : num P), num_laws N -> forall n (op1 op2 : mop P) input output ioff ooff,
  wf_op op1 -> wf_op op2 -> op_indices op1 = op_indices op2 -> in_range n (op_indices op1) -> ooff + length output <= 2 ^ n ->
  (forall r c, length r = length (op_indices op1) -> length c = length (op_indices op1) -> op_mat N op1 r c = op_mat N op2 r c) ->
  apply_op N n op1 input output ioff ooff = apply_op N n op2 input output ioff ooff.
Proof.
  intros P N L n op1 op2 input output ioff ooff W1 W2 E R Ho H. rewrite (apply_op_ok N L n op1), (apply_op_ok N L n op2) by (assumption || (rewrite <- E; assumption)). f_equal. apply map_ext. intros j. f_equal. unfold row_value, act. rewrite <- E.
  apply big_ext. intros c Hc. apply In_bools in Hc. f_equal. apply H; [apply map_length|exact Hc].
Qed.
Print Assumptions C115_same_entries.

Example C115_example :
  let ops := [Matrix [1] [0; 1; 1; 0]%Z; Control 1 [0; 1] (Sparse [1] [[(1, 5%Z)]; [(0, 7%Z)]]); Swap 1 [0; 1]] in
  Forall (usable 2) ops /\ in_turn ZN 2 ops [1; 2; 3; 4]%Z = Ok [2; 15; 1; 28]%Z /\
  (exists ms, mapM (make_op_matrix ZN 2) ops = Ok ms /\ mat_prod ZN 4 (map (flip ZN 4) ms) = [[0; 1; 0; 0]; [0; 0; 5; 0]; [1; 0; 0; 0]; [0; 0; 0; 7]]%Z) /\
  (forall r c, length r = 1 -> length c = 1 -> op_mat ZN (Matrix [0] [0; 2; 3; 0]%Z) r c = op_mat ZN (Sparse [0] [[(1, 2%Z)]; [(0, 3%Z)]]) r c).
Proof.
  cbv zeta. split; [|split; [vm_compute; reflexivity|split; [eexists; split; vm_compute; reflexivity|]]].
  - repeat apply Forall_cons; try apply Forall_nil; split; [|split| |split| |split]; try (repeat constructor; cbn; intuition lia); try (intros q Hq; cbn in Hq |- *; lia).
    cbn. repeat split. intros row [<-|[<-|[]]] e [<-|[]]; cbn; lia.
  - intros [|r [|? ?]] [|c [|? ?]]; try discriminate. intros _ _. destruct r, c; reflexivity.
Qed.
