From Verif Require Import Base BitsSpec BitsProofs OpsModel OpsSpec ConjSpec OpsProofs StateOpsModel StateOpsProofs ConjProofs UnitaryProofs OpsFinal MatProofs KronSpec KronProofs FuseSpec.
Local Open Scope nat_scope.

Section Fuse.
Context {P : Type} (N : num P) (L : num_laws N).
Notation cell := (cell N). Notation ident := (ident N). Notation flip := (flip N). Notation mat_vec := (mat_vec N). Notation mat_mul := (mat_mul N).

Lemma shape_map k (f : nat -> nat -> P) : shape (map (fun i => map (f i) (seq 0 k)) (seq 0 k)) k k.
Proof. split; [rewrite map_length; apply seq_length|]. intros row H. apply in_map_iff in H. destruct H as (i & <- & _). rewrite map_length. apply seq_length. Qed.
Lemma cell_map k (f : nat -> nat -> P) i j : i < k -> j < k -> cell (map (fun i => map (f i) (seq 0 k)) (seq 0 k)) i j = f i j.
Proof. intros Hi Hj. unfold KronSpec.cell. rewrite nth_map_seq by exact Hi. apply nth_map_seq. exact Hj. Qed.
Lemma shape_flip k A : shape (flip k A) k k.
Proof. apply (shape_map k (fun i j => cell A j i)). Qed.
Lemma cell_flip k A i j : i < k -> j < k -> cell (flip k A) i j = cell A j i.
Proof. intros Hi Hj. apply (cell_map k (fun i j => cell A j i)); assumption. Qed.
Lemma shape_mul k A B : shape (mat_mul k A B) k k.
Proof. apply (shape_map k). Qed.
Lemma length_mat_vec A v : length (mat_vec A v) = length A.
Proof. apply map_length. Qed.

Lemma mat_vec_mul k A B v : shape A k k -> shape B k k -> length v = k -> mat_vec (mat_mul k A B) v = mat_vec A (mat_vec B v).
Proof.
  intros HA HB Lv. rewrite (mat_vec_cell N _ k k v (shape_mul k A B) Lv). rewrite (mat_vec_cell N A k k _ HA) by (rewrite length_mat_vec; apply HB).
  apply map_ext_in. intros i Hi. apply in_seq in Hi. rewrite (mat_vec_cell N B k k v HB Lv).
  transitivity (big N (fun j => big N (fun m => nmul N (nmul N (cell A i m) (cell B m j)) (nth j v (n0 N))) (seq 0 k)) (seq 0 k)).
  { apply big_ext. intros j Hj. apply in_seq in Hj. unfold FuseSpec.mat_mul. rewrite (cell_map k (fun i j => big N (fun m => nmul N (cell A i m) (cell B m j)) (seq 0 k))) by lia. apply (big_mul_r N L). }
  rewrite (big_exchange N L). apply big_ext. intros m Hm. apply in_seq in Hm. rewrite nth_map_seq by lia. rewrite (big_mul_l N L). apply big_ext. intros j _. symmetry. apply (l_mul_assoc L).
Qed.
Lemma mat_vec_ident k v : length v = k -> mat_vec (ident k) v = v.
Proof.
  intros Lv. rewrite (mat_vec_cell N _ k k v (shape_ident N k) Lv). apply (nth_ext _ _ (n0 N) (n0 N)); [rewrite map_length, seq_length; congruence|]. intros i Hi. rewrite map_length, seq_length in Hi.
  rewrite nth_map_seq by exact Hi. rewrite (big_single N L _ _ i).
  - rewrite cell_ident, Nat.eqb_refl by exact Hi. apply (l_mul_1 L).
  - apply seq_NoDup.
  - apply in_seq. lia.
  - intros j Hj Hne. apply in_seq in Hj. rewrite cell_ident by lia. destruct (Nat.eqb_spec i j); [congruence|]. apply (l_mul_0 L).
Qed.
Lemma square_concat k (A : list (list P)) : shape A k k -> square_of k (concat A) = A.
Proof.
  intros HA. apply (matrix_eq N _ _ k k); [|exact HA|].
  - apply shape_square. destruct HA as [LA HA]. replace (concat A) with (flat_map (fun r => r) A) by (rewrite flat_map_concat_map, map_id; reflexivity).
    rewrite (length_flat_map_const _ k); [rewrite LA; reflexivity|exact HA].
  - intros i j Hi Hj. rewrite cell_square by assumption. replace (concat A) with (flat_map (fun r => r) A) by (rewrite flat_map_concat_map, map_id; reflexivity). destruct HA as [LA HA].
    rewrite (nth_flat_map_const _ k []); [|lia|exact HA|rewrite LA; nia]. rewrite Nat.add_comm, Nat.mod_add, Nat.div_add, Nat.mod_small, Nat.div_small by lia. reflexivity.
Qed.
Lemma length_concat_square k (A : list (list P)) : shape A k k -> length (concat A) = k * k.
Proof. intros [LA HA]. replace (concat A) with (flat_map (fun r => r) A) by (rewrite flat_map_concat_map, map_id; reflexivity). rewrite (length_flat_map_const _ k); [rewrite LA; reflexivity|exact HA]. Qed.
(** A dense operator on all qubits in order. *)
Lemma apply_whole n A v : shape A (2 ^ n) (2 ^ n) -> length v = 2 ^ n ->
  apply_op N n (Matrix (seq 0 n) (concat A)) v (repeat (n0 N) (2 ^ n)) 0 0 = Ok (mat_vec A v).
Proof.
  intros HA Lv. assert (Ld : length (concat A) = 2 ^ (2 * n)) by (rewrite (length_concat_square _ A HA), <- Nat.pow_add_r; f_equal; lia).
  destruct (dense_cells N (seq 0 n) (concat A)) as [HT HC]; [rewrite seq_length; exact Ld|]. rewrite seq_length in HT, HC. rewrite (square_concat _ A HA) in HT, HC.
  assert (X := apply_padded N L 0 n 0 (Matrix (seq 0 n) (concat A)) A v). rewrite Nat.add_0_r in X. cbn [Nat.add] in X.
  rewrite X; [|cbn; rewrite seq_length; exact Ld|reflexivity|exact HA|exact HC|exact Lv]. f_equal. unfold padded. cbn [Nat.pow].
  rewrite (kron_one_r N L A _ _ HA), (kron_one_l N L A _ _ HA). reflexivity.
Qed.
(** Any operator is its table with rows and columns exchanged. *)
Lemma apply_tabulated n op v : wf_op op -> NoDup (op_indices op) -> in_range n (op_indices op) -> length v = 2 ^ n ->
  exists m, make_op_matrix N n op = Ok m /\ apply_op N n op v (repeat (n0 N) (2 ^ n)) 0 0 = Ok (mat_vec (flip (2 ^ n) m) v).
Proof.
  intros W ND R Lv. eexists. split; [apply (make_op_matrix_ok N L); assumption|]. rewrite apply_op_ok; [|exact L|exact W|exact R|rewrite repeat_length; lia]. f_equal. rewrite repeat_length.
  rewrite (mat_vec_cell N _ (2 ^ n) (2 ^ n) v (shape_flip _ _) Lv). apply map_ext_in. intros j Hj. apply in_seq in Hj. rewrite nth_repeat, (l_add_0 L). cbn [Nat.add].
  transitivity (act N (op_indices op) (op_mat N op) (st_of N n v) (dec n j)).
  { change (row_value N n op v 0 j) with (act N (op_indices op) (op_mat N op) (fun y => amp_off N 0 v (enc n y)) (dec n j)).
    apply act_ext_psi. intros y. unfold amp_off, st_of. cbn [Nat.ltb Nat.leb]. rewrite Nat.sub_0_r. reflexivity. }
  rewrite (act_full N L) by (assumption || lia). apply big_ext. intros i Hi. apply in_seq in Hi. rewrite cell_flip by lia.
  rewrite (cell_map (2 ^ n) (fun i j => full_entry N n op i j)) by lia. reflexivity.
Qed.
End Fuse.
