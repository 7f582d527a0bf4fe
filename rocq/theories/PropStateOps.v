(** Properties C15-C19, C67: sparse transposes, inverses, constructors, endianness. *)
From Coq Require Import ZArith Permutation Sorted Reals.
From Coquelicot Require Import Complex.
From Verif Require Import Base BitsModel BitsSpec BitsProofs OpsModel OpsSpec OpsProofs OpsProofs2
  StateOpsModel StateOpsProofs ConjSpec ConjProofs Instances UnitaryProofs OpsFinal MatProofs.

(** *** C15 *)
(** Every interleaving of the pushes: each column gets its entries sorted by row. *)
Theorem C15_transpose_any_schedule : forall T (m : list (list (nat * T))) sched,
  cols_in_range m -> Permutation sched (flat_entries m) ->
  exists m', transpose_sparse_sched (length m) sched = Ok m' /\ length m' = length m /\
    forall c, c < length m ->
      Permutation (nth c m' []) (col_entries m c) /\
      StronglySorted (fun a b => fst a <= fst b) (nth c m' []).
Proof. exact @transpose_sched_spec. Qed.
Print Assumptions C15_transpose_any_schedule.

Theorem C15_column_entries : forall T (m : list (list (nat * T))) c r v,
  In (r, v) (col_entries m c) <-> exists row, nth_error m r = Some row /\ In (c, v) row.
Proof. exact @In_col_entries. Qed.
Print Assumptions C15_column_entries.

Theorem C15_schedule_independent : forall T (m : list (list (nat * T))) sched,
  cols_in_range m -> no_repeats m -> Permutation sched (flat_entries m) ->
  transpose_sparse_sched (length m) sched = transpose_sparse m.
Proof. exact @transpose_deterministic. Qed.
Print Assumptions C15_schedule_independent.

Theorem C15_sequential : forall T (m : list (list (nat * T))), cols_in_range m ->
  transpose_sparse m = Ok (map (col_entries m) (seq 0 (length m))).
Proof. exact @transpose_seq_spec. Qed.
Print Assumptions C15_sequential.

Example C15_example :
  let m := [[(0, 1%Z); (1, 2%Z)]; [(0, 3%Z)]] in
  cols_in_range m /\ no_repeats m /\ transpose_sparse m = Ok [[(0, 1%Z); (1, 3%Z)]; [(0, 2%Z)]] /\
  transpose_sparse_sched 2 (rev (flat_entries m)) = Ok [[(0, 1%Z); (1, 3%Z)]; [(0, 2%Z)]].
Proof.
  repeat split.
  - intros row [<-|[<-|[]]] e He; cbn in He; intuition (subst; cbn; lia).
  - intros row [<-|[<-|[]]]; repeat constructor; cbn; intuition lia.
Qed.
(** Why the hypothesis: with a repeated position the schedule shows. *)
Example C15_repeats_matter :
  let m := [[(0, 1%Z); (0, 2%Z)]] in
  transpose_sparse_sched 1 (rev (flat_entries m)) <> transpose_sparse m.
Proof. vm_compute. discriminate. Qed.

(** *** C16 *)
Theorem C16_invert_op_entries : forall P (N : num P), num_laws N -> forall cj, conj_laws N cj ->
  forall op : mop P, wf_op op ->
  exists op', invert_op cj op = Ok op' /\ wf_op op' /\ op_indices op' = op_indices op /\
    forall r c, length r = length (op_indices op) -> length c = length (op_indices op) ->
      op_mat N op' r c = cj (op_mat N op c r).
Proof. exact @invert_op_ok. Qed.
Print Assumptions C16_invert_op_entries.

(** On whole state vectors: <phi | op psi> = <invert(op) phi | psi>. *)
Theorem C16_invert_op_adjoint : forall P (N : num P), num_laws N -> forall n (op : mop P) cj,
  conj_laws N cj -> wf_op op -> NoDup (op_indices op) -> in_range n (op_indices op) ->
  exists op', invert_op cj op = Ok op' /\ op_indices op' = op_indices op /\ wf_op op' /\
    forall phi psi, length phi = 2 ^ n -> length psi = 2 ^ n ->
    exists a b, apply_op N n op psi (repeat (n0 N) (2 ^ n)) 0 0 = Ok a /\
      apply_op N n op' phi (repeat (n0 N) (2 ^ n)) 0 0 = Ok b /\
      nsum N (map (fun '(u, v) => nmul N (cj u) v) (combine phi a)) =
      nsum N (map (fun '(u, v) => nmul N (cj u) v) (combine b psi)).
Proof. exact @final_invert_full. Qed.
Print Assumptions C16_invert_op_adjoint.

Theorem C16_invert_twice : forall P (N : num P), num_laws N -> forall cj, conj_laws N cj ->
  forall op : mop P, wf_op op ->
  exists op', bind (invert_op cj op) (invert_op cj) = Ok op' /\ wf_op op' /\ op_indices op' = op_indices op /\
    forall r c, length r = length (op_indices op) -> length c = length (op_indices op) ->
      op_mat N op' r c = op_mat N op r c.
Proof. exact @invert_twice. Qed.
Print Assumptions C16_invert_twice.

Example C16_example :
  invert_op (fun z => z) (Control 1 [2;0] (Matrix [0] [1;2;3;4]%Z)) = Ok (Control 1 [2;0] (Matrix [0] [1;3;2;4]%Z)) /\
  invert_op (fun z => z) (Sparse [1] [[(0, 5%Z); (1, 6%Z)]; [(0, 7%Z)]]) = Ok (Sparse [1] [[(0, 5%Z); (1, 7%Z)]; [(0, 6%Z)]]) /\
  invert_op Cconj (Matrix [0] [RtoC 0; Copp Ci; Ci; RtoC 0]) =
    Ok (Matrix [0] [Cconj (RtoC 0); Cconj Ci; Cconj (Copp Ci); Cconj (RtoC 0)]).
Proof. repeat split. Qed.

(** *** C17 *)
Theorem C17_norm_preserved : forall n (op : mop C) v,
  wf_op op -> NoDup (op_indices op) -> in_range n (op_indices op) -> length v = 2 ^ n ->
  unitary_mat CN Cconj (length (op_indices op)) (op_mat CN op) ->
  exists w, apply_op CN n op v (repeat (RtoC 0) (2 ^ n)) 0 0 = Ok w /\ norm2 w = norm2 v.
Proof. exact unitary_norm. Qed.
Print Assumptions C17_norm_preserved.

Theorem C17_inverse_restores : forall P (N : num P), num_laws N -> forall cj, conj_laws N cj ->
  forall n (op : mop P) v, wf_op op -> NoDup (op_indices op) -> in_range n (op_indices op) ->
  length v = 2 ^ n -> unitary_mat N cj (length (op_indices op)) (op_mat N op) ->
  exists op' w, invert_op cj op = Ok op' /\ apply_op N n op v (repeat (n0 N) (2 ^ n)) 0 0 = Ok w /\
    apply_op N n op' w (repeat (n0 N) (2 ^ n)) 0 0 = Ok v.
Proof. exact @invert_undoes. Qed.
Print Assumptions C17_inverse_restores.

(** Swaps are unitary, and so are controlled unitary operators. *)
Theorem C17_swap_unitary : forall P (N : num P), num_laws N -> forall cj, conj_laws N cj -> forall n ind,
  length ind = n + n -> unitary_mat N cj (length ind) (op_mat N (Swap n ind)).
Proof. exact @swap_unitary. Qed.
Print Assumptions C17_swap_unitary.
Theorem C17_control_unitary : forall P (N : num P), num_laws N -> forall cj, conj_laws N cj ->
  forall nc ind (op : mop P), length ind = nc + length (op_indices op) ->
  unitary_mat N cj (length (op_indices op)) (op_mat N op) ->
  unitary_mat N cj (length ind) (op_mat N (Control nc ind op)).
Proof. exact @control_unitary. Qed.
Print Assumptions C17_control_unitary.

Example C17_example : unitary_mat ZN (fun z => z) 1 (op_mat ZN (Matrix [0] [0;-1;1;0]%Z)).
Proof.
  intros [|r [|? ?]] [|c [|? ?]] Hr Hc; try discriminate. destruct r, c; reflexivity.
Qed.
Example C17_example_restore :
  apply_op ZN 2 (Matrix [0] [0;-1;1;0]%Z) [1;2;3;4]%Z [0;0;0;0]%Z 0 0 = Ok [-3;-4;1;2]%Z /\
  apply_op ZN 2 (Matrix [0] [0;1;-1;0]%Z) [-3;-4;1;2]%Z [0;0;0;0]%Z 0 0 = Ok [1;2;3;4]%Z.
Proof. split; reflexivity. Qed.

(** *** C18 *)
Theorem C18_make_matrix_op : forall P ind (dat : list P) op,
  make_matrix_op ind dat = Ok op <->
  (ind <> [] /\ length dat = 4 ^ length ind /\ op = Matrix ind dat).
Proof. exact @make_matrix_op_ok. Qed.
Print Assumptions C18_make_matrix_op.

Theorem C18_make_sparse_matrix_op : forall P ind (dat : list (list (nat * P))) order op,
  length ind <= 64 ->
  make_sparse_matrix_op ind dat order = Ok op <->
  (ind <> [] /\ length dat = 2 ^ length ind /\ Forall (fun r => r <> []) dat /\
   op = Sparse ind (match order with BigEndian => dat | LittleEndian => le_table (length ind) dat end)).
Proof. exact @make_sparse_op_ok. Qed.
Print Assumptions C18_make_sparse_matrix_op.

Theorem C18_make_swap_op : forall P a b (op : mop P),
  make_swap_op a b = Ok op <->
  (a <> [] /\ b <> [] /\ length a = length b /\ op = Swap (length a) (a ++ b)).
Proof. exact @make_swap_op_ok. Qed.
Print Assumptions C18_make_swap_op.

Theorem C18_make_control_op : forall P c (op op' : mop P),
  make_control_op c op = Ok op' <->
  (c <> [] /\ op' = match op with
     | Control k ind inner => Control (length c + k) (c ++ ind) inner
     | _ => Control (length c) (c ++ op_indices op) op end).
Proof. exact @make_control_op_ok. Qed.
Print Assumptions C18_make_control_op.

(** When not Ok the result is an error value, not a panic. *)
Theorem C18_no_panic_matrix : forall P ind (dat : list P) p, make_matrix_op ind dat <> Panic p.
Proof. exact @make_matrix_op_never_panics. Qed.
Print Assumptions C18_no_panic_matrix.
Theorem C18_no_panic_sparse : forall P ind (dat : list (list (nat * P))) order p, length ind <= 64 ->
  make_sparse_matrix_op ind dat order <> Panic p.
Proof. exact @make_sparse_op_never_panics. Qed.
Print Assumptions C18_no_panic_sparse.

Example C18_example :
  make_matrix_op [3] [1;2;3;4]%Z = Ok (Matrix [3] [1;2;3;4]%Z) /\
  make_matrix_op [3] [1;2;3]%Z = Err EMatSize /\
  make_sparse_matrix_op [0] [[(1, 1%Z)]; []] BigEndian = Err ESparseEmptyRow /\
  make_swap_op [0] [1;2] = Err (A := mop Z) ESwapLen /\
  make_control_op [] (Swap (P := Z) 1 [0;1]) = Err EControlEmpty.
Proof. repeat split. Qed.

(** *** C19 *)
(** A little-endian table acts as the same table read big-endian on reversed indices. *)
Theorem C19_little_endian_acts_reversed : forall P (N : num P), num_laws N ->
  forall ind (dat : list (list (nat * P))) psi x, NoDup ind ->
  length dat = 2 ^ length ind -> (forall row, In row dat -> forall e, In e row -> fst e < 2 ^ length ind) ->
  act N ind (op_mat N (Sparse ind (le_table (length ind) dat))) psi x =
  act N (rev ind) (op_mat N (Sparse (rev ind) dat)) psi x.
Proof. exact @act_le. Qed.
Print Assumptions C19_little_endian_acts_reversed.

Theorem C19_from_function_agrees : forall P ind (f : nat -> list (nat * P)),
  1 <= length ind <= 64 ->
  Forall (fun r => r <> []) (map f (seq 0 (2 ^ length ind))) ->
  bind (make_sparse_matrix_from_function (length ind) f LittleEndian) (fun d => make_sparse_matrix_op ind d BigEndian) =
  bind (make_sparse_matrix_from_function (length ind) f BigEndian) (fun d => make_sparse_matrix_op ind d LittleEndian).
Proof. exact @from_function_agrees. Qed.
Print Assumptions C19_from_function_agrees.

Example C19_example :
  make_sparse_matrix_op [0;1] [[(0, 1%Z)]; [(2, 2%Z)]; [(1, 3%Z)]; [(3, 4%Z)]] LittleEndian =
    Ok (Sparse [0;1] [[(0, 1%Z)]; [(2, 3%Z)]; [(1, 2%Z)]; [(3, 4%Z)]]).
Proof. vm_compute. reflexivity. Qed.

(** *** C67 *)
(** Row [i] of the table is the image of basis state [i]: cell (i, j) is the amplitude of j. *)
Theorem C67_make_op_matrix : forall P (N : num P), num_laws N -> forall n (op : mop P), wf_op op -> NoDup (op_indices op) -> in_range n (op_indices op) ->
  make_op_matrix N n op = Ok (map (fun i => map (fun j => full_entry N n op i j) (seq 0 (2 ^ n))) (seq 0 (2 ^ n))).
Proof. intros. apply make_op_matrix_ok; assumption. Qed.
Print Assumptions C67_make_op_matrix.
(** The table of [invert_op] is the conjugate of the transposed table. *)
Theorem C67_inverted_table : forall P (N : num P), num_laws N -> forall cj, conj_laws N cj -> forall n (op : mop P), wf_op op -> NoDup (op_indices op) -> in_range n (op_indices op) ->
  exists op' a b, invert_op cj op = Ok op' /\ make_op_matrix N n op = Ok a /\ make_op_matrix N n op' = Ok b /\
    forall i j, i < 2 ^ n -> j < 2 ^ n -> nth j (nth i b []) (n0 N) = cj (nth i (nth j a []) (n0 N)).
Proof.
  intros P N L cj J n op W ND R. destruct (invert_op_ok N L cj J op W) as (op' & E & W' & I' & M).
  exists op'. do 2 eexists. split; [exact E|]. split; [apply make_op_matrix_ok; assumption|]. split; [apply make_op_matrix_ok; rewrite ?I'; assumption|].
  assert (G : forall o i j, i < 2 ^ n -> j < 2 ^ n -> nth j (nth i (map (fun i => map (fun j => full_entry N n o i j) (seq 0 (2 ^ n))) (seq 0 (2 ^ n))) []) (n0 N) = full_entry N n o i j).
  { intros o i j Hi Hj. rewrite nth_indep with (d' := map (fun j => full_entry N n o 0 j) (seq 0 (2 ^ n))) by (rewrite map_length, seq_length; exact Hi).
    rewrite (map_nth (fun i => map (fun j => full_entry N n o i j) (seq 0 (2 ^ n)))), seq_nth by exact Hi.
    rewrite nth_indep with (d' := full_entry N n o (0 + i) 0) by (rewrite map_length, seq_length; exact Hj).
    rewrite (map_nth (full_entry N n o (0 + i))), seq_nth by exact Hj. reflexivity. }
  intros i j Hi Hj. rewrite !G by assumption. unfold full_entry. rewrite I'.
  assert (X : forall (f g : nat -> bool) l, (forall q, f q = g q) -> forallb f l = forallb g l) by (intros f g l H; induction l as [|a l IH]; cbn; [reflexivity|rewrite H, IH; reflexivity]).
  assert (S : forall q, (existsb (Nat.eqb q) (op_indices op) || eqb (dec n i q) (dec n j q)) = (existsb (Nat.eqb q) (op_indices op) || eqb (dec n j q) (dec n i q)))
    by (intros q; f_equal; destruct (dec n i q), (dec n j q); reflexivity).
  rewrite (X _ _ _ S). destruct (forallb _ _); [apply M; apply map_length|symmetry; apply (c_0 J)].
Qed.
Print Assumptions C67_inverted_table.
Example C67_example :
  let op := Control 1 [1; 0] (Matrix [0] [1; 2; 3; 4]%Z) in wf_op op /\ NoDup (op_indices op) /\ in_range 2 (op_indices op) /\
  make_op_matrix ZN 2 op = Ok [[1; 0; 0; 0]; [0; 1; 0; 3]; [0; 0; 1; 0]; [0; 2; 0; 4]]%Z.
Proof. cbv zeta. split; [cbn; repeat split; try discriminate; lia|]. split; [repeat constructor; cbn; intuition lia|]. split; [intros q [<-|[<-|[]]]; lia|]. vm_compute. reflexivity. Qed.
