(** qip/src/state_ops/matrix_ops.rs and qip/src/utils.rs (transpose_sparse). *)
From Verif Require Import Base BitsModel OpsModel.
Local Open Scope res_scope.

(** qip/src/types.rs: [Representation] *)
Inductive repr := BigEndian | LittleEndian.

(** [slice::sort_by_key]: a stable sort; modelled as insertion sort. *)
Fixpoint insert_by {A} (key : A -> nat) (a : A) (l : list A) : list A :=
  match l with
  | [] => [a]
  | b :: l' => if key a <=? key b then a :: l else b :: insert_by key a l'
  end.
Definition sort_by_key {A} (key : A -> nat) (l : list A) : list A :=
  fold_right (insert_by key) [] l.

(** state_ops/matrix_ops.rs:12-27.  Simplified: [1 << (2 * n)] does not overflow. *)
Definition make_matrix_op {P} (indices : list nat) (dat : list P) : res (mop P) :=
  let n := length indices in
  if n =? 0 then Err ENoIndex
  else if negb (length dat =? 2 ^ (2 * n)) then Err EMatSize
  else Ok (Matrix indices dat).

(** state_ops/matrix_ops.rs:62-77: reversal of rows and columns. *)
Definition flip_rows {P} (n : nat) (dat : list (list (nat * P))) : res (list (list (nat * P))) :=
  dat' <- mapM (mapM (fun '(indx, c) => f <- flip_bits n indx ;; Ok (f, c))) dat ;;
  keyed <- mapM (fun '(indx, row) => k <- flip_bits n indx ;; Ok (k, row)) (enumerate dat') ;;
  Ok (map snd (sort_by_key fst keyed)).

(** state_ops/matrix_ops.rs:32-81 *)
Definition make_sparse_matrix_op {P} (indices : list nat) (dat : list (list (nat * P)))
  (order : repr) : res (mop P) :=
  let n := length indices in
  if n =? 0 then Err ENoIndex
  else if negb (length dat =? 2 ^ n) then Err ESparseRows
  else if existsb (fun v => match v with [] => true | _ => false end) dat then Err ESparseEmptyRow
  else
    dat' <- match order with LittleEndian => flip_rows n dat | BigEndian => Ok dat end ;;
    Ok (Sparse indices dat').

(** state_ops/matrix_ops.rs:84-100 *)
Definition make_swap_op {P} (a b : list nat) : res (mop P) :=
  if (length a =? 0) || (length b =? 0) then Err ESwapEmpty
  else if negb (length a =? length b) then Err ESwapLen
  else Ok (Swap (length a) (a ++ b)).

(** state_ops/matrix_ops.rs:103-122 *)
Definition make_control_op {P} (c : list nat) (op : mop P) : res (mop P) :=
  if length c =? 0 then Err EControlEmpty
  else
    match op with
    | Control noc oo op' => Ok (Control (length c + noc) (c ++ oo) op')
    | _ => Ok (Control (length c) (c ++ op_indices op) op)
    end.

(** state_ops/matrix_ops.rs:128-149 *)
Definition make_sparse_matrix_from_function {P} (n : nat) (f : nat -> list (nat * P)) (order : repr)
  : res (list (list (nat * P))) :=
  mapM (fun indx =>
    match order with
    | LittleEndian =>
        i <- flip_bits n indx ;;
        mapM (fun '(c, v) => c' <- flip_bits n c ;; Ok (c', v)) (f i)
    | BigEndian => Ok (f indx)
    end) (seq 0 (2 ^ n)).

(** qip/src/utils.rs:63-94.  The flattened entries [(col, (row, val))], in row order. *)
Definition flat_entries {T} (m : list (list (nat * T))) : list (nat * (nat * T)) :=
  concat (map (fun '(row, v) => map (fun '(col, val) => (col, (row, val))) v) (enumerate m)).

(** One locked push, [col_mat[col].lock().unwrap().push((row, val))]. *)
Definition push_entry {T} (cm : list (list (nat * T))) (e : nat * (nat * T)) : res (list (list (nat * T))) :=
  let '(col, rv) := e in
  v <- idx cm col ;; Ok (upd_nth col (v ++ [rv]) cm).

(** [transpose_sparse] when the parallel loop performs its pushes in the order [sched]
    (a permutation of [flat_entries]; each push holds that column's lock). *)
Definition transpose_sparse_sched {T} (len : nat) (sched : list (nat * (nat * T)))
  : res (list (list (nat * T))) :=
  cm <- foldM push_entry sched (repeat [] len) ;;
  Ok (map (sort_by_key fst) cm).

(** The sequential build. *)
Definition transpose_sparse {T} (m : list (list (nat * T))) : res (list (list (nat * T))) :=
  transpose_sparse_sched (length m) (flat_entries m).

Section Conj.
Context {P : Type} (cj : P -> P).

(** state_ops/matrix_ops.rs:157-179; [cj] is complex conjugation. *)
Fixpoint conj_op (op : mop P) : mop P :=
  match op with
  | Matrix ind mat => Matrix ind (map cj mat)
  | Sparse ind mat => Sparse ind (map (map (fun '(i, v) => (i, cj v))) mat)
  | Swap a b => Swap a b
  | Control c o op' => Control c o (conj_op op')
  end.

(** [Vec::swap(i, j)] *)
Definition vec_swap {A} (l : list A) (i j : nat) : res (list A) :=
  a <- idx l i ;; b <- idx l j ;; Ok (upd_nth j a (upd_nth i b l)).

(** state_ops/matrix_ops.rs:186-190 *)
Definition transpose_dense (n : nat) (mat : list P) : res (list P) :=
  foldM (fun mat row =>
    foldM (fun mat col => vec_swap mat (get_flat_index n row col) (get_flat_index n col row))
      (seq 0 row) mat) (seq 0 (2 ^ n)) mat.

(** state_ops/matrix_ops.rs:182-201 (sequential [transpose_sparse]). *)
Fixpoint transpose_op (op : mop P) : res (mop P) :=
  match op with
  | Matrix ind mat => m <- transpose_dense (length ind) mat ;; Ok (Matrix ind m)
  | Sparse ind mat => m <- transpose_sparse mat ;; Ok (Sparse ind m)
  | Swap a b => Ok (Swap a b)
  | Control c o op' => op'' <- transpose_op op' ;; Ok (Control c o op'')
  end.

(** state_ops/matrix_ops.rs:152-154 *)
Definition invert_op (op : mop P) : res (mop P) :=
  t <- transpose_op op ;; Ok (conj_op t).

End Conj.

(** state_ops/matrix_ops.rs:246-257: image of every basis vector. *)
Definition make_op_matrix {P} (N : num P) (n : nat) (op : mop P) : res (list (list P)) :=
  mapM (fun i =>
    let zeros := repeat (n0 N) (2 ^ n) in
    apply_op N n op (upd_nth i (n1 N) zeros) zeros 0 0) (seq 0 (2 ^ n)).
