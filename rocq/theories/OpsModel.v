(** Operators and their application to state vectors:
    qip-iterators/src/iterators/*.rs and qip-iterators/src/matrix_ops.rs.
    Amplitudes are an abstract type [P] with the operations the Rust trait bounds give
    ([Zero], [One], [Add], [Mul], [is_zero]). *)
From Verif Require Import Base BitsModel.
Local Open Scope res_scope.

Record num (P : Type) := mkNum {
  n0 : P; n1 : P; nadd : P -> P -> P; nmul : P -> P -> P; nis0 : P -> bool }.
Arguments n0 {P}. Arguments n1 {P}. Arguments nadd {P}. Arguments nmul {P}. Arguments nis0 {P}.

(** qip-iterators/src/iterators/ops.rs:11-20 *)
Inductive mop (P : Type) :=
| Matrix (ind : list nat) (data : list P)
| Sparse (ind : list nat) (rows : list (list (nat * P)))
| Swap (n : nat) (ind : list nat)
| Control (nc : nat) (ind : list nat) (op : mop P).
Arguments Matrix {P}. Arguments Sparse {P}. Arguments Swap {P}. Arguments Control {P}.

(** ops.rs:24-36, with the debug assertion. *)
Definition num_indices {P} (op : mop P) : res nat :=
  match op with
  | Matrix ind _ | Sparse ind _ | Control _ ind _ => Ok (length ind)
  | Swap a b => if length b =? a * 2 then Ok (a * 2) else Panic PAssert
  end.

(** ops.rs:39-46 *)
Definition op_indices {P} (op : mop P) : list nat :=
  match op with
  | Matrix i _ | Sparse i _ | Swap _ i | Control _ i _ => i
  end.

(** ops.rs:49-91: the unchecked constructors. *)
Definition new_matrix {P} (ind : list nat) (data : list P) : mop P := Matrix ind data.
Definition new_sparse {P} (ind : list nat) (rows : list (list (nat * P))) : mop P := Sparse ind rows.
Definition new_swap {P} (a b : list nat) : res (mop P) :=
  if length a =? length b then Ok (Swap (length a) (a ++ b)) else Panic PAssert.
Definition new_control {P} (c r : list nat) (op : mop P) : mop P := Control (length c) (c ++ r) op.

Section Ops.
Context {P : Type} (N : num P).

(** A Rust iterator: a state and a [next] method; [next] may panic. *)
Record iter := mkIter {
  it_S : Type;
  it_next : it_S -> res (option (nat * P) * it_S);
  it_init : it_S }.
Arguments mkIter {it_S} it_next it_init.

(** qubit_iterators.rs:8-56.  State: [last_col] (the fields [n], [data] do not change). *)
Fixpoint mat_scan (data : list P) (cols : list nat) : res (option (nat * P)) :=
  match cols with
  | [] => Ok None
  | col :: cols' =>
      v <- idx data col ;;
      if nis0 N v then mat_scan data cols' else Ok (Some (col, v))
  end.
Definition mat_next (n : nat) (data : list P) (last_col : option nat)
  : res (option (nat * P) * option nat) :=
  let pos := match last_col with Some c => c + 1 | None => 0 end in
  r <- mat_scan data (seq pos (2 ^ n - pos)) ;;
  Ok (r, option_map fst r).
Definition mat_iter (row n : nat) (data : list P) : res iter :=
  d <- slice data (get_flat_index n row 0) (get_flat_index n row (2 ^ n)) ;;
  Ok (mkIter (mat_next n d) None).

(** qubit_iterators.rs:60-102 *)
Definition sparse_next (data : list (nat * P)) (last_index : option nat)
  : res (option (nat * P) * option nat) :=
  let pos := match last_index with Some i => i + 1 | None => 0 end in
  if length data <=? pos then Ok (None, None)
  else v <- idx data pos ;; Ok (Some v, Some pos).
Definition sparse_iter (row : nat) (data : list (list (nat * P))) : res iter :=
  d <- idx data row ;; Ok (mkIter (sparse_next d) None).

(** qubit_iterators.rs:176-219 *)
Definition swap_next (row half_n : nat) (last_col : option nat)
  : res (option (nat * P) * option nat) :=
  let last_col' :=
    match last_col with
    | None =>
        let lower := Nat.land row (Nat.ones half_n) in
        let upper := Nat.shiftr row half_n in
        Some (Nat.shiftl lower half_n + upper)
    | Some _ => None
    end in
  Ok (option_map (fun c => (c, n1 N)) last_col', last_col').
Definition swap_iter (row n_qubits : nat) : res iter :=
  Ok (mkIter (swap_next row (Nat.shiftr n_qubits 1)) None).

(** qubit_iterators.rs:106-172.  [op_iter] is either present (state: inner state and
    [last_col]) or absent (state: [last_col]). *)
Definition ctrl_next_some (threshold : nat) (it : iter) (s : it_S it * option nat)
  : res (option (nat * P) * (it_S it * option nat)) :=
  '(cval, s') <- it_next it (fst s) ;;
  let ret_val := option_map (fun '(i, v) => (i + threshold, v)) cval in
  Ok (ret_val, (s', option_map fst ret_val)).
Definition ctrl_next_none (row : nat) (last_col : option nat)
  : res (option (nat * P) * option nat) :=
  let last_col' :=
    match last_col with
    | Some c => if c <? row then Some row else None
    | None => Some row
    end in
  Ok (option_map (fun c => (c, n1 N)) last_col', last_col').
Definition ctrl_iter (row n_control n_op : nat) (builder : nat -> res iter) : res iter :=
  threshold <- chk_sub (2 ^ (n_control + n_op)) (2 ^ n_op) ;;
  if threshold <=? row then
    it <- builder (row - threshold) ;;
    Ok (mkIter (ctrl_next_some threshold it) (it_init it, None))
  else Ok (mkIter (ctrl_next_none row) None).

(** ops.rs:118-156 and iterator_mapper.rs:66-113 build the same iterators. *)
Fixpoint control_iter (op : mop P) (row n_control n_op : nat) : res iter :=
  match op with
  | Matrix _ data => ctrl_iter row n_control n_op (fun row => mat_iter row n_op data)
  | Sparse _ data => ctrl_iter row n_control n_op (fun row => sparse_iter row data)
  | Swap _ _ => ctrl_iter row n_control n_op (fun row => swap_iter row n_op)
  | Control nc' o_indices op' =>
      n_op' <- chk_sub (length o_indices) nc' ;;
      control_iter op' row (n_control + nc') n_op'
  end.

(** ops.rs:100-116 and iterator_mapper.rs:48-64 *)
Definition op_iter (op : mop P) (nindices row : nat) : res iter :=
  match op with
  | Matrix _ data => mat_iter row nindices data
  | Sparse _ data => sparse_iter row data
  | Swap _ _ => swap_iter row nindices
  | Control nc o_indices op' =>
      n_op <- chk_sub (length o_indices) nc ;;
      control_iter op' row nc n_op
  end.

(** Running an iterator to its first [None] (as [sum], [fold] and [collect] do). *)
Fixpoint collect (fuel : nat) (it : iter) (s : it_S it) : res (list (nat * P)) :=
  match fuel with
  | 0 => Panic PFuel
  | S fuel' =>
      '(o, s') <- it_next it s ;;
      match o with
      | None => Ok []
      | Some e => es <- collect fuel' it s' ;; Ok (e :: es)
      end
  end.

(** Fuel that suffices for [op]'s iterators: number of items plus one. *)
Fixpoint op_fuel (op : mop P) : nat :=
  match op with
  | Matrix _ data => S (S (length data))
  | Sparse _ rows => S (S (fold_right (fun r m => Nat.max (length r) m) 0 rows))
  | Swap _ _ => 3
  | Control _ _ op' => op_fuel op'
  end.

Definition op_collect (op : mop P) (nindices row : nat) : res (list (nat * P)) :=
  it <- op_iter op nindices row ;; collect (op_fuel op) it (it_init it).

(** [Sum] for a number type: fold from zero. *)
Definition nsum (l : list P) : P := fold_left (nadd N) l (n0 N).

(** ops.rs:100-116.  [f] may panic.  Rust interleaves [next] and [f]; here all items are
    produced first: when both would panic the reason reported may differ, nothing else. *)
Definition sum_for_op_cols (op : mop P) (nindices row : nat) (f : nat * P -> res P) : res P :=
  items <- op_collect op nindices row ;;
  vs <- mapM f items ;;
  Ok (nsum vs).

(** matrix_ops.rs:33-35, 49, 108: [(0..op.num_indices()).map(|i| get_index(op, i))] *)
Definition mat_indices (op : mop P) : res (list nat) :=
  k <- num_indices op ;; mapM (idx (op_indices op)) (seq 0 k).

(** The closure [f] of matrix_ops.rs:78-90 and 197-209. *)
Definition row_term (n : nat) (input : list P) (row input_offset : nat) (mi : list nat)
  (e : nat * P) : res P :=
  let '(i, val) := e in
  colbits <- sub_to_full n mi i row ;;
  if colbits <? input_offset then Ok (n0 N)
  else
    let vecrow := colbits - input_offset in
    if length input <=? vecrow then Ok (n0 N)
    else a <- idx input vecrow ;; Ok (nmul N val a).

(** matrix_ops.rs:62-94 *)
Definition apply_op_row_indices (n : nat) (op : mop P) (input : list P)
  (outputrow input_offset output_offset : nat) (mi : list nat) : res P :=
  let row := output_offset + outputrow in
  matrow <- full_to_sub n mi row ;;
  sum_for_op_cols op (length mi) matrow (row_term n input row input_offset mi).

(** matrix_ops.rs:38-59 *)
Definition apply_op_row (n : nat) (op : mop P) (input : list P)
  (outputrow input_offset output_offset : nat) : res P :=
  mi <- mat_indices op ;;
  apply_op_row_indices n op input outputrow input_offset output_offset mi.

(** matrix_ops.rs:98-123.  The (parallel) loop over output rows is a map over rows; that the
    order of rows does not matter is proved separately. *)
Definition apply_op (n : nat) (op : mop P) (input output : list P)
  (input_offset output_offset : nat) : res (list P) :=
  mi <- mat_indices op ;;
  mapM (fun '(outputrow, outputloc) =>
    v <- apply_op_row_indices n op input outputrow input_offset output_offset mi ;;
    Ok (nadd N outputloc v)) (enumerate output).

(** matrix_ops.rs:127-152 *)
Definition apply_op_overwrite (n : nat) (op : mop P) (input output : list P)
  (input_offset output_offset : nat) : res (list P) :=
  mi <- mat_indices op ;;
  mapM (fun '(outputrow, _) =>
    apply_op_row_indices n op input outputrow input_offset output_offset mi) (enumerate output).

(** qubit_multi_iterator.rs:6-79.  State: [curr_poss], [overflow]. *)
Definition multi_item (iter_ns : list nat) (outs : list (list (nat * P))) (poss : list nat)
  : res (nat * P) :=
  foldM (fun '(acc_col, acc_val) '((cur_pos, n_pos), out) =>
    '(col, val) <- idx out cur_pos ;;
    Ok (Nat.lor (Nat.shiftl acc_col n_pos) col, nmul N acc_val val))
    (combine (combine poss iter_ns) outs) (0, n1 N).

(** the odometer loop at qubit_multi_iterator.rs:56-70 on reversed positions and lengths;
    returns the new (reversed) positions and [broke_early]. *)
Fixpoint odometer (rposs : list nat) (rlens : list nat) : list nat * bool :=
  match rposs, rlens with
  | p :: ps, l :: ls =>
      if p + 1 =? l then let '(ps', b) := odometer ps ls in (0 :: ps', b)
      else (p + 1 :: ps, true)
  | ps, _ => (ps, false)
  end.

Definition multi_next (iter_ns : list nat) (outs : list (list (nat * P)))
  (s : list nat * bool) : res (option (nat * P) * (list nat * bool)) :=
  let '(poss, overflow) := s in
  if overflow then Ok (None, (poss, false))
  else
    r <- multi_item iter_ns outs poss ;;
    let '(rposs, broke) := odometer (rev poss) (rev (map (@length _) outs)) in
    Ok (Some r, (rev rposs, negb broke)).
Definition multi_iter (iter_ns : list nat) (outs : list (list (nat * P))) : iter :=
  mkIter (multi_next iter_ns outs) (map (fun _ => 0) iter_ns, false).

(** Fuel for a multi iterator: the product of the output lengths plus two. *)
Definition multi_fuel (outs : list (list (nat * P))) : nat :=
  S (S (fold_right (fun o m => length o * m) 1 outs)).

(** iterator_mapper.rs:12-27: per-op items; op 0 gets the LOW bits of the row. *)
Fixpoint ops_outputs (ops : list (mop P)) (acc_row : nat) : res (list (list (nat * P))) :=
  match ops with
  | [] => Ok []
  | op :: ops' =>
      k <- num_indices op ;;
      v <- op_collect op k (Nat.land acc_row (Nat.ones k)) ;;
      vs <- ops_outputs ops' (Nat.shiftr acc_row k) ;;
      Ok (v :: vs)
  end.

(** iterator_mapper.rs:8-31 *)
Definition sum_for_ops_cols (row : nat) (ops : list (mop P)) (f : nat * P -> res P) : res P :=
  ns <- mapM num_indices ops ;;
  outs <- ops_outputs ops row ;;
  items <- collect (multi_fuel outs) (multi_iter ns outs) (it_init (multi_iter ns outs)) ;;
  vs <- mapM f items ;;
  Ok (nsum vs).

(** matrix_ops.rs:158-219 *)
Definition apply_ops (n : nat) (ops : list (mop P)) (input output : list P)
  (input_offset output_offset : nat) : res (list P) :=
  match ops with
  | [op] => apply_op n op input output input_offset output_offset
  | [] =>
      let lower := Nat.max input_offset output_offset in
      let upper := Nat.min (input_offset + length input) (output_offset + length output) in
      il <- chk_sub lower input_offset ;;
      iu <- chk_sub upper input_offset ;;
      ol <- chk_sub lower output_offset ;;
      ou <- chk_sub upper output_offset ;;
      src <- slice input il iu ;;
      dst <- slice output ol ou ;;
      Ok (firstn ol output ++ map fst (combine src dst) ++ skipn ou output)
  | _ =>
      mis <- mapM mat_indices ops ;;
      let mi := concat mis in
      mapM (fun '(outputrow, outputloc) =>
        let row := output_offset + outputrow in
        matrow <- full_to_sub n mi row ;;
        v <- sum_for_ops_cols matrow ops (row_term n input row input_offset mi) ;;
        Ok (nadd N outputloc v)) (enumerate output)
  end.

(** qubit_iterators.rs:223-... (FunctionOpIterator), an iterator for reversible functions. *)
Definition function_iter (row input_n output_n : nat) (f : nat -> nat * P) : res iter :=
  let x := Nat.shiftr row output_n in
  fx_in <- flip_bits input_n x ;;
  let '(fx, theta) := f fx_in in
  let y := Nat.land row (Nat.ones output_n) in
  ffx <- flip_bits output_n fx ;;
  let fx_xor_y := Nat.lxor y ffx in
  Ok (mkIter (fun last_col : option nat =>
        match last_col with
        | Some _ => Ok (None, None)
        | None =>
            let colbits := Nat.lor (Nat.shiftl x output_n) fx_xor_y in
            Ok (Some (colbits, theta), Some colbits)
        end) None).

End Ops.
Arguments mkIter {P it_S} it_next it_init.
