(** More index arithmetic on 64-bit words: several operators at once, function operators, sparse operators,
    transposing and inverting, the matrix of an operator. *)
From Coq Require Import Reals NArith.
From Coquelicot Require Import Complex.
From Verif Require Import Base BitsModel OpsModel StateOpsModel WordModel.
Local Open Scope nat_scope.
Local Open Scope res_scope.

Section Build.
Variable m : build.
Section Ops.
Context {P : Type} (N : num P).

(** qubit_multi_iterator.rs:37-54 *)
Definition wmulti_item (iter_ns : list nat) (outs : list (list (nat * P))) (poss : list nat) : res (nat * P) :=
  foldM (fun '(acc_col, acc_val) '((cur_pos, n_pos), out) =>
    '(col, val) <- idx out cur_pos ;;
    s <- wshl m acc_col n_pos ;;
    Ok (Nat.lor s col, nmul N acc_val val)) (combine (combine poss iter_ns) outs) (0, n1 N).
(** qubit_multi_iterator.rs:56-70, on reversed positions and lengths *)
Fixpoint wodometer (rposs rlens : list nat) : res (list nat * bool) :=
  match rposs, rlens with
  | p :: ps, l :: ls =>
      p' <- wadd m p 1 ;;
      if p' =? l then '(ps', b) <- wodometer ps ls ;; Ok (0 :: ps', b)
      else Ok (p' :: ps, true)
  | ps, _ => Ok (ps, false)
  end.
(** qubit_multi_iterator.rs:6-79 *)
Definition wmulti_next (iter_ns : list nat) (outs : list (list (nat * P))) (s : list nat * bool)
  : res (option (nat * P) * (list nat * bool)) :=
  let '(poss, overflow) := s in
  if overflow then Ok (None, (poss, false))
  else
    r <- wmulti_item iter_ns outs poss ;;
    '(rposs, broke) <- wodometer (rev poss) (rev (map (@length _) outs)) ;;
    Ok (Some r, (rev rposs, negb broke)).
Definition wmulti_iter (iter_ns : list nat) (outs : list (list (nat * P))) : @iter P :=
  mkIter (wmulti_next iter_ns outs) (map (fun _ => 0) iter_ns, false).
(** iterator_mapper.rs:12-27 *)
Fixpoint wops_outputs (ops : list (mop P)) (acc_row : nat) : res (list (list (nat * P))) :=
  match ops with
  | [] => Ok []
  | op :: ops' =>
      k <- wnum_indices m op ;;
      s <- wshl m 1 k ;; mask <- wsub m s 1 ;;
      v <- (it <- wop_iter m N op k (Nat.land acc_row mask) ;; collect (op_fuel op) it (it_init it)) ;;
      acc_row' <- wshr m acc_row k ;;
      vs <- wops_outputs ops' acc_row' ;;
      Ok (v :: vs)
  end.
(** iterator_mapper.rs:8-31 *)
Definition wsum_for_ops_cols (row : nat) (ops : list (mop P)) (f : nat * P -> res P) : res P :=
  ns <- mapM (wnum_indices m) ops ;;
  outs <- wops_outputs ops row ;;
  items <- collect (multi_fuel outs) (wmulti_iter ns outs) (it_init (wmulti_iter ns outs)) ;;
  vs <- mapM f items ;;
  Ok (nsum N vs).
(** matrix_ops.rs:158-219 *)
Definition wapply_ops (n : nat) (ops : list (mop P)) (input output : list P) (input_offset output_offset : nat) : res (list P) :=
  match ops with
  | [op] => wapply_op m N n op input output input_offset output_offset
  | [] =>
      let lower := Nat.max input_offset output_offset in
      iu0 <- wadd m input_offset (length input) ;; ou0 <- wadd m output_offset (length output) ;;
      let upper := Nat.min iu0 ou0 in
      il <- wsub m lower input_offset ;;
      iu <- wsub m upper input_offset ;;
      ol <- wsub m lower output_offset ;;
      ou <- wsub m upper output_offset ;;
      src <- slice input il iu ;;
      dst <- slice output ol ou ;;
      Ok (firstn ol output ++ map fst (combine src dst) ++ skipn ou output)
  | _ =>
      mis <- mapM (wmat_indices m) ops ;;
      let mi := concat mis in
      mapM (fun '(outputrow, outputloc) =>
        row <- wadd m output_offset outputrow ;;
        matrow <- wfull_to_sub m n mi row ;;
        v <- wsum_for_ops_cols matrow ops (wrow_term m N n input row input_offset mi) ;;
        Ok (nadd N outputloc v)) (enumerate output)
  end.

(** qubit_iterators.rs:233-271 *)
Definition wfunction_iter (row input_n output_n : nat) (f : nat -> nat * P) : res (@iter P) :=
  x <- wshr m row output_n ;;
  fx_in <- wflip_bits m input_n x ;;
  let '(fx, theta) := f fx_in in
  s <- wshl m 1 output_n ;; mask <- wsub m s 1 ;;
  let y := Nat.land row mask in
  ffx <- wflip_bits m output_n fx ;;
  let fx_xor_y := Nat.lxor y ffx in
  Ok (mkIter (fun last_col : option nat =>
        match last_col with
        | Some _ => Ok (None, None)
        | None =>
            s <- wshl m x output_n ;;
            let colbits := Nat.lor s fx_xor_y in
            Ok (Some (colbits, theta), Some colbits)
        end) None).

(** qip/src/state_ops/matrix_ops.rs:62-77 *)
Definition wflip_rows (n : nat) (dat : list (list (nat * P))) : res (list (list (nat * P))) :=
  dat' <- mapM (mapM (fun '(indx, c) => f <- wflip_bits m n indx ;; Ok (f, c))) dat ;;
  keyed <- mapM (fun '(indx, row) => k <- wflip_bits m n indx ;; Ok (k, row)) (enumerate dat') ;;
  Ok (map snd (sort_by_key fst keyed)).
(** state_ops/matrix_ops.rs:32-81 *)
Definition wmake_sparse_matrix_op (indices : list nat) (dat : list (list (nat * P))) (order : repr) : res (mop P) :=
  let n := length indices in
  expected_mat_size <- wshl m 1 n ;;
  if n =? 0 then Err ENoIndex
  else if negb (length dat =? expected_mat_size) then Err ESparseRows
  else if existsb (fun v => match v with [] => true | _ => false end) dat then Err ESparseEmptyRow
  else
    dat' <- match order with LittleEndian => wflip_rows n dat | BigEndian => Ok dat end ;;
    Ok (Sparse indices dat').
(** state_ops/matrix_ops.rs:128-149 *)
Definition wmake_sparse_matrix_from_function (n : nat) (f : nat -> list (nat * P)) (order : repr) : res (list (list (nat * P))) :=
  count <- wshl m 1 n ;;
  mapM (fun indx =>
    match order with
    | LittleEndian =>
        i <- wflip_bits m n indx ;;
        mapM (fun '(c, v) => c' <- wflip_bits m n c ;; Ok (c', v)) (f i)
    | BigEndian => Ok (f indx)
    end) (seq 0 count).
(** state_ops/matrix_ops.rs:186-190 *)
Definition wtranspose_dense (n : nat) (mat : list P) : res (list P) :=
  count <- wshl m 1 n ;;
  foldM (fun mat row =>
    foldM (fun mat col => a <- wget_flat_index m n row col ;; b <- wget_flat_index m n col row ;; vec_swap mat a b)
      (seq 0 row) mat) (seq 0 count) mat.
(** state_ops/matrix_ops.rs:182-201; [transpose_sparse] does no arithmetic on indices. *)
Fixpoint wtranspose_op (op : mop P) : res (mop P) :=
  match op with
  | Matrix ind mat => mt <- wtranspose_dense (length ind) mat ;; Ok (Matrix ind mt)
  | Sparse ind mat => mt <- transpose_sparse mat ;; Ok (Sparse ind mt)
  | Swap a b => Ok (Swap a b)
  | Control c o op' => op'' <- wtranspose_op op' ;; Ok (Control c o op'')
  end.
(** state_ops/matrix_ops.rs:152-154 *)
Definition winvert_op (cj : P -> P) (op : mop P) : res (mop P) :=
  t <- wtranspose_op op ;; Ok (conj_op cj t).
(** state_ops/matrix_ops.rs:247: the range [0..1 << n] whose elements are ignored is a range of [i32], the
    type of integer literals that nothing else determines; its number of elements. *)
Definition i32_count (n : nat) : res nat :=
  k <- (if n <? 32 then Ok n else match m with Debug => Panic PUnderflow | Release => Ok (n mod 32) end) ;;
  Ok (if k =? 31 then 0 else 2 ^ k).
(** state_ops/matrix_ops.rs:246-257; [input[i] = one] panics outside the vector. *)
Definition wmake_op_matrix (n : nat) (op : mop P) : res (list (list P)) :=
  z <- i32_count n ;;
  let zeros := repeat (n0 N) z in
  count <- wshl m 1 n ;;
  mapM (fun i =>
    _ <- idx zeros i ;;
    wapply_op m N n op (upd_nth i (n1 N) zeros) zeros 0 0) (seq 0 count).
End Ops.
End Build.
