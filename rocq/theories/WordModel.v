(** The index arithmetic of the simulator on 64-bit words, as a debug build and as a release build do it.
    The functions are those of BitsModel, OpsModel, StateOpsModel, MeasureModel and SimModel, where [usize] is
    [nat]; here every operation on [usize] may leave the range of a word. *)
From Coq Require Import Reals NArith.
From Coquelicot Require Import Complex.
From Verif Require Import Base BitsModel OpsModel StateOpsModel Instances MeasureModel BuilderModel SimModel.
Local Open Scope nat_scope.
Local Open Scope res_scope.

(** In a debug build overflow panics and debug assertions are checked; in a release build sums, differences
    and products wrap, shift amounts are taken mod 64, and debug assertions are left out. *)
Inductive build := Debug | Release.

Definition word : N := 18446744073709551616%N.
Definition in_word (a : nat) : bool := (N.of_nat a <? word)%N.
Definition wrap (a : nat) : nat := N.to_nat (N.of_nat a mod word).

Section Build.
Variable m : build.

Definition checked (a : nat) : res nat :=
  if in_word a then Ok a else match m with Debug => Panic PUnderflow | Release => Ok (wrap a) end.
(** [+], [*], [-], [<<], [>>] and [debug_assert!]. *)
Definition wadd (a b : nat) : res nat := checked (a + b).
Definition wmul (a b : nat) : res nat := checked (a * b).
Definition wsub (a b : nat) : res nat :=
  if b <=? a then Ok (a - b) else match m with Debug => Panic PUnderflow | Release => Ok (N.to_nat (word + N.of_nat a - N.of_nat b)) end.
Definition amount (k : nat) : res nat :=
  if k <? 64 then Ok k else match m with Debug => Panic PUnderflow | Release => Ok (k mod 64) end.
Definition wshl (a k : nat) : res nat := k <- amount k ;; Ok (wrap (Nat.shiftl a k)).
Definition wshr (a k : nat) : res nat := k <- amount k ;; Ok (Nat.shiftr a k).
Definition wassert (b : bool) : res unit :=
  match m with Debug => if b then Ok tt else Panic PAssert | Release => Ok tt end.

(** qip-iterators/src/utils.rs:3-6 *)
Definition wget_flat_index (nindices i j : nat) : res nat :=
  mat_side <- wshl 1 nindices ;; a <- wmul i mat_side ;; wadd a j.
(** utils.rs:20-23 *)
Definition wflip_bits (n num : nat) : res nat :=
  leading_zeros <- wsub 64 n ;; wshr (N.to_nat (reverse_bits64 (N.of_nat num))) leading_zeros.
(** utils.rs:35-42; [num & !v] is [ldiff]. *)
Definition wset_bit (num bit_index : nat) (value : bool) : res nat :=
  v <- wshl 1 bit_index ;; Ok (if value then Nat.lor num v else Nat.ldiff num v).
(** utils.rs:53-55 *)
Definition wget_bit (num bit_index : nat) : res bool :=
  s <- wshr num bit_index ;; Ok (negb (Nat.land s 1 =? 0)).

(** qip/src/utils.rs:55-60 *)
Definition wextract_bits (num : nat) (indices : list nat) : res nat :=
  foldM (fun acc '(i, index) => s <- wshr num index ;; b <- wshl (Nat.land s 1) i ;; Ok (Nat.lor acc b)) (enumerate indices) 0.
(** qip/src/utils.rs:21-43 *)
Definition wentwine_step (st : nat * nat * nat * nat) (i : nat) : res (nat * nat * nat * nat) :=
  let '(selector, off_bits, on_bits, result) := st in
  if Nat.land selector 1 =? 0 then
    off' <- wshr off_bits 1 ;; b <- wshl (Nat.land off_bits 1) i ;; sel' <- wshr selector 1 ;; Ok (sel', off', on_bits, Nat.lor result b)
  else
    on' <- wshr on_bits 1 ;; b <- wshl (Nat.land on_bits 1) i ;; sel' <- wshr selector 1 ;; Ok (sel', off_bits, on', Nat.lor result b).
Definition wentwine_bits (n selector off_bits on_bits : nat) : res nat :=
  st <- foldM wentwine_step (seq 0 n) (selector, off_bits, on_bits, 0) ;; Ok (snd st).

(** qip-iterators/src/matrix_ops.rs:12-21 *)
Definition wfull_to_sub (n : nat) (mat_indices : list nat) (full_index : nat) : res nat :=
  let nindices := length mat_indices in
  foldM (fun acc '(j, indx) =>
    n1 <- wsub n 1 ;; p <- wsub n1 indx ;; bit <- wget_bit full_index p ;;
    k1 <- wsub nindices 1 ;; q <- wsub k1 j ;; wset_bit acc q bit) (enumerate mat_indices) 0.
(** matrix_ops.rs:24-30 *)
Definition wsub_to_full (n : nat) (mat_indices : list nat) (sub_index base : nat) : res nat :=
  let nindices := length mat_indices in
  foldM (fun acc '(j, indx) =>
    k1 <- wsub nindices 1 ;; q <- wsub k1 j ;; bit <- wget_bit sub_index q ;;
    n1 <- wsub n 1 ;; p <- wsub n1 indx ;; wset_bit acc p bit) (enumerate mat_indices) base.

Section Ops.
Context {P : Type} (N : num P).

(** ops.rs:24-36 *)
Definition wnum_indices (op : mop P) : res nat :=
  match op with
  | Matrix ind _ | Sparse ind _ | Control _ ind _ => Ok (length ind)
  | Swap a b => a2 <- wmul a 2 ;; _ <- wassert (length b =? a2) ;; Ok a2
  end.

(** qubit_iterators.rs:8-56 *)
Definition wmat_next (n : nat) (data : list P) (last_col : option nat) : res (option (nat * P) * option nat) :=
  pos <- match last_col with Some c => wadd c 1 | None => Ok 0 end ;;
  side <- wshl 1 n ;;
  r <- mat_scan N data (seq pos (side - pos)) ;;
  Ok (r, option_map fst r).
Definition wmat_iter (row n : nat) (data : list P) : res (@iter P) :=
  lower <- wget_flat_index n row 0 ;;
  side <- wshl 1 n ;;
  upper <- wget_flat_index n row side ;;
  d <- slice data lower upper ;;
  Ok (mkIter (wmat_next n d) None).
(** qubit_iterators.rs:60-102 *)
Definition wsparse_next (data : list (nat * P)) (last_index : option nat) : res (option (nat * P) * option nat) :=
  pos <- match last_index with Some i => wadd i 1 | None => Ok 0 end ;;
  if length data <=? pos then Ok (None, None)
  else v <- idx data pos ;; Ok (Some v, Some pos).
Definition wsparse_iter (row : nat) (data : list (list (nat * P))) : res (@iter P) :=
  d <- idx data row ;; Ok (mkIter (wsparse_next d) None).
(** qubit_iterators.rs:176-219; the mask [!(usize::MAX << half_n)] is the [half_n] low bits. *)
Definition wswap_next (row half_n : nat) (last_col : option nat) : res (option (nat * P) * option nat) :=
  last_col' <-
    match last_col with
    | None =>
        h <- amount half_n ;;
        let lower := Nat.land row (Nat.ones h) in
        upper <- wshr row half_n ;;
        s <- wshl lower half_n ;; c <- wadd s upper ;; Ok (Some c)
    | Some _ => Ok None
    end ;;
  Ok (option_map (fun c => (c, n1 N)) last_col', last_col').
Definition wswap_iter (row n_qubits : nat) : res (@iter P) :=
  half_n <- wshr n_qubits 1 ;; Ok (mkIter (wswap_next row half_n) None).
(** qubit_iterators.rs:106-172 *)
Definition wctrl_next_some (threshold : nat) (it : @iter P) (s : it_S it * option nat)
  : res (option (nat * P) * (it_S it * option nat)) :=
  '(cval, s') <- it_next it (fst s) ;;
  ret_val <- match cval with Some (i, v) => c <- wadd i threshold ;; Ok (Some (c, v)) | None => Ok None end ;;
  Ok (ret_val, (s', option_map fst ret_val)).
Definition wctrl_iter (row n_control n_op : nat) (builder : nat -> res (@iter P)) : res (@iter P) :=
  n_indices <- wadd n_control n_op ;;
  a <- wshl 1 n_indices ;; b <- wshl 1 n_op ;;
  threshold <- wsub a b ;;
  if threshold <=? row then
    r <- wsub row threshold ;;
    it <- builder r ;;
    Ok (mkIter (wctrl_next_some threshold it) (it_init it, None))
  else Ok (mkIter (ctrl_next_none N row) None).
(** ops.rs:118-156 *)
Fixpoint wcontrol_iter (op : mop P) (row n_control n_op : nat) : res (@iter P) :=
  match op with
  | Matrix _ data => wctrl_iter row n_control n_op (fun row => wmat_iter row n_op data)
  | Sparse _ data => wctrl_iter row n_control n_op (fun row => wsparse_iter row data)
  | Swap _ _ => wctrl_iter row n_control n_op (fun row => wswap_iter row n_op)
  | Control nc' o_indices op' =>
      n_control' <- wadd n_control nc' ;;
      n_op' <- wsub (length o_indices) nc' ;;
      wcontrol_iter op' row n_control' n_op'
  end.
(** ops.rs:100-116 *)
Definition wop_iter (op : mop P) (nindices row : nat) : res (@iter P) :=
  match op with
  | Matrix _ data => wmat_iter row nindices data
  | Sparse _ data => wsparse_iter row data
  | Swap _ _ => wswap_iter row nindices
  | Control nc o_indices op' =>
      n_op <- wsub (length o_indices) nc ;;
      wcontrol_iter op' row nc n_op
  end.
Definition wsum_for_op_cols (op : mop P) (nindices row : nat) (f : nat * P -> res P) : res P :=
  it <- wop_iter op nindices row ;;
  items <- collect (op_fuel op) it (it_init it) ;;
  vs <- mapM f items ;;
  Ok (nsum N vs).

(** matrix_ops.rs:33-35 *)
Definition wmat_indices (op : mop P) : res (list nat) :=
  k <- wnum_indices op ;; mapM (idx (op_indices op)) (seq 0 k).
(** matrix_ops.rs:78-90 *)
Definition wrow_term (n : nat) (input : list P) (row input_offset : nat) (mi : list nat) (e : nat * P) : res P :=
  let '(i, val) := e in
  colbits <- wsub_to_full n mi i row ;;
  if colbits <? input_offset then Ok (n0 N)
  else
    vecrow <- wsub colbits input_offset ;;
    if length input <=? vecrow then Ok (n0 N)
    else a <- idx input vecrow ;; Ok (nmul N val a).
(** matrix_ops.rs:62-94 *)
Definition wapply_op_row_indices (n : nat) (op : mop P) (input : list P) (outputrow input_offset output_offset : nat) (mi : list nat) : res P :=
  row <- wadd output_offset outputrow ;;
  matrow <- wfull_to_sub n mi row ;;
  wsum_for_op_cols op (length mi) matrow (wrow_term n input row input_offset mi).
(** matrix_ops.rs:98-123 *)
Definition wapply_op (n : nat) (op : mop P) (input output : list P) (input_offset output_offset : nat) : res (list P) :=
  mi <- wmat_indices op ;;
  mapM (fun '(outputrow, outputloc) =>
    v <- wapply_op_row_indices n op input outputrow input_offset output_offset mi ;;
    Ok (nadd N outputloc v)) (enumerate output).
(** matrix_ops.rs:127-152 *)
Definition wapply_op_overwrite (n : nat) (op : mop P) (input output : list P) (input_offset output_offset : nat) : res (list P) :=
  mi <- wmat_indices op ;;
  mapM (fun '(outputrow, _) => wapply_op_row_indices n op input outputrow input_offset output_offset mi) (enumerate output).

(** qip/src/state_ops/matrix_ops.rs:12-27 *)
Definition wmake_matrix_op (indices : list nat) (dat : list P) : res (mop P) :=
  let n := length indices in
  if n =? 0 then Err ENoIndex
  else
    n2 <- wmul 2 n ;; size <- wshl 1 n2 ;;
    if negb (length dat =? size) then Err EMatSize else Ok (Matrix indices dat).
(** state_ops/matrix_ops.rs:103-122 *)
Definition wmake_control_op (c : list nat) (op : mop P) : res (mop P) :=
  if length c =? 0 then Err EControlEmpty
  else
    match op with
    | Control noc oo op' => k <- wadd (length c) noc ;; Ok (Control k (c ++ oo) op')
    | _ => Ok (Control (length c) (c ++ op_indices op) op)
    end.
End Ops.

(** qip/src/state_ops/measurement_ops.rs:76-83, 87-95 *)
Definition wscatter (n bits : nat) (indices : list nat) : res nat :=
  foldM (fun acc '(i, index) =>
    s <- wshr bits i ;;
    n1 <- wsub n 1 ;; p <- wsub n1 index ;; b <- wshl (Nat.land s 1) p ;;
    Ok (Nat.lor acc b)) (enumerate indices) 0.
(** measurement_ops.rs:86-108 *)
Definition wprob_item (n template : nat) (remaining : list nat) (input_offset : nat) (f : nat -> C) (r : nat) : res (option R) :=
  tmp_index <- wscatter n r remaining ;;
  index <- wadd tmp_index template ;;
  if index <? input_offset then Ok None
  else
    i <- wsub index input_offset ;;
    let amp := f i in
    if C_is0 amp then Ok None else Ok (Some (norm_sqr amp)).
(** measurement_ops.rs:65-112 *)
Definition wmeasure_prob_fn (n measured : nat) (indices : list nat) (input_offset : nat) (f : nat -> C) : res R :=
  template <- wscatter n measured indices ;;
  let remaining := filter (fun i => negb (existsb (Nat.eqb i) indices)) (seq 0 n) in
  count <- wshl 1 (length remaining) ;;
  items <- mapM (wprob_item n template remaining input_offset f) (seq 0 count) ;;
  Ok (nsum RN (filter_somes items)).
(** measurement_ops.rs:44-58 *)
Definition wmeasure_prob (n measured : nat) (indices : list nat) (input : list C) (input_offset : nat) : res R :=
  wmeasure_prob_fn n measured indices input_offset
    (fun index => if length input <=? index then RtoC 0 else nth index input (RtoC 0)).
(** measurement_ops.rs:115-127 *)
Definition wmeasure_probs (n : nat) (indices : list nat) (input : list C) (input_offset : nat) : res (list R) :=
  count <- wshl 1 (length indices) ;;
  mapM (fun measured => wmeasure_prob n measured indices input input_offset) (seq 0 count).
(** measurement_ops.rs:166-173 *)
Fixpoint wsoft_scan (r : R) (i : nat) (input : list C) (input_offset : nat) : res nat :=
  match input with
  | [] => Ok 0
  | c :: input' =>
      let r' := (r - norm_sqr c)%R in
      if Rle_dec r' 0 then wadd i input_offset else wsoft_scan r' (S i) input' input_offset
  end.
(** measurement_ops.rs:153-176 *)
Definition wsoft_measure (random : R) (n : nat) (indices : list nat) (input : list C) (input_offset : nat) : res nat :=
  full <- wshl 1 n ;;
  let r := (random * (if length input <? full then prob_magnitude input else 1))%R in
  measured_indx <- wsoft_scan r 0 input input_offset ;;
  ps <- mapM (fun indx => n1 <- wsub n 1 ;; wsub n1 indx) indices ;;
  wextract_bits measured_indx ps.
(** [Iterator::sum] of words *)
Definition wsum (l : list nat) : res nat := foldM wadd l 0.
(** measurement_ops.rs:250-263 *)
Definition wstate_cell (lower row_mask measured_mask : nat) (p_mult : R) (i : nat) (input : C) : res C :=
  row <- wadd i lower ;;
  let measured_bits := Nat.land row row_mask in
  Ok (if negb (Nat.lxor measured_bits measured_mask =? 0) then RtoC 0 else Cmult input (RtoC p_mult)).
(** measurement_ops.rs:220-269 *)
Definition wmeasure_state (n : nat) (indices : list nat) (measured : nat * R) (input output : list C) (input_offset output_offset : nat) : res (list C) :=
  let '(measured, measured_prob) := measured in
  if Req_EM_T measured_prob 0 then Ok output
  else
    let p_mult := (1 / sqrt measured_prob)%R in
    rows <- mapM (fun index => n1 <- wsub n 1 ;; p <- wsub n1 index ;; wshl 1 p) indices ;;
    row_mask <- wsum rows ;;
    bits <- mapM (fun '(i, index) => s <- wshr measured i ;; n1 <- wsub n 1 ;; p <- wsub n1 index ;; wshl (Nat.land s 1) p) (enumerate indices) ;;
    measured_mask <- wsum bits ;;
    let lower := Nat.max input_offset output_offset in
    iu <- wadd input_offset (length input) ;; ou <- wadd output_offset (length output) ;;
    let upper := Nat.min iu ou in
    input_lower <- wsub lower input_offset ;;
    input_upper <- wsub upper input_offset ;;
    output_lower <- wsub lower output_offset ;;
    output_upper <- wsub upper output_offset ;;
    inp <- slice input input_lower input_upper ;;
    out <- slice output output_lower output_upper ;;
    cells <- mapM (fun '(i, (c, _)) => wstate_cell lower row_mask measured_mask p_mult i c) (enumerate (combine inp out)) ;;
    Ok (firstn output_lower output ++ cells ++ skipn output_upper output).
(** measurement_ops.rs:190-214 *)
Definition wmeasure (random : R) (n : nat) (indices : list nat) (input output : list C) (offsets : option (nat * nat)) (measured : option (nat * option R)) : res ((nat * R) * list C) :=
  let '(input_offset, output_offset) := match offsets with Some o => o | None => (0, 0) end in
  k <- match measured with
       | Some (k, _) => Ok k
       | None => wsoft_measure random n indices input input_offset
       end ;;
  p <- match measured with
       | Some (_, Some p) => Ok p
       | _ => wmeasure_prob n k indices input input_offset
       end ;;
  out <- wmeasure_state n indices (k, p) input output input_offset output_offset ;;
  Ok ((k, p), out).

(** builder.rs:422-488 *)
Definition wunitary_op (indices : list nat) (u : unitary) : res (mop C) :=
  let l := RtoC 1 in
  let o := RtoC 0 in
  match u with
  | UX => wmake_matrix_op indices [o; l; l; o]
  | UY => wmake_matrix_op indices [o; Copp Ci; Ci; o]
  | UZ => wmake_matrix_op indices [l; o; o; Copp l]
  | UH => let nl := Cmult (RtoC 1) (RtoC (/ sqrt 2)) in wmake_matrix_op indices [nl; nl; nl; Copp nl]
  | US => wmake_matrix_op indices [l; o; o; Ci]
  | UT => wmake_matrix_op indices [l; o; o; cis (PI / 4)]
  | UCNOT =>
      c <- idx indices 0 ;;
      rest <- slice indices 1 (length indices) ;;
      op <- wmake_matrix_op rest [o; l; l; o] ;;
      wmake_control_op [c] op
  | UMAT data => wmake_matrix_op indices data
  | USWAP =>
      let n := length indices in
      if negb (n mod 2 =? 0) then Panic PAssert
      else make_swap_op (firstn (n / 2) indices) (skipn (n / 2) indices)
  | URz theta =>
      let h := (rot_angle theta * / 2)%R in
      wmake_matrix_op indices [cis (- h); o; o; cis h]
  | UPhase _ => Panic PUnreachable
  end.
(** builder.rs:412-503 *)
Definition wsim_step (n : nat) (draws : nat -> R) (s : sim_state) (e : list nat * cobj) : res sim_state :=
  let '(state, arena, ms) := s in
  let '(indices, co) := e in
  '(arena, ms) <-
    match co_obj co with
    | OUnit (UPhase _) => Ok (arena, ms)
    | OUnit u =>
        op <- wunitary_op indices u ;;
        arena <- wapply_op_overwrite CN n op state arena 0 0 ;;
        Ok (arena, ms)
    | OMeas MSingle =>
        '((measured, p), arena) <- wmeasure (draws (length ms)) n indices state arena None None ;;
        Ok (arena, ms ++ [RSingle measured p])
    | OMeas MStoch =>
        ps <- wmeasure_probs n indices state 0 ;;
        Ok (arena, ms ++ [RStochastic ps])
    end ;;
  Ok (arena, state, ms).
(** builder.rs:396-407 *)
Definition winit_bits (n : nat) (rx : reg * nat) : res (list (nat * nat)) :=
  let '(r, x) := rx in
  let rn := length r in
  mapM (fun '(ri, i) =>
    n1 <- wsub n 1 ;; p <- wsub n1 i ;;
    r1 <- wsub rn 1 ;; sh <- wsub r1 ri ;; s <- wshr x sh ;;
    Ok (p, Nat.land s 1)) (enumerate (rev r)).
Definition winitial_index (n : nat) (it : list (reg * nat)) : res nat :=
  bits <- mapM (winit_bits n) it ;;
  foldM (fun acc '(index, bit) => b <- wshl bit index ;; Ok (Nat.lor acc b)) (concat bits) 0.
(** builder.rs:388-507 *)
Definition wcalculate_state_with_init (b : builder) (it : list (reg * nat)) (draws : nat -> R) : res (list C * list mresult) :=
  let n := bn b in
  size <- wshl 1 n ;;
  let zeros := repeat (RtoC 0) size in
  i <- winitial_index n it ;;
  _ <- idx zeros i ;;
  let state := upd_nth i (RtoC 1) zeros in
  match foldM (wsim_step n draws) (pipeline b) (state, zeros, []) with
  | Ok (state, _, ms) => Ok (state, ms)
  | Err _ => Panic PUnwrap
  | Panic p => Panic p
  end.
End Build.
