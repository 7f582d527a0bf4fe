(** Measurement: qip/src/state_ops/measurement_ops.rs.
    The real type [P: Precision] (f32/f64) is modelled by [R], [Complex<P>] by [C]: rounding,
    overflow and NaN are not modelled.  Random draws are an argument. *)
From Coq Require Import Reals.
From Coquelicot Require Import Complex.
From Verif Require Import Base BitsModel OpsModel Instances.
Local Open Scope res_scope.

(** num_complex [norm_sqr]: re*re + im*im. *)
Definition norm_sqr (c : C) : R := (fst c * fst c + snd c * snd c)%R.

(** measurement_ops.rs:11-13 *)
Definition prob_magnitude (input : list C) : R := nsum RN (map norm_sqr input).

(** The fold at measurement_ops.rs:76-83 and again at 87-95; [n - 1 - index] panics on
    underflow. *)
Definition scatter_step (n bits acc : nat) (e : nat * nat) : res nat :=
  let '(i, index) := e in
  n1 <- chk_sub n 1 ;; p <- chk_sub n1 index ;;
  let sel_bit := Nat.land (Nat.shiftr bits i) 1 in
  Ok (Nat.lor acc (Nat.shiftl sel_bit p)).
Definition scatter (n bits : nat) (indices : list nat) : res nat :=
  foldM (scatter_step n bits) (enumerate indices) 0.

Fixpoint filter_somes {A} (l : list (option A)) : list A :=
  match l with [] => [] | Some a :: l' => a :: filter_somes l' | None :: l' => filter_somes l' end.

(** The closure at measurement_ops.rs:86-108. *)
Definition prob_item (n template : nat) (remaining : list nat) (input_offset : nat) (f : nat -> C) (r : nat)
  : res (option R) :=
  tmp_index <- scatter n r remaining ;;
  let index := tmp_index + template in
  if index <? input_offset then Ok None
  else
    let amp := f (index - input_offset) in
    if C_is0 amp then Ok None else Ok (Some (norm_sqr amp)).

(** measurement_ops.rs:65-112 (input_offset already defaulted to 0).  The sum is taken in
    sequence; C14 covers arbitrary reduction trees. *)
Definition measure_prob_fn (n measured : nat) (indices : list nat) (input_offset : nat) (f : nat -> C) : res R :=
  template <- scatter n measured indices ;;
  let remaining := filter (fun i => negb (existsb (Nat.eqb i) indices)) (seq 0 n) in
  items <- mapM (prob_item n template remaining input_offset f) (seq 0 (2 ^ length remaining)) ;;
  Ok (nsum RN (filter_somes items)).

(** measurement_ops.rs:44-58 *)
Definition measure_prob (n measured : nat) (indices : list nat) (input : list C) (input_offset : nat) : res R :=
  measure_prob_fn n measured indices input_offset
    (fun index => if length input <=? index then RtoC 0 else nth index input (RtoC 0)).

(** measurement_ops.rs:115-127 *)
Definition measure_probs (n : nat) (indices : list nat) (input : list C) (input_offset : nat) : res (list R) :=
  mapM (fun measured => measure_prob n measured indices input input_offset) (seq 0 (2 ^ length indices)).

(** The loop at measurement_ops.rs:166-173: index at which the running value first drops to
    zero or below; 0 if it never does. *)
Fixpoint soft_scan (r : R) (i : nat) (input : list C) (input_offset : nat) : nat :=
  match input with
  | [] => 0
  | c :: input' =>
      let r' := (r - norm_sqr c)%R in
      if Rle_dec r' 0 then i + input_offset else soft_scan r' (S i) input' input_offset
  end.

(** measurement_ops.rs:153-176; [random] is the draw of rand::random::<f64>(), in [0,1). *)
Definition soft_measure (random : R) (n : nat) (indices : list nat) (input : list C) (input_offset : nat) : res nat :=
  let r := (random * (if length input <? 2 ^ n then prob_magnitude input else 1))%R in
  let measured_indx := soft_scan r 0 input input_offset in
  ps <- mapM (fun indx => n1 <- chk_sub n 1 ;; chk_sub n1 indx) indices ;;
  Ok (extract_bits measured_indx ps).

Definition sumn (l : list nat) : nat := fold_left Nat.add l 0.

(** The closure at measurement_ops.rs:250-263. *)
Definition state_cell (lower row_mask measured_mask : nat) (p_mult : R) (i : nat) (input : C) : C :=
  let row := i + lower in
  let measured_bits := Nat.land row row_mask in
  if negb (Nat.lxor measured_bits measured_mask =? 0) then RtoC 0 else Cmult input (RtoC p_mult).

(** measurement_ops.rs:220-269.  [measured_prob] is meant to be >= 0 ([sqrt] of a negative
    number, NaN in Rust, is not modelled). *)
Definition measure_state (n : nat) (indices : list nat) (measured : nat * R) (input output : list C)
  (input_offset output_offset : nat) : res (list C) :=
  let '(measured, measured_prob) := measured in
  if Req_EM_T measured_prob 0 then Ok output
  else
    let p_mult := (1 / sqrt measured_prob)%R in
    rows <- mapM (fun index => n1 <- chk_sub n 1 ;; p <- chk_sub n1 index ;; Ok (Nat.shiftl 1 p)) indices ;;
    let row_mask := sumn rows in
    bits <- mapM (fun '(i, index) => n1 <- chk_sub n 1 ;; p <- chk_sub n1 index ;;
                    Ok (Nat.shiftl (Nat.land (Nat.shiftr measured i) 1) p)) (enumerate indices) ;;
    let measured_mask := sumn bits in
    let lower := Nat.max input_offset output_offset in
    let upper := Nat.min (input_offset + length input) (output_offset + length output) in
    input_lower <- chk_sub lower input_offset ;;
    input_upper <- chk_sub upper input_offset ;;
    output_lower <- chk_sub lower output_offset ;;
    output_upper <- chk_sub upper output_offset ;;
    inp <- slice input input_lower input_upper ;;
    out <- slice output output_lower output_upper ;;
    let cells := map (fun '(i, (c, _)) => state_cell lower row_mask measured_mask p_mult i c)
                     (enumerate (combine inp out)) in
    Ok (firstn output_lower output ++ cells ++ skipn output_upper output).

(** measurement_ops.rs:181-186: [MeasuredCondition] as (measured, prob).
    measurement_ops.rs:190-214: returns (measured, prob) and the new output buffer. *)
Definition measure (random : R) (n : nat) (indices : list nat) (input output : list C)
  (offsets : option (nat * nat)) (measured : option (nat * option R)) : res ((nat * R) * list C) :=
  let '(input_offset, output_offset) := match offsets with Some o => o | None => (0, 0) end in
  m <- match measured with
       | Some (m, _) => Ok m
       | None => soft_measure random n indices input input_offset
       end ;;
  p <- match measured with
       | Some (_, Some p) => Ok p
       | _ => measure_prob n m indices input input_offset
       end ;;
  out <- measure_state n indices (m, p) input output input_offset output_offset ;;
  Ok ((m, p), out).
