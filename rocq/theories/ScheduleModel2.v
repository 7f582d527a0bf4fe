(** More parallel loops (feature "parallel"), in the style of ScheduleModel. *)
From Coq Require Import Reals.
From Coquelicot Require Import Complex.
From Verif Require Import Base BitsModel OpsModel MeasureModel ScheduleModel.
Local Open Scope nat_scope.
Local Open Scope res_scope.

(** qip-iterators/src/matrix_ops.rs:183-222 with rows processed in the order [sched]. *)
Definition apply_ops_par {P} (N : num P) (n : nat) (ops : list (mop P)) (input output : list P)
  (input_offset output_offset : nat) (sched : list nat) : res (list P) :=
  mis <- mapM mat_indices ops ;;
  let mi := concat mis in
  par_for_each (fun outputrow outputloc =>
    let row := output_offset + outputrow in
    matrow <- full_to_sub n mi row ;;
    v <- sum_for_ops_cols N matrow ops (row_term N n input row input_offset mi) ;;
    Ok (nadd N outputloc v)) sched output.

(** qip/src/state_ops/measurement_ops.rs:245-268: the cells of the window are rewritten in the order [sched]. *)
Definition cells_par (lower row_mask measured_mask : nat) (p_mult : R) (inp out : list C) (sched : list nat) : res (list C) :=
  par_for_each (fun i _ => c <- idx inp i ;; Ok (state_cell lower row_mask measured_mask p_mult i c)) sched out.

(** qip/src/state_ops/measurement_ops.rs:220-269 with the loop at 265-267 run in the order [sched]; the rest as in
    [MeasureModel.measure_state]. *)
Definition measure_state_par (n : nat) (indices : list nat) (measured : nat * R) (input output : list C)
  (input_offset output_offset : nat) (sched : list nat) : res (list C) :=
  let '(measured, measured_prob) := measured in
  if Req_EM_T measured_prob 0 then Ok output
  else
    let p_mult := (1 / sqrt measured_prob)%R in
    rows <- mapM (fun index => n1 <- chk_sub n 1 ;; p <- chk_sub n1 index ;; Ok (Nat.shiftl 1 p)) indices ;;
    let row_mask := sumn rows in
    bits <- mapM (fun '(i, index) => n1 <- chk_sub n 1 ;; p <- chk_sub n1 index ;;
                    Ok (Nat.shiftl (Nat.land (Nat.shiftr measured i) 1) p)) (enumerate indices) ;;
    let measured_mask := sumn bits in
    let lower := Nat.max input_offset output_offset in
    let upper := Nat.min (input_offset + length input) (output_offset + length output) in
    input_lower <- chk_sub lower input_offset ;;
    input_upper <- chk_sub upper input_offset ;;
    output_lower <- chk_sub lower output_offset ;;
    output_upper <- chk_sub upper output_offset ;;
    inp <- slice input input_lower input_upper ;;
    out <- slice output output_lower output_upper ;;
    cells <- cells_par lower row_mask measured_mask p_mult inp out sched ;;
    Ok (firstn output_lower output ++ cells ++ skipn output_upper output).

(** qip/src/state_ops/measurement_ops.rs:115-127: [into_iter!(0..k).map(f).collect()] fills the positions of the result
    in the order [sched]. *)
Definition measure_probs_par (n : nat) (indices : list nat) (input : list C) (input_offset : nat) (sched : list nat) : res (list R) :=
  par_for_each (fun measured _ => measure_prob n measured indices input input_offset) sched (repeat 0%R (2 ^ length indices)).
