(** Amplitudes in IEEE-754 arithmetic: the same code with [P = f32] or [P = f64] instead of exact
    numbers.  [prec] and [emax] are 24, 128 for f32 and 53, 1024 for f64; rounding is to nearest,
    ties to even.  NaN payloads are not modelled (the code never looks at them). *)
From Coq Require Import ZArith Reals.
From Flocq Require Import IEEE754.BinarySingleNaN.
From Flocq Require Core.Core.
From Verif Require Import Base BitsModel OpsModel StateOpsModel MeasureModel.
Local Open Scope nat_scope.
Local Open Scope res_scope.

Definition fl (prec emax : Z) : Type := binary_float prec emax.

Section Floats.
Context {prec emax : Z} {Hp : FLX.Prec_gt_0 prec} {He : Prec_lt_emax prec emax}.
Local Notation fl := (fl prec emax).

Definition fzero : fl := B754_zero false.
Definition fone : fl := Bone.
Definition fadd : fl -> fl -> fl := Bplus mode_NE.
Definition fsub : fl -> fl -> fl := Bminus mode_NE.
Definition fmul : fl -> fl -> fl := Bmult mode_NE.
Definition fdiv : fl -> fl -> fl := Bdiv mode_NE.
Definition fsqrt : fl -> fl := Bsqrt mode_NE.
Definition fneg : fl -> fl := Bopp.
(** [x == 0.0] ([Zero::is_zero]) *)
Definition fis0 (x : fl) : bool := Beqb x fzero.
(** [x <= 0.0] *)
Definition fle0 (x : fl) : bool := match Bcompare x fzero with Some Lt | Some Eq => true | _ => false end.

(** num_complex: [Complex<P>], [Add], [Mul], [Neg], [Mul<P>], [norm_sqr], [is_zero]. *)
Definition fc : Type := fl * fl.
Definition fc0 : fc := (fzero, fzero).
Definition fc1 : fc := (fone, fzero).
Definition fci : fc := (fzero, fone).
Definition fcadd (a b : fc) : fc := (fadd (fst a) (fst b), fadd (snd a) (snd b)).
Definition fcmul (a b : fc) : fc :=
  (fsub (fmul (fst a) (fst b)) (fmul (snd a) (snd b)), fadd (fmul (fst a) (snd b)) (fmul (snd a) (fst b))).
Definition fcneg (a : fc) : fc := (fneg (fst a), fneg (snd a)).
Definition fcscale (a : fc) (t : fl) : fc := (fmul (fst a) t, fmul (snd a) t).
Definition fnorm_sqr (a : fc) : fl := fadd (fmul (fst a) (fst a)) (fmul (snd a) (snd a)).
Definition fcis0 (a : fc) : bool := fis0 (fst a) && fis0 (snd a).

Definition FN : num fc := mkNum fc fc0 fc1 fcadd fcmul fcis0.
(** Sums of [P]: from +0.0 (recent versions of the standard library start from -0.0, which changes
    only the sign of a zero result). *)
Definition fsum (l : list fl) : fl := fold_left fadd l fzero.
(** Sums with the "parallel" feature: pieces are added separately, each from 0.0, in any way. *)
Inductive fsums : list fl -> fl -> Prop :=
| sums_nil : fsums [] fzero
| sums_one x : fsums [x] x
| sums_app l1 l2 s1 s2 : fsums l1 s1 -> fsums l2 s2 -> fsums (l1 ++ l2) (fadd s1 s2).

(** What the platform supplies: [cos] and [sin] of the type, and the values of the constants
    [P::from(FRAC_1_SQRT_2)], [P::from(FRAC_PI_4)], [P::from(0.5)]. *)
Record platform := mkPlatform { p_cos : fl -> fl; p_sin : fl -> fl; p_sqrt_half : fl; p_pi_4 : fl; p_half : fl }.

Section Platform.
Context (pf : platform).

(** num_complex [Complex::from_polar(P::one(), t)] *)
Definition fpolar (t : fl) : fc := (fmul fone (p_cos pf t), fmul fone (p_sin pf t)).

(** builder.rs:119-144 with the numbers in [P].  A rotation carries the angle as it is used at
    builder.rs:469-475, after the conversion of a ratio to [P]. *)
Inductive funitary :=
| FX | FY | FZ | FH | FS | FT | FCNOT | FSWAP
| FRz (theta : fl) | FMAT (data : list fc) | FPhase.
Inductive fobj := FUnit (u : funitary) | FMeas | FStoch.

(** builder.rs:422-488 *)
Definition funitary_op (indices : list nat) (u : funitary) : res (mop fc) :=
  let l := fc1 in
  let o := fc0 in
  let i := fci in
  match u with
  | FX => make_matrix_op indices [o; l; l; o]
  | FY => make_matrix_op indices [o; fcneg i; i; o]
  | FZ => make_matrix_op indices [l; o; o; fcneg l]
  | FH => let nl := fcscale l (p_sqrt_half pf) in make_matrix_op indices [nl; nl; nl; fcneg nl]
  | FS => make_matrix_op indices [l; o; o; i]
  | FT => make_matrix_op indices [l; o; o; fpolar (p_pi_4 pf)]
  | FCNOT =>
      c <- idx indices 0 ;;
      rest <- slice indices 1 (length indices) ;;
      op <- make_matrix_op rest [o; l; l; o] ;;
      make_control_op [c] op
  | FMAT data => make_matrix_op indices data
  | FSWAP =>
      let n := length indices in
      if negb (n mod 2 =? 0) then Panic PAssert
      else make_swap_op (firstn (n / 2) indices) (skipn (n / 2) indices)
  | FRz theta =>
      let h_theta := fmul theta (p_half pf) in
      make_matrix_op indices [fpolar (fneg h_theta); o; o; fpolar h_theta]
  | FPhase => Panic PUnreachable
  end.

(** measurement_ops.rs:11-13 *)
Definition fprob_magnitude (input : list fc) : fl := fsum (map fnorm_sqr input).

(** measurement_ops.rs:86-108 *)
Definition fprob_item (n template : nat) (remaining : list nat) (input_offset : nat) (f : nat -> fc) (r : nat)
  : res (option fl) :=
  tmp_index <- scatter n r remaining ;;
  let index := tmp_index + template in
  if index <? input_offset then Ok None
  else
    let amp := f (index - input_offset) in
    if fcis0 amp then Ok None else Ok (Some (fnorm_sqr amp)).

(** measurement_ops.rs:65-111 and 44-58: the numbers that are added. *)
Definition fmeasure_items (n measured : nat) (indices : list nat) (input : list fc) (input_offset : nat) : res (list fl) :=
  template <- scatter n measured indices ;;
  let remaining := filter (fun i => negb (existsb (Nat.eqb i) indices)) (seq 0 n) in
  items <- mapM (fprob_item n template remaining input_offset
                  (fun index => if length input <=? index then fc0 else nth index input fc0))
             (seq 0 (2 ^ length remaining)) ;;
  Ok (filter_somes items).
(** measurement_ops.rs:112; the sum is taken in sequence from +0.0. *)
Definition fmeasure_prob (n measured : nat) (indices : list nat) (input : list fc) (input_offset : nat) : res fl :=
  items <- fmeasure_items n measured indices input input_offset ;; Ok (fsum items).

(** measurement_ops.rs:115-127 *)
Definition fmeasure_probs (n : nat) (indices : list nat) (input : list fc) (input_offset : nat) : res (list fl) :=
  mapM (fun measured => fmeasure_prob n measured indices input input_offset) (seq 0 (2 ^ length indices)).

(** measurement_ops.rs:166-173 *)
Fixpoint fsoft_scan (r : fl) (i : nat) (input : list fc) (input_offset : nat) : nat :=
  match input with
  | [] => 0
  | c :: input' =>
      let r' := fsub r (fnorm_sqr c) in
      if fle0 r' then i + input_offset else fsoft_scan r' (S i) input' input_offset
  end.

(** measurement_ops.rs:153-176; [random] is [P::from(rand::random::<f64>())]. *)
Definition fsoft_measure (random : fl) (n : nat) (indices : list nat) (input : list fc) (input_offset : nat) : res nat :=
  let r := fmul random (if length input <? 2 ^ n then fprob_magnitude input else fone) in
  let measured_indx := fsoft_scan r 0 input input_offset in
  ps <- mapM (fun indx => n1 <- chk_sub n 1 ;; chk_sub n1 indx) indices ;;
  Ok (extract_bits measured_indx ps).

(** measurement_ops.rs:250-263 *)
Definition fstate_cell (lower row_mask measured_mask : nat) (p_mult : fl) (i : nat) (input : fc) : fc :=
  let row := i + lower in
  let measured_bits := Nat.land row row_mask in
  if negb (Nat.lxor measured_bits measured_mask =? 0) then fc0 else fcscale input p_mult.

(** measurement_ops.rs:220-269 *)
Definition fmeasure_state (n : nat) (indices : list nat) (measured : nat * fl) (input output : list fc)
  (input_offset output_offset : nat) : res (list fc) :=
  let '(measured, measured_prob) := measured in
  if fis0 measured_prob then Ok output
  else
    let p_mult := fdiv fone (fsqrt measured_prob) in
    rows <- mapM (fun index => n1 <- chk_sub n 1 ;; p <- chk_sub n1 index ;; Ok (Nat.shiftl 1 p)) indices ;;
    let row_mask := sumn rows in
    bits <- mapM (fun '(i, index) => n1 <- chk_sub n 1 ;; p <- chk_sub n1 index ;;
                    Ok (Nat.shiftl (Nat.land (Nat.shiftr measured i) 1) p)) (enumerate indices) ;;
    let measured_mask := sumn bits in
    let lower := Nat.max input_offset output_offset in
    let upper := Nat.min (input_offset + length input) (output_offset + length output) in
    input_lower <- chk_sub lower input_offset ;;
    input_upper <- chk_sub upper input_offset ;;
    output_lower <- chk_sub lower output_offset ;;
    output_upper <- chk_sub upper output_offset ;;
    inp <- slice input input_lower input_upper ;;
    out <- slice output output_lower output_upper ;;
    let cells := map (fun '(i, (c, _)) => fstate_cell lower row_mask measured_mask p_mult i c)
                     (enumerate (combine inp out)) in
    Ok (firstn output_lower output ++ cells ++ skipn output_upper output).

(** measurement_ops.rs:190-214 as called at builder.rs:490-494 (no offsets, nothing requested). *)
Definition fmeasure (random : fl) (n : nat) (indices : list nat) (input output : list fc) : res ((nat * fl) * list fc) :=
  m <- fsoft_measure random n indices input 0 ;;
  p <- fmeasure_prob n m indices input 0 ;;
  out <- fmeasure_state n indices (m, p) input output 0 0 ;;
  Ok ((m, p), out).

(** builder.rs:281-288 *)
Inductive fresult := FRSingle (value : nat) (prob : fl) | FRStochastic (probs : list fl).

(** builder.rs:412-503 *)
Definition fsim_state : Type := list fc * list fc * list fresult.
Definition fsim_step (n : nat) (draws : nat -> fl) (s : fsim_state) (e : list nat * fobj) : res fsim_state :=
  let '(state, arena, ms) := s in
  let '(indices, object) := e in
  '(arena, ms) <-
    match object with
    | FUnit FPhase => Ok (arena, ms)
    | FUnit u =>
        op <- funitary_op indices u ;;
        arena <- apply_op_overwrite FN n op state arena 0 0 ;;
        Ok (arena, ms)
    | FMeas =>
        '((measured, p), arena) <- fmeasure (draws (length ms)) n indices state arena ;;
        Ok (arena, ms ++ [FRSingle measured p])
    | FStoch =>
        ps <- fmeasure_probs n indices state 0 ;;
        Ok (arena, ms ++ [FRStochastic ps])
    end ;;
  Ok (arena, state, ms).

(** builder.rs:388-507 from the computed start index on (lines 396-407 do not involve [P]). *)
Definition fsimulate (n start : nat) (p : list (list nat * fobj)) (draws : nat -> fl)
  : res (list fc * list fresult) :=
  let zeros := repeat fc0 (2 ^ n) in
  _ <- idx zeros start ;;
  let state := upd_nth start fc1 zeros in
  match foldM (fsim_step n draws) p (state, zeros, []) with
  | Ok (state, _, ms) => Ok (state, ms)
  | Err _ => Panic PUnwrap
  | Panic p => Panic p
  end.

End Platform.
End Floats.
Arguments fc prec emax : clear implicits.
Arguments platform prec emax : clear implicits.
Arguments funitary prec emax : clear implicits.
Arguments fobj prec emax : clear implicits.
Arguments fresult prec emax : clear implicits.
