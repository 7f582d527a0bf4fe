(** Simulation: builder.rs:281-311 (results) and 388-507 ([calculate_state_with_init]). *)
From Coq Require Import Reals QArith Qreals.
From Coquelicot Require Import Complex.
From Verif Require Import Base OpsModel StateOpsModel Instances MeasureModel BuilderModel.
Local Open Scope nat_scope.
Local Open Scope res_scope.

(** builder.rs:281-288 *)
Inductive mresult := RSingle (value : nat) (prob : R) | RStochastic (probs : list R).

(** builder.rs:298-311; the list is [Measurements::measurements]. *)
Definition get_measurement (ms : list mresult) (handle : nat) : res (nat * R) :=
  m <- idx ms handle ;;
  match m with RSingle v p => Ok (v, p) | RStochastic _ => Panic PUnreachable end.
Definition get_stochastic_measurement (ms : list mresult) (handle : nat) : res (list R) :=
  m <- idx ms handle ;;
  match m with RSingle _ _ => Panic PUnreachable | RStochastic ps => Ok ps end.

(** [Complex::from_polar(1, t)] *)
Definition cis (t : R) : C := (cos t, sin t).

(** builder.rs:469-475: a ratio is used as it stands (radians, no factor pi). *)
Definition rot_angle (t : rot) : R := match t with Floating p => p | PiRational q => Q2R q end.

(** builder.rs:422-488: the operator of a unitary object.
    FRAC_1_SQRT_2 and FRAC_PI_4 are taken to be exact. *)
Definition unitary_op (indices : list nat) (u : unitary) : res (mop C) :=
  let l := RtoC 1 in
  let o := RtoC 0 in
  match u with
  | UX => make_matrix_op indices [o; l; l; o]
  | UY => make_matrix_op indices [o; Copp Ci; Ci; o]
  | UZ => make_matrix_op indices [l; o; o; Copp l]
  | UH => let nl := Cmult (RtoC 1) (RtoC (/ sqrt 2)) in make_matrix_op indices [nl; nl; nl; Copp nl]
  | US => make_matrix_op indices [l; o; o; Ci]
  | UT => make_matrix_op indices [l; o; o; cis (PI / 4)]
  | UCNOT =>
      c <- idx indices 0 ;;
      rest <- slice indices 1 (length indices) ;;
      op <- make_matrix_op rest [o; l; l; o] ;;
      make_control_op [c] op
  | UMAT data => make_matrix_op indices data
  | USWAP =>
      let n := length indices in
      if negb (n mod 2 =? 0) then Panic PAssert
      else make_swap_op (firstn (n / 2) indices) (skipn (n / 2) indices)
  | URz theta =>
      let h := (rot_angle theta * / 2)%R in
      make_matrix_op indices [cis (- h); o; o; cis h]
  | UPhase _ => Panic PUnreachable
  end.

(** The two buffers and the results so far. *)
Definition sim_state : Type := list C * list C * list mresult.

(** builder.rs:412-503: one pipeline entry.  [draws k] is the random number used by the
    [k]-th measurement.  The buffers are swapped at the end, whatever was done. *)
Definition sim_step (n : nat) (draws : nat -> R) (s : sim_state) (e : list nat * cobj) : res sim_state :=
  let '(state, arena, ms) := s in
  let '(indices, co) := e in
  '(arena, ms) <-
    match co_obj co with
    | OUnit (UPhase _) => Ok (arena, ms)
    | OUnit u =>
        op <- unitary_op indices u ;;
        arena <- apply_op_overwrite CN n op state arena 0 0 ;;
        Ok (arena, ms)
    | OMeas MSingle =>
        '((measured, p), arena) <- measure (draws (length ms)) n indices state arena None None ;;
        Ok (arena, ms ++ [RSingle measured p])
    | OMeas MStoch =>
        ps <- measure_probs n indices state 0 ;;
        Ok (arena, ms ++ [RStochastic ps])
    end ;;
  Ok (arena, state, ms).

(** builder.rs:396-407: [initial_index |= bit << index]. *)
Definition init_bits (n : nat) (rx : reg * nat) : res (list (nat * nat)) :=
  let '(r, x) := rx in
  let rn := length r in
  mapM (fun '(ri, i) =>
    n1 <- chk_sub n 1 ;; p <- chk_sub n1 i ;;
    r1 <- chk_sub rn 1 ;; sh <- chk_sub r1 ri ;;
    Ok (p, Nat.land (Nat.shiftr x sh) 1)) (enumerate (rev r)).
Definition initial_index (n : nat) (it : list (reg * nat)) : res nat :=
  bits <- mapM (init_bits n) it ;;
  Ok (fold_left (fun acc '(index, bit) => Nat.lor acc (Nat.shiftl bit index)) (concat bits) 0).

(** builder.rs:388-507.  An [Err] inside the fold becomes a panic by [unwrap]. *)
Definition calculate_state_with_init (b : builder) (it : list (reg * nat)) (draws : nat -> R)
  : res (list C * list mresult) :=
  let n := bn b in
  let zeros := repeat (RtoC 0) (2 ^ n) in
  i <- initial_index n it ;;
  _ <- idx zeros i ;;
  let state := upd_nth i (RtoC 1) zeros in
  match foldM (sim_step n draws) (pipeline b) (state, zeros, []) with
  | Ok (state, _, ms) => Ok (state, ms)
  | Err _ => Panic PUnwrap
  | Panic p => Panic p
  end.

(** builder_traits.rs:212-214 *)
Definition calculate_state (b : builder) (draws : nat -> R) : res (list C * list mresult) :=
  calculate_state_with_init b [] draws.

(** builder_traits.rs:656-665, with [f] taking the state and the simulation succeeding. *)
Definition make_circuit_matrix (b : builder) (r : reg) (draws : nat -> R) : res (list (list C)) :=
  mapM (fun indx => '(st, _) <- calculate_state_with_init b [(r, indx)] draws ;; Ok st) (seq 0 (2 ^ length r)).
