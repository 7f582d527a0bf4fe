(** Bit twiddling of qip-iterators/src/utils.rs, qip-iterators/src/matrix_ops.rs and
    qip/src/utils.rs.  [usize] is [nat] unless noted (no overflow). *)
From Coq Require Import NArith.
From Verif Require Import Base.
Local Open Scope res_scope.

(** qip-iterators/src/utils.rs:3-6 *)
Definition get_flat_index (nindices i j : nat) : nat := i * 2 ^ nindices + j.

(** qip-iterators/src/utils.rs:35-42 *)
Definition set_bit (num bit_index : nat) (value : bool) : nat :=
  let v := Nat.shiftl 1 bit_index in
  if value then Nat.lor num v else Nat.ldiff num v.

(** qip-iterators/src/utils.rs:53-55 *)
Definition get_bit (num bit_index : nat) : bool :=
  negb (Nat.land (Nat.shiftr num bit_index) 1 =? 0).

(** [usize::reverse_bits] on 64-bit words: bit [i] goes to bit [63-i]. *)
Definition reverse_bits64 (num : N) : N :=
  fold_left (fun acc i =>
    if N.testbit num (N.of_nat i) then N.lor acc (N.shiftl 1 (N.of_nat (63 - i))) else acc)
    (seq 0 64) 0%N.

(** qip-iterators/src/utils.rs:20-23, on 64-bit words.  [64 - n] underflows for n > 64; for
    n = 0 the shift amount is 64, which panics in a debug build. *)
Definition flip_bits64 (n : nat) (num : N) : res N :=
  lz <- chk_sub 64 n ;;
  if 64 <=? lz then Panic PUnderflow
  else Ok (N.shiftr (reverse_bits64 num) (N.of_nat lz)).

(** [flip_bits] as used on indices held in [nat]. *)
Definition flip_bits (n num : nat) : res nat :=
  r <- flip_bits64 n (N.of_nat num) ;; Ok (N.to_nat r).

(** qip/src/utils.rs:55-60 *)
Definition extract_bits (num : nat) (indices : list nat) : nat :=
  fold_left (fun acc '(i, index) =>
    let bit := Nat.land (Nat.shiftr num index) 1 in
    Nat.lor acc (Nat.shiftl bit i)) (enumerate indices) 0.

(** qip/src/utils.rs:21-43: the loop body is run for i = 0..n-1 with the four mutable variables
    threaded. *)
Definition entwine_step (st : nat * nat * nat * nat) (i : nat) : nat * nat * nat * nat :=
  let '(selector, off_bits, on_bits, result) := st in
  if Nat.land selector 1 =? 0 then
    (Nat.shiftr selector 1, Nat.shiftr off_bits 1, on_bits,
     Nat.lor result (Nat.shiftl (Nat.land off_bits 1) i))
  else
    (Nat.shiftr selector 1, off_bits, Nat.shiftr on_bits 1,
     Nat.lor result (Nat.shiftl (Nat.land on_bits 1) i)).

Definition entwine_bits (n selector off_bits on_bits : nat) : nat :=
  snd (fold_left entwine_step (seq 0 n) (selector, off_bits, on_bits, 0)).

(** qip-iterators/src/matrix_ops.rs:12-21; [n - 1 - indx] panics on underflow. *)
Definition full_to_sub_step (n nindices full_index acc : nat) (e : nat * nat) : res nat :=
  let '(j, indx) := e in
  n1 <- chk_sub n 1 ;; p <- chk_sub n1 indx ;;
  k1 <- chk_sub nindices 1 ;; q <- chk_sub k1 j ;;
  Ok (set_bit acc q (get_bit full_index p)).
Definition full_to_sub (n : nat) (mat_indices : list nat) (full_index : nat) : res nat :=
  foldM (full_to_sub_step n (length mat_indices) full_index) (enumerate mat_indices) 0.

(** qip-iterators/src/matrix_ops.rs:24-30 *)
Definition sub_to_full_step (n nindices sub_index acc : nat) (e : nat * nat) : res nat :=
  let '(j, indx) := e in
  k1 <- chk_sub nindices 1 ;; q <- chk_sub k1 j ;;
  n1 <- chk_sub n 1 ;; p <- chk_sub n1 indx ;;
  Ok (set_bit acc p (get_bit sub_index q)).
Definition sub_to_full (n : nat) (mat_indices : list nat) (sub_index base : nat) : res nat :=
  foldM (sub_to_full_step n (length mat_indices) sub_index) (enumerate mat_indices) base.

(** qip/src/state_ops/matrix_ops.rs:226-242 *)
Definition select_coords_step (n nindices : nat) (indices : list nat) (row col : nat)
  (acc : nat * nat) (j : nat) : res (nat * nat) :=
  let '(x, y) := acc in
  indx <- idx indices j ;;
  n1 <- chk_sub n 1 ;; p <- chk_sub n1 indx ;;
  k1 <- chk_sub nindices 1 ;; q <- chk_sub k1 j ;;
  Ok (set_bit x q (get_bit row p), set_bit y q (get_bit col p)).
Definition select_matrix_coords (n nindices : nat) (indices : list nat) (row col : nat)
  : res (nat * nat) :=
  foldM (select_coords_step n nindices indices row col) (seq 0 nindices) (0, 0).
