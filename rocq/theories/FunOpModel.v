(** FunctionOpIterator: qip-iterators/src/iterators/qubit_iterators.rs:221-272.  The closure is a function of
    the input value that does not panic. *)
From Verif Require Import Base BitsModel OpsModel.
Local Open Scope res_scope.
Section Fun.
Context {P : Type}.
(** qubit_iterators.rs:262-270.  State: [last_col]; the other fields do not change. *)
Definition fun_next (output_n x fx_xor_y : nat) (theta : P) (last_col : option nat) : res (option (nat * P) * option nat) :=
  let last_col' := match last_col with Some _ => None | None => Some (Nat.lor (Nat.shiftl x output_n) fx_xor_y) end in
  Ok (option_map (fun c => (c, theta)) last_col', last_col').
(** qubit_iterators.rs:235-253.  Shifting a [usize] by 64 or more panics in a debug build. *)
Definition fun_iter (row input_n output_n : nat) (f : nat -> nat * P) : res (@iter P) :=
  x <- (if 64 <=? output_n then Panic PUnderflow else Ok (Nat.shiftr row output_n)) ;;
  v <- flip_bits input_n x ;;
  let '(fx, theta) := f v in
  let y := Nat.land row (Nat.ones output_n) in
  w <- flip_bits output_n fx ;;
  Ok (mkIter (fun_next output_n x (Nat.lxor y w) theta) None).
End Fun.
