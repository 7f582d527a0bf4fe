(** The [Debug] text of operators: qip-iterators/src/iterators/ops.rs:159-179. *)
From Coq Require Import String DecimalString.
From Verif Require Import Base OpsModel.
Local Open Scope nat_scope.
Local Open Scope res_scope.

(** [usize::to_string] *)
Definition dec_string (n : nat) : string := NilZero.string_of_uint (Nat.to_uint n).
(** [slice::join] with ", " *)
Definition join (l : list string) : string := String.concat ", " l.
(** ops.rs:173-178 *)
Definition named (name : string) (indices : list nat) : string :=
  (name ++ "[" ++ join (map dec_string indices) ++ "]")%string.
(** ops.rs:160-178 *)
Fixpoint debug {P} (op : mop P) : res string :=
  match op with
  | Matrix indices _ => Ok (named "Matrix" indices)
  | Sparse indices _ => Ok (named "SparseMatrix" indices)
  | Swap _ indices => Ok (named "Swap" indices)
  | Control num_c indices op =>
      inner <- debug op ;;
      c <- slice indices 0 num_c ;;
      Ok (named ("C(" ++ inner ++ ")")%string c)
  end.
