(** Sizes that a Rust vector can have: an allocation has at most 2^63 - 1 bytes. *)
From Coquelicot Require Import Complex.
From Verif Require Import Base OpsModel BuilderModel.
Local Open Scope nat_scope.

(** The vectors of an operator are shorter than 2^63. *)
Fixpoint small_op {P} (op : mop P) : Prop :=
  match op with
  | Matrix _ data => length data < 2 ^ 63
  | Sparse _ rows => forall r, In r rows -> length r < 2 ^ 63
  | Swap _ _ => True
  | Control _ _ op' => small_op op'
  end.
(** So are the matrices in a pipeline. *)
Definition small_entry (e : list nat * cobj) : Prop :=
  match co_obj (snd e) with OUnit (UMAT d) => length d < 2 ^ 63 | _ => True end.
