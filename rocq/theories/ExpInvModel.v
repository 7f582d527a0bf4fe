(** The inverse that [#[invert]] adds to exp_mod. *)
From Verif Require Import Base BuilderModel ProgramModel ArithModel.
Local Open Scope nat_scope.

(** arithmetic.rs:287-288: the function exp_mod_inv that #[invert] writes for exp_mod.  Like the others of its
    kind it records exp_mod on a new builder without conditions. *)
Definition exp_mod_inv (d : nat) (rs : list reg) : M (list reg) := inv_macro d rs (exp_mod 0).
