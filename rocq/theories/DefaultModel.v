(** The gate objects of the trait [CliffordTBuilder], qip/src/builder_traits.rs:293-375, which
    a builder that does not override them uses. [LocalBuilder] does override them. *)
From Coq Require Import Reals.
From Coquelicot Require Import Complex.
From Verif Require Import Base BuilderModel SimModel.
Local Open Scope nat_scope.

(** builder_traits.rs:277-287 with builder.rs:511-516 *)
Definition matrix_to_circuitobject (n : nat) (data : list C) : cobj := mkCO n (OUnit (UMAT data)).
(** builder_traits.rs:293-303 *)
Definition default_x : cobj := matrix_to_circuitobject 1 [RtoC 0; RtoC 1; RtoC 1; RtoC 0].
(** builder_traits.rs:307-317 *)
Definition default_y : cobj := matrix_to_circuitobject 1 [RtoC 0; Copp Ci; Ci; RtoC 0].
(** builder_traits.rs:321-331 *)
Definition default_z : cobj := matrix_to_circuitobject 1 [RtoC 1; RtoC 0; RtoC 0; Copp (RtoC 1)].
(** builder_traits.rs:335-338; FRAC_1_SQRT_2 is taken to be exact. *)
Definition default_h : cobj :=
  let l := Cmult (RtoC 1) (RtoC (/ sqrt 2)) in matrix_to_circuitobject 1 [l; l; l; Copp l].
(** builder_traits.rs:342-352 *)
Definition default_s : cobj := matrix_to_circuitobject 1 [RtoC 1; RtoC 0; RtoC 0; Ci].
(** builder_traits.rs:356-366; FRAC_PI_4 is taken to be exact. *)
Definition default_t : cobj := matrix_to_circuitobject 1 [RtoC 1; RtoC 0; RtoC 0; cis (PI / 4)].
(** builder_traits.rs:371-375 *)
Definition default_cnot : cobj :=
  let l := RtoC 1 in let o := RtoC 0 in
  matrix_to_circuitobject 2 [l; o; o; o; o; l; o; o; o; o; o; l; o; o; l; o].
