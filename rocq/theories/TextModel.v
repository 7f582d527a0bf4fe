(** The texts of the programs of boolean_circuits/arithmetic.rs: their lines as written, with the names of the
    functions called.  [compile] puts functions in for the names. *)
From Verif Require Import Base BuilderModel ProgramModel ArithModel.

(** The functions that the programs of arithmetic.rs name. *)
Inductive fname := Nx | Nadd | Nadd_inv | Nadd_mod | Ntimes | Ntimes_inv | Nsquare | Nsquare_inv | Nexp | Nrshift | Nlshift | Ncopy | Ncopy_inv.
(** One line: control or not (with mask or not), name, arguments (qip-macros/src/lib.rs:91-365). *)
Record tline := Tl { t_ctl : option (option nat); t_name : fname; t_args : list (list arg) }.
Definition compile (F : fname -> nat -> list reg -> M (list reg)) (t : tline) : line := mkLine (t_ctl t) (F (t_name t)) (t_args t).

(** arithmetic.rs:118-126; ra, rb, rm, rt, rc *)
Definition add_mod_text (n : nat) : list tline :=
  [Tl None Nadd [whole 4; whole 0; whole 1];
   Tl None Nadd_inv [whole 4; whole 2; whole 1];
   Tl (Some None) Nx [part 1 [n]; whole 3];
   Tl (Some None) Nadd [whole 3; whole 4; whole 2; whole 1];
   Tl None Nadd_inv [whole 4; whole 0; whole 1];
   Tl (Some (Some 0)) Nx [part 1 [n]; whole 3];
   Tl None Nadd [whole 4; whole 0; whole 1]].
(** arithmetic.rs:166-172; ra, rb, rm, rp, rt, rc *)
Definition times_first_text (n indx : nat) : list tline :=
  [Tl None Nadd_inv [whole 5; whole 2; whole 0];
   Tl (Some None) Nx [part 0 [n]; part 4 [indx]];
   Tl (Some None) Nadd [part 4 [indx]; whole 5; whole 2; whole 0];
   Tl (Some None) Nadd_mod [part 1 [indx]; part 0 (seq 0 n); whole 3; whole 2];
   Tl None Nrshift [whole 0]].
(** arithmetic.rs:177-182; ra, rm, rt, rc *)
Definition times_second_text (n indx : nat) : list tline :=
  [Tl None Nlshift [whole 0];
   Tl (Some None) Nadd_inv [part 2 [indx]; whole 3; whole 1; whole 0];
   Tl (Some None) Nx [part 0 [n]; part 2 [indx]];
   Tl None Nadd [whole 3; whole 1; whole 0]].
(** arithmetic.rs:275-279; ra, rm, rs, rt *)
Definition square_text (n : nat) : list tline :=
  [Tl None Ncopy [part 0 (seq 0 n); whole 3];
   Tl None Ntimes [whole 0; whole 3; whole 1; whole 2];
   Tl None Ncopy_inv [part 0 (seq 0 n); whole 3]].
(** arithmetic.rs:317-320; ra, rb, rm, rp, re *)
Definition exp_one_text : list tline :=
  [Tl (Some (Some 0)) Ncopy [part 1 [0]; whole 3; whole 4];
   Tl (Some None) Ntimes [part 1 [0]; whole 0; whole 3; whole 2; whole 4]].
(** arithmetic.rs:325-333; ra, rb, rm, rp, re, ru, rv *)
Definition exp_text (k : nat) : list tline :=
  [Tl (Some (Some 0)) Ncopy [part 1 [0]; whole 3; whole 6];
   Tl (Some None) Ntimes [part 1 [0]; whole 0; whole 3; whole 2; whole 4];
   Tl None Nsquare [whole 0; whole 2; whole 5];
   Tl None Nexp [whole 5; part 1 (seq 1 (k - 1)); whole 2; whole 6; whole 4];
   Tl None Nsquare_inv [whole 0; whole 2; whole 5];
   Tl (Some None) Ntimes_inv [part 1 [0]; whole 0; whole 3; whole 2; whole 4];
   Tl (Some (Some 0)) Ncopy_inv [part 1 [0]; whole 3; whole 6]].

(** The functions of arithmetic.rs and program_ops.rs with these names; [exp_mod] calls itself on one exponent qubit
    less. *)
Definition code (fuel : nat) (f : fname) : nat -> list reg -> M (list reg) :=
  match f with
  | Nx => op_x | Nadd => add | Nadd_inv => add_inv | Nadd_mod => add_mod | Ntimes => times_mod | Ntimes_inv => times_mod_inv
  | Nsquare => square_mod | Nsquare_inv => square_mod_inv | Nexp => exp_mod_fuel fuel
  | Nrshift => rshift | Nlshift => lshift | Ncopy => copy | Ncopy_inv => copy_inv
  end.
