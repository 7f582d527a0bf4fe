(** Contract of Rust's [Eq] and [Hash]. *)
From Coq Require Import List SpecFloat.
From Verif Require Import Base HashModel.
Import ListNotations.

(** A hasher: a state, and what each kind of write does to it. *)
Definition hashed {S T} (feed : S -> T -> S) (init : S) (ws : list T) : S := fold_left feed ws init.
(** All floats in an object. *)
Definition rot_floats (t : frot) : list spec_float := match t with FFloating f => [f] | FPiRational _ => [] end.
Definition floats (o : fobj) : list spec_float :=
  match o with
  | FUnit (FRz t) | FUnit (FPhase t) => rot_floats t
  | FUnit (FMAT d) => flat_map (fun c => [fst c; snd c]) d
  | _ => []
  end.
Definition is_nan_f (f : spec_float) : Prop := f = S754_nan.
Definition is_zero_f (f : spec_float) : Prop := exists s, f = S754_zero s.
