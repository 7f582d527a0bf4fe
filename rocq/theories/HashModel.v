(** qip/src/builder.rs:166-268: equality and hashing of circuit objects, over IEEE floats.

    The other files take precisions to be real numbers; here they are [spec_float], the
    standard library's formalisation of IEEE 754 (both f32 and f64 are instances), because
    signed zeros and NaN matter.  Two parts of the libraries used are parameters: how a float is
    displayed by [format!("{}", f)], and what num_rational's [Hash for Ratio<i64>] writes. *)
From Coq Require Import ZArith QArith List Bool SpecFloat String.
From Verif Require Import Base BuilderModel.
Import ListNotations.
Local Open Scope nat_scope.

(** builder.rs:148-153 *)
Inductive frot := FFloating (f : spec_float) | FPiRational (q : Q).
(** builder.rs:119-144; a complex entry is its real and imaginary part. *)
Inductive funitary :=
| FX | FY | FZ | FH | FS | FT | FCNOT | FSWAP
| FRz (t : frot) | FMAT (data : list (spec_float * spec_float)) | FPhase (t : frot).
(** builder.rs:110-115 *)
Inductive fobj := FUnit (u : funitary) | FMeas (m : mobj).

(** Vec's equality. *)
Fixpoint all2 {A} (f : A -> A -> bool) (a b : list A) : bool :=
  match a, b with [], [] => true | x :: a, y :: b => f x y && all2 f a b | _, _ => false end.
(** num_complex: derived equality. *)
Definition eq_complex (a b : spec_float * spec_float) : bool := SFeqb (fst a) (fst b) && SFeqb (snd a) (snd b).
(** builder.rs:195-203 *)
Definition eq_rot (a b : frot) : bool :=
  match a, b with
  | FFloating x, FFloating y => SFeqb x y
  | FPiRational p, FPiRational q => Qeq_bool p q
  | _, _ => false
  end.
(** builder.rs:166-183 *)
Definition eq_unitary (a b : funitary) : bool :=
  match a, b with
  | FX, FX | FY, FY | FZ, FZ | FH, FH | FS, FS | FT, FT | FCNOT, FCNOT | FSWAP, FSWAP => true
  | FRz x, FRz y => eq_rot x y
  | FMAT x, FMAT y => all2 eq_complex x y
  | FPhase x, FPhase y => eq_rot x y
  | _, _ => false
  end.
(** builder.rs:271: derived. *)
Definition eq_mobj (a b : mobj) : bool := match a, b with MSingle, MSingle | MStoch, MStoch => true | _, _ => false end.
(** builder.rs:185-193 *)
Definition eq_fobj (a b : fobj) : bool :=
  match a, b with
  | FUnit x, FUnit y => eq_unitary x y
  | FMeas x, FMeas y => eq_mobj x y
  | _, _ => false
  end.

(** The calls made on the hasher, in order. *)
Inductive write := W8 (z : Z) | W64 (z : Z) | WStr (s : string) | WDiscr (k : nat).
Section Hash.
Context (show : spec_float -> string) (ratio_writes : Q -> list write).
(** builder.rs:211-213 *)
Definition hash_p (f : spec_float) : list write := [WStr (show f)].
(** builder.rs:260-268 *)
Definition hash_rot (t : frot) : list write :=
  match t with FFloating f => hash_p f | FPiRational q => ratio_writes q end.
(** builder.rs:230-258 *)
Definition hash_unitary (u : funitary) : list write :=
  match u with
  | FX => [W8 0] | FY => [W8 1] | FZ => [W8 2] | FH => [W8 3] | FS => [W8 4] | FT => [W8 5]
  | FCNOT => [W8 6] | FSWAP => [W8 7]
  | FRz t => W8 8 :: hash_rot t
  | FPhase t => W8 9 :: hash_rot t
  | FMAT data => W8 10 :: flat_map (fun c => hash_p (fst c) ++ hash_p (snd c)) data
  end.
(** builder.rs:271: derived. *)
Definition hash_mobj (m : mobj) : list write := [WDiscr (match m with MSingle => 0 | MStoch => 1 end)].
(** builder.rs:215-228 *)
Definition hash_fobj (o : fobj) : list write :=
  match o with
  | FMeas m => W8 0 :: hash_mobj m
  | FUnit u => W8 1 :: hash_unitary u
  end.
End Hash.

(** num_rational 0.4, [Hash for Ratio<T>]: the quotients of Euclid's algorithm, then a 0.  The
    recursion is bounded by [fuel]; the denominator is enough. *)
Fixpoint ratio_recurse (fuel : nat) (numer denom : Z) : list write :=
  match fuel with
  | 0 => []
  | S fuel => if (denom =? 0)%Z then [W64 0]
      else W64 (numer / denom) :: ratio_recurse fuel denom (numer mod denom)
  end.
Definition ratio_hash (q : Q) : list write := ratio_recurse (S (S (Pos.to_nat (Qden q)))) (Qnum q) (Zpos (Qden q)).
