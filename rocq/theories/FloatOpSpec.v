(** An operator of floats as an exact one, and how many numbers a row of it holds. *)
From Coq Require Import ZArith Reals.
From Flocq Require Import Core.Core IEEE754.BinarySingleNaN.
From Coquelicot Require Import Complex.
From Verif Require Import Base OpsModel FloatModel FloatSpec.

(** The same operator with every number changed by [f]. *)
Fixpoint map_op {A B} (f : A -> B) (op : mop A) : mop B :=
  match op with
  | Matrix ind data => Matrix ind (map f data)
  | Sparse ind rows => Sparse ind (map (map (fun e => (fst e, f (snd e)))) rows)
  | Swap n ind => Swap n ind
  | Control nc ind op' => Control nc ind (map_op f op')
  end.
(** All numbers satisfy [ok]. *)
Fixpoint op_all {A} (ok : A -> Prop) (op : mop A) : Prop :=
  match op with
  | Matrix ind data => Forall ok data
  | Sparse ind rows => Forall (Forall (fun e => ok (snd e))) rows
  | Swap n ind => True
  | Control nc ind op' => op_all ok op'
  end.
(** The largest number of entries in a row. *)
Fixpoint row_entries {A} (op : mop A) : nat :=
  match op with
  | Matrix ind data => 2 ^ length ind
  | Sparse ind rows => fold_right Nat.max 0 (map (@length _) rows)
  | Swap n ind => 1
  | Control nc ind op' => Nat.max 1 (row_entries op')
  end.
(** The moduli of the numbers. *)
Definition modulus {prec emax : Z} (a : fc prec emax) : C := RtoC (Cmod (B2C a)).
