(** Functions that do on basis states what is said of them. *)
From Verif Require Import Base BitsSpec BuilderModel ArithSpec TextModel.

(** [y] has in the registers [rs] the values that [g] gives for those of [x], and is [x] elsewhere. *)
Definition means (rs : list reg) (g : list (list bool) -> option (list (list bool))) (x y : bs) : Prop :=
  g (map (map x) rs) = Some (map (map y) rs) /\ only_in (concat rs) x y.
(** Registers keep their sizes. *)
Definition sized (sem : fname -> list (list bool) -> option (list (list bool))) : Prop :=
  forall f vs vs', sem f vs = Some vs' -> map (@length bool) vs' = map (@length bool) vs.
