(** What times_mod, square_mod and exp_mod are to compute. *)
From Verif Require Import Base BitsSpec DenSpec ArithSpec.
Local Open Scope nat_scope.

(** [y] is [x] with (rp + ra * rb) mod rm in rp, ra and rp being less than rm. *)
Definition mults_mod (ra rb rm rp : list nat) (x y : bs) : Prop :=
  val ra x < val rm x /\ val rp x < val rm x /\ only_in rp x y /\ val rp y = (val rp x + val ra x * val rb x) mod val rm x.
(** [y] is [x] with (rs + ra * ra) mod rm in rs, ra and rs being less than rm. *)
Definition squares_mod (ra rm rs : list nat) (x y : bs) : Prop :=
  val ra x < val rm x /\ val rs x < val rm x /\ only_in rs x y /\ val rs y = (val rs x + val ra x * val ra x) mod val rm x.
(** [y] is [x] with (rp * ra ^ rb) mod rm in re, which is 0 before; ra and rp are less than rm. *)
Definition exps_mod (ra rb rm rp re : list nat) (x y : bs) : Prop :=
  val ra x < val rm x /\ val rp x < val rm x /\ val re x = 0 /\ only_in re x y /\ val re y = (val rp x * val ra x ^ val rb x) mod val rm x.
