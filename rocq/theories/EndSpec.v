(** A call followed by a measurement of one of the registers it returns. *)
From Verif Require Import Base BuilderModel.
Local Open Scope mon_scope.
Definition then_measure {A} (m : M A) (f : A -> reg) : M (A * nat) := a <- m ;; '(_, h) <- measure_single (f a) ;; ret (a, h).
(** The same with [measure_stochastic]. *)
Definition then_stochastic {A} (m : M A) (f : A -> reg) : M (A * nat) := a <- m ;; '(_, h) <- measure_stochastic (f a) ;; ret (a, h).
