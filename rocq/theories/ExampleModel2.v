(** qip/examples/macro_example.rs, as calls on the builder. *)
From Verif Require Import Base BuilderModel ProgramModel.
Local Open Scope mon_scope.

(** qip/examples/macro_example.rs:7-13 *)
Definition gamma_nothing (d : nat) (rs : list reg) : M (list reg) := ret rs.
(** qip/examples/macro_example.rs:21-32; register 0 is [ra], register 1 is [rb]. *)
Definition macro_example (ra rb : reg) : M (list reg) :=
  program 0 [ra; rb]
    [mkLine None gamma_nothing [[(0, Some [0; 1])]; [(0, Some [2])]];
     mkLine None gamma_nothing [[(0, Some [0]); (1, Some [0])]; [(0, Some [2])]];
     mkLine None gamma_nothing [[(0, Some [0])]; [(1, Some [0]); (0, Some [2])]];
     mkLine (Some None) gamma_nothing [[(1, None)]; [(0, Some [0; 1])]; [(0, Some [2])]];
     mkLine (Some (Some 6)) gamma_nothing [[(1, None)]; [(0, Some [0; 1])]; [(0, Some [2])]]].

