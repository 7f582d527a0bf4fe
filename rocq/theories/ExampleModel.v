(** The programs of the documentation and of qip/examples, as calls on the builder. *)
From Verif Require Import Base BuilderModel ProgramModel.
Local Open Scope mon_scope.

(** qip/src/lib.rs:36-51 (README.md, "Example (CSWAP)"), for registers of [n] qubits instead of 3. *)
Definition cswap_calls (q ra rb : reg) : M (reg * reg * reg) :=
  q <- g_h (aco 0) q ;;
  _ <- condition_with q ;;
  '(ra, rb) <- swap (aco 1) ra rb ;;
  q <- dissolve ;;
  q <- g_h (aco 0) q ;;
  ret (q, ra, rb).
Definition cswap_doc (n : nat) : M (reg * reg * reg * nat) :=
  q <- qubit ;;
  ra <- register n ;;
  rb <- register n ;;
  '(q, ra, rb) <- cswap_calls q ra rb ;;
  '(q, h) <- measure_single q ;;
  ret (q, ra, rb, h).

(** qip/src/lib.rs:80-86 and 169-175, qip/examples/inverse_example.rs:9-20 *)
Definition gamma (d : nat) (rs : list reg) : M (list reg) :=
  match rs with
  | [ra; rb] =>
      '(ra, rb) <- toffoli (aco d) ra rb ;;
      '(rb, ra) <- toffoli (aco d) rb ra ;;
      ret [ra; rb]
  | _ => crash PUnreachable
  end.
(** qip/src/lib.rs:126-136 and 207-217, called [gamma] there too. *)
Definition gamma_skip (skip : bool) (d : nat) (rs : list reg) : M (list reg) :=
  match rs with
  | [ra; rb] =>
      '(ra, rb) <- toffoli (aco d) ra rb ;;
      '(rb, ra) <- (if skip then toffoli (aco d) rb ra else ret (rb, ra)) ;;
      ret [ra; rb]
  | _ => crash PUnreachable
  end.
(** Generated by [#[invert(gamma_inv)]] and [#[invert(gamma_inv, skip)]]. *)
Definition gamma_inv (d : nat) (rs : list reg) : M (list reg) := inv_macro d rs (gamma 0).
Definition gamma_skip_inv (skip : bool) (d : nat) (rs : list reg) : M (list reg) := inv_macro d rs (gamma_skip skip 0).

(** The lines of the programs; register 0 is [ra], register 1 is [rb]. *)
Definition on_two (f : nat -> list reg -> M (list reg)) : line := mkLine None f [[(0, Some [0; 1])]; [(0, Some [2])]].
(** lib.rs:94-106 *)
Definition doc_plain : list line :=
  [on_two gamma; mkLine None gamma [[(0, Some [0]); (1, Some [0])]; [(0, Some [2])]]; mkLine None gamma [[(0, Some [0])]; [(1, Some [0]); (0, Some [2])]]].
Definition doc_control : line := mkLine (Some None) gamma [[(1, None)]; [(0, Some [0; 1])]; [(0, Some [2])]].
Definition doc_control_mask : line := mkLine (Some (Some 6)) gamma [[(1, None)]; [(0, Some [0; 1])]; [(0, Some [2])]].
Definition doc_program (ra rb : reg) : M (list reg) := program 0 [ra; rb] (doc_plain ++ [doc_control; doc_control_mask]).
(** lib.rs:143-146 *)
Definition doc_skip (ra rb : reg) : M (list reg) := program 0 [ra; rb] [on_two (gamma_skip true); on_two (gamma_skip false)].
(** lib.rs:183-186, inverse_example.rs:29-32; lib.rs:224-227 *)
Definition doc_inverse (ra rb : reg) : M (list reg) := program 0 [ra; rb] [on_two gamma; on_two gamma_inv].
Definition doc_skip_inverse (ra rb : reg) : M (list reg) := program 0 [ra; rb] [on_two (gamma_skip true); on_two (gamma_skip_inv true)].

(** qip/examples/simple.rs:16-28, up to the simulation; its [gamma] (lines 6-13) is [not]. *)
Definition simple : M (reg * nat) :=
  ra <- qubit ;;
  rb <- qubit ;;
  ra <- g_h (aco 0) ra ;;
  rs <- program 0 [ra; rb] [mkLine (Some None) op_not [[(0, None)]; [(1, None)]]] ;;
  match rs with
  | [ra; rb] =>
      r <- lift (merge2 ra rb) ;;
      measure_stochastic r
  | _ => crash PUnreachable
  end.
