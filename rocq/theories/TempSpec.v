(** Programs that use temporaries as they should. *)
From Coq Require Import Reals.
From Verif Require Import Base BitsSpec BuilderModel HistorySpec DenSpec SimSpec ProjSpec ShapeSpec AwaySpec.
Local Open Scope nat_scope.

(** In a simulation of [N] qubits that starts from the basis state [x], after the circuit built so far the
    qubits [r] are 0, whatever was measured. *)
Definition zero_now (N : nat) (x : bs) (cl : client) (r : list nat) : Prop :=
  let p := pipeline (bld (fst cl)) in forall ms, In ms (outcomes (measured p)) -> clean r (branch p ms (ket N x)).

(** One call, from [cl] to [cl']: objects fit; only registers that are 0 are given back as temporaries;
    subcircuits and inverted functions leave the pool at 0; under conditions there is no toffoli with three
    or more controls and no phase; initial values are given to registers only, not to temporaries. *)
Definition well_used (N : nat) (x : bs) (cl : client) (c : call) (ps : list nat) (cl' : client) : Prop :=
  careful (length (conds (fst cl))) (pick (snd cl) ps) c /\
  match c with
  | CReturnTemp => zero_now N x cl (concat (pick (snd cl) ps))
  | CSubcircuit _ | CInverter _ | CInvMacro _ => zero_now N x cl' (concat (zeroed (bld (fst cl'))))
  | CToffoli => conds (fst cl) = [] \/ forall cr r, pick (snd cl) ps = [cr; r] -> length cr <= 2
  | CApply co => conds (fst cl) = [] \/ forall t, co_obj co <> OUnit (UPhase t)
  | CGate u => conds (fst cl) = [] \/ forall t, u <> UPhase t
  | _ => True
  end /\
  match c with
  | CRegister _ | CQudit _ => True
  | _ => forall i, bn (bld (fst cl)) <= i < bn (bld (fst cl')) -> x i = false
  end.
Inductive honest (N : nat) (x : bs) : client -> Prop :=
| honest_start : honest N x start
| honest_call : forall cl c ps cl', honest N x cl -> legal (snd cl) ps -> do_call cl c ps = Some cl' -> well_used N x cl c ps cl' -> honest N x cl'.
