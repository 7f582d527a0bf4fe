(** Clients: arbitrary sequences of builder calls.

    A client owns registers.  A call consumes the registers it is given (Rust moves them) and
    returns registers; registers given to a call that returns [Err] are gone.  Calls go to the
    innermost builder: while a [Conditioned] wrapper lives, the builder inside it is mutably
    borrowed.  Measurements exist on LocalBuilder only. *)
From Coq Require Import Reals ZArith QArith.
From Coquelicot Require Import Complex.
From Verif Require Import Base BuilderModel.
Local Open Scope nat_scope.
Local Open Scope mon_scope.

Inductive call :=
| CRegister (k : nat) | CQudit (k : nat)
| CMerge2 | CMerge
| CSplitRel (is : list nat) | CSplitAbs (is : list nat) | CSplitAll | CSplitFirst | CSplitLast
| CSplitGroups (gs : list (list nat))
| CApply (co : cobj) | CGate (u : unitary) | CSDagger | CTDagger | CMatrix (data : list C) | CBroadcast (data : list C)
| CCnot | CSwap | CToffoli
| CRz (t : R) | CRx (t : R) | CRy (t : R) | CRzRatio (q : Q) | CRxRatio (q : Q) | CRyRatio (q : Q)
| CRzPiBy (m : Z) | CRxPiBy (m : Z) | CRyPiBy (m : Z)
| CPhase (t : R) | CPhaseRatio (q : Q) | CPhasePiBy (m : Z)
| CMakeTemp | CMakeTemps (k : nat) | CReturnTemp
| CMeasure | CMeasureStochastic
| CConditionWith | CDissolve | CDropWrapper
| CSubcircuit (sc : pipe) | CInverter (f : list reg -> M (list reg)) | CInvMacro (f : list reg -> M (list reg))
| CDrop.

Definition one (args : list reg) (k : reg -> M (list reg)) : M (list reg) :=
  match args with [r] => k r | _ => crash PUnreachable end.
Definition two (args : list reg) (k : reg -> reg -> M (list reg)) : M (list reg) :=
  match args with [r1; r2] => k r1 r2 | _ => crash PUnreachable end.
Definition out1 (m : M reg) : M (list reg) := r <- m ;; ret [r].
Definition out2 (m : M (reg * reg)) : M (list reg) := '(a, b) <- m ;; ret [a; b].
Definition of_split (sp : split_result) : list reg :=
  match sp with Selected r => [r] | Unselected r => [r] | Split a b => [a; b] end.
Definition of_many (sm : split_many) : list reg :=
  match sm with AllSelected rs => rs | Remaining rs r => rs ++ [r] end.
Definition of_opt (o : option reg) : list reg := match o with Some r => [r] | None => [] end.

(** Drop the innermost wrapper (and the register it holds). *)
Definition drop_wrapper : M unit := fun s => Ret tt (mkSt (bld s) (removelast (conds s))).

(** Run one call with the given argument registers, through [d] wrappers.  A call that does
    not type check (wrong number of registers, measuring a wrapper) is a crash. *)
Definition run_call (d : nat) (c : call) (args : list reg) : M (list reg) :=
  match c with
  | CRegister k => out1 (register k)
  | CQudit k => o <- qudit k ;; ret (of_opt o)
  | CMerge2 => two args (fun a b => out1 (lift (merge2 a b)))
  | CMerge => o <- lift (merge_registers args) ;; ret (of_opt o)
  | CSplitRel is => one args (fun r => sp <- lift (split_rel r is) ;; ret (of_split sp))
  | CSplitAbs is => one args (fun r => sp <- lift (split_abs r is) ;; ret (of_split sp))
  | CSplitAll => one args (fun r => lift (split_all r))
  | CSplitFirst => one args (fun r => '(o, r) <- lift (split_first_qubit r) ;; ret (of_opt o ++ [r]))
  | CSplitLast => one args (fun r => '(r, o) <- lift (split_last_qubit r) ;; ret (r :: of_opt o))
  | CSplitGroups gs => one args (fun r => sm <- lift (split_groups r gs) ;; ret (of_many sm))
  | CApply co => one args (fun r => out1 (aco d r co))
  | CGate u => one args (fun r => out1 (gate (aco d) u r))
  | CSDagger => one args (fun r => out1 (g_s_dagger (aco d) r))
  | CTDagger => one args (fun r => out1 (g_t_dagger (aco d) r))
  | CMatrix data => one args (fun r => out1 (apply_matrix (aco d) r data))
  | CBroadcast data => one args (fun r => out1 (broadcast_single_qubit_matrix (aco d) r data))
  | CCnot => two args (fun a b => out2 (cnot (aco d) a b))
  | CSwap => two args (fun a b => out2 (swap (aco d) a b))
  | CToffoli => two args (fun a b => out2 (toffoli (aco d) a b))
  | CRz t => one args (fun r => out1 (rz r t))
  | CRx t => one args (fun r => out1 (rx r t))
  | CRy t => one args (fun r => out1 (ry r t))
  | CRzRatio q => one args (fun r => out1 (rz_ratio r q))
  | CRxRatio q => one args (fun r => out1 (rx_ratio r q))
  | CRyRatio q => one args (fun r => out1 (ry_ratio r q))
  | CRzPiBy m => one args (fun r => out1 (rz_pi_by r m))
  | CRxPiBy m => one args (fun r => out1 (rx_pi_by r m))
  | CRyPiBy m => one args (fun r => out1 (ry_pi_by r m))
  | CPhase t => if d =? 0 then one args (fun r => out1 (apply_global_phase r t)) else crash PUnreachable
  | CPhaseRatio q => if d =? 0 then one args (fun r => out1 (apply_global_phase_ratio r q)) else crash PUnreachable
  | CPhasePiBy m => if d =? 0 then one args (fun r => out1 (apply_global_phase_pi_by r m)) else crash PUnreachable
  | CMakeTemp => out1 make_zeroed_temp_qubit
  | CMakeTemps k => out1 (make_zeroed_temp_register k)
  | CReturnTemp => one args (fun r => _ <- return_zeroed_temp_register r ;; ret [])
  | CMeasure => if d =? 0 then one args (fun r => '(r, _) <- measure_single r ;; ret [r]) else crash PUnreachable
  | CMeasureStochastic => if d =? 0 then one args (fun r => '(r, _) <- measure_stochastic r ;; ret [r]) else crash PUnreachable
  | CConditionWith => one args (fun r => _ <- condition_with r ;; ret [])
  | CDissolve => out1 dissolve
  | CDropWrapper => _ <- drop_wrapper ;; ret []
  | CSubcircuit sc => one args (fun r => out1 (apply_subcircuit d sc r))
  | CInverter f => inverter d args f
  | CInvMacro f => inv_macro d args f
  | CDrop => ret []
  end.

(** The client: builder state and owned registers. *)
Definition client : Type := st * list reg.
Definition start : client := (mkSt empty_builder [], []).

(** [ps] are the positions of the registers passed, in argument order. *)
Definition pick (rs : list reg) (ps : list nat) : list reg := map (fun p => nth p rs []) ps.
Definition keep (rs : list reg) (ps : list nat) : list reg :=
  map (fun p => nth p rs []) (filter (fun p => negb (existsb (Nat.eqb p) ps)) (seq 0 (length rs))).

(** One call.  [None]: the call panics (or does not type check).  A register is passed at most
    once. *)
Definition do_call (cl : client) (c : call) (ps : list nat) : option client :=
  let '(s, rs) := cl in
  match run_call (length (conds s)) c (pick rs ps) s with
  | Ret outs s' => Some (s', keep rs ps ++ outs)
  | Fail _ s' => Some (s', keep rs ps)
  | Crash _ => None
  end.

Definition legal (rs : list reg) (ps : list nat) : Prop := NoDup ps /\ forall p, In p ps -> p < length rs.

(** Splitting positions are distinct. *)
Definition distinct_positions (c : call) : Prop :=
  match c with CSplitRel is => NoDup is | CSplitAbs is => NoDup is | _ => True end.
(** Subcircuits and raw objects given to the builder hold no measurement. *)
Definition no_meas_objects (c : call) : Prop :=
  let plain co := match co_obj co with OMeas _ => False | _ => True end in
  match c with
  | CApply co => plain co
  | CSubcircuit sc => Forall (fun e => plain (snd e)) sc
  | _ => True
  end.

(** Histories whose calls all satisfy [ok]. *)
Inductive reach (ok : call -> Prop) : client -> client -> Prop :=
| reach_refl : forall cl, reach ok cl cl
| reach_step : forall cl1 cl2 cl3 c ps, reach ok cl1 cl2 -> ok c -> legal (snd cl2) ps ->
    do_call cl2 c ps = Some cl3 -> reach ok cl1 cl3.

(** Every qubit is held once, by a live register, a wrapper or the pool of temporaries. *)
Definition held (cl : client) : list nat :=
  concat (snd cl) ++ concat (somes (conds (fst cl))) ++ concat (zeroed (bld (fst cl))).
Definition no_cloning (cl : client) : Prop :=
  NoDup (held cl) /\ forall q, In q (held cl) -> q < bn (bld (fst cl)).
(** Pipeline entries refer to existing qubits, each once. *)
Definition entries_ok (cl : client) : Prop :=
  Forall (fun e => NoDup (fst e) /\ forall q, In q (fst e) -> q < bn (bld (fst cl))) (pipeline (bld (fst cl))).
