(** Histories in which objects are used on registers of their size. *)
From Coq Require Import Reals ZArith QArith.
From Coquelicot Require Import Complex.
From Verif Require Import Base BuilderModel HistorySpec DenSpec.
Local Open Scope nat_scope.

(** The object is one for [co_n] qubits. *)
Definition fits (co : cobj) : Prop :=
  match co_obj co with
  | OUnit UX | OUnit UY | OUnit UZ | OUnit UH | OUnit US | OUnit UT | OUnit (URz _) => co_n co = 1
  | OUnit UCNOT => co_n co = 2
  | OUnit USWAP => co_n co <> 0 /\ exists k, co_n co = k + k
  | OUnit (UMAT d) => co_n co <> 0 /\ length d = 2 ^ (2 * co_n co)
  | OUnit (UPhase _) | OMeas _ => True
  end.
(** An entry of a recorded circuit. *)
Definition sized (e : list nat * cobj) : Prop := fst e <> [] /\ co_n (snd e) = length (fst e) /\ fits (snd e).
(** The qubits of an entry are as many as its object needs. *)
Definition suits (e : list nat * cobj) : Prop := match co_obj (snd e) with OUnit u => wf_unitary u (fst e) | OMeas _ => True end.
(** What [f] records on a new builder, given registers of these sizes. *)
Definition records (args : list reg) (f : list reg -> M (list reg)) (sc : pipe) : Prop :=
  exists rs s out s', mmap (fun r => register (length r)) args (mkSt empty_builder []) = Ret rs s /\ f rs s = Ret out s' /\ sc = pipeline (bld s').

(** A call through [d] wrappers with these argument registers: rotations get one qubit, so do h
    and toffoli targets under a condition; a matrix has 4^n entries for n qubits; objects, subcircuits and
    recorded functions are made of fitting objects. *)
Definition careful (d : nat) (args : list reg) (c : call) : Prop :=
  distinct_positions c /\
  match c with
  | CApply co => fits co /\ (d <> 0 -> co_obj co = OUnit UH -> forall r, In r args -> length r = 1)
  | CGate u => fits (mkCO 1 (OUnit u)) /\ (d <> 0 -> u = UH -> forall r, In r args -> length r = 1)
  | CMatrix data | CBroadcast data => forall r, In r args -> length data = 2 ^ (2 * length r)
  | CToffoli => d <> 0 -> forall cr r, args = [cr; r] -> length cr = 1 \/ length r = 1
  | CRz _ | CRx _ | CRy _ | CRzRatio _ | CRxRatio _ | CRyRatio _ | CRzPiBy _ | CRxPiBy _ | CRyPiBy _ => forall r, In r args -> length r = 1
  | CSubcircuit sc => Forall sized sc
  | CInverter f | CInvMacro f => forall sc, records args f sc -> Forall sized sc
  | _ => True
  end.
Inductive history : client -> Prop :=
| history_start : history start
| history_call : forall cl c ps cl', history cl -> legal (snd cl) ps -> careful (length (conds (fst cl))) (pick (snd cl) ps) c ->
    do_call cl c ps = Some cl' -> history cl'.
