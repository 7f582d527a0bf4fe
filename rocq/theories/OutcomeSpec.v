(** Which builder calls return, which return [Err], which panic. *)
From Coq Require Import Reals ZArith QArith.
From Verif Require Import Base BuilderModel HistorySpec.
Local Open Scope nat_scope.

Inductive verdict := Works | Errs | Panics.
Definition seen {A} (o : out A) : verdict := match o with Ret _ _ => Works | Fail _ _ => Errs | Crash _ => Panics end.

Definition mem (a : nat) (l : list nat) : bool := existsb (Nat.eqb a) l.
Fixpoint distinct (l : list nat) : bool := match l with [] => true | a :: l => negb (mem a l) && distinct l end.
Definition i64_min : Z := (- 2 ^ 63)%Z.

(** Calls on a builder through [d] wrappers that type check; the closures given to inverters are not
    looked at, so these calls are left out. *)
Definition typed (d : nat) (c : call) (args : list reg) : Prop :=
  match c with
  | CRegister k => k <> 0
  | CQudit _ | CMakeTemp | CMakeTemps _ | CMerge | CDrop => True
  | CMerge2 | CCnot | CSwap | CToffoli => length args = 2
  | CPhase _ | CPhaseRatio _ | CPhasePiBy _ | CMeasure | CMeasureStochastic => d = 0 /\ length args = 1
  | CDissolve | CDropWrapper => 0 < d
  | CGate u => match u with UX | UY | UZ | UH | US | UT => length args = 1 | _ => False end
  | CInverter _ | CInvMacro _ => False
  | _ => length args = 1
  end.

(** An object through no wrapper: it fits a register of its size, 1-qubit objects fit all. *)
Definition object_verdict0 (co : cobj) (n : nat) : verdict :=
  if (co_n co =? 1) || (co_n co =? n) then Works else Errs.
(** Through wrappers the size is not looked at. *)
Definition object_verdict1 (co : cobj) (n : nat) : verdict :=
  match co_obj co with
  | OUnit (UMAT _) => Panics
  | OUnit UCNOT => if n =? 2 then Works else Panics
  | OUnit USWAP => if Nat.even n then Errs else Panics
  | OUnit _ => Works
  | OMeas _ => Errs
  end.
(** In a subcircuit the object has to return its register. *)
Definition entry_verdict1 (co : cobj) (n : nat) : verdict :=
  match co_obj co with
  | OUnit US | OUnit UT => if n =? 1 then Works else Panics
  | _ => object_verdict1 co n
  end.
Definition object_verdict (d : nat) : cobj -> nat -> verdict := if d =? 0 then object_verdict0 else object_verdict1.
Definition entry_verdict (d : nat) : cobj -> nat -> verdict := if d =? 0 then object_verdict0 else entry_verdict1.
(** Entries are done in order up to the first that does not work. *)
Fixpoint entries_verdict (d : nat) (sc : pipe) : verdict :=
  match sc with
  | [] => Works
  | (is, co) :: sc =>
      match is with
      | [] => Panics
      | _ => if distinct is then match entry_verdict d co (length is) with Works => entries_verdict d sc | v => v end else Panics
      end
  end.
Definition positions (sc : pipe) : list nat := concat (map fst sc).
(** The subcircuit has to use the last qubit of the register. *)
Definition subcircuit_verdict (d : nat) (sc : pipe) (n : nat) : verdict :=
  if existsb (fun i => n <=? S i) (positions sc) then entries_verdict d sc else Panics.

Definition call_verdict (d : nat) (c : call) (args : list reg) : verdict :=
  match c, args with
  | CSplitRel is, [r] => if mem (length r) is then Panics else Works
  | CSplitAbs is, [r] => if mem (length r) is && mem (length r) r then Panics else Works
  | CSplitGroups gs, [r] => if distinct (concat gs) && forallb (fun i => i <? length r) (concat gs) then Works else Panics
  | CApply co, [r] => object_verdict d co (length r)
  | CMatrix _, _ | CBroadcast _, _ => if d =? 0 then Works else Panics
  | CCnot, [a; _] => if length a =? 1 then Works else Errs
  | CSwap, [a; b] => if length a =? length b then Works else Errs
  | CRzPiBy m, _ => if (m =? 0)%Z then Errs else if (m =? i64_min)%Z then Panics else Works
  | CRxPiBy m, _ | CRyPiBy m, _ | CPhasePiBy m, _ => if (m =? 0)%Z || (m =? i64_min)%Z then Panics else Works
  | CMakeTemps k, _ => if k =? 0 then Panics else Works
  | CSubcircuit sc, [r] => subcircuit_verdict d sc (length r)
  | _, _ => Works
  end.

(** All wrappers still hold their condition registers. *)
Definition wrappers_ok (cl : client) : Prop := Forall (fun o => o <> None) (conds (fst cl)).
