(** Calls that also change the registers held by the wrappers. *)
From Verif Require Import Base BuilderModel DenSpec SimSpec RunSpec.

(** As [does] of RunSpec, with [c] the condition registers afterwards. *)
Definition moves {A} (s : st) (c : list (option reg)) (L : list nat) (m : M A) (a : A) (L' : list nat) (D : state -> state) : Prop :=
  exists s' p, m s = Ret a s' /\
    conds s' = c /\ meas (bld s') = meas (bld s) /\ bn (bld s) <= bn (bld s') /\
    pipeline (bld s') = pipeline (bld s) ++ p /\
    Forall (wf_entry (bn (bld s'))) p /\ Forall proper_entry p /\
    tidy s' /\ live s' L' /\ (forall q, idle s' q \/ In q L' <-> idle s q \/ In q L) /\
    local L D /\
    forall psi, (forall q, idle s q -> q < bn (bld s') -> clean [q] psi) -> den p psi = D psi.
