(** What the calls for global phases record: C73. *)
From Coq Require Import Reals Lra ZArith QArith Qreals.
From Coquelicot Require Import Complex.
From Verif Require Import Base BuilderModel DenSpec RunSpec RotProofs.
Local Open Scope nat_scope.
Local Open Scope mon_scope.

(** One more object, of the whole register. *)
Definition with_phase (s : st) (r : reg) (th : rot) : st :=
  mkSt (mkB (pipeline (bld s) ++ [(r, mkCO (length r) (OUnit (UPhase th)))]) (bn (bld s)) (zeroed (bld s)) (meas (bld s))) (conds s).
Lemma phase_push r th s : r <> [] -> local_aco r (mkCO (length r) (OUnit (UPhase th))) s = Ret r (with_phase s r th).
Proof.
  intros H. unfold local_aco. cbn [co_n]. rewrite Nat.eqb_refl, orb_true_r. destruct r as [|a [|b r]]; [congruence| |]; reflexivity.
Qed.
(** *** C73: one object is recorded, on the register, with the angle given; with 1/m for pi_by m, where the name
    says pi/m. *)
Theorem C73_recorded : forall r s, r <> [] ->
  (forall t, exists th, apply_global_phase r t s = Ret r (with_phase s r th) /\ angle th = t) /\
  (forall q, exists th, apply_global_phase_ratio r q s = Ret r (with_phase s r th) /\ angle th = Q2R q) /\
  (forall m, (m <> 0)%Z -> (m <> - 2 ^ 63)%Z -> exists th, apply_global_phase_pi_by r m s = Ret r (with_phase s r th) /\ angle th = (/ IZR m)%R).
Proof.
  intros r s H. split; [|split].
  - intros t. exists (Floating t). split; [|reflexivity]. unfold apply_global_phase, unwrapM. rewrite phase_push by exact H. reflexivity.
  - intros q. exists (PiRational q). split; [|reflexivity]. unfold apply_global_phase_ratio, unwrapM. rewrite phase_push by exact H. reflexivity.
  - intros m M0 M1. destruct (ratio_1_ok m M0 M1) as (q & E & Q). exists (PiRational q). split; [|exact Q]. unfold apply_global_phase_pi_by, mbind, lift. rewrite E. unfold apply_global_phase_ratio, unwrapM. rewrite phase_push by exact H. reflexivity.
Qed.
Print Assumptions C73_recorded.
Theorem C73_zero_panics : forall r s, apply_global_phase_pi_by r 0 s = Crash PDivZero /\ apply_global_phase_pi_by r (- 2 ^ 63) s = Crash PUnderflow.
Proof. intros. split; reflexivity. Qed.
Print Assumptions C73_zero_panics.
Example C73_recorded_example : exists th, apply_global_phase_pi_by [3; 1] 4 (mkSt (mkB [] 4 [] 0) []) = Ret [3; 1] (with_phase (mkSt (mkB [] 4 [] 0) []) [3; 1] th) /\ angle th = (/ 4)%R.
Proof. apply (C73_recorded [3; 1] (mkSt (mkB [] 4 [] 0) [])); discriminate. Qed.
