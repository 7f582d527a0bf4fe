(** carry_inv on a conditioned builder. *)
From Coq Require Import Reals Lra FunctionalExtensionality Permutation.
From Coquelicot Require Import Complex.
From Verif Require Import Base BitsSpec BitsProofs OpsModel OpsSpec Instances BuilderModel RegProofs DenSpec DenProofs LocalProofs LinkProofs
  RunSpec RunProofs GateProofs ToffoliProofs CondProofs SubSpec SubProofs SubProofs2 SubProofs3 SubProofs5 ProgramModel ProgramSpec ProgramProofs ProgramProofs2 CircProofs CircProofs2
  ArithModel ArithSpec ArithProofs.
Local Open Scope nat_scope.
Local Open Scope mon_scope.

(** *** The Toffoli decomposition with another involution in place of H *)
Section Tilted.
Context (U V : mat1) (UU : mmul U U = mI) (UZU : mmul U (mmul mZ U) = V).
Definition toffU (a b t : nat) (psi : state) : state :=
  ctl_nots [a] [b] (each mTd [b] (each mT [a] (each U [t] (ctl_nots [a] [b] (each mT [t] (each mT [b]
    (ctl_nots [a] [t] (each mTd [t] (ctl_nots [b] [t] (each mT [t] (ctl_nots [a] [t] (each mTd [t] (ctl_nots [b] [t] (each U [t] psi)))))))))))))).
(** The same steps undone. *)
Definition untoffU (a b t : nat) (psi : state) : state :=
  each U [t] (ctl_nots [b] [t] (each mT [t] (ctl_nots [a] [t] (each mTd [t] (ctl_nots [b] [t] (each mT [t] (ctl_nots [a] [t] (each mTd [b] (each mTd [t]
    (ctl_nots [a] [b] (each U [t] (each mTd [a] (each mT [b] (ctl_nots [a] [b] psi)))))))))))))).
Definition coreU (a b : bool) : mat1 :=
  let Xa := if a then mX else mI in let Xb := if b then mX else mI in
  mmul U (mmul mT (mmul Xa (mmul mTd (mmul Xb (mmul mT (mmul Xa (mmul mTd (mmul Xb U)))))))).
Lemma T_Td : mmul mT mTd = mI.
Proof. unfold mT, mTd. rewrite mmul_diag, w_wd. unfold mI. f_equal. ring. Qed.
Lemma Td_T : mmul mTd mT = mI.
Proof. unfold mT, mTd. rewrite mmul_diag, (Cmult_comm _ (expi (PI / 4))), w_wd. unfold mI. f_equal. ring. Qed.
Lemma X_X : mmul mX mX = mI.
Proof. meq; unfold mmul, mX, mI, diag; cbn; ring. Qed.
Lemma coreU_ok a b : coreU a b = if a && b then mscal (Copp Ci) V else mI.
Proof.
  assert (Wd : Cmult (expi (- (PI / 4))) (expi (- (PI / 4))) = Copp Ci) by (rewrite expi_add, <- expi_mpi2; f_equal; field).
  assert (WW : Cmult (expi (PI / 4)) (expi (PI / 4)) = Ci) by (rewrite expi_add, <- expi_pi2; f_equal; field).
  unfold coreU. destruct a, b; cbn [andb].
  - transitivity (mmul U (mmul (mscal (Copp Ci) mZ) U)).
    + f_equal. rewrite !mmul_assoc. f_equal.
      transitivity (mmul (mmul mT (mmul mX (mmul mTd mX))) (mmul mT (mmul mX (mmul mTd mX)))); [rewrite !mmul_assoc; reflexivity|].
      unfold mTd. rewrite mmul_X_diag. unfold mT. rewrite !mmul_diag. meq; unfold diag, mscal, mZ, diag; cbn; try ring.
      * transitivity (Cmult (expi (PI / 4)) (expi (PI / 4))); [ring|rewrite WW, rn_1; ring].
      * transitivity (Cmult (expi (- (PI / 4))) (expi (- (PI / 4)))); [ring|rewrite Wd; ring].
    + rewrite <- UZU. meq; unfold mmul, mscal; ring.
  - rewrite !mmul_I_l. rewrite (mmul_assoc mTd mT), Td_T, mmul_I_l, (mmul_assoc mX mX), X_X, mmul_I_l, (mmul_assoc mT mTd), T_Td, mmul_I_l. exact UU.
  - rewrite !mmul_I_l. rewrite (mmul_assoc mT mTd), T_Td, mmul_I_l, (mmul_assoc mT mTd), T_Td, mmul_I_l, (mmul_assoc mX mX), X_X, mmul_I_l. exact UU.
  - rewrite !mmul_I_l. rewrite (mmul_assoc mT mTd), T_Td, mmul_I_l, (mmul_assoc mT mTd), T_Td, mmul_I_l. exact UU.
Qed.
Lemma toffU_ok a b t psi : NoDup [a; b; t] -> toffU a b t psi = fun x => if x a && x b then on1 V t psi x else psi x.
Proof.
  intros N. apply NoDup_cons_iff in N. destruct N as (Ha & N1). apply NoDup_cons_iff in N1. destruct N1 as (Hb & N2). cbn [In] in Ha, Hb.
  assert (Hab : a <> b) by intuition congruence. assert (Hat : ~ In a [t]) by (cbn; intuition congruence). assert (Hbt : ~ In b [t]) by (cbn; intuition congruence). clear Ha Hb.
  set (ts := [t]) in *. unfold toffU. fold ts. rewrite each_ctl_nots by assumption.
  rewrite (ctl_nots_bX b ts), (ctl_nots_bX a ts), (ctl_nots_bX b ts), (ctl_nots_bX a ts) by assumption.
  rewrite !(each_onall _ ts).
  assert (Bc : forall m, blind ts (fun _ : bs => m : mat1)) by (intros m ? ? ? ?; reflexivity).
  assert (Ba : blind ts (bX a)). { intros x q v Hq. unfold bX. rewrite upd_other; [reflexivity|]. intros ->. contradiction. }
  assert (Bb : blind ts (bX b)). { intros x q v Hq. unfold bX. rewrite upd_other; [reflexivity|]. intros ->. contradiction. }
  assert (Bm : forall f g, blind ts f -> blind ts g -> blind ts (fun x => mmul (f x) (g x))).
  { intros f g Hf Hg x q v Hq. rewrite Hf, Hg by exact Hq. reflexivity. }
  unfold mT at 3. rewrite (each_diag1 _ _ b).
  rewrite (onall_mult (fun _ => mT) ts (fun x => if x b then expi (PI / 4) else RtoC 1)).
  2:{ intros x q v Hq. rewrite upd_other; [reflexivity|]. intros ->. contradiction. }
  rewrite (onall_mult (fun _ => U) ts (fun x => if x b then expi (PI / 4) else RtoC 1)).
  2:{ intros x q v Hq. rewrite upd_other; [reflexivity|]. intros ->. contradiction. }
  repeat (rewrite onall_mul; [|exact N2|auto 20|auto 20]).
  rewrite (onall_ext _ (fun x => if x a && x b then mscal (Copp Ci) V else mI)).
  2:{ intros x. rewrite <- !mmul_assoc. apply (coreU_ok (x a) (x b)). }
  change (onall (fun x => if x a && x b then mscal (Copp Ci) V else mI) ts psi) with (on1f (fun x => if x a && x b then mscal (Copp Ci) V else mI) t psi).
  unfold mT, mTd. rewrite !each_diag1. extensionality x. unfold ctl_nots. cbn [forallb].
  rewrite !flips_single. unfold flip. rewrite !upd_same. rewrite !(upd_other x b _ a) by assumption.
  rewrite !andb_true_r. destruct (x a) eqn:Ea; cbn [andb].
  - rewrite upd_upd, !negb_involutive, upd_id. unfold on1f. rewrite Ea. destruct (x b) eqn:Eb; cbn [negb andb].
    + unfold on1. set (u := psi (upd x t false)). set (w := psi (upd x t true)). unfold mscal.
      transitivity (Cmult (Cmult (Cmult (expi (PI / 4)) (expi (PI / 4))) (Copp Ci)) (Cplus (Cmult (V (x t) false) u) (Cmult (V (x t) true) w))); [ring|].
      rewrite expi_add. replace (PI / 4 + PI / 4)%R with (PI / 2)%R by field. rewrite expi_pi2.
      replace (Cmult Ci (Copp Ci)) with (RtoC 1); [ring|]. transitivity (Copp (Cmult Ci Ci)); [rewrite Ci2, rn_1; ring|ring].
    + assert (EI : Cplus (Cmult (mI (x t) false) (psi (upd x t false))) (Cmult (mI (x t) true) (psi (upd x t true))) = psi x).
      { unfold mI, diag. destruct (x t) eqn:Et; cbn; [replace (upd x t true) with x by (rewrite <- Et, upd_id; reflexivity)|replace (upd x t false) with x by (rewrite <- Et, upd_id; reflexivity)]; ring. }
      rewrite EI. transitivity (Cmult (Cmult (expi (PI / 4)) (expi (- (PI / 4)))) (psi x)); [ring|rewrite w_wd; ring].
  - unfold on1f. rewrite Ea. cbn [andb].
    assert (EI : Cplus (Cmult (mI (x t) false) (psi (upd x t false))) (Cmult (mI (x t) true) (psi (upd x t true))) = psi x).
    { unfold mI, diag. destruct (x t) eqn:Et; cbn; [replace (upd x t true) with x by (rewrite <- Et, upd_id; reflexivity)|replace (upd x t false) with x by (rewrite <- Et, upd_id; reflexivity)]; ring. }
    rewrite EI. destruct (x b) eqn:Eb; [|ring].
    transitivity (Cmult (Cmult (expi (PI / 4)) (expi (- (PI / 4)))) (psi x)); [ring|rewrite w_wd; ring].
Qed.
Lemma each_I ts psi : each mI ts psi = psi.
Proof. rewrite each_onall. apply onall_id. Qed.
Lemma each_cancel m1 m2 q psi : mmul m1 m2 = mI -> each m1 [q] (each m2 [q] psi) = psi.
Proof. intros E. rewrite each_mul, E, each_I; [reflexivity|]. constructor; [intros []|constructor]. Qed.
Lemma nots_cancel a b psi : a <> b -> ctl_nots [a] [b] (ctl_nots [a] [b] psi) = psi.
Proof.
  intros H. extensionality x. unfold ctl_nots. cbn [forallb]. rewrite !andb_true_r, !flips_single. destruct (x a) eqn:E; [|reflexivity].
  rewrite flip_other, E by exact H. rewrite flip_flip. reflexivity.
Qed.
Lemma each_comm m1 m2 p q psi : p <> q -> each m1 [p] (each m2 [q] psi) = each m2 [q] (each m1 [p] psi).
Proof.
  intros H. extensionality x. unfold each, on1. cbn [fold_left]. rewrite !upd_other by congruence. rewrite !(upd_comm x p q) by exact H. ring.
Qed.
Lemma VV : mmul V V = mI.
Proof.
  rewrite <- UZU. transitivity (mmul U (mmul (mmul mZ (mmul (mmul U U) mZ)) U)); [rewrite !mmul_assoc; reflexivity|]. rewrite UU, mmul_I_l.
  assert (ZZ : mmul mZ mZ = mI). { unfold mZ. rewrite mmul_diag. unfold mI. f_equal; rewrite ?rn_1; ring. }
  rewrite ZZ, mmul_I_l. exact UU.
Qed.
Lemma untoffU_ok a b t psi : NoDup [a; b; t] -> untoffU a b t psi = fun x => if x a && x b then on1 V t psi x else psi x.
Proof.
  intros N. set (F := fun (psi : state) x => if x a && x b then on1 V t psi x else psi x). assert (N' := N).
  apply NoDup_cons_iff in N. destruct N as (Ha & N1). apply NoDup_cons_iff in N1. destruct N1 as (Hb & N2). cbn [In] in Ha, Hb.
  assert (Hab : a <> b) by intuition congruence. assert (Hat : a <> t) by intuition congruence. assert (Hbt : b <> t) by intuition congruence.
  assert (FF : F (F psi) = psi).
  { extensionality x. unfold F. destruct (x a && x b) eqn:E; [|reflexivity]. apply andb_prop in E. destruct E as (E1 & E2).
    unfold on1. rewrite !upd_same. rewrite !(upd_other x t _ a), !(upd_other x t _ b) by congruence. rewrite E1, E2. cbn [andb].
    rewrite !upd_upd. pose proof (each_cancel V V t psi VV) as X. apply (f_equal (fun f => f x)) in X. unfold each, on1 in X. cbn [fold_left] in X. rewrite !upd_same, !upd_upd in X. exact X. }
  assert (C : forall phi, untoffU a b t (toffU a b t phi) = phi).
  { intros phi. unfold untoffU, toffU. rewrite (nots_cancel a b), (each_cancel mT mTd b), (each_cancel mTd mT a), (each_cancel U U t), (nots_cancel a b), (each_cancel mTd mT t), (each_cancel mTd mT b) by (assumption || apply T_Td || apply Td_T).
    rewrite (nots_cancel a t), (each_cancel mT mTd t), (nots_cancel b t), (each_cancel mTd mT t), (nots_cancel a t), (each_cancel mT mTd t), (nots_cancel b t) by (assumption || apply T_Td || apply Td_T).
    apply each_cancel. exact UU. }
  transitivity (untoffU a b t (toffU a b t (F psi))); [|apply C]. rewrite (toffU_ok a b t (F psi) N'). change (untoffU a b t psi = untoffU a b t (F (F psi))). rewrite FF. reflexivity.
Qed.
End Tilted.

(** *** The matrix applied in place of X *)
Lemma tilt_inv t : mmul (mTilt t) (mTilt t) = mI.
Proof.
  pose proof (sin2_cos2 t) as S. unfold Rsqr in S. meq; unfold mmul, mTilt, mI, diag; cbn; rewrite <- ?RtoC_mult, <- ?RtoC_plus; f_equal; nra.
Qed.
Lemma tilt_Z : mmul (mTilt (/ 4)) (mmul mZ (mTilt (/ 4))) = mV.
Proof.
  assert (S2 : sin (/ 2) = (2 * sin (/ 4) * cos (/ 4))%R) by (rewrite <- sin_2a; f_equal; field).
  assert (C2 : cos (/ 2) = (cos (/ 4) * cos (/ 4) - sin (/ 4) * sin (/ 4))%R) by (rewrite <- cos_2a; f_equal; field).
  meq; unfold mmul, mTilt, mZ, diag, mV; cbn; rewrite ?S2, ?C2; unfold RtoC, Cmult, Cplus; cbn; f_equal; ring.
Qed.

(** *** The pipeline that carry_inv replays *)
Definition carry_fwd : pipe := Eval vm_compute in match carry 0 [[0]; [1]; [2]; [3]] (fresh 4) with Ret _ s => pipeline (bld s) | _ => [] end.
Definition carry_back : pipe := Eval vm_compute in match invert_subcircuit carry_fwd with Ok q => q | _ => [] end.
Lemma carry_back_ok : invert_subcircuit carry_fwd = Ok carry_back.
Proof. vm_compute. reflexivity. Qed.
Lemma carry_new c a b p s0 :
  on_new (sub_rs <- mmap (fun r : reg => register (length r)) [[c]; [a]; [b]; [p]] ;; _ <- carry 0 sub_rs ;; make_subcircuit) s0 = Ret carry_fwd s0.
Proof. vm_compute. reflexivity. Qed.
Lemma carry_back_wf : Forall (wf_entry 4) carry_back.
Proof.
  unfold carry_back. repeat (apply Forall_cons; [|]); try apply Forall_nil; (split; [|split; [|reflexivity]]); cbn [fst].
  all: try (repeat constructor; cbn; intuition lia). all: intros q Hq; cbn in Hq; intuition lia.
Qed.
Lemma carry_back_carried : Forall carried carry_back.
Proof. unfold carry_back. repeat (apply Forall_cons; [exact I|]). apply Forall_nil. Qed.
Lemma carry_back_proper : Forall proper_entry carry_back.
Proof.
  assert (N4 : NoDup [0; 1; 2; 3]) by (repeat constructor; cbn; intuition lia). destruct (carry_acts 0 0 1 2 3 N4) as ((O & A) & Ck).
  specialize (A (fresh 4) (fresh_depth 4) (fresh_tidy 4) (live_fresh 4)).
  assert (Cr : exists s1, carry 0 [[0]; [1]; [2]; [3]] (fresh 4) = Ret [[0]; [1]; [2]; [3]] s1 /\ pipeline (bld s1) = carry_fwd).
  { pose proof A as (s1 & p & E & _). exists s1. split; [exact E|]. clear - E.
    assert (X : match carry 0 [[0]; [1]; [2]; [3]] (fresh 4) with Ret _ s => pipeline (bld s) | _ => [] end = carry_fwd) by (vm_compute; reflexivity).
    rewrite E in X. exact X. }
  destruct Cr as (s1 & E1 & E2).
  destruct (does_realizes 4 _ _ _ _ s1 A) as (n & Re); [|exact E1| |].
  - cbn [cqs fresh conds]. replace (controlled [] (eff (carry_c 0 1 2 3))) with (eff (carry_c 0 1 2 3)); [apply O|]. extensionality psi. symmetry. apply controlled_nil.
  - rewrite E2. exists (nth 0 carry_fwd ([], mkCO 0 (OUnit UX))), 3. split; [left; reflexivity|]. split; [left; reflexivity|lia].
  - rewrite E2 in Re. destruct (realizes_inverse n 4 _ _ (controlled [] (eff (rev (carry_c 0 1 2 3)))) Re) as (q & Eq & Rq).
    + intros psi. cbn [cqs fresh conds]. rewrite !controlled_nil. split; extensionality y; unfold eff; rewrite rev_involutive; f_equal; [eapply run_rev|eapply run_rev']; exact Ck.
    + replace (controlled [] (eff (rev (carry_c 0 1 2 3)))) with (eff (rev (carry_c 0 1 2 3))); [apply only_eff, cok_rev; exact Ck|]. extensionality psi. symmetry. apply controlled_nil.
    + rewrite carry_back_ok in Eq. injection Eq as <-. destruct Rq as (_ & _ & Pr & _). exact Pr.
Qed.
Lemma T6 q psi : each mT [q] psi = on1 mZ q (on1 mS q (on1 mZ q (on1 mT q (on1 mS q (on1 mZ q psi))))).
Proof.
  change (on1 mZ q (on1 mS q (on1 mZ q (on1 mT q (on1 mS q (on1 mZ q psi)))))) with (each mZ [q] (each mS [q] (each mZ [q] (each mT [q] (each mS [q] (each mZ [q] psi)))))).
  assert (N : NoDup [q]) by (constructor; [intros []|constructor]).
  rewrite !each_mul by exact N. f_equal. rewrite ?mmul_assoc. unfold mZ, mS, mT. rewrite !mmul_diag. f_equal; [ring|].
  rewrite !rn_1. transitivity (Cmult (Copp (Cmult Ci Ci)) (expi (PI / 4))); [rewrite Ci2, rn_1; ring|ring].
Qed.
Lemma Td3 q psi : each mTd [q] psi = on1 mT q (on1 mS q (on1 mZ q psi)).
Proof.
  change (on1 mT q (on1 mS q (on1 mZ q psi))) with (each mT [q] (each mS [q] (each mZ [q] psi))).
  assert (N : NoDup [q]) by (constructor; [intros []|constructor]). rewrite !each_mul by exact N. f_equal. rewrite <- mTd_ok, mmul_assoc. reflexivity.
Qed.
Lemma carry_back_den psi : den (cond_pipe carry_back) psi = untoffU (mTilt (/ 4)) 1 2 3 (ctl_nots [1] [2] (untoffU (mTilt (/ 4)) 0 2 3 (ctl_nots [1] [2] psi))).
Proof.
  unfold untoffU. rewrite !T6, !Td3, !ctl_not_nots. unfold cond_pipe, carry_back, den. cbn [map fold_left fst snd cond_obj co_obj oden uden].
  change (each (mTilt (/ 4)) [3]) with (fun psi => on1 (mTilt (/ 4)) 3 psi). cbv beta. rewrite <- !tilt_den. reflexivity.
Qed.
Lemma on1_V_flip (V : mat1) p q psi x : p <> q -> on1 V p (fun y => psi (flip y q)) x = on1 V p psi (flip x q).
Proof.
  intros H. unfold on1. rewrite flip_other by exact H. unfold flip. rewrite !(upd_other x p) by congruence. rewrite !(upd_comm x p q) by exact H. reflexivity.
Qed.
Lemma carry_back_tilts psi : den (cond_pipe carry_back) psi = tilts 0 1 2 3 psi.
Proof.
  rewrite carry_back_den. rewrite !(untoffU_ok (mTilt (/ 4)) mV (tilt_inv _) tilt_Z) by (repeat constructor; cbn; intuition lia).
  set (phi := ctl_nots [1] [2] psi). extensionality x. unfold tilts.
  assert (G : forall y, ctl_nots [1] [2] (fun x0 => if x0 0 && x0 2 then on1 mV 3 phi x0 else phi x0) y = if y 0 && xorb (y 1) (y 2) then on1 mV 3 psi y else psi y).
  { intros y. unfold ctl_nots. cbn [forallb]. rewrite andb_true_r, flips_single. destruct (y 1) eqn:E1.
    - rewrite flip_same, !flip_other by lia. destruct (y 0 && negb (y 2)) eqn:E2.
      + rewrite <- (on1_V_flip mV 3 2 phi y) by lia. replace (y 0 && xorb true (y 2)) with true by (rewrite <- E2; destruct (y 2); reflexivity).
        unfold on1, phi, ctl_nots. cbn [forallb]. rewrite !flips_single, !flip_flip, !(flip_other _ 2), !(upd_other y 3) by lia. rewrite E1. reflexivity.
      + replace (y 0 && xorb true (y 2)) with false by (rewrite <- E2; destruct (y 2); reflexivity). unfold phi, ctl_nots. cbn [forallb]. rewrite flips_single, flip_other, E1 by lia. cbn. rewrite flip_flip. reflexivity.
    - rewrite xorb_false_l. destruct (y 0 && y 2).
      + unfold on1, phi, ctl_nots. cbn [forallb]. rewrite !(upd_other y 3) by lia. rewrite E1. reflexivity.
      + unfold phi, ctl_nots. cbn [forallb]. rewrite E1. reflexivity. }
  unfold maj. destruct (x 1 && x 2) eqn:E.
  - cbn [orb]. assert (X : forall v, ctl_nots [1] [2] (fun x0 : bs => if x0 0 && x0 2 then on1 mV 3 phi x0 else phi x0) (upd x 3 v) = psi (upd x 3 v)).
    { intros v. rewrite G, !(upd_other x 3) by lia. apply andb_prop in E. destruct E as (-> & ->). rewrite andb_false_r. reflexivity. }
    unfold on1. rewrite !X. reflexivity.
  - rewrite G. destruct (x 0), (x 1), (x 2); try discriminate E; reflexivity.
Qed.
Lemma only_tilts c a b p : NoDup [c; a; b; p] -> only [c; a; b; p] (tilts c a b p).
Proof.
  intros N. split.
  - intros phi phi' z H. unfold tilts. destruct (maj (z a) (z b) (z c)); [|apply H; reflexivity].
    unfold on1. rewrite !H; [reflexivity| |]; intros q Hq; apply upd_other; intros ->; apply Hq; cbn; tauto.
  - intros q psi Hq. cbn in Hq. extensionality x. unfold tilts. rewrite !flip_other by intuition congruence. destruct (maj (x a) (x b) (x c)); [|reflexivity].
    apply on1_V_flip. intuition congruence.
Qed.
Lemma carry_back_realizes : realizes 4 4 (cond_pipe carry_back) (tilts 0 1 2 3).
Proof.
  destruct (cond_pipe_proper 4 carry_back carry_back_wf carry_back_carried carry_back_proper) as (W & Pr).
  split; [lia|]. split; [exact W|]. split; [exact Pr|]. split.
  { eexists. split; [right; right; right; right; right; right; right; right; right; right; right; left; reflexivity|left; reflexivity]. }
  split; [apply (only_tilts 0 1 2 3); repeat constructor; cbn; intuition lia|]. exists 4. split; [lia|]. intros phi _. apply carry_back_tilts.
Qed.
Lemma embed_tilts c a b p psi : NoDup [c; a; b; p] -> embed [c; a; b; p] (tilts 0 1 2 3) psi = tilts c a b p psi.
Proof.
  intros N. extensionality x. rewrite (embed_unfold [c; a; b; p]). unfold tilts, on1.
  assert (A : forall j, j < 4 -> at_regs [c; a; b; p] x j = x (nth j [c; a; b; p] 0)) by (intros j Hj; apply (at_in [c; a; b; p]); exact Hj).
  rewrite !A by lia. cbn [nth].
  rewrite !(put_upd [c; a; b; p]) by (exact N || (cbn; lia)). cbn [nth]. rewrite (put_self [c; a; b; p]) by exact N. reflexivity.
Qed.
Lemma carry_inv_tilts d c a b p : 0 < d -> NoDup [c; a; b; p] -> acts d carry_inv [[c]; [a]; [b]; [p]] (tilts c a b p).
Proof.
  intros Hd N. split; [apply only_tilts; exact N|]. intros s (Ad & W) T Lv. set (K := cqs d (conds s)) in *.
  change (concat [[c]; [a]; [b]; [p]]) with [c; a; b; p] in *. unfold carry_inv, inv_macro.
  eapply quiet_then_does.
  { exists s. split; [apply carry_new|]. do 5 (split; [reflexivity || exact T|]). split; [exact Lv|]. tauto. }
  { apply incl_refl. } { apply incl_refl. } intros s2 C2 T2 L2.
  assert (Hne : forall r, In r [[c]; [a]; [b]; [p]] -> r <> []) by (intros r [<-|[<-|[<-|[<-|[]]]]]; discriminate).
  eapply quiet_then_does; [apply quiet_lift; [apply merge_registers_ok; exact Hne|exact T2|exact L2]|apply incl_refl|apply incl_refl|]. intros s3 C3 T3 L3.
  eapply quiet_then_does; [apply quiet_lift; [apply unwrap_new_reg; discriminate|exact T3|exact L3]|apply incl_refl|apply incl_refl|]. intros s4 C4 T4 L4.
  change (concat [[c]; [a]; [b]; [p]]) with [c; a; b; p].
  eapply does_then_quiet.
  - unfold apply_inverted_subcircuit. eapply quiet_then_does; [apply quiet_lift; [exact carry_back_ok|exact T4|exact L4]|apply incl_refl|apply incl_refl|]. intros s5 C5 T5 L5.
    assert (E : conds s5 = conds s) by congruence. pose proof (carried_depth_does 4 [c; a; b; p] carry_back (tilts 0 1 2 3) d s5 carry_back_realizes carry_back_carried Hd) as H.
    rewrite E in H. fold K in H. eapply does_eq; [apply H; [exact W|exact T5|exact L5|discriminate]|].
    intros psi. extensionality x. unfold controlled. rewrite embed_tilts by exact N. reflexivity.
  - intros s5 C5 T5 L5. eapply quiet_bind; [apply quiet_lift; [apply (split_groups_ranges [[c]; [a]; [b]; [p]]); [exact N|discriminate|exact Hne]|exact T5|exact L5]|]. intros s6 C6 T6 L6. apply quiet_ret; assumption.
Qed.
