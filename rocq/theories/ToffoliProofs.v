(** s_dagger, t_dagger, toffoli. *)
From Coq Require Import Reals FunctionalExtensionality Lra Permutation.
From Coquelicot Require Import Complex.
From Verif Require Import Base BitsSpec BitsProofs OpsModel OpsSpec Instances BuilderModel RegProofs DenSpec DenProofs SimProofs LocalProofs
  RunSpec RunProofs GateProofs.
Local Open Scope nat_scope.
Local Open Scope mon_scope.

(** *** Matrices *)
Ltac meq := let r := fresh "r" in let c := fresh "c" in extensionality r; extensionality c; destruct r, c; cbn.
Lemma expi_add a b : Cmult (expi a) (expi b) = expi (a + b).
Proof. unfold expi, Cmult. cbn. rewrite cos_plus, sin_plus. f_equal; ring. Qed.
Lemma expi_0 : expi 0 = RtoC 1.
Proof. unfold expi. rewrite cos_0, sin_0. reflexivity. Qed.
Lemma expi_pi2 : expi (PI / 2) = Ci.
Proof. unfold expi. rewrite cos_PI2, sin_PI2. reflexivity. Qed.
Lemma expi_mpi2 : expi (- (PI / 2)) = Copp Ci.
Proof. unfold expi. rewrite cos_neg, sin_neg, cos_PI2, sin_PI2. unfold Ci, Copp. cbn. f_equal; ring. Qed.
Lemma Ci2 : Cmult Ci Ci = RtoC (-1).
Proof. unfold Ci, Cmult, RtoC. cbn. f_equal; ring. Qed.

Lemma mmul_assoc a b c : mmul a (mmul b c) = mmul (mmul a b) c.
Proof. extensionality r. extensionality k. unfold mmul. ring. Qed.
Lemma mmul_diag a b c d : mmul (diag a b) (diag c d) = diag (Cmult a c) (Cmult b d).
Proof. meq; unfold mmul, diag; cbn; ring. Qed.
Lemma mmul_X_diag a b : mmul mX (mmul (diag a b) mX) = diag b a.
Proof. meq; unfold mmul, diag, mX; cbn; ring. Qed.
Lemma mmul_I_l m : mmul mI m = m.
Proof. meq; unfold mmul, mI, diag; cbn; ring. Qed.
Lemma mmul_I_r m : mmul m mI = m.
Proof. meq; unfold mmul, mI, diag; cbn; ring. Qed.
Lemma half_sqrt : Cmult (RtoC (/ sqrt 2)) (RtoC (/ sqrt 2)) = RtoC (/ 2).
Proof. rewrite <- RtoC_mult. f_equal. apply sqrt2_half. Qed.
Lemma half_half : Cplus (RtoC (/ 2)) (RtoC (/ 2)) = RtoC 1.
Proof. rewrite <- RtoC_plus. f_equal. lra. Qed.
(** H diag(a,b) H *)
Definition had (a b : C) : mat1 := fun r c => if eqb r c then Cmult (RtoC (/ 2)) (Cplus a b) else Cmult (RtoC (/ 2)) (Cminus a b).
Lemma mmul_H_diag_H a b : mmul mH (mmul (diag a b) mH) = had a b.
Proof. meq; unfold mmul, diag, mH, had; cbn; rewrite <- half_sqrt, ?RtoC_opp; ring. Qed.
Lemma had_I : had (RtoC 1) (RtoC 1) = mI.
Proof. meq; unfold had, mI, diag; cbn; try ring; transitivity (Cplus (RtoC (/ 2)) (RtoC (/ 2))); [ring|exact half_half|ring|exact half_half]. Qed.
Lemma had_Z z : had z (Copp z) = mscal z mX.
Proof.
  meq; unfold had, mscal, mX; cbn; try ring; transitivity (Cmult (Cplus (RtoC (/ 2)) (RtoC (/ 2))) z); [ring|rewrite half_half; ring|ring|rewrite half_half; ring].
Qed.

Lemma mSd_ok : mmul mS mZ = mSd.
Proof. unfold mS, mZ, mSd. rewrite mmul_diag. f_equal; [ring|]. rewrite rn_1. ring. Qed.
Lemma mTd_ok : mmul mT (mmul mS mZ) = mTd.
Proof.
  rewrite mSd_ok. unfold mT, mSd, mTd. rewrite mmul_diag. f_equal; [ring|].
  rewrite <- expi_mpi2, expi_add. f_equal. field.
Qed.

Lemma each_mul m1 m2 ts psi : NoDup ts -> each m1 ts (each m2 ts psi) = each (mmul m1 m2) ts psi.
Proof. intros N. rewrite !each_onall. apply (onall_mul (fun _ => m1) (fun _ => m2)); [exact N|intros ? ? ? ?; reflexivity|intros ? ? ? ?; reflexivity]. Qed.

(** *** Daggers *)
Lemma s_dagger_does r L s : tidy s -> live s L -> incl r L -> NoDup r -> r <> [] ->
  does s L (g_s_dagger local_aco r) r L (each mSd r).
Proof.
  intros T Lv I N Hr. eapply does_eq.
  - eapply does_bind; [apply (gate_does UZ); auto|apply incl_refl|apply incl_refl|]. intros s1 C1 T1 L1. apply (gate_does US); auto.
  - intros psi. cbn beta. rewrite each_mul by exact N. cbn [gate_mat]. rewrite mSd_ok. reflexivity.
Qed.
Lemma t_dagger_does r L s : tidy s -> live s L -> incl r L -> NoDup r -> r <> [] ->
  does s L (g_t_dagger local_aco r) r L (each mTd r).
Proof.
  intros T Lv I N Hr. eapply does_eq.
  - eapply does_bind; [apply s_dagger_does; auto|apply incl_refl|apply incl_refl|]. intros s1 C1 T1 L1. apply (gate_does UT); auto.
  - intros psi. cbn beta. rewrite each_mul by exact N. cbn [gate_mat]. rewrite <- mSd_ok, mTd_ok. reflexivity.
Qed.

(** *** The decomposition *)
Definition bX (a : nat) : bs -> mat1 := fun x => if x a then mX else mI.
Lemma ctl_nots_bX a ts psi : NoDup ts -> ~ In a ts -> ctl_nots [a] ts psi = onall (bX a) ts psi.
Proof.
  intros N H. rewrite <- onall_cX; [|exact N|intros q [<-|[]]; exact H]. apply onall_ext. intros x. unfold cX, bX. cbn. rewrite andb_true_r. reflexivity.
Qed.
Lemma each_diag1 a b q psi : each (diag a b) [q] psi = fun x => Cmult (if x q then b else a) (psi x).
Proof.
  extensionality x. unfold each, on1, diag. cbn [fold_left]. destruct (x q) eqn:E; cbn; [replace (upd x q true) with x by (rewrite <- E, upd_id; reflexivity)|
    replace (upd x q false) with x by (rewrite <- E, upd_id; reflexivity)]; ring.
Qed.

Definition core (a b : bool) : mat1 :=
  let Xa := if a then mX else mI in let Xb := if b then mX else mI in
  mmul mH (mmul mT (mmul Xa (mmul mTd (mmul Xb (mmul mT (mmul Xa (mmul mTd (mmul Xb mH)))))))).
Lemma w_wd : Cmult (expi (PI / 4)) (expi (- (PI / 4))) = RtoC 1.
Proof. rewrite expi_add. replace (PI / 4 + - (PI / 4))%R with 0%R by ring. apply expi_0. Qed.
Lemma core_ok a b : core a b = if a && b then mscal (Copp Ci) mX else mI.
Proof.
  pose proof w_wd as W.
  assert (Wd : Cmult (expi (- (PI / 4))) (expi (- (PI / 4))) = Copp Ci) by (rewrite expi_add, <- expi_mpi2; f_equal; field).
  assert (WW : Cmult (expi (PI / 4)) (expi (PI / 4)) = Ci) by (rewrite expi_add, <- expi_pi2; f_equal; field).
  assert (XX : mmul mX mX = mI) by (meq; unfold mmul, mX, mI, diag; cbn; ring).
  assert (TTd : mmul mT mTd = mI).
  { unfold mT, mTd. rewrite mmul_diag, W. unfold mI. f_equal. ring. }
  assert (TdT : mmul mTd mT = mI).
  { unfold mT, mTd. rewrite mmul_diag. rewrite (Cmult_comm _ (expi (PI / 4))), W. unfold mI. f_equal. ring. }
  assert (HH : mmul mH mH = mI).
  { rewrite <- (mmul_I_l mH) at 2. unfold mI. rewrite mmul_H_diag_H. apply had_I. }
  unfold core. destruct a, b; cbn [andb].
  - rewrite <- (had_Z (Copp Ci)), <- mmul_H_diag_H. f_equal. rewrite !mmul_assoc. f_equal.
    transitivity (mmul (mmul mT (mmul mX (mmul mTd mX))) (mmul mT (mmul mX (mmul mTd mX)))); [rewrite !mmul_assoc; reflexivity|].
    unfold mTd. rewrite mmul_X_diag. unfold mT. rewrite !mmul_diag. f_equal.
    + rewrite <- Wd. ring.
    + transitivity (Cmult (expi (PI / 4)) (expi (PI / 4))); [ring|rewrite WW; ring].
  - rewrite !mmul_I_l. rewrite (mmul_assoc mTd mT), TdT, mmul_I_l, (mmul_assoc mX mX), XX, mmul_I_l, (mmul_assoc mT mTd), TTd, mmul_I_l. exact HH.
  - rewrite !mmul_I_l. rewrite (mmul_assoc mT mTd), TTd, mmul_I_l, (mmul_assoc mT mTd), TTd, mmul_I_l, (mmul_assoc mX mX), XX, mmul_I_l. exact HH.
  - rewrite !mmul_I_l. rewrite (mmul_assoc mT mTd), TTd, mmul_I_l, (mmul_assoc mT mTd), TTd, mmul_I_l. exact HH.
Qed.

Lemma onall_cond (c : bs -> bool) z ts : forall psi, NoDup ts -> blind ts c ->
  onall (fun x => if c x then mscal z mX else mI) ts psi = fun x => if c x then Cmult (cpow z (length ts)) (psi (flips ts x)) else psi x.
Proof.
  induction ts as [|t ts IH]; intros psi N B.
  - extensionality x. cbn. rewrite flips_nil. destruct (c x); [ring|reflexivity].
  - inversion N; subst. change (onall (fun x => if c x then mscal z mX else mI) ts (on1f (fun x => if c x then mscal z mX else mI) t psi) =
      fun x => if c x then Cmult (cpow z (length (t :: ts))) (psi (flips (t :: ts) x)) else psi x).
    rewrite IH; [|assumption|intros x q b Hq; apply B; right; exact Hq]. extensionality x.
    assert (F : c (flips ts x) = c x).
    { assert (G : forall l, incl l ts -> NoDup l -> c (flips l x) = c x).
      { induction l as [|q l IHl]; intros I Nl; [rewrite flips_nil; reflexivity|]. inversion Nl; subst. rewrite flips_cons by assumption.
        rewrite B by (right; apply I; left; reflexivity). apply IHl; [|assumption]. intros p Hp. apply I. right. exact Hp. }
      apply G; [apply incl_refl|assumption]. }
    unfold on1f. rewrite F. destruct (c x) eqn:E.
    + rewrite flips_cons by assumption. rewrite flips_notin by assumption. cbn [length cpow]. unfold mscal, mX. destruct (x t); cbn; ring.
    + unfold mI, diag. destruct (x t) eqn:Et; cbn; [replace (upd x t true) with x by (rewrite <- Et, upd_id; reflexivity)|
        replace (upd x t false) with x by (rewrite <- Et, upd_id; reflexivity)]; ring.
Qed.

(** The fifteen steps on states. *)
Definition toff2 (a b : nat) (ts : list nat) (psi : state) : state :=
  ctl_nots [a] [b] (each mTd [b] (each mT [a] (each mH ts (ctl_nots [a] [b] (each mT ts (each mT [b]
    (ctl_nots [a] ts (each mTd ts (ctl_nots [b] ts (each mT ts (ctl_nots [a] ts (each mTd ts (ctl_nots [b] ts (each mH ts psi)))))))))))))).

Lemma each_ctl_nots m ts a b psi : ~ In a ts -> ~ In b ts -> each m ts (ctl_nots [a] [b] psi) = ctl_nots [a] [b] (each m ts psi).
Proof.
  intros Ha Hb. rewrite <- !on1f_cX, !each_onall. apply onall_on1f_comm; [exact Hb| |intros ? ? ? ?; reflexivity].
  intros x q b0 Hq. unfold cX. rewrite forallb_upd; [reflexivity|]. intros [<-|[]]. contradiction.
Qed.

Lemma toff2_ok a b ts psi : NoDup (a :: b :: ts) -> ts <> [] ->
  toff2 a b ts psi = ctl_nots_phase [a; b] ts (cpow (Copp Ci) (length ts - 1)) psi.
Proof.
  intros N Hts. inversion N as [|? ? Ha N1]; subst. inversion N1 as [|? ? Hb N2]; subst. cbn [In] in Ha.
  assert (Hab : a <> b) by (intros ->; apply Ha; left; reflexivity). assert (Hat : ~ In a ts) by tauto. clear Ha.
  unfold toff2. rewrite each_ctl_nots by assumption.
  rewrite (ctl_nots_bX b ts), (ctl_nots_bX a ts), (ctl_nots_bX b ts), (ctl_nots_bX a ts) by assumption.
  rewrite !(each_onall _ ts).
  assert (Bc : forall m, blind ts (fun _ : bs => m : mat1)) by (intros m ? ? ? ?; reflexivity).
  assert (Ba : blind ts (bX a)). { intros x q v Hq. unfold bX. rewrite upd_other; [reflexivity|]. intros ->. contradiction. }
  assert (Bb : blind ts (bX b)). { intros x q v Hq. unfold bX. rewrite upd_other; [reflexivity|]. intros ->. contradiction. }
  assert (Bm : forall f g, blind ts f -> blind ts g -> blind ts (fun x => mmul (f x) (g x))).
  { intros f g Hf Hg x q v Hq. rewrite Hf, Hg by exact Hq. reflexivity. }
  unfold mT at 3. rewrite (each_diag1 _ _ b).
  rewrite (onall_mult (fun _ => mT) ts (fun x => if x b then expi (PI / 4) else RtoC 1)).
  2:{ intros x q v Hq. rewrite upd_other; [reflexivity|]. intros ->. contradiction. }
  rewrite (onall_mult (fun _ => mH) ts (fun x => if x b then expi (PI / 4) else RtoC 1)).
  2:{ intros x q v Hq. rewrite upd_other; [reflexivity|]. intros ->. contradiction. }
  repeat (rewrite onall_mul; [|exact N2|auto 20|auto 20]).
  rewrite (onall_ext _ (fun x => if x a && x b then mscal (Copp Ci) mX else mI)).
  2:{ intros x. rewrite <- !mmul_assoc. apply (core_ok (x a) (x b)). }
  rewrite (onall_cond (fun x => x a && x b)); [|exact N2|].
  2:{ intros x q v Hq. rewrite !upd_other; [reflexivity| |]; intros ->; contradiction. }
  unfold mT, mTd. rewrite !each_diag1. extensionality x. unfold ctl_nots, ctl_nots_phase. cbn [forallb]. rewrite andb_true_r.
  rewrite !flips_single. unfold flip. rewrite !upd_same. rewrite !(upd_other x b _ a) by assumption.
  rewrite !andb_true_r. destruct (x a) eqn:Ea; cbn [andb].
  - rewrite upd_upd, negb_involutive, upd_id, Ea. destruct (x b) eqn:Eb; cbn [negb andb].
    + assert (K : cpow (Copp Ci) (length ts) = Cmult (Copp Ci) (cpow (Copp Ci) (length ts - 1))).
      { destruct ts; [congruence|]. cbn [length cpow]. rewrite Nat.sub_succ, Nat.sub_0_r. reflexivity. }
      rewrite K. transitivity (Cmult (Cmult (Cmult (expi (PI / 4)) (expi (PI / 4))) (Copp Ci)) (Cmult (cpow (Copp Ci) (length ts - 1)) (psi (flips ts x)))); [ring|].
      rewrite expi_add. replace (PI / 4 + PI / 4)%R with (PI / 2)%R by field. rewrite expi_pi2.
      replace (Cmult Ci (Copp Ci)) with (RtoC 1); [ring|]. transitivity (Copp (Cmult Ci Ci)); [rewrite Ci2, rn_1; ring|ring].
    + transitivity (Cmult (Cmult (expi (PI / 4)) (expi (- (PI / 4)))) (psi x)); [ring|rewrite w_wd; ring].
  - destruct (x b) eqn:Eb; [|ring].
    transitivity (Cmult (Cmult (expi (PI / 4)) (expi (- (PI / 4)))) (psi x)); [ring|rewrite w_wd; ring].
Qed.

(** *** basic_toffoli *)
Ltac dbind := eapply does_bind; [|apply incl_refl|apply incl_refl|].
Ltac inc := let q := fresh in intros q; cbn [In app]; rewrite ?in_app_iff; cbn [In]; tauto.

(** Frame a call on part of the owned qubits. *)
Lemma does_sub {A} s L L0 F (m : M A) a D : Permutation (L0 ++ F) L -> live s L ->
  (live s L0 -> does s L0 m a L0 D) -> does s L m a L D.
Proof.
  intros P Lv H. assert (L1 : live s (L0 ++ F)) by (eapply live_perm; [exact Lv|symmetry; exact P]).
  eapply does_perm; [exact P|exact P|]. apply does_frame; [exact L1|]. apply H.
  eapply live_incl; [exact L1|destruct L1 as (N & _); apply NoDup_app_iff in N; apply N|apply incl_appl, incl_refl].
Qed.

Lemma basic_toffoli_does s a b ts : tidy s -> live s (a :: b :: ts) -> ts <> [] ->
  does s (a :: b :: ts) (basic_toffoli local_aco [a; b] ts) ([a; b], ts) (a :: b :: ts)
    (ctl_nots_phase [a; b] ts (cpow (Copp Ci) (length ts - 1))).
Proof.
  intros T Lv Hts. pose proof (proj1 Lv) as N.
  inversion N as [|? ? Ha N1]; subst. inversion N1 as [|? ? Hb N2]; subst. cbn [In] in Ha.
  assert (Hab : a <> b) by (intros ->; apply Ha; left; reflexivity). assert (Hat : ~ In a ts) by tauto. clear Ha.
  assert (Pa : Permutation ((a :: ts) ++ [b]) (a :: b :: ts)).
  { cbn [app]. constructor. symmetry. apply (Permutation_cons_append ts b). }
  assert (Pb : Permutation ((b :: ts) ++ [a]) (a :: b :: ts)) by (symmetry; apply (Permutation_cons_append (b :: ts) a)).
  assert (Pab : Permutation ([a; b] ++ ts) (a :: b :: ts)) by reflexivity.
  unfold basic_toffoli. cbn [length Nat.eqb]. eapply does_eq. {
  eapply quiet_then_does; [apply quiet_lift; [apply split_rel_head; [repeat constructor; cbn; intuition congruence|discriminate]|exact T|exact Lv]|apply incl_refl|apply incl_refl|].
  intros s0 C0 T0 L0. cbn beta iota. clear T Lv.
  dbind; [apply (gate_does UH); [reflexivity|exact T0|exact L0|inc|exact N2|exact Hts]|]. intros s1 C1 T1 L1.
  dbind; [apply does_unwrap; eapply (does_sub _ _ _ _ _ ([b], ts)); [exact Pb|exact L1|intros Lx; apply local_cnot_does; assumption]|]. intros s2 C2 T2 L2. cbn beta iota.
  dbind; [apply t_dagger_does; [exact T2|exact L2|inc|exact N2|exact Hts]|]. intros s3 C3 T3 L3.
  dbind; [apply does_unwrap; eapply (does_sub _ _ _ _ _ ([a], ts)); [exact Pa|exact L3|intros Lx; apply local_cnot_does; assumption]|]. intros s4 C4 T4 L4. cbn beta iota.
  dbind; [apply (gate_does UT); [reflexivity|exact T4|exact L4|inc|exact N2|exact Hts]|]. intros s5 C5 T5 L5.
  dbind; [apply does_unwrap; eapply (does_sub _ _ _ _ _ ([b], ts)); [exact Pb|exact L5|intros Lx; apply local_cnot_does; assumption]|]. intros s6 C6 T6 L6. cbn beta iota.
  dbind; [apply t_dagger_does; [exact T6|exact L6|inc|exact N2|exact Hts]|]. intros s7 C7 T7 L7.
  dbind; [apply does_unwrap; eapply (does_sub _ _ _ _ _ ([a], ts)); [exact Pa|exact L7|intros Lx; apply local_cnot_does; assumption]|]. intros s8 C8 T8 L8. cbn beta iota.
  dbind; [apply (gate_does UT); [reflexivity|exact T8|exact L8|inc|repeat constructor; cbn; tauto|discriminate]|]. intros s9 C9 T9 L9.
  dbind; [apply (gate_does UT); [reflexivity|exact T9|exact L9|inc|exact N2|exact Hts]|]. intros s10 C10 T10 L10.
  dbind; [apply does_unwrap; eapply (does_sub _ _ _ _ _ ([a], [b])); [exact Pab|exact L10|intros Lx; apply local_cnot_does; [assumption|assumption|discriminate]]|]. intros s11 C11 T11 L11. cbn beta iota.
  dbind; [apply (gate_does UH); [reflexivity|exact T11|exact L11|inc|exact N2|exact Hts]|]. intros s12 C12 T12 L12.
  dbind; [apply (gate_does UT); [reflexivity|exact T12|exact L12|inc|repeat constructor; cbn; tauto|discriminate]|]. intros s13 C13 T13 L13.
  dbind; [apply t_dagger_does; [exact T13|exact L13|inc|repeat constructor; cbn; tauto|discriminate]|]. intros s14 C14 T14 L14.
  eapply does_then_quiet; [apply does_unwrap; eapply (does_sub _ _ _ _ _ ([a], [b])); [exact Pab|exact L14|intros Lx; apply local_cnot_does; [assumption|assumption|discriminate]]|].
  intros s15 C15 T15 L15. cbn beta iota.
  eapply quiet_bind; [apply quiet_lift; [apply merge2_ok; discriminate|exact T15|exact L15]|].
  intros s16 C16 T16 L16. apply quiet_ret; assumption. }
  intros psi. cbv beta. apply (toff2_ok a b ts psi N Hts).
Qed.

(** *** toffoli *)
Definition toff_phase (cs ts : list nat) : C := if length cs =? 1 then RtoC 1 else cpow (Copp Ci) (length ts - 1).
Lemma local_nots_phase cs ts z L : incl ts L -> local L (ctl_nots_phase cs ts z).
Proof.
  intros I q psi Hq. rewrite !clean1. intros H x Hx. unfold ctl_nots_phase. destruct (forallb x cs); [|apply H; exact Hx].
  rewrite H; [ring|]. rewrite flips_notin; [exact Hx|]. intros X. apply Hq, I, X.
Qed.
Lemma nots_phase_1 cs ts psi : ctl_nots_phase cs ts (RtoC 1) psi = ctl_nots cs ts psi.
Proof. extensionality x. unfold ctl_nots_phase, ctl_nots. destruct (forallb x cs); [ring|reflexivity]. Qed.

(** Computing the conjunction into a clean qubit and back. *)
Lemma toff_temp a b rest t ts z psi : ~ In t (a :: b :: rest) -> ~ In t ts -> (forall q, In q (a :: b :: rest) -> ~ In q ts) -> clean [t] psi ->
  ctl_nots [a; b] [t] (ctl_nots_phase (rest ++ [t]) ts z (ctl_nots [a; b] [t] psi)) = ctl_nots_phase (a :: b :: rest) ts z psi.
Proof.
  intros Ht Htt Hd Hc. rewrite clean1 in Hc. extensionality x.
  assert (Nab : forall q, In q [a; b] -> ~ In q [t]) by (intros q Hq [<-|[]]; apply Ht; destruct Hq as [<-|[<-|[]]]; [left|right; left]; reflexivity).
  assert (Nat_ : forall q, In q [a; b] -> ~ In q ts) by (intros q Hq; apply Hd; destruct Hq as [<-|[<-|[]]]; [left|right; left]; reflexivity).
  assert (Nrt : forall q, In q rest -> ~ In q [t]) by (intros q Hq [<-|[]]; apply Ht; right; right; exact Hq).
  assert (Comm : forall y, flips [t] (flips ts (flips [t] y)) = flips ts y).
  { intros y. extensionality q. unfold flips. destruct (y q), (existsb (Nat.eqb q) ts), (existsb (Nat.eqb q) [t]); reflexivity. }
  assert (C1 : forall y, y t = true -> psi (flips ts y) = RtoC 0) by (intros y Hy; apply Hc; rewrite flips_notin; assumption).
  set (g := ctl_nots [a; b] [t] psi).
  assert (Gt : forall y, forallb y [a; b] = true -> g y = psi (flips [t] y)) by (intros y Hy; unfold g, ctl_nots; rewrite Hy; reflexivity).
  assert (Gf : forall y, forallb y [a; b] = false -> g y = psi y) by (intros y Hy; unfold g, ctl_nots; rewrite Hy; reflexivity).
  assert (Split : forall y, forallb y (rest ++ [t]) = forallb y rest && y t) by (intros y; rewrite forallb_app; cbn [forallb]; rewrite andb_true_r; reflexivity).
  assert (Split2 : forallb x (a :: b :: rest) = forallb x [a; b] && forallb x rest) by (cbn; rewrite andb_true_r, andb_assoc; reflexivity).
  unfold ctl_nots at 1. unfold ctl_nots_phase. rewrite Split2. destruct (forallb x [a; b]) eqn:E; cbn [andb]; rewrite Split.
  - rewrite forallb_flips by exact Nrt. rewrite flips_in by (left; reflexivity).
    rewrite (Gt (flips ts (flips [t] x))) by (rewrite !forallb_flips by assumption; exact E).
    rewrite (Gt (flips [t] x)) by (rewrite forallb_flips by assumption; exact E). rewrite Comm, flips_flips.
    destruct (forallb x rest), (x t) eqn:Et; cbn; try reflexivity. rewrite C1, Hc by exact Et. ring.
  - rewrite (Gf (flips ts x)) by (rewrite forallb_flips by assumption; exact E). rewrite (Gf x E).
    destruct (forallb x rest), (x t) eqn:Et; cbn; try reflexivity. rewrite C1, Hc by exact Et. ring.
Qed.

Lemma toffoli_fuel_does fuel : forall s cs ts, length cs < fuel -> tidy s -> live s (cs ++ ts) -> cs <> [] -> ts <> [] ->
  does s (cs ++ ts) (toffoli_fuel local_aco fuel cs ts) (cs, ts) (cs ++ ts) (ctl_nots_phase cs ts (toff_phase cs ts)).
Proof.
  induction fuel as [|fuel IH]; intros s cs ts Hf T Lv Hc Ht; [lia|]. cbn [toffoli_fuel].
  destruct cs as [|a [|b rest]]; [congruence| |].
  - cbn [length Nat.eqb]. eapply does_eq; [apply local_cnot_does; assumption|]. intros psi. symmetry. apply nots_phase_1.
  - destruct rest as [|c rest].
    { cbn [length Nat.eqb]. apply basic_toffoli_does; assumption. }
    cbn [length Nat.eqb]. set (tl := c :: rest) in *. assert (Htl : tl <> []) by discriminate.
    assert (Hlen : S (length tl) < fuel) by (cbn [length] in Hf; lia).
    assert (Hlen2 : 2 < fuel) by (unfold tl in Hlen; cbn [length] in Hlen; lia).
    pose proof (proj1 Lv) as N. assert (Ncs : NoDup ([a; b] ++ tl)) by (apply NoDup_app_iff in N; apply N).
    eapply quiet_then_does; [apply quiet_lift; [apply (split_rel_prefix [a; b] tl); [exact Ncs|discriminate|exact Htl]|exact T|exact Lv]|apply incl_refl|apply incl_refl|].
    intros s1 C1 T1 L1. cbn beta iota.
    apply does_with_temp; [exact T1|exact L1|apply local_nots_phase, incl_appr, incl_refl|].
    intros t s2 C2 T2 L2. clear dependent s. clear dependent s1.
    assert (Nt : NoDup (t :: (a :: b :: tl) ++ ts)) by apply L2.
    assert (Nta : ~ In t ((a :: b :: tl) ++ ts)) by (inversion Nt; assumption).
    assert (Ncts : forall q, In q (a :: b :: tl) -> ~ In q ts) by (apply NoDup_app_iff in N; apply N).
    assert (P1 : Permutation (([a; b] ++ [t]) ++ tl ++ ts) (t :: (a :: b :: tl) ++ ts)).
    { rewrite <- app_assoc. symmetry. apply (Permutation_middle [a; b] (tl ++ ts) t). }
    assert (P2 : Permutation (((tl ++ [t]) ++ ts) ++ [a; b]) (t :: (a :: b :: tl) ++ ts)).
    { rewrite <- !app_assoc. cbn [app]. transitivity (t :: tl ++ ts ++ [a; b]); [symmetry; apply Permutation_middle|]. constructor.
      rewrite app_assoc. apply (Permutation_app_comm (tl ++ ts) [a; b]). }
    eexists. split.
    + dbind; [apply does_unwrap; eapply does_sub with (a := ([a; b], [t])); [exact P1|exact L2|]; intros Lx; apply (IH s2 [a; b] [t]); [exact Hlen2|exact T2|exact Lx|discriminate|discriminate]|].
      intros s3 C3 T3 L3. cbn beta iota.
      eapply quiet_then_does; [apply quiet_lift; [apply merge2_ok; exact Htl|exact T3|exact L3]|apply incl_refl|apply incl_refl|].
      intros s4 C4 T4 L4.
      dbind; [apply does_unwrap; eapply does_sub with (a := (tl ++ [t], ts)); [exact P2|exact L4|]; intros Lx; apply (IH s4 (tl ++ [t]) ts);
        [rewrite app_length, Nat.add_1_r; exact Hlen|exact T4|exact Lx|destruct tl; discriminate|exact Ht]|].
      intros s5 C5 T5 L5. cbn beta iota.
      eapply quiet_then_does; [apply quiet_lift; [apply split_last_ok; [|exact Htl]|exact T5|exact L5]|apply incl_refl|apply incl_refl|].
      { apply NoDup_app_iff. apply NoDup_app_iff in Ncs. split; [apply Ncs|]. split; [repeat constructor; cbn; tauto|].
        intros q Hq [<-|[]]. apply Nta. apply in_or_app. left. right. right. exact Hq. }
      intros s6 C6 T6 L6. cbn beta iota.
      eapply quiet_then_does; [apply quiet_lift; [reflexivity|exact T6|exact L6]|apply incl_refl|apply incl_refl|].
      intros s7 C7 T7 L7.
      eapply does_then_quiet; [apply does_unwrap; eapply does_sub with (a := ([a; b], [t])); [exact P1|exact L7|]; intros Lx; apply (IH s7 [a; b] [t]); [exact Hlen2|exact T7|exact Lx|discriminate|discriminate]|].
      intros s8 C8 T8 L8. cbn beta iota.
      eapply quiet_bind; [apply (quiet_return s8 [t] ((a :: b :: tl) ++ ts)); [exact T8|exact L8|discriminate]|].
      intros s9 C9 T9 L9. eapply quiet_bind; [apply quiet_lift; [apply merge2_ok; discriminate|exact T9|exact L9]|].
      intros s10 C10 T10 L10. apply quiet_ret; assumption.
    + intros psi Hcl. cbv beta. unfold toff_phase. cbn [length Nat.eqb Nat.sub cpow]. rewrite !nots_phase_1.
      replace (length (tl ++ [t]) =? 1) with false by (rewrite app_length; unfold tl; cbn; rewrite Nat.add_comm; reflexivity).
      apply toff_temp; [intros X; apply Nta, in_or_app; left; exact X|intros X; apply Nta, in_or_app; right; exact X|exact Ncts|exact Hcl].
Qed.

Lemma toffoli_does s cs ts : tidy s -> live s (cs ++ ts) -> cs <> [] -> ts <> [] ->
  does s (cs ++ ts) (toffoli local_aco cs ts) (cs, ts) (cs ++ ts) (ctl_nots_phase cs ts (toff_phase cs ts)).
Proof. intros. apply toffoli_fuel_does; auto. Qed.
Lemma toffoli_one s cs t : tidy s -> live s (cs ++ [t]) -> cs <> [] ->
  does s (cs ++ [t]) (toffoli local_aco cs [t]) (cs, [t]) (cs ++ [t]) (ctl_not cs t).
Proof.
  intros T Lv Hc. eapply does_eq; [apply toffoli_does; [exact T|exact Lv|exact Hc|discriminate]|].
  intros psi. unfold toff_phase. cbn [length Nat.sub cpow]. destruct (length cs =? 1); rewrite nots_phase_1; apply ctl_not_nots.
Qed.
