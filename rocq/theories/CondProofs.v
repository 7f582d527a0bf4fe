(** Conditioned objects. *)
From Coq Require Import Reals QArith Qreals ZArith FunctionalExtensionality Lra Permutation.
From Coquelicot Require Import Complex.
From Verif Require Import Base BitsSpec BitsProofs OpsModel OpsSpec Instances BuilderModel RegProofs DenSpec DenProofs SimProofs LocalProofs
  RunSpec RunProofs GateProofs ToffoliProofs SwapProofs RotProofs.
Local Open Scope nat_scope.
Local Open Scope mon_scope.

(** *** States *)
Lemma onall_agree g (c : bs -> bool) ts : forall phi phi', blind ts c -> (forall y, c y = true -> phi y = phi' y) ->
  forall x, c x = true -> onall g ts phi x = onall g ts phi' x.
Proof.
  induction ts as [|t ts IH]; intros phi phi' B H x Hx; [apply H; exact Hx|].
  change (onall g ts (on1f g t phi) x = onall g ts (on1f g t phi') x). apply IH; [intros y q b Hq; apply B; right; exact Hq| |exact Hx].
  intros y Hy. unfold on1f. rewrite !H; [reflexivity| |]; rewrite B by (left; reflexivity); exact Hy.
Qed.
Lemma onall_if (c : bs -> bool) m ts : forall psi, blind ts c ->
  onall (fun x => if c x then m else mI) ts psi = fun x => if c x then each m ts psi x else psi x.
Proof.
  induction ts as [|t ts IH]; intros psi B; [extensionality x; cbn; destruct (c x); reflexivity|].
  assert (B' : blind ts c) by (intros y q b Hq; apply B; right; exact Hq).
  change (onall (fun x => if c x then m else mI) ts (on1f (fun x => if c x then m else mI) t psi) = fun x => if c x then each m (t :: ts) psi x else psi x).
  rewrite IH by exact B'. extensionality x. destruct (c x) eqn:E.
  - change (each m (t :: ts) psi x) with (each m ts (on1 m t psi) x). rewrite !each_onall. apply (onall_agree _ c); [exact B'| |exact E].
    intros y Hy. unfold on1f. rewrite Hy. reflexivity.
  - unfold on1f. rewrite E. unfold mI, diag. destruct (x t) eqn:Et; cbn; [replace (upd x t true) with x by (rewrite <- Et, upd_id; reflexivity)|
      replace (upd x t false) with x by (rewrite <- Et, upd_id; reflexivity)]; ring.
Qed.

(** Apply [m] to each of [ts] and multiply by [z], where all of [cs] are 1. *)
Definition ctl_each (cs ts : list nat) (z : C) (m : mat1) : state -> state := controlled cs (fun psi x => Cmult z (each m ts psi x)).

Lemma conj_ctl m1 m2 cs ts z psi : NoDup ts -> (forall q, In q cs -> ~ In q ts) -> mmul m2 m1 = mI ->
  each m2 ts (ctl_nots_phase cs ts z (each m1 ts psi)) = ctl_each cs ts z (mmul m2 (mmul mX m1)) psi.
Proof.
  intros N H E.
  assert (Bc : forall m, blind ts (fun _ : bs => m : mat1)) by (intros m ? ? ? ?; reflexivity).
  assert (Bf : blind ts (fun x => forallb x cs)). { intros x q b Hq. apply forallb_upd. intros X. apply (H q X Hq). }
  assert (Bz : blind ts (fun x => if forallb x cs then z else RtoC 1)) by (intros x q b Hq; rewrite (Bf x q b Hq); reflexivity).
  assert (BX : blind ts (cX cs)) by (intros x q b Hq; unfold cX; rewrite (Bf x q b Hq); reflexivity).
  assert (E1 : forall phi, ctl_nots_phase cs ts z phi = fun x => Cmult (if forallb x cs then z else RtoC 1) (onall (cX cs) ts phi x)).
  { intros phi. rewrite onall_cX by assumption. extensionality x. unfold ctl_nots_phase, ctl_nots. destruct (forallb x cs); [reflexivity|ring]. }
  rewrite E1, !each_onall, onall_mult by exact Bz.
  rewrite (onall_mul (cX cs) (fun _ => m1)) by auto. rewrite (onall_mul (fun _ => m2)); [|exact N|apply Bc|].
  2:{ intros x q b Hq. rewrite (BX x q b Hq). reflexivity. }
  rewrite (onall_ext _ (fun x => if forallb x cs then mmul m2 (mmul mX m1) else mI)).
  2:{ intros x. unfold cX. destruct (forallb x cs); [reflexivity|]. rewrite mmul_I_l. exact E. }
  rewrite onall_if by exact Bf. extensionality x. unfold ctl_each, controlled. destruct (forallb x cs); [reflexivity|ring].
Qed.
Lemma ctl_each_X cs ts z psi : NoDup ts -> (forall q, In q cs -> ~ In q ts) -> ctl_nots_phase cs ts z psi = ctl_each cs ts z mX psi.
Proof.
  intros N H. rewrite <- (onall_id ts (ctl_nots_phase cs ts z psi)), <- each_onall.
  rewrite <- (onall_id ts psi) at 1. rewrite <- (each_onall mI ts psi), conj_ctl; [|assumption|assumption|apply mmul_I_l].
  rewrite mmul_I_l, mmul_I_r. reflexivity.
Qed.
Lemma local_ctl_each cs ts z m L : incl ts L -> local L (ctl_each cs ts z m).
Proof.
  intros I q psi Hq Hc. apply clean1. intros x Hx. unfold ctl_each, controlled. destruct (forallb x cs); [|apply (proj1 (clean1 q psi) Hc); exact Hx].
  rewrite each_onall. rewrite (proj1 (clean1 q _) (local_onall (fun _ => m) ts q psi (fun X => Hq (I q X)) Hc) x Hx). ring.
Qed.
Lemma ctl_each_1 cs ts m psi : ctl_each cs ts (RtoC 1) m psi = controlled cs (each m ts) psi.
Proof. extensionality x. unfold ctl_each, controlled. destruct (forallb x cs); [ring|reflexivity]. Qed.
Lemma toff_phase_one cs t : toff_phase cs [t] = RtoC 1.
Proof. unfold toff_phase. cbn. destruct (length cs =? 1); reflexivity. Qed.

(** What [local_try] does with an object, for every condition register. *)
Definition cond_ok (co : cobj) (r : reg) (D : list nat -> state -> state) : Prop :=
  forall s cs, cs <> [] -> tidy s -> live s (cs ++ r) -> does s (cs ++ r) (local_try cs r co) (cs, r) (cs ++ r) (D cs).

Lemma live_split s cs r : live s (cs ++ r) -> NoDup cs /\ NoDup r /\ forall q, In q cs -> ~ In q r.
Proof. intros (N & _). apply NoDup_app_iff in N. tauto. Qed.

Lemma try_X k r : r <> [] -> cond_ok (mkCO k (OUnit UX)) r (fun cs => ctl_each cs r (toff_phase cs r) mX).
Proof.
  intros Hr s cs Hc T Lv. destruct (live_split s cs r Lv) as (Nc & Nr & D). eapply does_eq; [apply toffoli_does; assumption|].
  intros psi. apply ctl_each_X; assumption.
Qed.
(** Gates of the form A X A^-1. *)
Lemma try_conj (a b : reg -> M reg) m1 m2 cs r s : tidy s -> live s (cs ++ r) -> cs <> [] -> r <> [] -> mmul m2 m1 = mI ->
  (forall s L, tidy s -> live s L -> incl r L -> does s L (a r) r L (each m1 r)) ->
  (forall s L, tidy s -> live s L -> incl r L -> does s L (b r) r L (each m2 r)) ->
  does s (cs ++ r) (r <- a r ;; '(cr, r) <- toffoli local_aco cs r ;; r <- b r ;; ret (cr, r)) (cs, r) (cs ++ r)
    (ctl_each cs r (toff_phase cs r) (mmul m2 (mmul mX m1))).
Proof.
  intros T Lv Hc Hr E Ha Hb. destruct (live_split s cs r Lv) as (Nc & Nr & Dj).
  eapply does_eq. {
  dbind; [apply Ha; [exact T|exact Lv|apply incl_appr, incl_refl]|]. intros s1 C1 T1 L1.
  dbind; [apply toffoli_does; assumption|]. intros s2 C2 T2 L2. cbn beta iota.
  eapply does_then_quiet; [apply Hb; [exact T2|exact L2|apply incl_appr, incl_refl]|]. intros s3 C3 T3 L3. apply quiet_ret; assumption. }
  intros psi. apply conj_ctl; assumption.
Qed.
Lemma mS_inv : mmul mSd mS = mI.
Proof. meq; unfold mmul, mSd, mS, mI, diag, Ci, Cmult, Cplus, Copp, RtoC; cbn; f_equal; ring. Qed.
Lemma mH_inv : mmul mH mH = mI.
Proof. rewrite <- (mmul_I_l mH) at 2. unfold mI. rewrite mmul_H_diag_H. apply had_I. Qed.
Lemma mRy_mul a b : mmul (mRy a) (mRy b) = mRy (a + b).
Proof.
  replace (mRy (a + b)) with (fun r c : bool => if eqb r c then RtoC (cos (a / 2 + b / 2)) else if r then RtoC (sin (a / 2 + b / 2)) else RtoC (- sin (a / 2 + b / 2))).
  2:{ unfold mRy. replace ((a + b) / 2)%R with (a / 2 + b / 2)%R by field. reflexivity. }
  meq; unfold mmul, mRy; cbn; rewrite ?cos_plus, ?sin_plus; rewrite <- !RtoC_mult, <- RtoC_plus; f_equal; ring.
Qed.
Lemma mRy_0 : mRy 0 = mI.
Proof. meq; unfold mRy, mI, diag; cbn; replace (0 / 2)%R with 0%R by field; rewrite ?cos_0, ?sin_0, ?Ropp_0; reflexivity. Qed.

Definition mnY : mat1 := mscal (RtoC (-1)) mY.
Lemma SXS : mmul mSd (mmul mX mS) = mnY.
Proof. meq; unfold mmul, mSd, mS, mX, mnY, mscal, mY, diag, Ci, Cmult, Cplus, Copp, RtoC; cbn; f_equal; ring. Qed.
Lemma HXH : mmul mH (mmul mX mH) = mZ.
Proof. rewrite <- (mmul_I_l mZ), <- mH_inv, <- mmul_assoc. f_equal. meq; unfold mmul, mX, mH, mZ, diag; cbn; rewrite ?rn_1, ?RtoC_opp; ring. Qed.
(** [sin t Z + cos t X] for the angle [t] of ry_pi_by. *)
Definition mTilt (t : R) : mat1 := fun r c => if eqb r c then (if r then RtoC (- sin t) else RtoC (sin t)) else RtoC (cos t).
Lemma RyXRy t : mmul (mRy (- t)) (mmul mX (mRy t)) = mTilt t.
Proof.
  assert (S2 : sin t = (2 * sin (t / 2) * cos (t / 2))%R) by (rewrite <- sin_2a; f_equal; field).
  assert (C2 : cos t = (cos (t / 2) * cos (t / 2) - sin (t / 2) * sin (t / 2))%R) by (rewrite <- cos_2a; f_equal; field).
  meq; unfold mmul, mRy, mX, mTilt; cbn; replace (- t / 2)%R with (- (t / 2))%R by field; rewrite ?sin_neg, ?cos_neg, ?S2, ?C2;
    rewrite <- ?RtoC_mult, <- ?RtoC_plus, <- ?RtoC_mult, <- ?RtoC_plus; unfold RtoC, Cmult, Cplus; cbn; f_equal; ring.
Qed.

Lemma try_Y k r : r <> [] -> cond_ok (mkCO k (OUnit UY)) r (fun cs => ctl_each cs r (toff_phase cs r) mnY).
Proof.
  intros Hr s cs Hc T Lv. rewrite <- SXS. apply (try_conj (g_s local_aco) (g_s_dagger local_aco)); auto.
  - apply mS_inv.
  - intros s' L T' L' I. apply (gate_does US); auto. apply (live_split s cs r Lv).
  - intros s' L T' L' I. apply s_dagger_does; auto. apply (live_split s cs r Lv).
Qed.
Lemma try_Z k r : r <> [] -> cond_ok (mkCO k (OUnit UZ)) r (fun cs => ctl_each cs r (toff_phase cs r) mZ).
Proof.
  intros Hr s cs Hc T Lv. rewrite <- HXH. apply (try_conj (g_h local_aco) (g_h local_aco)); auto.
  - apply mH_inv.
  - intros s' L T' L' I. apply (gate_does UH); auto. apply (live_split s cs r Lv).
  - intros s' L T' L' I. apply (gate_does UH); auto. apply (live_split s cs r Lv).
Qed.
Lemma try_H k q : cond_ok (mkCO k (OUnit UH)) [q] (fun cs => controlled cs (each (mTilt (/ 4)) [q])).
Proof.
  intros s cs Hc T Lv. eapply does_eq.
  - apply (try_conj (fun r => ry_pi_by r 4) (fun r => ry_pi_by r (-4)) (mRy (/ 4)) (mRy (- / 4))); auto.
    + discriminate.
    + rewrite mRy_mul. replace (- / 4 + / 4)%R with 0%R by ring. apply mRy_0.
    + intros s' L T' L' I. apply ry_pi_by_does; [discriminate|discriminate|assumption|assumption|apply I; left; reflexivity].
    + intros s' L T' L' I. eapply does_eq; [apply ry_pi_by_does; [discriminate|discriminate|assumption|assumption|apply I; left; reflexivity]|].
      intros psi. replace (/ -4)%R with (- / 4)%R by field. reflexivity.
  - intros psi. rewrite toff_phase_one, ctl_each_1, RyXRy. reflexivity.
Qed.

(** Compute a conjunction into a clean qubit, act diagonally on it, uncompute. *)
Lemma conj_temp cs t a b psi : ~ In t cs -> clean [t] psi ->
  ctl_not cs t (each (diag a b) [t] (ctl_not cs t psi)) = fun x => Cmult (if forallb x cs then b else a) (psi x).
Proof.
  intros Ht Hc. rewrite each_diag1. rewrite <- !ctl_not_nots. rewrite clean1 in Hc. extensionality x. unfold ctl_nots.
  assert (E : forallb (flips [t] x) cs = forallb x cs) by (apply forallb_flips; intros q Hq [<-|[]]; contradiction).
  destruct (forallb x cs) eqn:Ex.
  - rewrite E, flips_flips, flips_in by (left; reflexivity). destruct (x t) eqn:Et; cbn [negb]; [rewrite (Hc x Et); ring|reflexivity].
  - destruct (x t) eqn:Et; [rewrite (Hc x Et); ring|reflexivity].
Qed.
Lemma local_scale (f : bs -> C) L : local L (fun psi x => Cmult (f x) (psi x)).
Proof. intros q psi _. rewrite !clean1. intros H x Hx. rewrite H by exact Hx. ring. Qed.

Lemma with_conj {A} (g : reg -> M reg) (k : reg -> M A) out a b cs s : tidy s -> live s cs -> cs <> [] ->
  (forall s t L, tidy s -> live s L -> In t L -> does s L (g [t]) [t] L (each (diag a b) [t])) ->
  (forall s, tidy s -> live s cs -> quiet s cs (k cs) out cs) ->
  does s cs (tq <- make_zeroed_temp_qubit ;; '(cr, tq) <- toffoli local_aco cs tq ;; tq <- g tq ;;
     '(cr, tq) <- toffoli local_aco cr tq ;; _ <- return_zeroed_temp_register tq ;; k cr) out cs
    (fun psi x => Cmult (if forallb x cs then b else a) (psi x)).
Proof.
  intros T Lv Hc Hg Hk. apply does_with_temp; [exact T|exact Lv|apply local_scale|]. intros t s1 C1 T1 L1.
  assert (Nt : ~ In t cs) by (destruct L1 as (N & _); inversion N; assumption).
  assert (P : Permutation (cs ++ [t]) (t :: cs)) by (symmetry; apply Permutation_cons_append).
  eexists. split.
  - dbind; [eapply does_perm; [exact P|exact P|]; apply toffoli_one; [exact T1|eapply live_perm; [exact L1|symmetry; exact P]|exact Hc]|].
    intros s2 C2 T2 L2. cbn beta iota.
    dbind; [apply Hg; [exact T2|exact L2|left; reflexivity]|]. intros s3 C3 T3 L3.
    eapply does_then_quiet; [eapply does_perm; [exact P|exact P|]; apply toffoli_one; [exact T3|eapply live_perm; [exact L3|symmetry; exact P]|exact Hc]|].
    intros s4 C4 T4 L4. cbn beta iota. eapply quiet_bind; [apply (quiet_return s4 [t] cs); [exact T4|exact L4|discriminate]|].
    intros s5 C5 T5 L5. apply Hk; assumption.
  - intros psi Hcl. cbv beta. apply conj_temp; assumption.
Qed.

(** S and T: the phase depends on condition and target together.  For more than one target the
    call gives back only the last one, the others join the condition register. *)
Lemma cond_phase_does (g : reg -> M reg) c cs ts t s : tidy s -> live s (cs ++ ts ++ [t]) -> cs <> [] ->
  (forall s t L, tidy s -> live s L -> In t L -> does s L (g [t]) [t] L (each (diag (RtoC 1) c) [t])) ->
  does s (cs ++ ts ++ [t]) (cond_phase g cs (ts ++ [t])) (cs ++ ts, [t]) (cs ++ ts ++ [t]) (ctl_phase (cs ++ ts ++ [t]) c).
Proof.
  intros T Lv Hc Hg. unfold cond_phase. eapply does_eq. {
  eapply quiet_then_does; [apply quiet_lift; [apply merge2_ok; exact Hc|exact T|exact Lv]|apply incl_refl|apply incl_refl|].
  intros s1 C1 T1 L1. apply (with_conj g (fun cr => '(cr, r) <- lift (split_last_qubit cr) ;; r <- lift (unwrap_opt r) ;; ret (cr, r)) (cs ++ ts, [t]) (RtoC 1) c);
    [exact T1|exact L1|destruct cs; [congruence|discriminate]|exact Hg|].
  intros s2 T2 L2. rewrite app_assoc in L2 |- *. eapply quiet_bind; [apply quiet_lift; [apply split_last_ok; [apply L2|destruct cs; [congruence|discriminate]]|exact T2|exact L2]|].
  intros s3 C3 T3 L3. cbn beta iota. eapply quiet_bind; [apply quiet_lift; [reflexivity|exact T3|exact L3]|]. intros s4 C4 T4 L4. apply quiet_ret; assumption. }
  intros psi. extensionality x. unfold ctl_phase. destruct (forallb x _); [reflexivity|ring].
Qed.
Lemma ctl_phase_diag cs t c psi : ctl_phase (cs ++ [t]) c psi = controlled cs (each (diag (RtoC 1) c) [t]) psi.
Proof.
  extensionality x. unfold ctl_phase, controlled. rewrite each_diag1. rewrite forallb_app. cbn [forallb]. rewrite andb_true_r.
  destruct (forallb x cs); [|reflexivity]. cbn [andb]. destruct (x t); [reflexivity|ring].
Qed.
Lemma try_S k t : cond_ok (mkCO k (OUnit US)) [t] (fun cs => controlled cs (each mS [t])).
Proof.
  intros s cs Hc T Lv. eapply does_eq.
  - pose proof (cond_phase_does (g_s local_aco) Ci cs [] t s T Lv Hc) as H. rewrite app_nil_r in H. apply H.
    intros s1 t1 L T1 L1 I. apply (gate_does US); auto; [intros q [<-|[]]; exact I|repeat constructor; cbn; tauto|discriminate].
  - intros psi. apply ctl_phase_diag.
Qed.
Lemma try_T k t : cond_ok (mkCO k (OUnit UT)) [t] (fun cs => controlled cs (each mT [t])).
Proof.
  intros s cs Hc T Lv. eapply does_eq.
  - pose proof (cond_phase_does (g_t local_aco) (expi (PI / 4)) cs [] t s T Lv Hc) as H. rewrite app_nil_r in H. apply H.
    intros s1 t1 L T1 L1 I. apply (gate_does UT); auto; [intros q [<-|[]]; exact I|repeat constructor; cbn; tauto|discriminate].
  - intros psi. apply ctl_phase_diag.
Qed.

(** CNOT *)
Lemma try_CNOT k c t : cond_ok (mkCO k (OUnit UCNOT)) [c; t] (fun cs => ctl_nots (cs ++ [c]) [t]).
Proof.
  intros s cs Hc T Lv. cbn [local_try co_obj]. pose proof (proj1 Lv) as N.
  assert (P : (cs ++ [c]) ++ [t] = cs ++ [c; t]) by (rewrite <- app_assoc; reflexivity).
  assert (Hct : c <> t). { apply NoDup_app_iff in N. destruct N as (_ & N & _). inversion N as [|? ? X _]; subst. intros ->. apply X. left. reflexivity. }
  eapply quiet_then_does; [cbn; apply quiet_ret; [exact T|exact Lv]|apply incl_refl|apply incl_refl|]. intros s1 C1 T1 L1.
  eapply quiet_then_does; [apply quiet_lift; [apply split_first_ok; [repeat constructor; cbn; intuition congruence|discriminate]|exact T1|exact L1]|apply incl_refl|apply incl_refl|].
  intros s2 C2 T2 L2. cbn beta iota.
  eapply quiet_then_does; [apply quiet_lift; [reflexivity|exact T2|exact L2]|apply incl_refl|apply incl_refl|]. intros s3 C3 T3 L3.
  eapply quiet_then_does; [apply quiet_lift; [apply merge2_ok; exact Hc|exact T3|exact L3]|apply incl_refl|apply incl_refl|]. intros s4 C4 T4 L4.
  eapply does_then_quiet.
  { rewrite <- P in L4 |- *. eapply does_eq; [apply toffoli_one; [exact T4|exact L4|destruct cs; discriminate]|]. intros psi. symmetry. apply ctl_not_nots. }
  rewrite P. intros s5 C5 T5 L5. cbn beta iota.
  eapply quiet_bind; [apply quiet_lift; [apply split_last_ok; [rewrite <- P in N; apply NoDup_app_iff in N; apply N|exact Hc]|exact T5|exact L5]|].
  intros s6 C6 T6 L6. cbn beta iota. eapply quiet_bind; [apply quiet_lift; [reflexivity|exact T6|exact L6]|].
  intros s7 C7 T7 L7. eapply quiet_bind; [apply quiet_lift; [apply merge2_ok; discriminate|exact T7|exact L7]|].
  intros s8 C8 T8 L8. apply quiet_ret; assumption.
Qed.

(** Rz (reached through conditioned subcircuits only). *)
Lemma try_Rz k th r : r <> [] ->
  cond_ok (mkCO k (OUnit (URz th))) r (fun cs psi x => Cmult (if forallb x (cs ++ r) then expi (angle th / 2) else expi (- (angle th / 2))) (psi x)).
Proof.
  intros Hr s cs Hc T Lv. cbn [local_try co_obj].
  eapply quiet_then_does; [apply quiet_lift; [apply merge2_ok; exact Hc|exact T|exact Lv]|apply incl_refl|apply incl_refl|].
  intros s1 C1 T1 L1.
  apply (with_conj (fun tq => match th with Floating theta => rz tq theta | PiRational q => rz_ratio tq q end)
    (fun cr => sp <- lift (split_rel cr (seq 0 (length cs))) ;; match sp with Split cr r => ret (cr, r) | _ => crash PUnreachable end) (cs, r));
    [exact T1|exact L1|destruct cs; [congruence|discriminate]| |].
  - intros s2 t L T2 L2 It. destruct th as [p|q]; cbn [angle]; [apply (rz_does p)|apply (rz_ratio_does q)]; assumption.
  - intros s2 T2 L2. eapply quiet_bind; [apply quiet_lift; [apply split_rel_prefix; [apply L2|exact Hc|exact Hr]|exact T2|exact L2]|].
    intros s3 C3 T3 L3. cbn beta iota. apply quiet_ret; assumption.
Qed.

(** *** Depth *)
Lemma upd_nth_twice {A} k (a b : A) l : upd_nth k a (upd_nth k b l) = upd_nth k a l.
Proof. revert k. induction l as [|x l IH]; intros [|k]; cbn; try reflexivity. f_equal. apply IH. Qed.
Lemma upd_nth_same {A} k (a : A) l : nth_error l k = Some a -> upd_nth k a l = l.
Proof. revert k. induction l as [|x l IH]; intros [|k] H; cbn in *; try discriminate; [congruence|]. f_equal. apply IH. exact H. Qed.
Lemma cqs_upd d k a c : d <= k -> cqs d (upd_nth k a c) = cqs d c.
Proof.
  induction d as [|d IH]; intros H; [reflexivity|]. cbn. rewrite IH by lia. rewrite nth_error_upd_nth. destruct (Nat.eqb_spec d k); [lia|]. reflexivity.
Qed.
Lemma wrapped_upd d k a c : d <= k -> wrapped d c -> wrapped d (upd_nth k a c).
Proof.
  intros H Hh j Hj. destruct (Hh j Hj) as (r & E & Hr). exists r. split; [|exact Hr]. rewrite nth_error_upd_nth. destruct (Nat.eqb_spec j k); [lia|]. exact E.
Qed.
Lemma wrapped_le d k c : k <= d -> wrapped d c -> wrapped k c.
Proof. intros H Hh j Hj. apply Hh. lia. Qed.
Lemma tidy_bld s s' : bld s = bld s' -> tidy s -> tidy s'.
Proof. unfold tidy, pool. intros ->. auto. Qed.
Lemma live_bld s s' L : bld s = bld s' -> live s L -> live s' L.
Proof. unfold live, idle, pool. intros ->. auto. Qed.

(** Take a condition register, do something, put it back. *)
Lemma does_take {A B} k c s L (m : M A) a L' D (g : reg -> M B) (f : A -> M B) b :
  nth_error (conds s) k = Some (Some c) -> (forall s, g c s = mbind m f s) ->
  does (mkSt (bld s) (upd_nth k None (conds s))) L m a L' D ->
  (forall s2, conds s2 = upd_nth k None (conds s) -> f a s2 = Ret b (mkSt (bld s2) (upd_nth k (Some c) (conds s2)))) ->
  does s L (mbind (take_cr k) g) b L' D.
Proof.
  intros E Eg (s1 & p & H1 & H2 & H3 & H4 & H5 & H6 & H7 & H8 & H9 & H10 & H11 & H12) Hf.
  exists (mkSt (bld s1) (conds s)), p. split; [unfold mbind at 1; unfold take_cr; rewrite E, Eg; unfold mbind; rewrite H1, (Hf s1 H2), H2; cbn [conds]; rewrite upd_nth_twice, upd_nth_same by exact E; reflexivity|].
  cbn [bld conds] in *. split; [reflexivity|]. do 8 (split; [assumption|]). split; assumption.
Qed.

Lemma try_does co r D : cond_ok co r D -> forall d s cr, wrapped d (conds s) -> tidy s -> cr <> [] -> live s ((cr ++ cqs d (conds s)) ++ r) ->
  does s ((cr ++ cqs d (conds s)) ++ r) (try_cond d cr r co) (cr, r) ((cr ++ cqs d (conds s)) ++ r) (D (cr ++ cqs d (conds s))).
Proof.
  intros H. induction d as [|k IH]; intros s cr Hh T Hc Lv.
  - cbn [cqs try_cond] in *. rewrite app_nil_r in *. apply H; assumption.
  - destruct (Hh k (Nat.lt_succ_diag_r k)) as (c & E & Hcne).
    cbn [cqs] in *. rewrite E in *. cbn [try_cond].
    assert (Q : cr ++ c ++ cqs k (conds s) = (cr ++ c) ++ cqs k (upd_nth k None (conds s))) by (rewrite cqs_upd by lia; apply app_assoc).
    rewrite Q in *. eapply does_take with (m := try_cond k (cr ++ c) r co); [exact E| | |].
    + intros s0. unfold mbind at 1. rewrite merge2_ok by exact Hc. reflexivity.
    + apply (IH (mkSt (bld s) (upd_nth k None (conds s))) (cr ++ c)).
      * apply wrapped_upd; [lia|]. eapply wrapped_le; [|exact Hh]. lia.
      * exact T.
      * destruct cr; [congruence|discriminate].
      * exact Lv.
    + intros s2 E2. cbn beta iota. unfold give_back, mbind, lift. rewrite split_rel_prefix; [reflexivity| |exact Hc|exact Hcne].
      rewrite <- !app_assoc in Lv. destruct Lv as (N & _). rewrite app_assoc in N. apply NoDup_app_iff in N. apply N.
Qed.
Lemma aco_does co r D : cond_ok co r D -> forall d s, 0 < d -> wrapped d (conds s) -> tidy s -> live s (cqs d (conds s) ++ r) ->
  does s (cqs d (conds s) ++ r) (aco d r co) r (cqs d (conds s) ++ r) (D (cqs d (conds s))).
Proof.
  intros H [|k] s Hd Hh T Lv; [lia|]. destruct (Hh k (Nat.lt_succ_diag_r k)) as (c & E & Hcne).
  cbn [cqs] in *. rewrite E in *. cbn [aco].
  assert (Q : c ++ cqs k (conds s) = c ++ cqs k (upd_nth k None (conds s))) by (rewrite cqs_upd by lia; reflexivity).
  rewrite Q in *. eapply does_take with (m := try_cond k c r co); [exact E|reflexivity| |].
  - apply (try_does co r D H k (mkSt (bld s) (upd_nth k None (conds s))) c).
    * apply wrapped_upd; [lia|]. eapply wrapped_le; [|exact Hh]. lia.
    * exact T.
    * exact Hcne.
    * exact Lv.
  - intros s2 E2. reflexivity.
Qed.

(** A whole conditioned section. *)
Lemma cqs_app d c x : d <= length c -> cqs d (c ++ [x]) = cqs d c.
Proof. induction d as [|d IH]; intros H; [reflexivity|]. cbn. rewrite nth_error_app1, IH by lia. reflexivity. Qed.
Lemma cqs_last c r : cqs (S (length c)) (c ++ [Some r]) = r ++ cqs (length c) c.
Proof. cbn [cqs]. rewrite nth_error_app2, Nat.sub_diag, cqs_app by lia. reflexivity. Qed.
Lemma wrapped_last c r : r <> [] -> wrapped (length c) c -> wrapped (S (length c)) (c ++ [Some r]).
Proof.
  intros Hr H k Hk. destruct (Nat.eq_dec k (length c)) as [->|]; [exists r; split; [rewrite nth_error_app2, Nat.sub_diag by lia; reflexivity|exact Hr]|].
  destruct (H k) as (r0 & E & Hr0); [lia|]. exists r0. split; [rewrite nth_error_app1 by lia; exact E|exact Hr0].
Qed.
Lemma does_section {A} s cr L (m : M A) a L' D :
  does (mkSt (bld s) (conds s ++ [Some cr])) L m a L' D ->
  does s L (_ <- condition_with cr ;; a <- m ;; cr <- dissolve ;; ret (cr, a)) (cr, a) L' D.
Proof.
  intros (s1 & p & H1 & H2 & H3 & H4 & H5 & H6 & H7 & H8 & H9 & H10 & H11 & H12). cbn [bld conds] in *.
  exists (mkSt (bld s1) (conds s)), p. split; [unfold condition_with, mbind; rewrite H1; unfold dissolve; rewrite H2, rev_app_distr; cbn; rewrite rev_involutive; reflexivity|].
  cbn [bld conds] in *. split; [reflexivity|]. do 8 (split; [assumption|]). split; assumption.
Qed.
