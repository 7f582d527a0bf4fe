(** toffoli on a conditioned builder: two controls, one target. *)
From Coq Require Import Reals Lra FunctionalExtensionality Permutation.
From Coquelicot Require Import Complex.
From Verif Require Import Base BitsSpec BitsProofs OpsModel OpsSpec Instances BuilderModel RegProofs DenSpec DenProofs LocalProofs LinkProofs
  RunSpec RunProofs GateProofs ToffoliProofs CondProofs SubSpec SubProofs SubProofs2 SubProofs3 SubProofs5 ProgramModel ProgramSpec ProgramProofs ProgramProofs2 CircProofs CircProofs2
  ArithModel ArithSpec ArithProofs ArithProofs5 PropCond.
Local Open Scope nat_scope.
Local Open Scope mon_scope.

Lemma does_part {A} s L L0 (m : M A) a D : NoDup L0 -> incl L0 L -> live s L -> (live s L0 -> does s L0 m a L0 D) -> does s L m a L D.
Proof. intros N I Lv H. destruct (part_of L0 L N (proj1 Lv) I) as (F & P). eapply does_sub; eassumption. Qed.

Section At.
Context (d : nat) (K : list nat) (cd : list (option reg)) (Hd : 0 < d) (W : wrapped d cd) (EK : K = cqs d cd) (L : list nat).
Definition here (s : st) : Prop := conds s = cd /\ tidy s /\ live s (K ++ L).
Lemma here_step s s1 : here s -> conds s1 = conds s -> tidy s1 -> live s1 (K ++ L) -> here s1.
Proof. intros (C & _ & _) C1 T1 L1. split; [congruence|split; assumption]. Qed.
Lemma NK s : here s -> NoDup K.
Proof. intros (_ & _ & Lv). destruct Lv as (N & _). apply NoDup_app_iff in N. apply N. Qed.
Lemma sub_nd s (l : list nat) : here s -> NoDup l -> incl l L -> NoDup (K ++ l).
Proof.
  intros H N I. pose proof (NK s H) as Nk. destruct H as (_ & _ & (Na & _)). apply NoDup_app_iff in Na. apply NoDup_app_iff. split; [exact Nk|split; [exact N|]].
  intros q Hq X. apply (proj2 (proj2 Na) q Hq), I, X.
Qed.
Lemma sub_in (l : list nat) : incl l L -> incl (K ++ l) (K ++ L).
Proof. intros I q Hq. apply in_app_iff in Hq. apply in_app_iff. destruct Hq as [Hq|Hq]; auto. Qed.
Lemma one_does s u q m : here s -> In q L -> cond_ok (mkCO 1 (OUnit u)) [q] (fun cs => controlled cs (each m [q])) ->
  does s (K ++ L) (BuilderModel.gate (aco d) u [q]) [q] (K ++ L) (controlled K (each m [q])).
Proof.
  intros H Hq Co. assert (I : incl [q] L) by (intros p [<-|[]]; exact Hq). assert (N : NoDup [q]) by (repeat constructor; intros []).
  apply (does_part s (K ++ L) (K ++ [q])); [eapply sub_nd; eassumption|apply sub_in; exact I|apply H|]. intros Lv. destruct H as (C & T & _). subst cd K.
  apply (gate_cond u q d s _ Co); assumption.
Qed.
Lemma cnot_at s c t : here s -> In c L -> In t L -> c <> t ->
  does s (K ++ L) (unwrapM (cnot (aco d) [c] [t])) ([c], [t]) (K ++ L) (controlled K (ctl_nots [c] [t])).
Proof.
  intros H Hc Ht Hct. assert (I : incl [c; t] L) by (intros p [<-|[<-|[]]]; assumption). assert (N : NoDup [c; t]) by (repeat constructor; cbn; intuition congruence).
  apply does_unwrap. apply (does_part s (K ++ L) (K ++ [c; t])); [eapply sub_nd; eassumption|apply sub_in; exact I|apply H|]. intros Lv. destruct H as (C & T & _). subst cd K.
  eapply does_eq; [apply (C47_conditioned_cnot d s c [t]); try assumption; discriminate|]. intros psi. extensionality x. unfold controlled, ctl_nots. rewrite forallb_app.
  destruct (forallb x (cqs d (conds s))), (forallb x [c]); reflexivity.
Qed.
Lemma compK D1 D2 psi : within L D2 -> (forall q, In q K -> ~ In q L) -> controlled K D2 (controlled K D1 psi) = controlled K (fun phi => D2 (D1 phi)) psi.
Proof. apply controlled_comp. Qed.
Lemma within_each m q : In q L -> within L (each m [q]).
Proof.
  intros Hq psi phi x H. unfold each. cbn [fold_left]. unfold on1. rewrite !H; [reflexivity| |]; intros p Hp; apply upd_other; intros ->; contradiction.
Qed.
Lemma within_nots c t : In c L -> In t L -> within L (ctl_nots [c] [t]).
Proof.
  intros Hc Ht psi phi x H. unfold ctl_nots. destruct (forallb x [c]); apply H; [|reflexivity]. intros p Hp. apply flips_notin. intros [->|[]]. contradiction.
Qed.
Lemma tdg_does s q : here s -> In q L -> (forall p, In p K -> ~ In p L) -> does s (K ++ L) (g_t_dagger (aco d) [q]) [q] (K ++ L) (controlled K (each mTd [q])).
Proof.
  intros H Hq Dj. assert (N : NoDup [q]) by (repeat constructor; intros []).
  eapply does_eq.
  { unfold g_t_dagger, g_s_dagger. eapply does_bind; [|apply incl_refl|apply incl_refl|].
    - eapply does_bind; [apply (one_does s UZ q mZ); [exact H|exact Hq|apply try_Z1]|apply incl_refl|apply incl_refl|]. intros s1 C1 T1 L1.
      apply (one_does s1 US q mS); [eapply here_step; eassumption|exact Hq|apply try_S].
    - intros s1 C1 T1 L1. apply (one_does s1 UT q mT); [eapply here_step; eassumption|exact Hq|apply try_T]. }
  intros psi. cbv beta. rewrite compK by (try exact Dj; apply within_each; exact Hq). rewrite compK by (try exact Dj; apply (within_comp L (each mS [q]) (each mT [q])); apply within_each; exact Hq).
  extensionality x. unfold controlled. destruct (forallb x K); [|reflexivity]. rewrite !each_mul by exact N. rewrite <- mTd_ok. rewrite mmul_assoc. reflexivity.
Qed.
End At.

Lemma basic_toffoli_cond d s a b t : 0 < d -> wrapped d (conds s) -> tidy s -> live s (cqs d (conds s) ++ [a; b; t]) ->
  does s (cqs d (conds s) ++ [a; b; t]) (basic_toffoli (aco d) [a; b] [t]) ([a; b], [t]) (cqs d (conds s) ++ [a; b; t])
    (controlled (cqs d (conds s)) (fun psi x => if x a && x b then on1 mV t psi x else psi x)).
Proof.
  intros Hd W T Lv. set (K := cqs d (conds s)) in *. set (cd := conds s) in *.
  assert (N := proj1 Lv). apply NoDup_app_iff in N. destruct N as (NK' & N3 & Dj). assert (N3' := N3).
  assert (Hab : a <> b) by (inversion N3; cbn in *; intuition congruence). assert (Hat : a <> t) by (inversion N3; cbn in *; intuition congruence).
  assert (Hbt : b <> t) by (inversion N3 as [|? ? ? N4]; inversion N4; cbn in *; intuition congruence).
  assert (Ia : In a [a; b; t]) by (left; reflexivity). assert (Ib : In b [a; b; t]) by (right; left; reflexivity). assert (It : In t [a; b; t]) by (right; right; left; reflexivity).
  assert (H : here K cd [a; b; t] s) by (split; [reflexivity|split; assumption]). clear T Lv.
  assert (G : forall s1 u q m, here K cd [a; b; t] s1 -> In q [a; b; t] -> cond_ok (mkCO 1 (OUnit u)) [q] (fun cs => controlled cs (each m [q])) ->
    does s1 (K ++ [a; b; t]) (BuilderModel.gate (aco d) u [q]) [q] (K ++ [a; b; t]) (controlled K (each m [q]))) by (intros; apply (one_does d K cd Hd W eq_refl); assumption).
  assert (Cn : forall s1 c e, here K cd [a; b; t] s1 -> In c [a; b; t] -> In e [a; b; t] -> c <> e ->
    does s1 (K ++ [a; b; t]) (unwrapM (cnot (aco d) [c] [e])) ([c], [e]) (K ++ [a; b; t]) (controlled K (ctl_nots [c] [e]))) by (intros; apply (cnot_at d K cd Hd W eq_refl); assumption).
  assert (Td : forall s1 q, here K cd [a; b; t] s1 -> In q [a; b; t] -> does s1 (K ++ [a; b; t]) (g_t_dagger (aco d) [q]) [q] (K ++ [a; b; t]) (controlled K (each mTd [q])))
    by (intros; apply (tdg_does d K cd Hd W eq_refl); assumption).
  assert (St : forall s1 s2, here K cd [a; b; t] s1 -> conds s2 = conds s1 -> tidy s2 -> live s2 (K ++ [a; b; t]) -> here K cd [a; b; t] s2) by (intros; eapply here_step; eassumption).
  unfold basic_toffoli. cbn [length Nat.eqb]. eapply does_eq. {
  eapply quiet_then_does; [apply quiet_lift; [apply split_rel_head; [repeat constructor; cbn; intuition congruence|discriminate]|apply H|apply H]|apply incl_refl|apply incl_refl|].
  intros s0 C0 T0 L0. pose proof (St _ _ H C0 T0 L0) as H0. clear C0 T0 L0. cbn beta iota.
  dbind; [apply (G s0 UH t (mTilt (/ 4))); [exact H0|exact It|apply try_H]|]. intros s1 C1 T1 L1. pose proof (St _ _ H0 C1 T1 L1) as H1. clear C1 T1 L1.
  dbind; [apply (Cn s1 b t); assumption|]. intros s2 C2 T2 L2. pose proof (St _ _ H1 C2 T2 L2) as H2. clear C2 T2 L2. cbn beta iota.
  dbind; [apply Td; assumption|]. intros s3 C3 T3 L3. pose proof (St _ _ H2 C3 T3 L3) as H3. clear C3 T3 L3.
  dbind; [apply (Cn s3 a t); assumption|]. intros s4 C4 T4 L4. pose proof (St _ _ H3 C4 T4 L4) as H4. clear C4 T4 L4. cbn beta iota.
  dbind; [apply (G s4 UT t mT); [exact H4|exact It|apply try_T]|]. intros s5 C5 T5 L5. pose proof (St _ _ H4 C5 T5 L5) as H5. clear C5 T5 L5.
  dbind; [apply (Cn s5 b t); assumption|]. intros s6 C6 T6 L6. pose proof (St _ _ H5 C6 T6 L6) as H6. clear C6 T6 L6. cbn beta iota.
  dbind; [apply Td; assumption|]. intros s7 C7 T7 L7. pose proof (St _ _ H6 C7 T7 L7) as H7. clear C7 T7 L7.
  dbind; [apply (Cn s7 a t); assumption|]. intros s8 C8 T8 L8. pose proof (St _ _ H7 C8 T8 L8) as H8. clear C8 T8 L8. cbn beta iota.
  dbind; [apply (G s8 UT b mT); [exact H8|exact Ib|apply try_T]|]. intros s9 C9 T9 L9. pose proof (St _ _ H8 C9 T9 L9) as H9. clear C9 T9 L9.
  dbind; [apply (G s9 UT t mT); [exact H9|exact It|apply try_T]|]. intros s10 C10 T10 L10. pose proof (St _ _ H9 C10 T10 L10) as H10. clear C10 T10 L10.
  dbind; [apply (Cn s10 a b); assumption|]. intros s11 C11 T11 L11. pose proof (St _ _ H10 C11 T11 L11) as H11. clear C11 T11 L11. cbn beta iota.
  dbind; [apply (G s11 UH t (mTilt (/ 4))); [exact H11|exact It|apply try_H]|]. intros s12 C12 T12 L12. pose proof (St _ _ H11 C12 T12 L12) as H12. clear C12 T12 L12.
  dbind; [apply (G s12 UT a mT); [exact H12|exact Ia|apply try_T]|]. intros s13 C13 T13 L13. pose proof (St _ _ H12 C13 T13 L13) as H13. clear C13 T13 L13.
  dbind; [apply Td; [exact H13|exact Ib]|]. intros s14 C14 T14 L14. pose proof (St _ _ H13 C14 T14 L14) as H14. clear C14 T14 L14.
  eapply does_then_quiet; [apply (Cn s14 a b); assumption|]. intros s15 C15 T15 L15. cbn beta iota.
  eapply quiet_bind; [apply quiet_lift; [apply merge2_ok; discriminate|exact T15|exact L15]|].
  intros s16 C16 T16 L16. apply quiet_ret; assumption. }
  intros psi. cbv beta.
  assert (We : forall m q, In q [a; b; t] -> within [a; b; t] (each m [q])) by (intros; apply within_each; assumption).
  assert (Wn : forall c e, In c [a; b; t] -> In e [a; b; t] -> within [a; b; t] (ctl_nots [c] [e])) by (intros; apply within_nots; assumption).
  Ltac ws We Wn := first [apply We; assumption|apply Wn; assumption|apply within_comp; ws We Wn].
  repeat (rewrite (compK K [a; b; t]) by (try exact Dj; ws We Wn)).
  extensionality x. unfold controlled. destruct (forallb x K); [|reflexivity].
  pose proof (toffU_ok (mTilt (/ 4)) mV (tilt_inv _) tilt_Z a b t psi N3') as X. apply (f_equal (fun f => f x)) in X. exact X.
Qed.
