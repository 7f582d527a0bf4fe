(** Calls, then a stochastic measurement, then the simulator. *)
From Coq Require Import Reals Lra FunctionalExtensionality Permutation.
From Coquelicot Require Import Complex.
From Verif Require Import Base BitsSpec BitsProofs OpsModel OpsSpec StateOpsProofs Instances MeasureSpec MeasureProofs BuilderModel RegProofs SimModel DenSpec DenProofs SimSpec SimProofs SimProofs2
  RunSpec RunProofs GateProofs LinkProofs ProjSpec WholeSpec WholeProofs WholeProofs2 WholeProofs3 EndSpec EndProofs.
Local Open Scope nat_scope.
Local Open Scope mon_scope.

Lemma steps_app n draws s p s1 q s2 : steps n draws s p s1 -> steps n draws s1 q s2 -> steps n draws s (p ++ q) s2.
Proof. induction 1; intros H2; [exact H2|]. econstructor; eauto. Qed.
Lemma plain_step n draws e c pv sn : plain_entry e -> step n draws (mkSim c pv sn) e (mkSim (oden (snd e) (fst e) c) c sn).
Proof.
  destruct e as [qs [k o]]. unfold plain_entry. cbn [fst snd co_obj]. destruct o as [u|m]; [|intros []]. intros H.
  apply (step_gate n draws (mkSim c pv sn) qs k u). intros t ->. exact H.
Qed.
Lemma plain_steps n draws p : Forall plain_entry p -> forall c pv sn, exists pv', steps n draws (mkSim c pv sn) p (mkSim (den p c) pv' sn).
Proof.
  induction 1 as [|e p He _ IH]; intros c pv sn; [exists pv; constructor|]. destruct (IH (oden (snd e) (fst e) c) c sn) as (pv' & S).
  exists pv'. econstructor; [apply plain_step; exact He|]. rewrite den_cons. destruct e. exact S.
Qed.

Section Sec.
Context {A : Type} (s : st) (L : list nat) (m : M A) (a : A) (L' : list nat) (D : state -> state) (f : A -> reg) (it : list (reg * nat)) (x : bs).
Context (H : does s L m a L' D) (R : forall r v, In (r, v) it -> in_range (bn (bld s)) r) (Lo : loads it x).
Context (W : Forall (wf_entry (bn (bld s))) (pipeline (bld s))) (Pl : Forall plain_entry (pipeline (bld s))).
Context (Cl : forall n q, idle s q -> q < n -> clean [q] (den (pipeline (bld s)) (ket n x))).
Context (Nd : NoDup (f a)) (In' : incl (f a) L').
Lemma stochastic_end : exists s', then_stochastic m f s = Ret (a, meas (bld s)) s' /\ bn (bld s) <= bn (bld s') /\
  let n := bn (bld s') in let psi := D (den (pipeline (bld s)) (ket n x)) in
  forall draws, exists v, calculate_state_with_init (bld s') it draws = Ok (v, [RStochastic (map (fun k => prob_of n (f a) k psi) (seq 0 (2 ^ length (f a))))]).
Proof.
  destruct H as (s1 & p & H1 & H2 & H3 & H4 & H5 & H6 & H7 & H8 & H9 & H10 & H11 & H12).
  set (b := mkB (pipeline (bld s1) ++ [(f a, mkCO (length (f a)) (OMeas MStoch))]) (bn (bld s1)) (zeroed (bld s1)) (S (meas (bld s1)))).
  exists (mkSt b (conds s1)). split.
  { unfold then_stochastic, mbind. rewrite H1. cbn. unfold b. rewrite H3. reflexivity. }
  cbn [bld bn b]. split; [exact H4|]. cbv zeta. set (n := bn (bld s1)) in *. set (psi := D (den (pipeline (bld s)) (ket n x))).
  assert (Rb : forall r v, In (r, v) it -> in_range (bn b) r) by (intros r v Hin q Hq; specialize (R r v Hin q Hq); cbn; lia).
  assert (Rf : in_range n (f a)).
  { intros q Hq. destruct (Nat.lt_ge_cases q n) as [X|X]; [exact X|]. exfalso. apply (proj2 H9 q (In' q Hq)). left. exact X. }
  assert (Wb : Forall (wf_entry (bn b)) (pipeline b)).
  { cbn [pipeline b bn]. rewrite H5. apply Forall_app. split; [apply Forall_app; split; [eapply wf_entries_mono; [exact H4|exact W]|exact H6]|]. constructor; [|constructor]. split; [exact Nd|]. split; [exact Rf|exact I]. }
  assert (Pa : Forall plain_entry (pipeline (bld s1))).
  { rewrite H5. apply Forall_app. split; [exact Pl|]. eapply Forall_impl; [|exact H7]. intros e He. apply He. }
  assert (E : den (pipeline (bld s1)) (ket n x) = psi).
  { rewrite H5, den_app. unfold psi. rewrite <- H12; [reflexivity|]. intros q Hq Hl. apply Cl; assumption. }
  intros draws. destruct (run_exact b it x draws Rb Lo Wb) as (v & ms & last & Ec & Lv & St). exists v.
  destruct (plain_steps n draws _ Pa (ket n x) (fun _ => RtoC 0) []) as (pv' & Sp).
  assert (S2 : steps n draws (mkSim (ket n x) (fun _ => RtoC 0) []) (pipeline b)
    (mkSim pv' (den (pipeline (bld s1)) (ket n x)) ([] ++ [RStochastic (map (fun k => prob_of n (f a) k (den (pipeline (bld s1)) (ket n x))) (seq 0 (2 ^ length (f a))))]))).
  { cbn [pipeline b]. eapply steps_app; [exact Sp|]. econstructor; [|constructor]. exact (step_stoch n draws (mkSim (den (pipeline (bld s1)) (ket n x)) pv' []) (f a) (length (f a))). }
  pose proof (steps_det n draws _ _ _ St _ S2) as X. injection X as _ _ Em. rewrite E in Em. cbn [app] in Em. rewrite Ec, Em. reflexivity.
Qed.
End Sec.
