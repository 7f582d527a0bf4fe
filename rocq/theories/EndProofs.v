(** Calls, then a measurement, then the simulator. *)
From Coq Require Import Reals Lra FunctionalExtensionality Permutation.
From Coquelicot Require Import Complex.
From Verif Require Import Base BitsSpec BitsProofs OpsModel OpsSpec StateOpsProofs Instances MeasureSpec MeasureProofs BuilderModel RegProofs SimModel DenSpec DenProofs SimSpec SimProofs SimProofs2
  RunSpec RunProofs GateProofs LinkProofs ProjSpec WholeSpec WholeProofs WholeProofs2 WholeProofs3 EndSpec.
Local Open Scope nat_scope.
Local Open Scope mon_scope.

Lemma unitary2_unitary e : unitary2_entry e -> unitary_entry e.
Proof. unfold unitary2_entry, unitary_entry. destruct (co_obj (snd e)) as [[]|]; auto. intros (A & _). exact A. Qed.
Lemma branch_den p ms psi : Forall plain_entry p -> branch p ms psi = den p psi.
Proof.
  intros F. revert ms psi. induction F as [|[qs [k o]] p H _ IH]; intros ms psi; [reflexivity|]. cbn [branch co_obj]. destruct o as [u|m]; [|destruct H].
  rewrite IH. reflexivity.
Qed.
Lemma measured_plain p : Forall plain_entry p -> measured p = [].
Proof. induction 1 as [|[qs [k o]] p H _ IH]; [reflexivity|]. cbn [measured co_obj]. destruct o; [exact IH|destruct H]. Qed.
Lemma plain_gate p : Forall plain_entry p -> Forall gate_or_meas p.
Proof. apply Forall_impl. intros [qs [k o]]. unfold plain_entry, gate_or_meas. cbn. destruct o as [[]|[]]; auto. Qed.

Section Sec.
Context {A : Type} (s : st) (L : list nat) (m : M A) (a : A) (L' : list nat) (D : state -> state) (f : A -> reg) (it : list (reg * nat)) (x : bs).
Context (H : does s L m a L' D) (R : forall r v, In (r, v) it -> in_range (bn (bld s)) r) (Lo : loads it x).
Context (W : Forall (wf_entry (bn (bld s))) (pipeline (bld s))) (Pl : Forall plain_entry (pipeline (bld s))) (Un : Forall unitary_entry (pipeline (bld s))).
Context (Cl : forall n q, idle s q -> q < n -> clean [q] (den (pipeline (bld s)) (ket n x))).
Context (Nd : NoDup (f a)) (In' : incl (f a) L').
Lemma measured_end : exists s', then_measure m f s = Ret (a, meas (bld s)) s' /\ bn (bld s) <= bn (bld s') /\
  let n := bn (bld s') in let psi := D (den (pipeline (bld s)) (ket n x)) in
  (forall k, k < 2 ^ length (f a) -> over_draws 1 (fun d => gives (calculate_state_with_init (bld s') it d) [k]) (prob_of n (f a) k psi)) /\
  (forall draws, (forall j, (0 < draws j <= 1)%R) -> exists v k, k < 2 ^ length (f a) /\
    calculate_state_with_init (bld s') it draws = Ok (v, [RSingle k (prob_of n (f a) k psi)]) /\ (0 < prob_of n (f a) k psi)%R /\
    st_of CN n v = post n (f a) k psi).
Proof.
  destruct H as (s1 & p & H1 & H2 & H3 & H4 & H5 & H6 & H7 & H8 & H9 & H10 & H11 & H12).
  set (b := mkB (pipeline (bld s1) ++ [(f a, mkCO (length (f a)) (OMeas MSingle))]) (bn (bld s1)) (zeroed (bld s1)) (S (meas (bld s1)))).
  exists (mkSt b (conds s1)). split.
  { unfold then_measure, mbind. rewrite H1. cbn. unfold b. rewrite H3. reflexivity. }
  cbn [bld bn b]. split; [exact H4|]. cbv zeta. set (n := bn (bld s1)) in *. set (psi := D (den (pipeline (bld s)) (ket n x))).
  assert (E : forall k, branch (pipeline b) [k] (ket n x) = proj (f a) k psi).
  { intros k. cbn [pipeline b]. rewrite H5. change ([k]) with (@nil nat ++ [k]). assert (Pa : Forall plain_entry (pipeline (bld s) ++ p)).
    { apply Forall_app. split; [exact Pl|]. eapply Forall_impl; [|exact H7]. intros e He. apply He. }
    rewrite branch_app by (rewrite measured_plain by exact Pa; reflexivity). rewrite (branch_den (pipeline (bld s) ++ p)) by exact Pa. rewrite den_app. cbn [branch co_obj]. unfold psi. rewrite <- H12; [reflexivity|].
    intros q Hq Hl. apply Cl; assumption. }
  assert (Rb : forall r v, In (r, v) it -> in_range (bn b) r) by (intros r v Hin q Hq; specialize (R r v Hin q Hq); cbn; lia).
  assert (Rf : in_range n (f a)).
  { intros q Hq. destruct (Nat.lt_ge_cases q n) as [X|X]; [exact X|]. exfalso. apply (proj2 H9 q (In' q Hq)). left. exact X. }
  assert (Wb : Forall (wf_entry (bn b)) (pipeline b)).
  { cbn [pipeline b bn]. rewrite H5. apply Forall_app. split; [apply Forall_app; split; [eapply wf_entries_mono; [exact H4|exact W]|exact H6]|]. constructor; [|constructor]. split; [exact Nd|]. split; [exact Rf|exact I]. }
  assert (Ub : Forall unitary_entry (pipeline b)).
  { cbn [pipeline b]. rewrite H5. apply Forall_app. split; [apply Forall_app; split; [exact Un|]|constructor; [exact I|constructor]]. eapply Forall_impl; [|exact H7]. intros e He. apply unitary2_unitary. apply He. }
  assert (Pa : Forall plain_entry (pipeline (bld s1))).
  { rewrite H5. apply Forall_app. split; [exact Pl|]. eapply Forall_impl; [|exact H7]. intros e He. apply He. }
  assert (Gb : Forall gate_or_meas (pipeline b)).
  { cbn [pipeline b]. apply Forall_app. split; [apply plain_gate; exact Pa|constructor; [exact I|constructor]]. }
  assert (Mb : measured (pipeline b) = [f a]) by (cbn [pipeline b]; rewrite measured_app, measured_plain by exact Pa; reflexivity).
  split.
  - intros k Hk. rewrite prob_weight, <- E. apply (joint_born b it x [k] Rb Lo Wb Ub Gb). rewrite Mb. constructor; [exact Hk|constructor].
  - intros draws Dp. destruct (run_branch b it x draws Rb Lo Wb Ub Gb Dp) as (v & out & Ec & F2 & Ew & Ep & Es). rewrite Mb in F2.
    inversion F2 as [|? [k pr] ? out' (Hk & Hp) F2' E1 E2]; subst. inversion F2'; subst. cbn [map fst snd] in *. cbn [chance fold_right snd] in *. rewrite Rmult_1_r in *.
    rewrite E, <- prob_weight in Ew. exists v, k. cbn [results map fst snd] in Ec. split; [exact Hk|]. change (bn b) with n in *. rewrite Ew. split; [exact Ec|]. split; [exact Hp|]. rewrite Es, E, post_scaled, Ew. reflexivity.
Qed.
End Sec.
