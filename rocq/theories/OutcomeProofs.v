(** Calls that return: what they leave. *)
From Coq Require Import Permutation Reals ZArith QArith.
From Coquelicot Require Import Complex.
From Verif Require Import Base BitsSpec OpsModel BuilderModel RegProofs DenSpec SimSpec RunSpec LocalProofs RunProofs GateProofs ToffoliProofs SwapProofs CondProofs CostSpec CostProofs.
Local Open Scope nat_scope.
Local Open Scope mon_scope.

(** [m] returns [a]; the qubits [L] in use become [L'], the condition registers [c]. *)
Definition goes {A} (s : st) (L : list nat) (m : M A) (a : A) (L' : list nat) (c : list (option reg)) : Prop :=
  exists s', m s = Ret a s' /\ conds s' = c /\ tidy s' /\ live s' L' /\ (forall q, idle s' q \/ In q L' <-> idle s q \/ In q L).

Lemma goes_does {A} s L (m : M A) a L' D : does s L m a L' D -> goes s L m a L' (conds s).
Proof. intros (s' & p & H1 & H2 & H3 & H4 & H5 & H6 & H7 & H8 & H9 & H10 & _). exists s'. auto. Qed.
Lemma goes_quiet {A} s L (m : M A) a L' : quiet s L m a L' -> goes s L m a L' (conds s).
Proof. intros (s' & H1 & H2 & H3 & H4 & H5 & H6 & H7 & H8). exists s'. auto. Qed.
Lemma goes_ret {A} s L (a : A) : tidy s -> live s L -> goes s L (ret a) a L (conds s).
Proof. intros. apply goes_quiet, quiet_ret; assumption. Qed.
Lemma goes_lift {A} s L (r : res A) a : r = Ok a -> tidy s -> live s L -> goes s L (lift r) a L (conds s).
Proof. intros -> T Lv. apply (goes_ret s L a T Lv). Qed.
Lemma goes_bind {A B} s L (m : M A) a L1 c1 (f : A -> M B) b L2 c2 : goes s L m a L1 c1 ->
  (forall s1, conds s1 = c1 -> tidy s1 -> live s1 L1 -> goes s1 L1 (f a) b L2 c2) -> goes s L (mbind m f) b L2 c2.
Proof.
  intros (s1 & H1 & H2 & H6 & H7 & H8) H. destruct (H s1 H2 H6 H7) as (s2 & G1 & G2 & G6 & G7 & G8).
  exists s2. unfold mbind. rewrite H1. split; [exact G1|]. split; [exact G2|]. split; [exact G6|]. split; [exact G7|]. intros q. rewrite G8. apply H8.
Qed.
Lemma goes_lift_bind {A B} s L (r : res A) a (f : A -> M B) b L2 c2 : r = Ok a -> goes s L (f a) b L2 c2 -> goes s L (mbind (lift r) f) b L2 c2.
Proof. intros -> H. exact H. Qed.
Lemma goes_unwrap {A} s L (m : M A) a L' c : goes s L m a L' c -> goes s L (unwrapM m) a L' c.
Proof. intros (s' & H1 & H). exists s'. unfold unwrapM. rewrite H1. auto. Qed.
Lemma goes_perm {A} s L1 L (m : M A) a L1' L' c : Permutation L1 L -> Permutation L1' L' -> goes s L1 m a L1' c -> goes s L m a L' c.
Proof.
  intros P P' (s' & H1 & H2 & H6 & H7 & H8). exists s'. split; [exact H1|]. split; [exact H2|]. split; [exact H6|]. split; [eapply live_perm; [exact H7|exact P']|].
  intros q. specialize (H8 q). assert (E : In q L1 <-> In q L) by (split; apply Permutation_in; [exact P|symmetry; exact P]).
  assert (E' : In q L1' <-> In q L') by (split; apply Permutation_in; [exact P'|symmetry; exact P']). tauto.
Qed.
Lemma goes_frame {A} s L (m : M A) a L' c F : live s (L ++ F) -> goes s L m a L' c -> goes s (L ++ F) m a (L' ++ F) c.
Proof.
  intros (N & Lv) (s' & H1 & H2 & H8 & (N' & H9) & H10). exists s'.
  apply NoDup_app_iff in N. destruct N as (NL & NF & NLF).
  assert (X : forall q, In q F -> ~ idle s' q /\ ~ In q L').
  { intros q Hq. assert (Y : ~ (idle s' q \/ In q L')); [|tauto]. rewrite H10. intros [Hi|Hi]; [apply (Lv q); [apply in_or_app; right; exact Hq|exact Hi]|apply (NLF q); assumption]. }
  do 3 (split; [assumption|]). split; [split|].
  - apply NoDup_app_iff. split; [exact N'|]. split; [exact NF|]. intros q Hq HF. destruct (X q HF). contradiction.
  - intros q Hq. apply in_app_or in Hq. destruct Hq as [Hq|Hq]; [apply H9; exact Hq|apply X; exact Hq].
  - intros q. specialize (H10 q). rewrite !in_app_iff. tauto.
Qed.
Lemma live_part s L0 F L : Permutation (L0 ++ F) L -> live s L -> live s L0.
Proof.
  intros P Lv. assert (L1 : live s (L0 ++ F)) by (eapply live_perm; [exact Lv|symmetry; exact P]).
  eapply live_incl; [exact L1|destruct L1 as (N & _); apply NoDup_app_iff in N; apply N|apply incl_appl, incl_refl].
Qed.
Lemma goes_sub {A} s L L0 F (m : M A) a L' L0' c : Permutation (L0 ++ F) L -> Permutation (L0' ++ F) L' -> live s L ->
  (live s L0 -> goes s L0 m a L0' c) -> goes s L m a L' c.
Proof.
  intros P P' Lv H. assert (L1 : live s (L0 ++ F)) by (eapply live_perm; [exact Lv|symmetry; exact P]).
  eapply goes_perm; [exact P|exact P'|]. apply goes_frame; [exact L1|]. apply H. eapply live_part; [exact P|exact Lv].
Qed.
Lemma goes_appended {A} s L (m : M A) a p : m s = Ret a (appended s p) -> tidy s -> live s L -> goes s L m a L (conds s).
Proof. intros E T Lv. exists (appended s p). split; [exact E|]. split; [reflexivity|]. split; [exact T|]. split; [exact Lv|]. intros q. reflexivity. Qed.
Lemma goes_appends {A} s L (m : M A) a g : appends m a g -> tidy s -> live s L -> goes s L m a L (conds s).
Proof. intros H. destruct (H s) as (p & E & _). apply (goes_appended s L m a p E). Qed.

(** *** Rotations of registers *)
Lemma appends_fit r c : NoDup r -> r <> [] -> co_n c = 1 \/ co_n c = length r -> exists g, appends (local_aco r c) r g.
Proof.
  intros N Hr H. exists (if co_n c =? 1 then length r else 1). intros s. rewrite local_aco_ok by assumption. unfold placed. destruct (Nat.eqb_spec (co_n c) 1) as [E|E].
  - eexists. split; [reflexivity|]. apply map_length.
  - destruct (Nat.eqb_spec (co_n c) (length r)); [|lia]. eexists. split; reflexivity.
Qed.
Definition same (m : reg -> M reg) : Prop := forall r, NoDup r -> r <> [] -> exists g, appends (m r) r g.
Lemma same_bind (m f : reg -> M reg) : same m -> same f -> same (fun r => r <- m r ;; f r).
Proof. intros H K r N Hr. destruct (H r N Hr) as (g & G). destruct (K r N Hr) as (h & G'). exists (g + h). eapply appends_bind; [exact G|exact G']. Qed.
Lemma same_unwrap (m : reg -> M reg) : same m -> same (fun r => unwrapM (m r)).
Proof. intros H r N Hr. destruct (H r N Hr) as (g & G). exists g. apply appends_unwrap, G. Qed.
Lemma same_gate u : same (BuilderModel.gate local_aco u).
Proof. intros r N Hr. destruct (appends_fit r (mkCO 1 (OUnit u)) N Hr (or_introl eq_refl)) as (g & G). exists g. apply appends_unwrap, G. Qed.
Lemma same_sdg : same (g_s_dagger local_aco). Proof. apply (same_bind (g_z local_aco) (g_s local_aco)); apply same_gate. Qed.
Lemma same_tdg : same (g_t_dagger local_aco). Proof. apply (same_bind (g_s_dagger local_aco) (g_t local_aco)); [apply same_sdg|apply same_gate]. Qed.
Lemma same_rz t : same (fun r => rz r t).
Proof. intros r N Hr. destruct (appends_fit r (mkCO (length r) (OUnit (URz (Floating t)))) N Hr (or_intror eq_refl)) as (g & G). exists g. apply appends_unwrap, G. Qed.
Lemma same_rx t : same (fun r => rx r t).
Proof. apply (same_bind (g_h local_aco)); [apply same_gate|]. apply (same_bind (fun r => rz r t)); [apply same_rz|apply same_gate]. Qed.
Lemma same_ry t : same (fun r => ry r t).
Proof. apply (same_bind (g_s_dagger local_aco)); [apply same_sdg|]. apply (same_bind (g_h local_aco)); [apply same_gate|]. apply (same_bind (fun r => rz r (- t)%R)); [apply same_rz|]. apply (same_bind (g_h local_aco)); apply same_gate. Qed.
Lemma same_rzr q : same (fun r => rz_ratio r q). Proof. apply same_rz. Qed.
Lemma same_rxr q : same (fun r => rx_ratio r q).
Proof. apply (same_bind (g_h local_aco)); [apply same_gate|]. apply (same_bind (fun r => rz_ratio r q)); [apply same_rz|apply same_gate]. Qed.
Lemma same_ryr q : same (fun r => ry_ratio r q).
Proof. apply (same_bind (g_s local_aco)); [apply same_gate|]. apply (same_bind (g_h local_aco)); [apply same_gate|]. apply (same_bind (fun r => rz_ratio r (Qopp q))); [apply same_rz|]. apply (same_bind (g_h local_aco)); [apply same_gate|apply same_sdg]. Qed.
Lemma same_phase t : same (fun r => apply_global_phase r t).
Proof. intros r N Hr. destruct (appends_fit r (mkCO (length r) (OUnit (UPhase (Floating t)))) N Hr (or_intror eq_refl)) as (g & G). exists g. apply appends_unwrap, G. Qed.
Lemma same_phase_ratio t : same (fun r => apply_global_phase_ratio r t).
Proof. intros r N Hr. destruct (appends_fit r (mkCO (length r) (OUnit (UPhase (PiRational t)))) N Hr (or_intror eq_refl)) as (g & G). exists g. apply appends_unwrap, G. Qed.
Lemma goes_same (m : reg -> M reg) s L r : same m -> NoDup r -> r <> [] -> tidy s -> live s L -> goes s L (m r) r L (conds s).
Proof. intros H N Hr T Lv. destruct (H r N Hr) as (g & G). eapply goes_appends; eassumption. Qed.

(** *** Conditioned objects on the LocalBuilder *)
(** The qubits [x] go over to the condition register, [r'] comes back. *)
Definition goes_try (co : cobj) (r x r' : reg) : Prop :=
  forall s cs, cs <> [] -> tidy s -> live s (cs ++ r) -> goes s (cs ++ r) (local_try cs r co) (cs ++ x, r') (cs ++ r) (conds s).
Lemma goes_cond_ok co r D : cond_ok co r D -> goes_try co r [] r.
Proof. intros H s cs Hc T Lv. rewrite app_nil_r. eapply goes_does, H; assumption. Qed.
Lemma goes_toffoli s L cs ts F : Permutation ((cs ++ ts) ++ F) L -> tidy s -> live s L -> cs <> [] -> ts <> [] -> goes s L (toffoli local_aco cs ts) (cs, ts) L (conds s).
Proof.
  intros P T Lv Hc Ht. eapply goes_sub; [exact P|exact P|exact Lv|]. intros Lv'. eapply goes_does, toffoli_does; assumption.
Qed.
Lemma try_goes_H k r : r <> [] -> goes_try (mkCO k (OUnit UH)) r [] r.
Proof.
  intros Hr s cs Hc T Lv. rewrite app_nil_r. cbn [local_try co_obj]. destruct (live_split _ _ _ Lv) as (_ & N & _).
  assert (Y : forall z q, ratio_1 z = Ok q -> forall s, tidy s -> live s (cs ++ r) -> goes s (cs ++ r) (ry_pi_by r z) r (cs ++ r) (conds s)).
  { intros z q E s0 T0 L0. unfold ry_pi_by. rewrite E. apply goes_lift_bind with (a := q); [reflexivity|]. apply (goes_same (fun r => ry_ratio r q)); auto. apply same_ryr. }
  eapply goes_bind; [eapply (Y 4%Z); [reflexivity|exact T|exact Lv]|]. intros s1 C1 T1 L1. cbn beta iota.
  eapply goes_bind; [apply (goes_toffoli s1 _ cs r []); [rewrite app_nil_r; reflexivity|assumption|assumption|assumption|assumption]|]. intros s2 C2 T2 L2. cbn beta iota.
  eapply goes_bind; [eapply (Y (-4)%Z); [reflexivity|exact T2|exact L2]|]. intros s3 C3 T3 L3. rewrite <- C1, <- C2, <- C3. apply goes_ret; assumption.
Qed.
Lemma try_goes_phase k th r : r <> [] -> goes_try (mkCO k (OUnit (UPhase th))) r [] r.
Proof.
  intros Hr s cs Hc T Lv. rewrite app_nil_r. cbn [local_try co_obj].
  destruct (quiet_make s _ T Lv) as (t & _ & Nt & Q). eapply goes_bind; [apply goes_quiet, Q|]. intros s1 C1 T1 L1.
  assert (P : Permutation ((cs ++ [t]) ++ r) (t :: cs ++ r)) by (rewrite <- app_assoc; symmetry; apply (Permutation_middle cs r t)).
  eapply goes_bind; [apply (goes_toffoli s1 _ cs [t] r); [exact P|assumption|assumption|assumption|discriminate]|]. intros s2 C2 T2 L2. cbn beta iota.
  assert (N1 : NoDup [t]) by (repeat constructor; intros []).
  assert (Ph : goes s2 (t :: cs ++ r) match th with
     | Floating theta => tq <- rz [t] (theta * (1 / 2))%R ;; apply_global_phase tq (theta * (1 / 2))
     | PiRational q => tq <- rz_ratio [t] (q / 2) ;; apply_global_phase_ratio tq (q / 2) end [t] (t :: cs ++ r) (conds s2)).
  { destruct th as [th|q].
    - apply (goes_same (fun r => tq <- rz r (th * (1 / 2))%R ;; apply_global_phase tq (th * (1 / 2)))); [apply (same_bind (fun r => rz r (th * (1 / 2))%R)); [apply same_rz|apply same_phase]|exact N1|discriminate|exact T2|exact L2].
    - apply (goes_same (fun r => tq <- rz_ratio r (q / 2) ;; apply_global_phase_ratio tq (q / 2))); [apply (same_bind (fun r => rz_ratio r (q / 2))); [apply same_rz|apply same_phase_ratio]|exact N1|discriminate|exact T2|exact L2]. }
  eapply goes_bind; [exact Ph|]. intros s3 C3 T3 L3.
  eapply goes_bind; [apply (goes_toffoli s3 _ cs [t] r); [exact P|assumption|assumption|assumption|discriminate]|]. intros s4 C4 T4 L4. cbn beta iota.
  eapply goes_bind; [apply goes_quiet, (quiet_return s4 [t] (cs ++ r)); [exact T4|exact L4|discriminate]|]. intros s5 C5 T5 L5.
  rewrite <- C1, <- C2, <- C3, <- C4, <- C5. apply goes_ret; assumption.
Qed.
Lemma try_goes_ST k u ts t : u = US \/ u = UT -> goes_try (mkCO k (OUnit u)) (ts ++ [t]) ts [t].
Proof.
  intros Hu s cs Hc T Lv. destruct Hu as [->| ->]; cbn [local_try co_obj].
  - eapply goes_does, (cond_phase_does (g_s local_aco) Ci cs ts t s T Lv Hc).
    intros s1 t1 L T1 L1 I. apply (gate_does US); auto; [intros q [<-|[]]; exact I|repeat constructor; cbn; tauto|discriminate].
  - eapply goes_does, (cond_phase_does (g_t local_aco) (expi (PI / 4)) cs ts t s T Lv Hc).
    intros s1 t1 L T1 L1 I. apply (gate_does UT); auto; [intros q [<-|[]]; exact I|repeat constructor; cbn; tauto|discriminate].
Qed.
