From Coq Require Import Reals ZArith QArith.
From Coquelicot Require Import Complex.
From Verif Require Import Base BuilderModel RegProofs HistorySpec ConserveProofs TidyProofs ShapeSpec ShapeProofs.
Local Open Scope nat_scope.
Local Open Scope mon_scope.
Local Ltac hb := eapply h_bind.

Definition any (r : reg) : Prop := True.
Lemma local_ac r co : ne r -> fits co -> (co_obj co = OUnit UH -> any r) -> hoare (local_aco r co) (back r co).
Proof. intros N F _. apply h_local; assumption. Qed.
Lemma any_lone r : lone r -> any r. Proof. exact (fun _ => Logic.I). Qed.
Lemma l_toffoli cr r : ne cr -> ne r -> hoare (toffoli local_aco cr r) (fun x => ne (fst x) /\ ne (snd x) /\ (lone r -> lone (snd x))).
Proof. intros C N. unfold toffoli. apply (h_toffoli local_aco any local_ac any_lone); [exact C|exact N|]. right. split; [exact Logic.I|right; intros; exact Logic.I]. Qed.
Lemma l_gate u r : ne r -> one_qubit u -> hoare (gate local_aco u r) (fun r' => ne r' /\ (lone r -> lone r')).
Proof. intros N H. apply (h_gate local_aco any local_ac u r N H). intros _. exact Logic.I. Qed.
Lemma l_sdg r : ne r -> hoare (g_s_dagger local_aco r) (fun r' => ne r' /\ (lone r -> lone r')).
Proof. apply (h_sdg local_aco any local_ac). Qed.

Lemma l_rz r t : lone r -> hoare (rz r t) lone.
Proof. intros L. unfold rz. apply h_unwrap. apply h_local_lone; [exact L|]. cbn. exact L. Qed.
Lemma l_rz_ratio r q : lone r -> hoare (rz_ratio r q) lone.
Proof. intros L. apply l_rz. exact L. Qed.
Lemma l_rz_pi r m : lone r -> hoare (rz_pi_by r m) lone.
Proof. intros L. unfold rz_pi_by. destruct (m =? 0)%Z; [apply h_fail|]. hb; [apply (h_lift _ (fun _ => True)); auto|]. intros q _. apply h_local_lone; [exact L|]. cbn. exact L. Qed.
Lemma l_rx r t : lone r -> hoare (rx r t) lone.
Proof.
  intros L. unfold rx. hb; [apply (l_gate UH); [apply lone_ne; exact L|exact Logic.I]|]. intros r1 (_ & L1). specialize (L1 L). hb; [apply l_rz; exact L1|]. intros r2 L2.
  eapply h_weak; [apply (l_gate UH); [apply lone_ne; exact L2|exact Logic.I]|]. intros r3 (_ & L3). exact (L3 L2).
Qed.
Lemma l_rx_ratio r q : lone r -> hoare (rx_ratio r q) lone.
Proof. apply l_rx. Qed.
Lemma l_ry r t : lone r -> hoare (ry r t) lone.
Proof.
  intros L. unfold ry. hb; [apply l_sdg; apply lone_ne; exact L|]. intros r0 (_ & L0). specialize (L0 L).
  hb; [apply (l_gate UH); [apply lone_ne; exact L0|exact Logic.I]|]. intros r1 (_ & L1). specialize (L1 L0). hb; [apply l_rz; exact L1|]. intros r2 L2.
  hb; [apply (l_gate UH); [apply lone_ne; exact L2|exact Logic.I]|]. intros r3 (_ & L3). specialize (L3 L2).
  eapply h_weak; [apply (l_gate US); [apply lone_ne; exact L3|exact Logic.I]|]. intros r4 (_ & L4). exact (L4 L3).
Qed.
Lemma l_ry_ratio r q : lone r -> hoare (ry_ratio r q) lone.
Proof.
  intros L. unfold ry_ratio. hb; [apply (l_gate US); [apply lone_ne; exact L|exact Logic.I]|]. intros r0 (_ & L0). specialize (L0 L).
  hb; [apply (l_gate UH); [apply lone_ne; exact L0|exact Logic.I]|]. intros r1 (_ & L1). specialize (L1 L0). hb; [apply l_rz_ratio; exact L1|]. intros r2 L2.
  hb; [apply (l_gate UH); [apply lone_ne; exact L2|exact Logic.I]|]. intros r3 (_ & L3). specialize (L3 L2).
  eapply h_weak; [apply l_sdg; apply lone_ne; exact L3|]. intros r4 (_ & L4). exact (L4 L3).
Qed.
Lemma l_rx_pi r m : lone r -> hoare (rx_pi_by r m) lone.
Proof. intros L. unfold rx_pi_by. hb; [apply (h_lift _ (fun _ => True)); auto|]. intros q _. apply l_rx_ratio. exact L. Qed.
Lemma l_ry_pi r m : lone r -> hoare (ry_pi_by r m) lone.
Proof. intros L. unfold ry_pi_by. hb; [apply (h_lift _ (fun _ => True)); auto|]. intros q _. apply l_ry_ratio. exact L. Qed.
Lemma l_phase_obj r t : ne r -> hoare (unwrapM (local_aco r (mkCO (length r) (OUnit (UPhase t))))) (fun r' => ne r' /\ (lone r -> lone r')).
Proof.
  intros N. apply h_unwrap. eapply h_weak; [apply h_local; [exact N|exact Logic.I]|]. intros r' (A & B & _). split; [exact A|]. apply B. reflexivity.
Qed.

Definition both (r : reg) (x : reg * reg) : Prop := ne (fst x) /\ ne (snd x) /\ (lone r -> lone (snd x)).
Lemma l_cond_phase g cr r : (forall q, lone q -> hoare (g q) (fun q' => ne q' /\ (lone q -> lone q'))) -> ne cr -> ne r -> hoare (cond_phase g cr r) (both r).
Proof.
  intros Hg C N. unfold cond_phase. hb; [apply h_merge2; exact C|]. intros cr1 (_ & C1). hb; [apply h_temp|]. intros tq Lt.
  hb; [apply l_toffoli; [exact C1|apply lone_ne; exact Lt]|]. intros [cr2 tq1] (C2 & _ & Lt1). cbn [fst snd] in *. specialize (Lt1 Lt).
  hb; [apply Hg; exact Lt1|]. intros tq2 (_ & Lt2). specialize (Lt2 Lt1). hb; [apply l_toffoli; [exact C2|apply lone_ne; exact Lt2]|]. intros [cr3 tq3] (C3 & _ & _). cbn [fst snd] in *.
  hb; [apply h_return|]. intros _ _. hb; [apply h_lift; intros x E; exact E|]. intros [cr4 o] E. cbn beta in E. apply last_ne in E. destruct E as (C4 & Ho).
  hb; [apply h_unopt; exact Ho|]. intros r1 L1. cbn beta in L1. apply h_ret. split; [exact C4|]. split; [apply lone_ne; exact L1|]. intros _. exact L1.
Qed.
Lemma l_swap_half cr ra rb : ne cr -> ne ra -> ne rb -> hoare (cond_swap_half cr ra rb) (fun x => ne (fst (fst x)) /\ ne (snd (fst x)) /\ ne (snd x)).
Proof.
  intros C A B. unfold cond_swap_half. hb; [apply h_merge2; exact C|]. intros c1 (_ & C1).
  hb; [apply (h_cnot local_aco any local_ac); assumption|]. intros [c2 b1] (C2 & B1 & _). cbn [fst snd] in *.
  hb; [apply h_lift; intros x E; exact E|]. intros [c3 o] E. cbn beta in E. apply last_ne in E. destruct E as (C3 & Ho).
  hb; [apply h_unopt; exact Ho|]. intros a1 A1. cbn beta in A1. apply h_ret. cbn. split; [exact C3|]. split; [apply lone_ne; exact A1|exact B1].
Qed.
Lemma l_try cr r co : ne cr -> ne r -> fits co -> (co_obj co = OUnit UH -> lone r) -> hoare (local_try cr r co) (fun x => ne (fst x) /\ back r co (snd x)).
Proof.
  intros C N F H. assert (BB : forall m, (forall t, co_obj co <> OUnit (UCNOT) /\ co_obj co <> OUnit (URz t)) -> hoare m (both r) -> hoare m (fun x : reg * reg => ne (fst x) /\ back r co (snd x))).
  { intros m Hc Hm. eapply h_weak; [exact Hm|]. intros x (A & B & D). split; [exact A|]. split; [exact B|]. split; [intros _; exact D|]. intros E. exfalso. apply (proj1 (Hc (Floating 0))). exact E. }
  unfold local_try. destruct (co_obj co) as [u|m] eqn:E; [|apply h_fail]. destruct u as [| | | | | | | |phase|data|phase].
  - apply BB; [split; discriminate|]. apply l_toffoli; assumption.
  - apply BB; [split; discriminate|]. hb; [apply (l_gate US); [exact N|exact Logic.I]|]. intros r1 (N1 & L1). hb; [apply l_toffoli; assumption|]. intros [cr2 r2] (C2 & N2 & L2). cbn [fst snd] in *.
    hb; [apply l_sdg; exact N2|]. intros r3 (N3 & L3). apply h_ret. split; [exact C2|]. split; [exact N3|]. cbn. tauto.
  - apply BB; [split; discriminate|]. hb; [apply (l_gate UH); [exact N|exact Logic.I]|]. intros r1 (N1 & L1). hb; [apply l_toffoli; assumption|]. intros [cr2 r2] (C2 & N2 & L2). cbn [fst snd] in *.
    hb; [apply (l_gate UH); [exact N2|exact Logic.I]|]. intros r3 (N3 & L3). apply h_ret. split; [exact C2|]. split; [exact N3|]. cbn. tauto.
  - apply BB; [split; discriminate|]. specialize (H eq_refl). hb; [apply l_ry_pi; exact H|]. intros r1 L1. hb; [apply l_toffoli; [exact C|apply lone_ne; exact L1]|]. intros [cr2 r2] (C2 & N2 & L2). cbn [fst snd] in *.
    hb; [apply l_ry_pi; apply L2; exact L1|]. intros r3 L3. apply h_ret. split; [exact C2|]. split; [apply lone_ne; exact L3|]. cbn. auto.
  - apply BB; [split; discriminate|]. apply l_cond_phase; [|exact C|exact N]. intros q Lq. apply (l_gate US); [apply lone_ne; exact Lq|exact Logic.I].
  - apply BB; [split; discriminate|]. apply l_cond_phase; [|exact C|exact N]. intros q Lq. apply (l_gate UT); [apply lone_ne; exact Lq|exact Logic.I].
  - hb; [apply (h_assert _ (fun _ => length r = 2)); apply Nat.eqb_eq|]. intros u0 L2. cbn beta in L2. clear u0.
    hb; [apply h_lift; intros x Ex; exact Ex|]. intros [o r1] Ex. cbn beta in Ex. apply first_ne in Ex. destruct Ex as (Ho & N1 & Lr). specialize (Lr L2).
    hb; [apply (h_unopt o (fun a => lone a /\ lone r1)); intros a Ea; split; [apply Ho|eapply Lr]; exact Ea|]. intros ra (La & Lr1).
    hb; [apply h_merge2; exact C|]. intros cr1 (_ & C1). hb; [apply l_toffoli; assumption|]. intros [cr2 r2] (C2 & N2 & Lr2). cbn [fst snd] in *. specialize (Lr2 Lr1).
    hb; [apply h_lift; intros x Ex; exact Ex|]. intros [cr3 o2] Ex. cbn beta in Ex. apply last_ne in Ex. destruct Ex as (C3 & Ho2).
    hb; [apply h_unopt; exact Ho2|]. intros ra2 La2. cbn beta in La2. hb; [apply h_merge2; apply lone_ne; exact La2|]. intros r3 (Er3 & N3). apply h_ret. cbn [fst snd].
    split; [exact C3|]. split; [exact N3|]. split; [intros _ X; unfold lone in X; lia|]. intros _ _. subst r3. rewrite app_length, La2, Lr2. reflexivity.
  - hb; [apply (h_assert _ (fun _ => ~ lone r)); intros X Y; apply Nat.eqb_eq in X; unfold lone in Y; rewrite Y in X; discriminate|]. intros u0 NL. cbn beta in NL. clear u0.
    hb; [apply h_lift; intros rs Ex; exact (split_all_lone _ _ Ex)|]. intros rs Ls. cbn beta in Ls. unfold split_vector_at.
    hb; [hb; [apply (h_assert _ (fun _ => True)); auto|]; intros _ _; apply (h_ret _ (fun x => Forall lone (fst x) /\ Forall lone (snd x)))|].
    { cbn [fst snd]. rewrite <- (firstn_skipn (length r / 2) rs) in Ls. apply Forall_app in Ls. exact Ls. }
    intros [ra rb] (Fa & Fb). cbn [fst snd] in *.
    hb; [apply (h_mfold _ (fun x : reg * list reg * list reg => ne (fst (fst x)) /\ Forall ne (snd (fst x)) /\ Forall ne (snd x)))|].
    + cbn. auto.
    + intros [[c ras] rbs] [a b] (Hc & Ha & Hb) Hin. cbn [fst snd] in *. unfold cond_swap_step.
      apply in_combine_l in Hin as Hia. apply in_combine_r in Hin as Hib. rewrite Forall_forall in Fa, Fb. apply Fa, lone_ne in Hia. apply Fb, lone_ne in Hib.
      hb; [apply (h_assert _ (fun _ => True)); auto|]. intros _ _. hb; [apply (h_assert _ (fun _ => True)); auto|]. intros _ _.
      hb; [apply l_swap_half; assumption|]. intros [[c1 a1] b1] (Hc1 & Ha1 & Hb1). cbn [fst snd] in *.
      hb; [apply l_swap_half; assumption|]. intros [[c2 b2] a2] (Hc2 & Hb2 & Ha2). cbn [fst snd] in *.
      hb; [apply l_swap_half; assumption|]. intros [[c3 a3] b3] (Hc3 & Ha3 & Hb3). cbn [fst snd] in *. apply h_ret. cbn [fst snd].
      split; [exact Hc3|]. split; apply Forall_app; auto.
    + intros [[c ras] rbs] (Hc & Ha & Hb). cbn [fst snd] in *. hb; [apply h_merge; apply Forall_app; split; assumption|]. intros o Ho. cbn beta in Ho.
      hb; [apply h_unopt; exact Ho|]. intros r1 N1. cbn beta in N1. apply h_ret. cbn. split; [exact Hc|]. split; [exact N1|]. split; [intros _ X; destruct (NL X)|rewrite E; discriminate].
  - hb; [apply h_merge2; exact C|]. intros cr1 (_ & C1). hb; [apply h_temp|]. intros tq Lt.
    hb; [apply l_toffoli; [exact C1|apply lone_ne; exact Lt]|]. intros [cr2 tq1] (C2 & _ & Lt1). cbn [fst snd] in *. specialize (Lt1 Lt).
    hb; [destruct phase; [apply l_rz|apply l_rz_ratio]; exact Lt1|]. intros tq2 Lt2. cbn beta in Lt2.
    hb; [apply l_toffoli; [exact C2|apply lone_ne; exact Lt2]|]. intros [cr3 tq3] (C3 & _ & _). cbn [fst snd] in *.
    hb; [apply h_return|]. intros _ _. hb; [apply h_lift; intros sp Ex; exact Ex|]. intros sp Ex. cbn beta in Ex. destruct sp as [?|?|a b]; [apply h_crash|apply h_crash|].
    apply split_rel_ne in Ex. destruct Ex as (Na & Nb). apply h_ret. cbn. split; [exact Na|]. split; [exact Nb|]. split; [unfold turns; rewrite E; discriminate|rewrite E; discriminate].
  - apply h_crash.
  - apply BB; [split; discriminate|]. hb; [apply h_temp|]. intros tq Lt. hb; [apply l_toffoli; [exact C|apply lone_ne; exact Lt]|]. intros [cr2 tq1] (C2 & _ & Lt1). cbn [fst snd] in *. specialize (Lt1 Lt).
    hb; [destruct phase; [hb; [apply l_rz; exact Lt1|]|hb; [apply l_rz_ratio; exact Lt1|]]; intros t Lo; [eapply h_weak; [apply (l_phase_obj t); apply lone_ne; exact Lo|]|eapply h_weak; [apply (l_phase_obj t); apply lone_ne; exact Lo|]]; intros t' (Nt & _); exact Nt|].
    intros tq2 Nt2. cbn beta in Nt2. hb; [apply l_toffoli; [exact C2|exact Nt2]|]. intros [cr3 tq3] (C3 & _ & _). cbn [fst snd] in *.
    hb; [apply h_return|]. intros _ _. apply h_ret. split; [exact C3|]. split; [exact N|]. auto.
Qed.
