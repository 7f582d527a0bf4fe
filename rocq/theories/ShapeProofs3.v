From Coq Require Import Reals ZArith QArith.
From Coquelicot Require Import Complex.
From Verif Require Import Base BitsProofs BuilderModel RegProofs HistorySpec ConserveProofs TidyProofs ShapeSpec ShapeProofs ShapeProofs2.
Local Open Scope nat_scope.
Local Open Scope mon_scope.
Local Ltac hb := eapply h_bind.

Lemma in_upd {A} k (v x : A) l : In x (upd_nth k v l) -> x = v \/ In x l.
Proof.
  revert k. induction l as [|a l IH]; intros [|k]; cbn; auto; intros [H|H]; auto. destruct (IH _ H); auto.
Qed.
Lemma h_take k : hoare (take_cr k) ne.
Proof.
  intros s (A & B & C). unfold take_cr. destruct (nth_error (conds s) k) as [[r|]|] eqn:E; try exact Logic.I. split.
  - split; [exact A|]. split; [exact B|]. cbn. intros r' H. apply in_upd in H. destruct H as [H|H]; [discriminate|]. apply C. exact H.
  - apply C. eapply nth_error_In. exact E.
Qed.
Lemma h_put k r : ne r -> hoare (put_cr k r) (fun _ => True).
Proof.
  intros N s (A & B & C). unfold put_cr. split; [|exact Logic.I]. split; [exact A|]. split; [exact B|]. cbn. intros r' H. apply in_upd in H. destruct H as [H|H]; [inversion H; subst; exact N|apply C; exact H].
Qed.
Lemma h_give k ncr cr r (Q : reg -> Prop) : Q r -> hoare (give_back k ncr cr r) (fun x => ne (fst x) /\ Q (snd x)).
Proof.
  intros H. unfold give_back. hb; [apply h_lift; intros sp E; exact E|]. intros sp E. cbn beta in E. destruct sp as [?|?|a b]; [apply h_crash|apply h_crash|].
  apply split_rel_ne in E. destruct E as (Na & Nb). hb; [apply h_put; exact Nb|]. intros _ _. apply h_ret. split; assumption.
Qed.
Lemma h_try d : forall cr r co, ne cr -> ne r -> fits co -> (co_obj co = OUnit UH -> lone r) -> hoare (try_cond d cr r co) (fun x => ne (fst x) /\ back r co (snd x)).
Proof.
  induction d as [|k IH]; intros cr r co C N F H; cbn [try_cond]; [apply l_try; assumption|].
  hb; [apply h_take|]. intros ccr Nc. hb; [apply h_merge2; exact C|]. intros cr1 (_ & C1). hb; [apply IH; assumption|]. intros [cr2 r2] (C2 & B2). cbn [fst snd] in *. apply h_give. exact B2.
Qed.
Definition hok (d : nat) (r : reg) : Prop := d <> 0 -> lone r.
Lemma h_aco d r co : ne r -> fits co -> (co_obj co = OUnit UH -> hok d r) -> hoare (aco d r co) (back r co).
Proof.
  intros N F H. destruct d as [|k]; cbn [aco]; [apply h_local; assumption|].
  hb; [apply h_take|]. intros cr C. hb; [apply h_try; [exact C|exact N|exact F|intros E; apply H; [exact E|discriminate]]|]. intros [cr2 r2] (C2 & B2). cbn [fst snd] in *.
  hb; [apply h_put; exact C2|]. intros _ _. apply h_ret. exact B2.
Qed.
Lemma lone_hok d r : lone r -> hok d r. Proof. intros H _. exact H. Qed.
Lemma h_with c {A} (m : M A) (Q : A -> Prop) : (forall r, In (Some r) c -> ne r) -> hoare m Q -> hoare (with_conds c m) Q.
Proof.
  intros Hc H s (A1 & B & C). unfold with_conds. specialize (H (mkSt (bld s) c) (conj A1 (conj B Hc))). destruct (m (mkSt (bld s) c)) as [a s'|e s'|p]; [|exact (conj (proj1 H) (conj (proj1 (proj2 H)) C))|exact Logic.I].
  destruct H as ((A2 & B2 & _) & Qa). split; [|exact Qa]. split; [exact A2|]. split; [exact B2|exact C].
Qed.
Lemma h_dissolve : hoare dissolve ne.
Proof.
  intros s (A & B & C). unfold dissolve. destruct (rev (conds s)) as [|[r|] c] eqn:E; try exact Logic.I.
  assert (X : conds s = rev c ++ [Some r]) by (rewrite <- (rev_involutive (conds s)), E; reflexivity). split.
  - split; [exact A|]. split; [exact B|]. cbn. intros r' H. apply C. rewrite X. apply in_app_iff. auto.
  - apply C. rewrite X. apply in_app_iff. right. left. reflexivity.
Qed.

(** *** Subcircuits *)
Definition olone (o : option reg) : Prop := forall r, o = Some r -> lone r.
Lemma take_at_lone rs i r rs' : take_at rs i = Ok (r, rs') -> Forall olone rs -> lone r /\ Forall olone rs'.
Proof.
  unfold take_at, idx. destruct (nth_error rs i) as [o|] eqn:E; cbn [bind]; [|discriminate]. destruct o as [r0|]; cbn [unwrap_opt bind]; [|discriminate]. intros X F. inversion X; subst.
  rewrite Forall_forall in F. split; [apply (F (Some r)); [eapply nth_error_In; exact E|reflexivity]|]. apply Forall_forall. intros o H. apply in_upd in H. destruct H as [->|H]; [intros ? ?; discriminate|apply F; exact H].
Qed.
Lemma take_all_lone is : forall rs l rs', take_all rs is = Ok (l, rs') -> Forall olone rs -> Forall lone l /\ length l = length is /\ Forall olone rs'.
Proof.
  induction is as [|i is IH]; intros rs l rs' E F; cbn [take_all] in E; [inversion E; subst; repeat split; auto|].
  destruct (take_at rs i) as [[r rs1]| |] eqn:E1; cbn [bind] in E; try discriminate. destruct (take_all rs1 is) as [[l2 rs2]| |] eqn:E2; cbn [bind] in E; try discriminate. inversion E; subst.
  apply take_at_lone in E1; [|exact F]. destruct E1 as (L & F1). destruct (IH _ _ _ E2 F1) as (A & B & C). repeat split; [constructor; assumption|cbn; congruence|exact C].
Qed.
Lemma put_back_lone l : forall rs rs', foldM put_back l rs = Ok rs' -> Forall (fun p => lone (snd p)) l -> Forall olone rs -> Forall olone rs'.
Proof.
  induction l as [|[i r] l IH]; intros rs rs' E F H; cbn [foldM] in E; [inversion E; subst; exact H|]. inversion F; subst. cbn [snd] in *.
  unfold put_back in E at 1. destruct (idx rs i); cbn [bind] in E; try discriminate. eapply IH; [exact E|assumption|].
  apply Forall_forall. intros o Ho. apply in_upd in Ho. rewrite Forall_forall in H. destruct Ho as [->|Ho]; [intros r0 E0; inversion E0; subst; assumption|apply H; exact Ho].
Qed.
Section Sub.
Context (d : nat).
Lemma h_entry e rs : sized e -> Forall olone rs -> hoare (apply_entry (aco d) rs e) (Forall olone).
Proof.
  destruct e as [indices co]. intros (Ne & En & F) H. cbn [fst snd] in *. unfold apply_entry.
  hb; [apply h_lift; intros x E; exact E|]. intros [sub rs1] E. cbn beta in E. apply take_all_lone in E; [|exact H]. destruct E as (Ls & Ln & H1).
  hb; [apply h_merge_lones; exact Ls|]. intros o Ho. cbn beta in Ho. hb; [apply h_unopt; exact Ho|]. intros r (Nr & Lr).
  hb; [apply h_aco; [exact Nr|exact F|]|].
  { intros Eh _. unfold fits in F. rewrite Eh in F. unfold lone. lia. }
  intros r2 _. hb; [apply h_lift; intros x E; exact (split_all_lone _ _ E)|]. intros sub2 L2. cbn beta in L2.
  hb; [apply (h_lift _ (Forall olone)); intros rs2 E|].
  { eapply put_back_lone; [exact E| |exact H1]. apply Forall_forall. intros [i r0] Hin. cbn. rewrite Forall_forall in L2. apply L2. eapply in_combine_r. exact Hin. }
  intros rs2 H2. hb; [apply (h_assert _ (fun _ => True)); auto|]. intros _ _. apply h_ret. exact H2.
Qed.
Lemma mapM_lone rs : forall l, mapM unwrap_opt rs = Ok l -> Forall olone rs -> Forall lone l.
Proof.
  induction rs as [|o rs IH]; intros l E F; cbn [mapM] in E; [inversion E; constructor|]. inversion F; subst. destruct o as [r|]; cbn [unwrap_opt bind] in E; [|discriminate].
  destruct (mapM unwrap_opt rs) as [l2| |]; cbn [bind] in E; try discriminate. inversion E; subst. constructor; [apply H1; reflexivity|apply IH; auto].
Qed.
Lemma h_objects sc r : Forall sized sc -> hoare (apply_pipeline_objects (aco d) sc r) ne.
Proof.
  intros F. unfold apply_pipeline_objects. hb; [apply h_lift; intros rs E; exact (split_all_lone _ _ E)|]. intros rs L. cbn beta in L.
  hb; [apply (h_lift _ (fun _ => True)); auto|]. intros mx _. hb; [apply (h_lift _ (fun _ => True)); auto|]. intros tn _.
  hb; [apply (fun H => H : hoare _ (Forall lone))|].
  { destruct (tn =? 0); [apply h_ret; exact L|]. hb; [apply h_temps|]. intros t _. hb; [apply h_lift; intros ts E; exact (split_all_lone _ _ E)|]. intros ts Lt. cbn beta in Lt. apply h_ret. apply Forall_app. auto. }
  intros rs1 L1. cbn beta in L1.
  hb; [apply (h_mfold _ (Forall olone)); [|]|].
  - apply Forall_forall. intros o Ho. apply in_map_iff in Ho. destruct Ho as (r0 & <- & Hr). rewrite Forall_forall in L1. intros r1 E. inversion E; subst. apply L1. exact Hr.
  - intros rs2 e H2 He. apply h_entry; [|exact H2]. rewrite Forall_forall in F. apply F. exact He.
  - intros rs2 H2. cbn beta in H2. hb; [apply h_lift; intros l E; exact (mapM_lone _ _ E H2)|]. intros l Ll. cbn beta in Ll. unfold split_vector_at.
    hb; [hb; [apply (h_assert _ (fun _ => True)); auto|]; intros _ _; apply (h_ret _ (fun x => Forall lone (fst x) /\ Forall lone (snd x)))|].
    { cbn [fst snd]. rewrite <- (firstn_skipn (length r) l) in Ll. apply Forall_app in Ll. exact Ll. }
    intros [rs3 trs] (F3 & Ft). cbn [fst snd] in *. hb; [apply h_merge; apply lones_ne; exact Ft|]. intros o _.
    hb; [apply (fun H => H : hoare _ (fun _ => True)); destruct o; [apply h_return|apply h_ret; exact Logic.I]|]. intros _ _. apply h_merge_unwrap. apply lones_ne. exact F3.
Qed.
End Sub.
Lemma h_local_cond sc cr r : Forall sized sc -> ne cr -> hoare (local_cond_subcircuit sc cr r) (fun x => ne (fst x) /\ ne (snd x)).
Proof.
  intros F C. unfold local_cond_subcircuit. apply h_with; [intros r0 [E|[]]; inversion E; subst; exact C|].
  hb; [apply (h_objects 1); exact F|]. intros r1 N1. hb; [apply h_dissolve|]. intros c1 C1. apply h_ret. split; assumption.
Qed.
Lemma h_cond_sub d : forall sc cr r, Forall sized sc -> ne cr -> hoare (apply_cond_subcircuit d sc cr r) (fun x => ne (fst x) /\ ne (snd x)).
Proof.
  induction d as [|k IH]; intros sc cr r F C; cbn [apply_cond_subcircuit]; [apply h_local_cond; assumption|].
  hb; [apply h_take|]. intros ccr Nc. hb; [apply h_merge2; exact C|]. intros cr1 (_ & C1). hb; [apply IH; assumption|]. intros [cr2 r2] (C2 & B2). cbn [fst snd] in *. apply (h_give _ _ _ _ ne). exact B2.
Qed.
Lemma h_sub d sc r : Forall sized sc -> hoare (apply_subcircuit d sc r) ne.
Proof.
  intros F. destruct d as [|k]; cbn [apply_subcircuit]; [apply (h_objects 0); exact F|].
  hb; [apply h_take|]. intros cr C. hb; [apply h_cond_sub; assumption|]. intros [cr2 r2] (C2 & B2). cbn [fst snd] in *. hb; [apply h_put; exact C2|]. intros _ _. apply h_ret. exact B2.
Qed.

Lemma invert_data_length n data d : invert_data n data = Ok d -> length d = length data.
Proof.
  unfold invert_data. set (nn := 2 ^ n). intros E.
  assert (In1 : forall i js acc acc', foldM (fun acc j => let index_a := i * nn + j in let index_b := j * nn + i in
      bind (idx data index_b) (fun v => bind (idx acc index_a) (fun _ => Ok (upd_nth index_a (Cconj v) acc)))) js acc = Ok acc' -> length acc' = length acc).
  { intros i. induction js as [|j js IH]; intros acc acc' X; cbn [foldM] in X; [inversion X; reflexivity|]. cbv zeta in X.
    destruct (idx data (j * nn + i)); cbn [bind] in X; try discriminate. destruct (idx acc (i * nn + j)); cbn [bind] in X; try discriminate. apply IH in X. rewrite X. apply upd_nth_length. }
  assert (Out : forall is acc acc', foldM (fun acc i => foldM (fun acc j => let index_a := i * nn + j in let index_b := j * nn + i in
      bind (idx data index_b) (fun v => bind (idx acc index_a) (fun _ => Ok (upd_nth index_a (Cconj v) acc)))) (seq 0 nn) acc) is acc = Ok acc' -> length acc' = length acc).
  { induction is as [|i is IH]; intros acc acc' X; cbn [foldM] in X; [inversion X; reflexivity|]. destruct (foldM _ (seq 0 nn) acc) as [acc1| |] eqn:E1; cbn [bind] in X; try discriminate.
    apply In1 in E1. apply IH in X. congruence. }
  apply Out in E. rewrite E. apply repeat_length.
Qed.
Lemma invert_object_sized qs co cos : sized (qs, co) -> invert_circuit_object co = Ok cos -> Forall (fun co' => sized (qs, co')) cos.
Proof.
  intros (N & E & F) H. cbn [fst snd] in *. unfold invert_circuit_object in H. destruct co as [n o]. unfold fits in F. cbn [co_n co_obj] in *. destruct o as [u|m]; [|discriminate].
  destruct u; try (cbn [bind map] in H; injection H as <-; repeat (apply Forall_cons; [split; [exact N|split; [exact E|exact F]]|]); apply Forall_nil).
  destruct (invert_data n data) as [dd| |] eqn:Ed; cbn [bind] in H; try discriminate. cbn [bind map] in H. injection H as <-. constructor; [|constructor].
  split; [exact N|]. split; [exact E|]. cbn. split; [apply F|]. rewrite (invert_data_length _ _ _ Ed). apply F.
Qed.
Lemma invert_sized sc q : Forall sized sc -> invert_subcircuit sc = Ok q -> Forall sized q.
Proof.
  unfold invert_subcircuit. intros F. assert (F' : Forall sized (rev sc)) by (apply Forall_rev; exact F). revert F'. generalize (rev sc). clear F sc. intros sc F.
  assert (X : forall acc q, Forall sized acc -> foldM (fun acc e => let '(indices, co) := e in bind (invert_circuit_object co) (fun cos => Ok (acc ++ map (fun co => (indices, co)) cos))) sc acc = Ok q -> Forall sized q); [|apply X; constructor].
  induction F as [|[qs co] sc He F IH]; intros acc q0 Ha E; cbn [foldM] in E; [inversion E; subst; exact Ha|]. destruct (invert_circuit_object co) as [cos| |] eqn:Ec; cbn [bind] in E; try discriminate.
  eapply IH; [|exact E]. apply Forall_app. split; [exact Ha|]. pose proof (invert_object_sized _ _ _ He Ec) as Hc. apply Forall_forall. intros e Hin. apply in_map_iff in Hin. destruct Hin as (co' & <- & Hco).
  rewrite Forall_forall in Hc. apply Hc. exact Hco.
Qed.
Lemma h_inverted d sc r : Forall sized sc -> hoare (apply_inverted_subcircuit d sc r) ne.
Proof. intros F. unfold apply_inverted_subcircuit. hb; [apply h_lift; intros q E; exact (invert_sized _ _ F E)|]. intros q Fq. apply h_sub. exact Fq. Qed.

Lemma groups_ne gs : forall acc l rs, foldM group_step gs acc = Ok (l, rs) -> Forall ne (fst acc) -> Forall olone (snd acc) -> Forall ne l /\ Forall olone rs.
Proof.
  induction gs as [|is gs IH]; intros [sel rs0] l rs E A B; cbn [foldM] in E; [inversion E; subst; auto|]. cbn [fst snd] in *. unfold group_step in E at 1.
  destruct (take_all rs0 is) as [[sub rs1]| |] eqn:E1; cbn [bind] in E; try discriminate. apply take_all_lone in E1; [|exact B]. destruct E1 as (Ls & _ & B1).
  destruct (merge_registers sub) as [m| |] eqn:E2; cbn [bind] in E; try discriminate. eapply IH; [exact E| |exact B1]. cbn [fst]. apply Forall_app. split; [exact A|].
  destruct m as [r|]; [|constructor]. constructor; [|constructor]. eapply merge_ne; [exact E2|apply lones_ne; exact Ls|reflexivity].
Qed.
Lemma somes_lone rs : Forall olone rs -> Forall lone (somes rs).
Proof. unfold somes. induction 1 as [|o rs H _ IH]; [constructor|]. cbn [map concat]. apply Forall_app. split; [|exact IH]. destruct o; [constructor; [apply H; reflexivity|constructor]|constructor]. Qed.
Lemma split_groups_ne r gs sm : split_groups r gs = Ok sm -> Forall ne (of_many sm).
Proof.
  unfold split_groups. destruct (split_all r) as [rs| |] eqn:E; cbn [bind]; try discriminate. apply split_all_lone in E.
  destruct (foldM group_step gs ([], map Some rs)) as [[sel rs1]| |] eqn:E1; cbn [bind]; try discriminate.
  apply groups_ne in E1; [|constructor|]. 2:{ cbn [snd]. apply Forall_forall. intros o Ho. apply in_map_iff in Ho. destruct Ho as (r0 & <- & Hr). rewrite Forall_forall in E. intros r1 X. inversion X; subst. apply E. exact Hr. }
  destruct E1 as (A & B). destruct (merge_registers (somes rs1)) as [m| |] eqn:E2; cbn [bind]; try discriminate. destruct m as [r1|]; intros X; inversion X; subst; cbn [of_many]; [|exact A].
  apply Forall_app. split; [exact A|]. constructor; [|constructor]. eapply merge_ne; [exact E2|apply lones_ne; apply somes_lone; exact B|reflexivity].
Qed.
Lemma h_inv_body d args f : (forall sc, records args f sc -> Forall sized sc) -> Forall ne args -> forall p,
  hoare (sc <- on_new (sub_rs <- mmap (fun r => register (length r)) args ;; _ <- f sub_rs ;; make_subcircuit) ;;
    m <- lift (merge_registers args) ;; r <- lift (unwrap_opt m) ;; r <- apply_inverted_subcircuit d sc r ;;
    sp <- lift (split_groups r (ranges 0 (map (@length nat) args))) ;; match sp with AllSelected rs => ret rs | Remaining _ _ => crash p end) (Forall ne).
Proof.
  intros H N p. hb; [apply (fun H => H : hoare _ (Forall sized))|].
  { intros s I. unfold on_new. unfold mbind at 1. destruct (mmap (fun r => register (length r)) args (mkSt empty_builder [])) as [rs s1|e s1|p1] eqn:E1; [|exact I|exact Logic.I].
    unfold mbind at 1. destruct (f rs s1) as [out s2|e s2|p2] eqn:E2; [|exact I|exact Logic.I]. cbn. split; [exact I|]. apply H. exists rs, s1, out, s2. auto. }
  intros sc F. cbn beta in F. hb; [apply h_merge; exact N|]. intros o Ho. cbn beta in Ho. hb; [apply h_unopt; exact Ho|]. intros r _. hb; [apply h_inverted; exact F|]. intros r1 _.
  hb; [apply h_lift; intros sp E; exact (split_groups_ne _ _ _ E)|]. intros sp Hs. cbn beta in Hs. destruct sp; [apply h_ret; exact Hs|apply h_crash].
Qed.

(** *** Calls *)
Lemma h_out1 m (P : reg -> Prop) : hoare m P -> (forall r, P r -> ne r) -> hoare (out1 m) (Forall ne).
Proof. intros H W. unfold out1. hb; [exact H|]. intros r Pr. apply h_ret. constructor; [apply W; exact Pr|constructor]. Qed.
Lemma h_out2 m (P : reg * reg -> Prop) : hoare m P -> (forall x, P x -> ne (fst x) /\ ne (snd x)) -> hoare (out2 m) (Forall ne).
Proof. intros H W. unfold out2. hb; [exact H|]. intros [a b] Pr. apply W in Pr. destruct Pr. apply h_ret. repeat (constructor; [assumption|]). constructor. Qed.
Lemma h_one args k Q : (forall r, args = [r] -> hoare (k r) Q) -> hoare (one args k) Q.
Proof. intros H. destruct args as [|r [|? ?]]; try apply h_crash. apply H. reflexivity. Qed.
Lemma h_two args k Q : (forall a b, args = [a; b] -> hoare (k a b) Q) -> hoare (two args k) Q.
Proof. intros H. destruct args as [|a [|b [|? ?]]]; try apply h_crash. apply H. reflexivity. Qed.
Lemma split_abs_ne r is sp : split_abs r is = Ok sp -> match sp with Selected r => ne r | Unselected r => ne r | Split a b => ne a /\ ne b end.
Proof. apply split_rel_ne. Qed.
Lemma of_split_ne sp : match sp with Selected r => ne r | Unselected r => ne r | Split a b => ne a /\ ne b end -> Forall ne (of_split sp).
Proof. destruct sp; cbn; intros H; [constructor; [exact H|constructor]|constructor; [exact H|constructor]|]. destruct H. repeat (constructor; [assumption|]). constructor. Qed.
Lemma h_call d c args : Forall ne args -> careful d args c -> hoare (run_call d c args) (Forall ne).
Proof.
  intros N (_ & H).
  assert (N1 : forall r, args = [r] -> ne r) by (intros r ->; inversion N; assumption).
  assert (N2 : forall a b, args = [a; b] -> ne a /\ ne b) by (intros a b ->; inversion N as [|? ? X Y]; inversion Y; split; assumption).
  assert (I1 : forall r (P : reg -> Prop), args = [r] -> (forall r, In r args -> P r) -> P r) by (intros r P -> X; apply X; left; reflexivity).
  destruct c; cbn [run_call] in *;
    try (apply h_one; intros r Er; pose proof (N1 r Er) as Nr); try (apply h_two; intros ra rb Eab; destruct (N2 ra rb Eab) as (Na & Nb));
    try (destruct (d =? 0); [|apply h_crash]; apply h_one; intros r Er; pose proof (N1 r Er) as Nr).
  - eapply h_out1; [apply h_register|intros r X; apply X].
  - unfold qudit. hb; [apply (fun H => H : hoare _ (fun o => forall r, o = Some r -> ne r))|].
    { destruct (k =? 0); [apply h_ret; discriminate|]. hb; [apply h_register|]. intros r (X & _). apply h_ret. intros r' E. inversion E; subst; exact X. }
    intros o Ho. apply h_ret. destruct o; cbn; [constructor; [apply Ho; reflexivity|constructor]|constructor].
  - eapply h_out1; [apply h_merge2; exact Na|intros r X; apply X].
  - hb; [apply h_merge; exact N|]. intros o Ho. apply h_ret. destruct o; cbn; [constructor; [apply Ho; reflexivity|constructor]|constructor].
  - hb; [apply h_lift; intros sp E; exact (split_rel_ne _ _ _ E)|]. intros sp Hs. apply h_ret. apply of_split_ne. exact Hs.
  - hb; [apply h_lift; intros sp E; exact (split_abs_ne _ _ _ E)|]. intros sp Hs. apply h_ret. apply of_split_ne. exact Hs.
  - apply h_lift. intros rs E. apply lones_ne. exact (split_all_lone _ _ E).
  - hb; [apply h_lift; intros x E; exact E|]. intros [o r1] E. cbn beta in E. apply first_ne in E. destruct E as (Ho & X & _). apply h_ret. apply Forall_app. split; [destruct o; cbn; [constructor; [apply lone_ne; apply Ho; reflexivity|constructor]|constructor]|constructor; [exact X|constructor]].
  - hb; [apply h_lift; intros x E; exact E|]. intros [r1 o] E. cbn beta in E. apply last_ne in E. destruct E as (X & Ho). apply h_ret. constructor; [exact X|]. destruct o; cbn; [constructor; [apply lone_ne; apply Ho; reflexivity|constructor]|constructor].
  - hb; [apply h_lift; intros sp E; exact (split_groups_ne _ _ _ E)|]. intros sm Hs. apply h_ret. exact Hs.
  - destruct H as (F & Hh). eapply h_out1; [apply h_aco; [exact Nr|exact F|]|intros r' X; apply X]. intros E Dd. apply (I1 r lone Er). apply Hh; assumption.
  - destruct H as (F & Hh). eapply h_out1; [apply (h_gate_any (aco d) (hok d) (h_aco d)); [exact Nr|exact F|]|intros r' X; apply X]. intros E Dd. apply (I1 r lone Er). apply Hh; assumption.
  - eapply h_out1; [apply (h_sdg (aco d) (hok d) (h_aco d)); exact Nr|intros r' X; apply X].
  - eapply h_out1; [apply (h_tdg (aco d) (hok d) (h_aco d)); exact Nr|intros r' X; apply X].
  - eapply h_out1; [apply (h_matrix (aco d) (hok d) (h_aco d)); [exact Nr|]|auto]. apply (I1 r (fun r => length data = 2 ^ (2 * length r)) Er). exact H.
  - eapply h_out1; [apply h_unwrap; apply (h_matrix (aco d) (hok d) (h_aco d)); [exact Nr|]|auto]. apply (I1 r (fun r => length data = 2 ^ (2 * length r)) Er). exact H.
  - eapply h_out2; [apply (h_cnot (aco d) (hok d) (h_aco d)); assumption|]. intros x (A & B & _). split; [apply lone_ne; exact A|exact B].
  - eapply h_out2; [apply (h_swap (aco d) (hok d) (h_aco d)); assumption|]. auto.
  - eapply h_out2; [unfold toffoli; apply (h_toffoli (aco d) (hok d) (h_aco d) (lone_hok d)); [exact Na|exact Nb|]|intros x (A & B & _); split; assumption].
    destruct (Nat.eq_dec d 0) as [->|Dd]; [right; split; [intros X; destruct (X eq_refl)|right; intros r' _ X; destruct (X eq_refl)]|]. destruct (H Dd ra rb Eab) as [X|X]; [left; exact X|right]. split; [intros _; exact X|left; exact X].
  - eapply h_out1; [apply l_rz; apply (I1 r lone Er H)|exact lone_ne].
  - eapply h_out1; [apply l_rx; apply (I1 r lone Er H)|exact lone_ne].
  - eapply h_out1; [apply l_ry; apply (I1 r lone Er H)|exact lone_ne].
  - eapply h_out1; [apply l_rz_ratio; apply (I1 r lone Er H)|exact lone_ne].
  - eapply h_out1; [apply l_rx_ratio; apply (I1 r lone Er H)|exact lone_ne].
  - eapply h_out1; [apply l_ry_ratio; apply (I1 r lone Er H)|exact lone_ne].
  - eapply h_out1; [apply l_rz_pi; apply (I1 r lone Er H)|exact lone_ne].
  - eapply h_out1; [apply l_rx_pi; apply (I1 r lone Er H)|exact lone_ne].
  - eapply h_out1; [apply l_ry_pi; apply (I1 r lone Er H)|exact lone_ne].
  - eapply h_out1; [apply l_phase_obj; exact Nr|intros r' X; apply X].
  - eapply h_out1; [apply l_phase_obj; exact Nr|intros r' X; apply X].
  - eapply h_out1; [unfold apply_global_phase_pi_by; hb; [apply (h_lift _ (fun _ => True)); auto|]; intros q _; apply l_phase_obj; exact Nr|intros r' X; apply X].
  - eapply h_out1; [apply h_temp|exact lone_ne].
  - eapply h_out1; [apply h_temps|auto].
  - hb; [apply h_return|]. intros _ _. apply h_ret. constructor.
  - hb; [apply h_measure; exact Nr|]. intros [r1 h] E. cbn in E. subst. apply h_ret. constructor; [exact Nr|constructor].
  - hb; [apply h_measure; exact Nr|]. intros [r1 h] E. cbn in E. subst. apply h_ret. constructor; [exact Nr|constructor].
  - hb; [apply (fun H => H : hoare _ (fun _ => True))|intros _ _; apply h_ret; constructor]. intros s (A & B & C). cbn. split; [|exact Logic.I]. split; [exact A|]. split; [exact B|]. cbn. intros r' X. apply in_app_iff in X. destruct X as [X|[X|[]]]; [apply C; exact X|inversion X; subst; exact Nr].
  - eapply h_out1; [apply h_dissolve|auto].
  - hb; [apply (fun H => H : hoare _ (fun _ => True))|intros _ _; apply h_ret; constructor]. intros s (A & B & C). cbn. split; [|exact Logic.I]. split; [exact A|]. split; [exact B|]. cbn. intros r' X. apply C.
    destruct (conds s) as [|c l] using rev_ind; [exact X|]. rewrite removelast_last in X. apply in_app_iff. left. exact X.
  - eapply h_out1; [apply h_sub; exact H|auto].
  - apply h_inv_body; assumption.
  - apply h_inv_body; assumption.
  - apply h_ret. constructor.
Qed.
Lemma history_inv cl : history cl -> inv (fst cl) /\ Forall ne (snd cl) /\ reach distinct_positions start cl.
Proof.
  induction 1 as [|cl c ps cl' _ (I & N & R) L C E].
  - split; [|split; [constructor|constructor]]. split; [constructor|]. split; [constructor|]. intros r [].
  - assert (X : Forall ne (pick (snd cl) ps)).
    { apply Forall_forall. intros r Hr. apply in_map_iff in Hr. destruct Hr as (p & <- & Hp). rewrite Forall_forall in N. apply N. apply nth_In. apply (proj2 L). exact Hp. }
    assert (Y : Forall ne (keep (snd cl) ps)).
    { apply Forall_forall. intros r Hr. apply in_map_iff in Hr. destruct Hr as (p & <- & Hp). apply filter_In in Hp. destruct Hp as (Hp & _). apply in_seq in Hp. rewrite Forall_forall in N. apply N. apply nth_In. lia. }
    destruct cl as [s rs]. cbn [fst snd] in *. pose proof (h_call _ _ _ X C s I) as H. pose proof E as E0. cbn [do_call] in E.
    destruct (run_call (length (conds s)) c (pick rs ps) s) as [outs s1|e s1|p]; inversion E; subst.
    + destruct H as (I1 & O). split; [exact I1|]. split; [apply Forall_app; split; assumption|]. eapply reach_step; [exact R|apply C|exact L|exact E0].
    + split; [exact H|]. split; [exact Y|]. eapply reach_step; [exact R|apply C|exact L|exact E0].
Qed.
