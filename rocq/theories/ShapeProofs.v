From Coq Require Import Reals ZArith QArith.
From Coquelicot Require Import Complex.
From Verif Require Import Base BuilderModel RegProofs HistorySpec ConserveProofs TidyProofs ShapeSpec.
Local Open Scope nat_scope.
Local Open Scope mon_scope.

Definition ne (r : reg) : Prop := r <> [].
Definition lone (r : reg) : Prop := length r = 1.
Lemma lone_ne r : lone r -> ne r.
Proof. unfold lone, ne. intros H ->. discriminate. Qed.
Definition inv (s : st) : Prop :=
  Forall sized (pipeline (bld s)) /\ Forall lone (zeroed (bld s)) /\ forall r, In (Some r) (conds s) -> ne r.
Definition hoare {A} (m : M A) (Q : A -> Prop) : Prop := forall s, inv s ->
  match m s with Ret a s' => inv s' /\ Q a | Fail _ s' => inv s' | Crash _ => True end.

Lemma h_ret {A} (a : A) (Q : A -> Prop) : Q a -> hoare (ret a) Q.
Proof. intros H s I. split; assumption. Qed.
Lemma h_fail {A} e (Q : A -> Prop) : hoare (fail e) Q.
Proof. intros s I. exact I. Qed.
Lemma h_crash {A} p (Q : A -> Prop) : hoare (crash p) Q.
Proof. intros s I. exact Logic.I. Qed.
Lemma h_bind {A B} (m : M A) (f : A -> M B) (P : A -> Prop) (Q : B -> Prop) : hoare m P -> (forall a, P a -> hoare (f a) Q) -> hoare (mbind m f) Q.
Proof.
  intros Hm Hf s I. unfold mbind. specialize (Hm s I). destruct (m s) as [a s'|e s'|p]; [|exact Hm|exact Logic.I]. destruct Hm as (I' & Pa). exact (Hf a Pa s' I').
Qed.
Lemma h_lift {A} (r : res A) (Q : A -> Prop) : (forall a, r = Ok a -> Q a) -> hoare (lift r) Q.
Proof. intros H s I. unfold lift. destruct r; [split; [exact I|apply H; reflexivity]|exact I|exact Logic.I]. Qed.
Lemma h_weak {A} (m : M A) (P Q : A -> Prop) : hoare m P -> (forall a, P a -> Q a) -> hoare m Q.
Proof. intros H W s I. specialize (H s I). destruct (m s); auto. destruct H. auto. Qed.
Lemma h_unwrap {A} (m : M A) (Q : A -> Prop) : hoare m Q -> hoare (unwrapM m) Q.
Proof. intros H s I. unfold unwrapM. specialize (H s I). destruct (m s); auto. Qed.
Lemma h_assert b (Q : unit -> Prop) : (b = true -> Q tt) -> hoare (massert b) Q.
Proof. intros H. unfold massert. destruct b; [apply h_ret; auto|apply h_crash]. Qed.
Lemma h_mfold {A B} (f : A -> B -> M A) (P : A -> Prop) l : forall a, P a -> (forall a b, P a -> In b l -> hoare (f a b) P) -> hoare (mfold f l a) P.
Proof.
  induction l as [|b l IH]; intros a Pa H; cbn [mfold]; [apply h_ret; exact Pa|]. eapply h_bind; [apply H; [exact Pa|left; reflexivity]|].
  intros a' Pa'. apply IH; [exact Pa'|]. intros. apply H; [assumption|right; assumption].
Qed.
Lemma h_mmap {A B} (f : A -> M B) (P : B -> Prop) l : (forall a, In a l -> hoare (f a) P) -> hoare (mmap f l) (Forall P).
Proof.
  induction l as [|a l IH]; intros H; cbn [mmap]; [apply h_ret; constructor|]. eapply h_bind; [apply H; left; reflexivity|].
  intros b Pb. eapply h_bind; [apply IH; intros; apply H; right; assumption|]. intros bs Pbs. apply h_ret. constructor; assumption.
Qed.

(** *** Registers *)
Lemma new_ne l r : new_reg l = Some r -> ne r.
Proof. destruct l; [discriminate|]. intros E. inversion E. discriminate. Qed.
Lemma merge2_eq a b r : merge2 a b = Ok r -> r = a ++ b.
Proof. unfold merge2, new_reg. destruct (a ++ b); cbn; intros E; inversion E; reflexivity. Qed.
Lemma app_ne a b : ne a -> ne (a ++ b).
Proof. destruct a; [intros H; destruct (H eq_refl)|discriminate]. Qed.
Lemma merge_opt rs : forall acc o, foldM merge_step rs acc = Ok o -> Forall ne rs -> (forall r, acc = Some r -> ne r) -> forall r, o = Some r -> ne r.
Proof.
  induction rs as [|r1 rs IH]; intros acc o E F H r Er; cbn [foldM] in E; [inversion E; subst; apply H; reflexivity|].
  inversion F; subst. destruct acc as [r2|]; cbn [merge_step] in E.
  - destruct (merge2 r2 r1) as [r3| |] eqn:E2; try discriminate. cbn [bind] in E. eapply IH; [exact E|assumption| |reflexivity].
    intros r' Er'. inversion Er'; subst. apply merge2_eq in E2. subst. apply app_ne. apply H. reflexivity.
  - cbn [bind] in E. eapply IH; [exact E|assumption| |reflexivity]. intros r' Er'. inversion Er'; subst. assumption.
Qed.
Lemma merge_ne rs o r : merge_registers rs = Ok o -> Forall ne rs -> o = Some r -> ne r.
Proof. intros E F Er. eapply (merge_opt rs None); [exact E|exact F|discriminate|exact Er]. Qed.
Lemma split_rel_ne r is sp : split_rel r is = Ok sp -> match sp with Selected r => ne r | Unselected r => ne r | Split a b => ne a /\ ne b end.
Proof.
  unfold split_rel. destruct (select r is) as [sel| |]; cbn [bind]; try discriminate. destruct (new_reg sel) as [r1|] eqn:E1; destruct (new_reg (filter _ r)) as [r2|] eqn:E2;
    intros E; inversion E; subst; try split; eapply new_ne; eassumption.
Qed.
Lemma split_all_lone r rs : split_all r = Ok rs -> Forall lone rs.
Proof. intros E. unfold split_all in E. eapply split_helper_single; [|exact E]. constructor. Qed.
Lemma split_all_one q : split_all [q] = Ok [[q]].
Proof. reflexivity || (unfold split_all; cbn; rewrite Nat.eqb_refl; reflexivity). Qed.
Lemma split0_two r a b : split_rel r [0] = Ok (Split a b) -> lone a /\ ne b /\ (length r = 2 -> lone b).
Proof.
  intros E. pose proof (split0_single _ _ E) as L. pose proof (split_rel_ne _ _ _ E) as (_ & N). split; [exact L|]. split; [exact N|]. intros H.
  destruct r as [|x [|y [|? ?]]]; try discriminate. unfold split_rel in E. cbn in E. rewrite Nat.eqb_refl in E. cbn in E. destruct (y =? x); cbn in E; inversion E; subst; reflexivity.
Qed.
Lemma first_ne r o r' : split_first_qubit r = Ok (o, r') -> (forall a, o = Some a -> lone a) /\ ne r' /\ (length r = 2 -> forall a, o = Some a -> lone r').
Proof.
  unfold split_first_qubit. destruct (split_rel r [0]) as [sp| |] eqn:E; cbn [bind]; try discriminate. pose proof (split_rel_ne _ _ _ E) as N.
  destruct sp as [r1|r1|r1 r2]; intros X; inversion X; subst.
  - split; [discriminate|]. split; [exact N|discriminate].
  - apply split0_two in E. destruct E as (A & B & C). split; [intros a Ea; inversion Ea; subst; exact A|]. split; [exact B|]. intros H a _. apply C; exact H.
Qed.
Lemma last_ne r r' o : split_last_qubit r = Ok (r', o) -> ne r' /\ (forall a, o = Some a -> lone a).
Proof.
  unfold split_last_qubit. destruct (chk_sub (length r) 1) as [n1| |]; cbn [bind]; try discriminate.
  destruct (split_rel r [n1]) as [sp| |] eqn:E; cbn [bind]; try discriminate. pose proof (split_rel_ne _ _ _ E) as N.
  destruct sp as [r1|r1|r1 r2]; intros X; inversion X; subst; [split; [exact N|discriminate]|]. split; [apply N|]. intros a Ea. inversion Ea; subst.
  unfold split_rel in E. cbn [select] in E. destruct (n1 <=? length r).
  - destruct (idx r n1); cbn [bind new_reg] in E; try discriminate. destruct (filter _ r); cbn [new_reg] in E; inversion E; subst; reflexivity.
  - cbn [bind new_reg] in E. destruct (new_reg _); inversion E.
Qed.

Local Ltac hb := eapply h_bind.
Lemma h_merge2 a b : ne a -> hoare (lift (merge2 a b)) (fun r => r = a ++ b /\ ne r).
Proof. intros H. apply h_lift. intros r E. apply merge2_eq in E. subst. split; [reflexivity|apply app_ne; exact H]. Qed.
Lemma h_merge rs : Forall ne rs -> hoare (lift (merge_registers rs)) (fun o => forall r, o = Some r -> ne r).
Proof. intros H. apply h_lift. intros o E r Er. eapply merge_ne; eassumption. Qed.
Lemma h_unopt {A} (o : option A) (Q : A -> Prop) : (forall a, o = Some a -> Q a) -> hoare (lift (unwrap_opt o)) Q.
Proof. intros H. apply h_lift. intros a E. destruct o; inversion E; subst. apply H. reflexivity. Qed.
Lemma h_merge_unwrap rs : Forall ne rs -> hoare (m <- lift (merge_registers rs) ;; lift (unwrap_opt m)) ne.
Proof. intros H. hb; [apply h_merge; exact H|]. intros o Ho. apply h_unopt. exact Ho. Qed.
Lemma lones_ne rs : Forall lone rs -> Forall ne rs.
Proof. apply Forall_impl. exact lone_ne. Qed.

(** *** The builder *)
Lemma h_register k : hoare (register k) (fun r => ne r /\ length r = k).
Proof.
  intros s (A & B & C). unfold register, mbind, get, lift. destruct (new_reg (seq (bn (bld s)) k)) as [r|] eqn:E; cbn [unwrap_opt]; [|exact Logic.I].
  cbn. split; [split; [exact A|split; [exact B|exact C]]|]. split; [eapply new_ne; exact E|]. destruct k; [discriminate|]. cbn [new_reg seq] in E. inversion E. cbn. rewrite seq_length. reflexivity.
Qed.
Lemma h_push r c : sized (r, c) -> hoare (push (r, c)) (fun _ => True).
Proof.
  intros H s (A & B & C). cbn. split; [|exact Logic.I]. split; [|split; [exact B|exact C]]. cbn. apply Forall_app. split; [exact A|]. constructor; [exact H|constructor].
Qed.
Lemma h_temp : hoare make_zeroed_temp_qubit lone.
Proof.
  intros s (A & B & C). unfold make_zeroed_temp_qubit, mbind, get. destruct (rev (zeroed (bld s))) as [|r z] eqn:E.
  - pose proof (h_register 1 s (conj A (conj B C))) as H. unfold qubit. destruct (register 1 s); auto. split; [apply H|apply H].
  - cbn. assert (X : zeroed (bld s) = rev z ++ [r]) by (rewrite <- (rev_involutive (zeroed (bld s))), E; reflexivity).
    rewrite X in B. apply Forall_app in B. destruct B as (B & Br). inversion Br; subst. split; [|assumption]. split; [exact A|split; [exact B|exact C]].
Qed.
Lemma h_return r : hoare (return_zeroed_temp_register r) (fun _ => True).
Proof.
  unfold return_zeroed_temp_register. hb; [apply h_lift; intros rs E; apply (split_all_lone r rs E)|]. intros rs H s (A & B & C). cbn. split; [|exact Logic.I].
  split; [exact A|]. split; [|exact C]. cbn. apply Forall_app. split; assumption.
Qed.
Lemma h_temps k : hoare (make_zeroed_temp_register k) ne.
Proof. unfold make_zeroed_temp_register. hb; [apply (h_mmap _ lone); intros; apply h_temp|]. intros rs H. apply h_merge_unwrap. apply lones_ne. exact H. Qed.
Lemma h_measure m r : ne r -> hoare (measure_with m r) (fun x => fst x = r).
Proof.
  intros H s (A & B & C). cbn. split; [|reflexivity]. split; [|split; [exact B|exact C]]. cbn. apply Forall_app. split; [exact A|]. constructor; [|constructor].
  split; [exact H|]. split; [reflexivity|exact Logic.I].
Qed.

(** What [apply_circuit_object] returns: one qubit for one, two for two with a CNOT. *)
Definition turns (co : cobj) : bool := match co_obj co with OUnit (URz _) => true | _ => false end.
Definition back (r : reg) (co : cobj) (r' : reg) : Prop := ne r' /\ (turns co = false -> lone r -> lone r') /\ (co_obj co = OUnit UCNOT -> length r = 2 -> length r' = 2).
Lemma h_local r co : ne r -> fits co -> hoare (local_aco r co) (back r co).
Proof.
  intros N F. unfold local_aco. destruct ((co_n co =? 1) || (co_n co =? length r)) eqn:E; [|apply h_fail].
  destruct ((co_n co =? 1) && (1 <? length r)) eqn:E1.
  - apply andb_prop in E1. destruct E1 as (E1 & E2). apply Nat.eqb_eq in E1. apply Nat.ltb_lt in E2.
    hb; [apply h_lift; intros rs Er; apply (split_all_lone r rs Er)|]. intros rs Hrs. cbn beta in Hrs.
    hb; [apply (h_mfold _ (fun _ => True)); [exact Logic.I|]|].
    + intros _ r1 _ Hr. apply h_push. rewrite Forall_forall in Hrs. specialize (Hrs r1 Hr). split; [apply lone_ne; exact Hrs|]. split; [cbn; rewrite Hrs; exact E1|exact F].
    + intros _ _. eapply h_weak; [apply h_merge_unwrap; apply lones_ne; exact Hrs|]. intros r' Nr. split; [exact Nr|]. split; [unfold lone; lia|].
      intros Ec. unfold fits in F. rewrite Ec in F. lia.
  - hb; [apply h_push|].
    + split; [exact N|]. split; [|exact F]. cbn [fst snd]. apply orb_prop in E. destruct E as [E|E]; apply Nat.eqb_eq in E; [|exact E].
      apply andb_false_iff in E1. destruct E1 as [E1|E1]; [apply Nat.eqb_neq in E1; contradiction|]. apply Nat.ltb_ge in E1. destruct r as [|? [|? ?]]; [destruct (N eq_refl)|exact E|cbn in E1; lia].
    + intros _ _. apply h_ret. split; [exact N|]. auto.
Qed.

Lemma h_local_lone r co : lone r -> fits co -> hoare (local_aco r co) lone.
Proof.
  intros L F. unfold local_aco. rewrite L. change (1 <? 1) with false. rewrite andb_false_r. destruct ((co_n co =? 1) || (co_n co =? 1)) eqn:E; [|apply h_fail].
  hb; [apply h_push|intros _ _; apply h_ret; exact L]. split; [apply lone_ne; exact L|]. split; [|exact F]. cbn [fst snd]. rewrite L. apply orb_prop in E. destruct E as [E|E]; apply Nat.eqb_eq in E; exact E.
Qed.

Section Trait.
Context (aco : reg -> cobj -> M reg) (hok : reg -> Prop).
Hypothesis Hac : forall r co, ne r -> fits co -> (co_obj co = OUnit UH -> hok r) -> hoare (aco r co) (back r co).
Hypothesis Hlone : forall r, lone r -> hok r.

Definition one_qubit (u : unitary) : Prop := match u with UX | UY | UZ | UH | US | UT => True | _ => False end.
Lemma one_fits u : one_qubit u -> fits (mkCO 1 (OUnit u)).
Proof. destruct u; cbn; intros H; try destruct H; reflexivity. Qed.
Lemma h_gate_any u r : ne r -> fits (mkCO 1 (OUnit u)) -> (u = UH -> hok r) -> hoare (gate aco u r) (back r (mkCO 1 (OUnit u))).
Proof. intros N F H. unfold gate. apply h_unwrap. apply Hac; [exact N|exact F|]. intros E. apply H. cbn in E. inversion E. reflexivity. Qed.
Lemma h_gate u r : ne r -> one_qubit u -> (u = UH -> hok r) -> hoare (gate aco u r) (fun r' => ne r' /\ (lone r -> lone r')).
Proof. intros N F H. eapply h_weak; [apply h_gate_any; [exact N|apply one_fits; exact F|exact H]|]. intros r' (A & B & _). split; [exact A|]. apply B. destruct u; try destruct F; reflexivity. Qed.
Lemma h_sdg r : ne r -> hoare (g_s_dagger aco r) (fun r' => ne r' /\ (lone r -> lone r')).
Proof.
  intros N. unfold g_s_dagger. hb; [apply (h_gate UZ); [exact N|exact Logic.I|discriminate]|]. intros r1 (N1 & L1).
  eapply h_weak; [apply (h_gate US); [exact N1|exact Logic.I|discriminate]|]. intros r2 (N2 & L2). split; auto.
Qed.
Lemma h_tdg r : ne r -> hoare (g_t_dagger aco r) (fun r' => ne r' /\ (lone r -> lone r')).
Proof.
  intros N. unfold g_t_dagger. hb; [apply h_sdg; exact N|]. intros r1 (N1 & L1).
  eapply h_weak; [apply (h_gate UT); [exact N1|exact Logic.I|discriminate]|]. intros r2 (N2 & L2). split; auto.
Qed.
Lemma h_matrix r data : ne r -> length data = 2 ^ (2 * length r) -> hoare (apply_matrix aco r data) ne.
Proof.
  intros N H. unfold apply_matrix. eapply h_weak; [apply Hac; [exact N| |discriminate]|intros r' X; apply X].
  split; [|exact H]. cbn. destruct r; [destruct (N eq_refl)|discriminate].
Qed.
Lemma h_cnot_step acc r : lone (fst acc) -> Forall lone (snd acc) -> lone r -> hoare (cnot_step aco acc r) (fun x => lone (fst x) /\ Forall lone (snd x) /\ length (snd x) = S (length (snd acc))).
Proof.
  destruct acc as [cr acc]. cbn [fst snd]. intros C F L. unfold cnot_step. hb; [apply h_merge2; apply lone_ne; exact C|]. intros r1 (E1 & N1).
  assert (L1 : length r1 = 2) by (subst; rewrite app_length, C, L; reflexivity).
  hb; [apply Hac; [exact N1|reflexivity|discriminate]|]. intros r2 (N2 & _ & L2). specialize (L2 eq_refl L1).
  hb; [apply h_lift; intros sp E; exact E|]. intros sp E. cbn beta in E. destruct sp as [x|x|a b]; [apply h_crash|apply h_crash|].
  apply split0_two in E. destruct E as (A & _ & B). apply h_ret. cbn. split; [exact A|]. split; [apply Forall_app; split; [exact F|]; constructor; [apply B; exact L2|constructor]|]. rewrite app_length. cbn. lia.
Qed.
Lemma h_cnots rs : forall acc, lone (fst acc) -> Forall lone (snd acc) -> Forall lone rs ->
  hoare (mfold (cnot_step aco) rs acc) (fun x => lone (fst x) /\ Forall lone (snd x) /\ length (snd x) = length (snd acc) + length rs).
Proof.
  induction rs as [|r rs IH]; intros acc C F L; cbn [mfold].
  - apply h_ret. split; [exact C|]. split; [exact F|]. cbn. lia.
  - inversion L; subst. destruct acc as [cr acc]. cbn [fst snd] in *.
    hb; [apply (h_cnot_step (cr, acc) r C F H1)|]. intros x (A & B & E). eapply h_weak; [apply IH; assumption|]. intros y (A' & B' & E'). split; [exact A'|]. split; [exact B'|].
    cbn [length snd] in *. lia.
Qed.
Lemma h_merge_lones rs : Forall lone rs -> hoare (lift (merge_registers rs)) (fun o => forall r, o = Some r -> ne r /\ length r = length rs).
Proof.
  intros H. apply h_lift. intros o E r Er. split; [eapply merge_ne; [exact E|apply lones_ne; exact H|exact Er]|]. apply merge_registers_inv in E. subst o. cbn in E. subst r.
  induction H; [reflexivity|]. cbn [concat length]. rewrite app_length, IHForall, H. reflexivity.
Qed.
Lemma lone_split r rs : lone r -> split_all r = Ok rs -> length rs = 1.
Proof. destruct r as [|q [|? ?]]; try discriminate. intros _. rewrite split_all_one. intros E. inversion E. reflexivity. Qed.
Lemma ne_split r rs : split_all r = Ok rs -> rs <> [].
Proof.
  unfold split_all. assert (X : forall fuel r acc, split_helper fuel r acc = Ok rs -> rs <> []); [|apply X].
  induction fuel as [|fuel IH]; intros r0 acc E; cbn [split_helper] in E; [discriminate|]. destruct (split_rel r0 [0]) as [[r1|r1|r1 r2]| |]; cbn [bind] in E; try discriminate.
  - inversion E. destruct acc; discriminate.
  - eapply IH. exact E.
Qed.
Lemma h_cnot cr r : ne cr -> ne r -> hoare (cnot aco cr r) (fun x => lone (fst x) /\ ne (snd x) /\ (lone r -> lone (snd x))).
Proof.
  intros C N. unfold cnot. destruct (1 <? length cr) eqn:E; [apply h_fail|]. apply Nat.ltb_ge in E.
  assert (L : lone cr) by (unfold lone; destruct cr as [|? [|? ?]]; [destruct (C eq_refl)|reflexivity|cbn in E; lia]).
  hb; [apply h_lift; intros rs Er; exact Er|]. intros rs Er. cbn beta in Er. pose proof (split_all_lone _ _ Er) as Lr.
  hb; [apply h_cnots; [exact L|constructor|exact Lr]|]. intros [cr1 rs1] (A & B & Ln). cbn [fst snd length] in *.
  hb; [apply h_merge_lones; exact B|]. intros o Ho. cbn beta in Ho. hb; [apply h_unopt; exact Ho|]. intros r1 (N1 & L1). apply h_ret. cbn. split; [exact A|]. split; [exact N1|].
  intros Lo. unfold lone. rewrite L1, Ln. apply (lone_split _ _ Lo Er).
Qed.

Local Ltac gt := first [apply (h_gate UH)|apply (h_gate UT)|apply h_tdg].
Lemma h_basic cr r : ne cr -> ne r -> hok r -> (lone r \/ forall r', ne r' -> hok r') -> hoare (basic_toffoli aco cr r) (fun x => ne (fst x) /\ ne (snd x) /\ (lone r -> lone (snd x))).
Proof.
  intros C N Hr Hh. unfold basic_toffoli. destruct (length cr =? 2); [|apply h_fail]. hb; [apply h_lift; intros sp E; exact E|]. intros sp E. cbn beta in E.
  destruct sp as [?|?|cra crb]; [apply h_crash|apply h_crash|]. apply split_rel_ne in E. destruct E as (Na & Nb).
  hb; [apply (h_gate UH); [exact N|exact Logic.I|intros _; exact Hr]|]. intros r1 (N1 & L1).
  hb; [apply h_unwrap; apply h_cnot; assumption|]. intros [crb1 r2] (B1 & N2 & L2). cbn [fst snd] in *. apply lone_ne in B1.
  hb; [apply h_tdg; exact N2|]. intros r3 (N3 & L3).
  hb; [apply h_unwrap; apply h_cnot; assumption|]. intros [cra1 r4] (A1 & N4 & L4). cbn [fst snd] in *. apply lone_ne in A1.
  hb; [apply (h_gate UT); [exact N4|exact Logic.I|discriminate]|]. intros r5 (N5 & L5).
  hb; [apply h_unwrap; apply h_cnot; assumption|]. intros [crb2 r6] (B2 & N6 & L6). cbn [fst snd] in *. apply lone_ne in B2.
  hb; [apply h_tdg; exact N6|]. intros r7 (N7 & L7).
  hb; [apply h_unwrap; apply h_cnot; assumption|]. intros [cra2 r8] (A2 & N8 & L8). cbn [fst snd] in *. apply lone_ne in A2.
  hb; [apply (h_gate UT); [exact B2|exact Logic.I|discriminate]|]. intros crb3 (B3 & _).
  hb; [apply (h_gate UT); [exact N8|exact Logic.I|discriminate]|]. intros r9 (N9 & L9).
  hb; [apply h_unwrap; apply h_cnot; assumption|]. intros [cra3 crb4] (A3 & B4 & _). cbn [fst snd] in *. apply lone_ne in A3.
  assert (LL : lone r -> lone r9) by tauto.
  hb; [apply (h_gate UH); [exact N9|exact Logic.I|intros _; destruct Hh as [Lo|Hh]; [apply Hlone; apply LL; exact Lo|apply Hh; exact N9]]|]. intros r10 (N10 & L10).
  hb; [apply (h_gate UT); [exact A3|exact Logic.I|discriminate]|]. intros cra4 (A4 & _).
  hb; [apply h_tdg; exact B4|]. intros crb5 (B5 & _).
  hb; [apply h_unwrap; apply h_cnot; assumption|]. intros [cra5 crb6] (A5 & B6 & _). cbn [fst snd] in *. apply lone_ne in A5.
  hb; [apply h_merge2; exact A5|]. intros cr1 (_ & N11). apply h_ret. cbn. split; [exact N11|]. split; [exact N10|]. tauto.
Qed.
Lemma h_toffoli fuel : forall cr r, ne cr -> ne r -> (length cr = 1 \/ (hok r /\ (lone r \/ forall r', ne r' -> hok r'))) ->
  hoare (toffoli_fuel aco fuel cr r) (fun x => ne (fst x) /\ ne (snd x) /\ (lone r -> lone (snd x))).
Proof.
  induction fuel as [|fuel IH]; intros cr r C N H; cbn [toffoli_fuel]; [apply h_crash|].
  destruct (length cr =? 1) eqn:E1.
  - eapply h_weak; [apply h_cnot; assumption|]. intros x (A & B & L). split; [apply lone_ne; exact A|auto].
  - apply Nat.eqb_neq in E1. destruct H as [H|(Hr & Hh)]; [contradiction|]. destruct (length cr =? 2); [apply h_basic; assumption|].
    hb; [apply h_lift; intros sp E; exact E|]. intros sp E. cbn beta in E. destruct sp as [?|?|ch ct]; [apply h_crash|apply h_crash|]. apply split_rel_ne in E. destruct E as (Nh & Nt).
    hb; [apply h_temp|]. intros tr Lt.
    hb; [apply h_unwrap; apply IH; [exact Nh|apply lone_ne; exact Lt|right; split; [apply Hlone; exact Lt|left; exact Lt]]|]. intros [ch1 tr1] (Nh1 & _ & Lt1). cbn [fst snd] in *. specialize (Lt1 Lt).
    hb; [apply h_merge2; exact Nt|]. intros cr1 (_ & Nc1).
    hb; [apply h_unwrap; apply IH; [exact Nc1|exact N|right; split; assumption]|]. intros [cr2 r1] (Nc2 & Nr1 & Lr1). cbn [fst snd] in *.
    hb; [apply h_lift; intros x E; exact E|]. intros [ct1 o] E. cbn beta in E. apply last_ne in E. destruct E as (Nct1 & Ho).
    hb; [apply h_unopt; exact Ho|]. intros tr2 Lt2. cbn beta in Lt2.
    hb; [apply h_unwrap; apply IH; [exact Nh1|apply lone_ne; exact Lt2|right; split; [apply Hlone; exact Lt2|left; exact Lt2]]|]. intros [ch2 tr3] (Nh2 & _ & _). cbn [fst snd] in *.
    hb; [apply h_return|]. intros _ _. hb; [apply h_merge2; exact Nh2|]. intros cr3 (_ & Nc3). apply h_ret. cbn. auto.
Qed.
Lemma h_swap ra rb : ne ra -> ne rb -> hoare (swap aco ra rb) (fun x => ne (fst x) /\ ne (snd x)).
Proof.
  intros Na Nb. unfold swap. destruct (length ra =? length rb); [|apply h_fail].
  hb; [apply h_lift; intros rs E; exact (split_all_lone _ _ E)|]. intros ras La. hb; [apply h_lift; intros rs E; exact (split_all_lone _ _ E)|]. intros rbs Lb. cbn beta in *.
  hb; [apply (h_mmap _ (fun x => ne (fst x) /\ ne (snd x)))|].
  - intros [a b] Hin. apply in_combine_l in Hin as Ha. apply in_combine_r in Hin as Hb. rewrite Forall_forall in La, Lb. apply La in Ha. apply Lb in Hb. apply lone_ne in Ha. apply lone_ne in Hb.
    unfold swap_pair. hb; [apply (h_assert _ (fun _ => True)); auto|]. intros _ _. hb; [apply (h_assert _ (fun _ => True)); auto|]. intros _ _. apply h_unwrap.
    hb; [apply h_cnot; assumption|]. intros [a1 b1] (A1 & B1 & _). cbn [fst snd] in *. apply lone_ne in A1.
    hb; [apply h_cnot; assumption|]. intros [b2 a2] (B2 & A2 & _). cbn [fst snd] in *. apply lone_ne in B2.
    eapply h_weak; [apply h_cnot; assumption|]. intros x (A & B & _). split; [apply lone_ne; exact A|exact B].
  - intros prs Hp. assert (X : Forall ne (fst (List.split prs)) /\ Forall ne (snd (List.split prs))).
    { clear -Hp. induction Hp as [|[a b] l (Ha & Hb) _ IH]; [split; constructor|]. cbn [List.split]. destruct (List.split l). cbn [fst snd] in *. destruct IH. split; constructor; assumption. }
    destruct (List.split prs) as [ras1 rbs1]. cbn [fst snd] in X. destruct X as (Xa & Xb).
    hb; [apply h_merge; exact Xa|]. intros oa Ha. cbn beta in Ha. hb; [apply h_unopt; exact Ha|]. intros ra1 Na1. cbn beta in Na1.
    hb; [apply h_merge; exact Xb|]. intros ob Hb. cbn beta in Hb. hb; [apply h_unopt; exact Hb|]. intros rb1 Nb1. cbn beta in Nb1. apply h_ret. split; assumption.
Qed.
End Trait.
