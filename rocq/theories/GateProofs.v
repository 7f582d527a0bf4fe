(** One-qubit gates, cnot: generic in the builder's [apply_circuit_object]. *)
From Coq Require Import Reals FunctionalExtensionality Lra Permutation.
From Coquelicot Require Import Complex.
From Verif Require Import Base BitsSpec BitsProofs OpsModel OpsSpec Instances BuilderModel RegProofs DenSpec DenProofs SimProofs LocalProofs RunSpec RunProofs.
Local Open Scope nat_scope.
Local Open Scope mon_scope.

(** *** Matrices depending on other qubits *)
Definition on1f (f : bs -> mat1) (q : nat) (psi : state) : state := fun x =>
  (f x (x q) false * psi (upd x q false) + f x (x q) true * psi (upd x q true))%C.
Definition onall (f : bs -> mat1) (ts : list nat) (psi : state) : state := fold_left (fun psi q => on1f f q psi) ts psi.
Definition mI : mat1 := diag (RtoC 1) (RtoC 1).
Definition mmul (a b : mat1) : mat1 := fun r c => (a r false * b false c + a r true * b true c)%C.
Definition mscal (z : C) (a : mat1) : mat1 := fun r c => (z * a r c)%C.
(** [f] does not look at [ts]. *)
Definition blind {A} (ts : list nat) (f : bs -> A) : Prop := forall x q b, In q ts -> f (upd x q b) = f x.

Lemma each_onall m ts psi : each m ts psi = onall (fun _ => m) ts psi.
Proof. reflexivity. Qed.

Lemma clean1 q psi : clean [q] psi <-> forall x, x q = true -> psi x = RtoC 0.
Proof. split; [intros H x Hx; apply (H x q); [left; reflexivity|exact Hx]|intros H x t [<-|[]] Hx; apply H; exact Hx]. Qed.

Lemma local_on1f f q : local [q] (on1f f q).
Proof.
  intros p psi Hp. rewrite !clean1. intros H x Hx. unfold on1f. assert (p <> q) by (intros ->; apply Hp; left; reflexivity).
  rewrite !H by (rewrite upd_other by assumption; exact Hx). ring.
Qed.
Lemma local_onall f ts : local ts (onall f ts).
Proof.
  assert (G : forall L, incl ts L -> local L (onall f ts)).
  { induction ts as [|t ts IH]; intros L I; [apply local_id|]. unfold onall. cbn [fold_left].
    apply (local_comp L (on1f f t) (onall f ts)); [eapply local_incl; [|apply local_on1f]; intros q [<-|[]]; apply I; left; reflexivity|].
    apply IH. intros q Hq. apply I. right. exact Hq. }
  apply G, incl_refl.
Qed.

Lemma on1f_mul f g q psi : blind [q] g -> on1f f q (on1f g q psi) = on1f (fun x => mmul (f x) (g x)) q psi.
Proof.
  intros B. extensionality x. unfold on1f, mmul. rewrite !upd_same, !upd_upd.
  rewrite !(B x q _ (or_introl eq_refl)). destruct (x q); ring.
Qed.
Lemma on1f_comm f g p q psi : p <> q -> blind [q] f -> blind [p] g -> on1f f p (on1f g q psi) = on1f g q (on1f f p psi).
Proof.
  intros Hne Bf Bg. extensionality x. unfold on1f. rewrite !(upd_other x p) by auto. rewrite !(upd_other x q) by auto.
  rewrite !(Bf x q _ (or_introl eq_refl)), !(Bg x p _ (or_introl eq_refl)).
  rewrite !(upd_comm x q p) by auto. ring.
Qed.
Lemma onall_on1f_comm f g q ts : forall psi, ~ In q ts -> blind ts g -> blind [q] f -> onall f ts (on1f g q psi) = on1f g q (onall f ts psi).
Proof.
  induction ts as [|t ts IH]; intros psi Hq Bg Bf; [reflexivity|]. unfold onall in *. cbn [fold_left]. rewrite <- IH.
  - f_equal. apply on1f_comm; [intros ->; apply Hq; left; reflexivity|exact Bf|]. intros x p b [<-|[]]. apply Bg. left. reflexivity.
  - intros H. apply Hq. right. exact H.
  - intros x p b Hp. apply Bg. right. exact Hp.
  - exact Bf.
Qed.
Lemma onall_mul f g ts : forall psi, NoDup ts -> blind ts f -> blind ts g -> onall f ts (onall g ts psi) = onall (fun x => mmul (f x) (g x)) ts psi.
Proof.
  induction ts as [|t ts IH]; intros psi N Bf Bg; [reflexivity|]. inversion N; subst. 
  change (onall f ts (on1f f t (onall g ts (on1f g t psi))) = onall (fun x => mmul (f x) (g x)) ts (on1f (fun x => mmul (f x) (g x)) t psi)).
  assert (Bf' : blind ts f) by (intros x p b Hp; apply Bf; right; exact Hp).
  assert (Bg' : blind ts g) by (intros x p b Hp; apply Bg; right; exact Hp).
  assert (Bft : blind [t] f) by (intros x p b [<-|[]]; apply Bf; left; reflexivity).
  assert (Bgt : blind [t] g) by (intros x p b [<-|[]]; apply Bg; left; reflexivity).
  rewrite <- onall_on1f_comm by assumption. rewrite on1f_mul by assumption. apply IH; assumption.
Qed.
Lemma onall_ext f g ts : forall psi, (forall x, f x = g x) -> onall f ts psi = onall g ts psi.
Proof. intros psi H. assert (f = g) by (extensionality x; apply H). subst. reflexivity. Qed.
Lemma onall_id ts : forall psi, onall (fun _ => mI) ts psi = psi.
Proof.
  induction ts as [|t ts IH]; intros psi; [reflexivity|]. unfold onall in *. cbn [fold_left]. rewrite IH. extensionality x. unfold on1f, mI, diag.
  destruct (x t) eqn:E; cbn; [rewrite <- E, upd_id|rewrite <- E, upd_id]; ring.
Qed.
(** A multiplier not looking at [ts] commutes. *)
Lemma onall_mult f ts (c : bs -> C) : forall psi, blind ts c -> onall f ts (fun x => Cmult (c x) (psi x)) = fun x => Cmult (c x) (onall f ts psi x).
Proof.
  induction ts as [|t ts IH]; intros psi B; [reflexivity|]. unfold onall in *. cbn [fold_left].
  rewrite <- IH by (intros x p b Hp; apply B; right; exact Hp). f_equal. extensionality x. unfold on1f.
  rewrite !(B x t _ (or_introl eq_refl)). ring.
Qed.

(** *** flips *)
Lemma flips_nil x : flips [] x = x.
Proof. extensionality q. unfold flips. cbn. apply xorb_false_r. Qed.
Lemma flips_notin ts x q : ~ In q ts -> flips ts x q = x q.
Proof. intros H. unfold flips. rewrite (proj2 (existsb_eqb_false q ts) H). apply xorb_false_r. Qed.
Lemma flips_in ts x q : In q ts -> flips ts x q = negb (x q).
Proof. intros H. unfold flips. rewrite (proj2 (existsb_eqb_In q ts) H). apply xorb_true_r. Qed.
Lemma flips_cons t ts x : ~ In t ts -> flips (t :: ts) x = upd (flips ts x) t (negb (x t)).
Proof.
  intros H. extensionality q. unfold upd. destruct (Nat.eqb_spec q t) as [->|Hne].
  - apply flips_in. left. reflexivity.
  - unfold flips. cbn [existsb]. rewrite (proj2 (Nat.eqb_neq q t) Hne). reflexivity.
Qed.
Lemma flips_single t x : flips [t] x = flip x t.
Proof. rewrite flips_cons by (intros []). rewrite flips_nil. reflexivity. Qed.
Lemma flips_flips ts x : flips ts (flips ts x) = x.
Proof. extensionality q. unfold flips. rewrite xorb_assoc, xorb_nilpotent, xorb_false_r. reflexivity. Qed.
Lemma flips_app a b x : (forall q, In q a -> ~ In q b) -> flips (a ++ b) x = flips a (flips b x).
Proof.
  intros H. extensionality q. unfold flips. rewrite existsb_app. destruct (existsb (Nat.eqb q) a) eqn:E1; [|destruct (existsb _ b), (x q); reflexivity].
  apply existsb_eqb_In in E1. rewrite (proj2 (existsb_eqb_false q b) (H q E1)). cbn. destruct (x q); reflexivity.
Qed.
Lemma forallb_ext_in {A} (f g : A -> bool) l : (forall a, In a l -> f a = g a) -> forallb f l = forallb g l.
Proof. induction l as [|a l IH]; intros H; [reflexivity|]. cbn. rewrite (H a (or_introl eq_refl)), IH; [reflexivity|]. intros b Hb. apply H. right. exact Hb. Qed.
Lemma forallb_flips cs ts x : (forall q, In q cs -> ~ In q ts) -> forallb (flips ts x) cs = forallb x cs.
Proof. intros H. apply forallb_ext_in. intros q Hq. apply flips_notin, H, Hq. Qed.
Lemma forallb_upd cs x q b : ~ In q cs -> forallb (upd x q b) cs = forallb x cs.
Proof. intros H. apply forallb_ext_in. intros p Hp. apply upd_other. intros ->. contradiction. Qed.

(** Controlled flips of one qubit after another. *)
Definition cX (cs : list nat) : bs -> mat1 := fun x => if forallb x cs then mX else mI.
Lemma on1f_cX cs t psi : on1f (cX cs) t psi = ctl_nots cs [t] psi.
Proof.
  extensionality x. unfold on1f, cX, ctl_nots. rewrite flips_single. unfold flip. destruct (forallb x cs).
  - unfold mX. destruct (x t); cbn; ring.
  - unfold mI, diag. destruct (x t) eqn:E; cbn;
      [replace (upd x t true) with x by (rewrite <- E, upd_id; reflexivity)|replace (upd x t false) with x by (rewrite <- E, upd_id; reflexivity)]; ring.
Qed.
Lemma onall_cX cs ts : forall psi, NoDup ts -> (forall q, In q cs -> ~ In q ts) -> onall (cX cs) ts psi = ctl_nots cs ts psi.
Proof.
  induction ts as [|t ts IH]; intros psi N H; [extensionality x; unfold ctl_nots; rewrite flips_nil; destruct (forallb x cs); reflexivity|].
  inversion N; subst. unfold onall in *. cbn [fold_left]. rewrite on1f_cX, IH; [|assumption|intros q Hq X; apply (H q Hq); right; exact X].
  extensionality x. unfold ctl_nots. rewrite forallb_flips by (intros q Hq X; apply (H q Hq); right; exact X).
  destruct (forallb x cs); [|reflexivity]. f_equal. rewrite flips_single, flips_cons by assumption. unfold flip. f_equal. f_equal. apply flips_notin. assumption.
Qed.
Lemma ctl_not_nots cs t psi : ctl_nots cs [t] psi = ctl_not cs t psi.
Proof. extensionality x. unfold ctl_nots, ctl_not, cflip. rewrite flips_single. destruct (forallb x cs); reflexivity. Qed.
Lemma local_ctl_nots cs ts L : incl ts L -> local L (ctl_nots cs ts).
Proof.
  intros I q psi Hq. rewrite !clean1. intros H x Hx. unfold ctl_nots. destruct (forallb x cs); apply H; [|exact Hx].
  rewrite flips_notin; [exact Hx|]. intros X. apply Hq, I, X.
Qed.
Lemma ctl_nots_app cs t ts psi : NoDup (t :: ts) -> (forall q, In q cs -> ~ In q (t :: ts)) ->
  ctl_nots cs ts (ctl_nots cs [t] psi) = ctl_nots cs (t :: ts) psi.
Proof.
  intros N H. rewrite <- (onall_cX cs ts); [|inversion N; assumption|intros q Hq X; apply (H q Hq); right; exact X].
  rewrite <- on1f_cX. rewrite <- (onall_cX cs (t :: ts)) by assumption. reflexivity.
Qed.

(** *** Gates of LocalBuilder *)
Lemma den_each u q0 r : forall psi, (forall q psi, oden q0 [q] psi = on1 u q psi) -> den (map (fun q => ([q], q0)) r) psi = each u r psi.
Proof.
  induction r as [|q r IH]; intros psi H; [reflexivity|]. cbn [map]. rewrite den_cons. cbn [fst snd]. rewrite H. unfold each in *. cbn [fold_left]. apply IH. exact H.
Qed.

Definition one_qubit (u : unitary) : bool := match u with UX | UY | UZ | UH | US | UT | URz _ => true | _ => false end.
Lemma wf_one u q : one_qubit u = true -> wf_unitary u [q].
Proof. destruct u; cbn; intros; try discriminate; reflexivity. Qed.
Lemma oden_one u k q psi : one_qubit u = true -> oden (mkCO k (OUnit u)) [q] psi = on1 (gate_mat u) q psi.
Proof. destruct u; cbn; intros; try discriminate; reflexivity. Qed.

Lemma local_aco_does u r L s : one_qubit u = true -> tidy s -> live s L -> incl r L -> NoDup r -> r <> [] ->
  does s L (local_aco r (mkCO 1 (OUnit u))) r L (each (gate_mat u) r).
Proof.
  intros O T (N & Lv) I Nr Hr. exists (appended s (map (fun q => ([q], mkCO 1 (OUnit u))) r)), (map (fun q => ([q], mkCO 1 (OUnit u))) r).
  split; [rewrite local_aco_ok by assumption; reflexivity|].
  split; [reflexivity|]. split; [reflexivity|]. split; [cbn; lia|]. split; [reflexivity|].
  split; [|split; [|split; [exact T|split; [split; assumption|split; [tauto|split]]]]].
  - apply Forall_forall. intros e He. apply in_map_iff in He. destruct He as (q & <- & Hq). split; [repeat constructor; cbn; tauto|].
    split; [|apply wf_one; exact O]. intros q' [<-|[]]. cbn. specialize (Lv q (I q Hq)). unfold idle in Lv. lia.
  - apply Forall_forall. intros e He. apply in_map_iff in He. destruct He as (q & <- & Hq). destruct u; try discriminate; repeat split.
  - eapply local_incl; [exact I|]. intros q psi. apply (local_onall (fun _ => gate_mat u) r).
  - intros psi _. apply den_each. intros q phi. apply oden_one. exact O.
Qed.
Lemma gate_does u r L s : one_qubit u = true -> tidy s -> live s L -> incl r L -> NoDup r -> r <> [] ->
  does s L (gate local_aco u r) r L (each (gate_mat u) r).
Proof. intros. apply does_unwrap, local_aco_does; assumption. Qed.

(** *** cnot, given what a CNOT object does under conditions [K] *)
Lemma cnot_does aco K cond s c ts : conds s = cond -> tidy s -> live s (K ++ c :: ts) -> ts <> [] ->
  (forall s t, conds s = cond -> tidy s -> live s (K ++ [c; t]) ->
     does s (K ++ [c; t]) (aco [c; t] (mkCO 2 (OUnit UCNOT))) [c; t] (K ++ [c; t]) (ctl_nots (K ++ [c]) [t])) ->
  does s (K ++ c :: ts) (cnot aco [c] ts) ([c], ts) (K ++ c :: ts) (ctl_nots (K ++ [c]) ts).
Proof.
  intros HC T Lv Hts H. unfold cnot. cbn [length Nat.ltb Nat.leb].
  assert (Nall : NoDup (K ++ c :: ts)) by apply Lv.
  assert (Nct : NoDup (c :: ts)) by (apply NoDup_app_iff in Nall; apply Nall).
  assert (NKc : forall q, In q (K ++ [c]) -> ~ In q ts).
  { intros q Hq X. apply in_app_or in Hq. destruct Hq as [Hq|[<-|[]]].
    - apply NoDup_app_iff in Nall. apply (proj2 (proj2 Nall) q Hq). right. exact X.
    - inversion Nct; subst. contradiction. }
  assert (Nts : NoDup ts) by (inversion Nct; assumption).
  eapply quiet_then_does; [apply quiet_lift; [apply split_all_ok; assumption|exact T|exact Lv]|apply incl_refl|apply incl_refl|].
  intros s1 C1 T1 L1.
  (* the loop *)
  assert (Loop : forall ts0 done s, conds s = cond -> tidy s -> live s (K ++ c :: ts) -> incl ts0 ts -> NoDup ts0 ->
    does s (K ++ c :: ts) (mfold (cnot_step aco) (singles ts0) ([c], done)) ([c], done ++ singles ts0) (K ++ c :: ts) (ctl_nots (K ++ [c]) ts0)).
  { clear s1 C1 T1 L1 T Lv HC s. induction ts0 as [|t ts0 IH]; intros done s HC T Lv I0 N0; cbn [singles map mfold].
    - rewrite app_nil_r. eapply does_eq; [apply does_ret; assumption|]. intros psi. extensionality x. unfold ctl_nots. rewrite flips_nil. destruct (forallb x _); reflexivity.
    - inversion N0; subst. eapply does_eq.
      + eapply does_bind with (a := ([c], done ++ [[t]])) (L1 := K ++ c :: ts) (D1 := ctl_nots (K ++ [c]) [t]); [|apply incl_refl|apply incl_refl|].
        * cbn [cnot_step]. unfold cnot_step.
          assert (Ht : In t ts) by (apply I0; left; reflexivity).
          assert (Ect : c <> t) by (intros ->; inversion Nct; subst; contradiction).
          eapply quiet_then_does; [apply quiet_lift; [apply merge2_ok; discriminate|exact T|exact Lv]|apply incl_refl|apply incl_refl|].
          intros s1 C1 T1 L1. cbn [app].
          destruct (in_split t ts Ht) as (ta & tb & Ets).
          assert (Pm : Permutation ((K ++ [c; t]) ++ ta ++ tb) (K ++ c :: ts)).
          { rewrite Ets, <- app_assoc. apply Permutation_app_head. cbn [app]. constructor. apply Permutation_middle. }
          eapply does_then_quiet with (a := [c; t]) (L1 := K ++ c :: ts).
          -- eapply does_perm; [exact Pm|exact Pm|]. apply does_frame; [eapply live_perm; [exact L1|symmetry; exact Pm]|].
             apply H; [congruence|exact T1|]. eapply live_incl; [exact L1| |].
             ++ eapply Permutation_NoDup in Nall; [|symmetry; exact Pm]. apply NoDup_app_iff in Nall. apply Nall.
             ++ intros q Hq. eapply Permutation_in; [exact Pm|]. apply in_or_app. left. exact Hq.
          -- intros s2 C2 T2 L2. eapply quiet_bind; [apply quiet_lift; [apply split_rel_head; [repeat constructor; cbn; intuition congruence|discriminate]|exact T2|exact L2]|].
             intros s3 C3 T3 L3. cbn. apply quiet_ret; assumption.
        * intros s1 C1 T1 L1. fold (singles ts0). replace (done ++ [t] :: singles ts0) with ((done ++ [[t]]) ++ singles ts0) by (rewrite <- app_assoc; reflexivity).
          apply IH; [exact C1|exact T1|exact L1| |assumption]. intros q Hq. apply I0. right. exact Hq.
      + intros psi. apply ctl_nots_app; [exact N0|]. intros q Hq [<-|X]; [apply (NKc t Hq), I0; left; reflexivity|]. apply (NKc q Hq), I0. right. exact X. }
  eapply does_then_quiet with (a := ([c], singles ts)); [apply (Loop ts []); [congruence|assumption|assumption|apply incl_refl|exact Nts]|].
  intros s2 C2 T2 L2. cbn beta iota. eapply quiet_bind; [apply quiet_lift; [apply merge_singles|exact T2|exact L2]|].
  intros s3 C3 T3 L3. eapply quiet_bind; [apply quiet_lift; [apply unwrap_new_reg; exact Hts|exact T3|exact L3]|].
  intros s4 C4 T4 L4. apply quiet_ret; assumption.
Qed.

Lemma local_cnot_obj s c t : tidy s -> live s [c; t] -> does s [c; t] (local_aco [c; t] (mkCO 2 (OUnit UCNOT))) [c; t] [c; t] (ctl_nots [c] [t]).
Proof.
  intros T Lv. pose proof (proj1 Lv) as N.
  assert (E : local_aco [c; t] (mkCO 2 (OUnit UCNOT)) = mbind (push ([c; t], mkCO 2 (OUnit UCNOT))) (fun _ => ret [c; t])) by reflexivity.
  rewrite E. eapply does_then_quiet; [|intros s1 C1 T1 L1; apply quiet_ret; assumption].
  eapply does_eq with (D := oden (mkCO 2 (OUnit UCNOT)) [c; t]).
  - apply does_push; [exact T|exact Lv|apply incl_refl|exact N|reflexivity|repeat split|].
    intros q psi Hq Hc. cbn. rewrite <- ctl_not_nots. apply (local_ctl_nots [c] [t] [c; t]); [intros z [<-|[]]; right; left; reflexivity|exact Hq|exact Hc].
  - intros psi. cbn. symmetry. apply ctl_not_nots.
Qed.
Lemma local_cnot_does s c ts : tidy s -> live s (c :: ts) -> ts <> [] ->
  does s (c :: ts) (cnot local_aco [c] ts) ([c], ts) (c :: ts) (ctl_nots [c] ts).
Proof.
  intros T Lv Hts. apply (cnot_does local_aco [] (conds s) s c ts eq_refl T Lv Hts).
  intros s1 t _ T1 L1. apply local_cnot_obj; assumption.
Qed.
