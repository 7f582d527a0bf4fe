(** Reversible classical circuits, used to describe what the arithmetic functions do. *)
From Coq Require Import Reals FunctionalExtensionality Permutation.
From Coquelicot Require Import Complex.
From Verif Require Import Base BitsSpec BitsProofs OpsModel OpsSpec Instances BuilderModel RegProofs DenSpec DenProofs LocalProofs LinkProofs
  RunSpec RunProofs GateProofs ToffoliProofs CondProofs SubSpec SubProofs SubProofs2 SubProofs3 ProgramModel ProgramSpec ProgramProofs ProgramProofs2.
Local Open Scope nat_scope.
Local Open Scope mon_scope.

(** A gate: controls with the value asked for, and the qubit flipped. *)
Definition gate := (list (nat * bool) * nat)%type.
Definition sat (x : bs) (p : nat * bool) : bool := Bool.eqb (x (fst p)) (snd p).
Definition step (x : bs) (g : gate) : bs := if forallb (sat x) (fst g) then flip x (snd g) else x.
Definition run (c : list gate) (x : bs) : bs := fold_left step c x.
Definition eff (c : list gate) : state -> state := fun psi x => psi (run (rev c) x).
Definition gok (L : list nat) (g : gate) : Prop := ~ In (snd g) (map fst (fst g)) /\ In (snd g) L /\ incl (map fst (fst g)) L.
Definition cok (L : list nat) (c : list gate) : Prop := Forall (gok L) c.
Definition ctl (P : list (nat * bool)) (c : list gate) : list gate := map (fun g => (P ++ fst g, snd g)) c.
Definition ones (cr : list nat) : list (nat * bool) := map (fun q => (q, true)) cr.
Definition masked (cr : list nat) (m : nat) : list (nat * bool) := map (fun i => (nth i cr 0, Nat.testbit m i)) (seq 0 (length cr)).
Definition rng (f : nat -> nat) (g : gate) : gate := (map (fun p => (f (fst p), snd p)) (fst g), f (snd g)).

Lemma run_app c1 c2 x : run (c1 ++ c2) x = run c2 (run c1 x).
Proof. apply fold_left_app. Qed.
Lemma sat_ext x y P : (forall q, In q (map fst P) -> x q = y q) -> forallb (sat x) P = forallb (sat y) P.
Proof.
  intros H. apply forallb_ext_in. intros p Hp. unfold sat. rewrite H; [reflexivity|]. apply in_map. exact Hp.
Qed.
Lemma flip_same x q : flip x q q = negb (x q).
Proof. apply upd_same. Qed.
Lemma flip_other x q p : p <> q -> flip x q p = x p.
Proof. apply upd_other. Qed.
Lemma step_step L x g : gok L g -> step (step x g) g = x.
Proof.
  intros (H & _). unfold step. destruct (forallb (sat x) (fst g)) eqn:E; [|rewrite E; reflexivity].
  rewrite (sat_ext _ x); [rewrite E; apply flip_flip|]. intros q Hq. apply flip_other. intros ->. tauto.
Qed.
Lemma run_rev L c x : cok L c -> run (rev c) (run c x) = x.
Proof.
  intros H. revert x. induction H as [|g c Hg _ IH]; intros x; [reflexivity|]. cbn [rev run fold_left]. fold (run c (step x g)). rewrite run_app, IH. cbn. eapply step_step. exact Hg.
Qed.
Lemma cok_rev L c : cok L c -> cok L (rev c).
Proof. intros H. apply Forall_rev. exact H. Qed.
Lemma cok_app L c1 c2 : cok L c1 -> cok L c2 -> cok L (c1 ++ c2).
Proof. intros A B. apply Forall_app. auto. Qed.
Lemma cok_incl L L' c : incl L L' -> cok L c -> cok L' c.
Proof.
  intros I H. eapply Forall_impl; [|exact H]. intros g (A & B & C). split; [exact A|]. split; [apply I; exact B|]. eapply incl_tran; eassumption.
Qed.
Lemma run_rev' L c x : cok L c -> run c (run (rev c) x) = x.
Proof. intros H. rewrite <- (rev_involutive c) at 1. eapply run_rev. apply cok_rev. exact H. Qed.
Lemma step_out L g x q : gok L g -> ~ In q L -> step x g q = x q.
Proof. intros (_ & H & _) Hq. unfold step. destruct (forallb (sat x) (fst g)); [|reflexivity]. apply flip_other. intros ->. tauto. Qed.
Lemma run_out L c q : cok L c -> ~ In q L -> forall x, run c x q = x q.
Proof.
  intros H Hq. induction H as [|g c Hg _ IH]; intros x; [reflexivity|]. cbn [run fold_left]. fold (run c (step x g)). rewrite IH. eapply step_out; eassumption.
Qed.
Lemma flip_comm x p q : flip (flip x p) q = flip (flip x q) p.
Proof.
  destruct (Nat.eq_dec p q) as [->|H]; [reflexivity|]. unfold flip. rewrite (upd_other x p) by congruence. rewrite (upd_other x q) by congruence. apply upd_comm. exact H.
Qed.
Lemma step_flip L g x q : gok L g -> ~ In q L -> step (flip x q) g = flip (step x g) q.
Proof.
  intros (_ & H & I) Hq. unfold step. rewrite (sat_ext _ x); [|intros p Hp; apply flip_other; intros ->; apply Hq, I, Hp].
  destruct (forallb (sat x) (fst g)); [apply flip_comm|reflexivity].
Qed.
Lemma run_flip L c q : cok L c -> ~ In q L -> forall x, run c (flip x q) = flip (run c x) q.
Proof.
  intros H Hq. induction H as [|g c Hg _ IH]; intros x; [reflexivity|]. cbn [run fold_left]. erewrite step_flip by eassumption. apply IH.
Qed.
Lemma eff_run L c psi x : cok L c -> eff c psi (run c x) = psi x.
Proof. intros H. unfold eff. erewrite run_rev by exact H. reflexivity. Qed.
Lemma eff_app c1 c2 psi : eff c2 (eff c1 psi) = eff (c1 ++ c2) psi.
Proof. extensionality x. unfold eff. rewrite rev_app_distr, run_app. reflexivity. Qed.
Lemma only_eff L c : cok L c -> only L (eff c).
Proof.
  intros H. apply cok_rev in H. split.
  - apply within_point. intros x q Hq. eapply run_out; eassumption.
  - intros q psi Hq. extensionality x. unfold eff. erewrite run_flip by eassumption. reflexivity.
Qed.
Lemma run_ctl P c : (forall g, In g c -> ~ In (snd g) (map fst P)) -> forall x, run (ctl P c) x = if forallb (sat x) P then run c x else x.
Proof.
  induction c as [|g c IH]; intros H x; cbn [ctl map run fold_left]; [destruct (forallb (sat x) P); reflexivity|].
  fold (run c (step x g)). fold (ctl P c). fold (run (ctl P c) (step x (P ++ fst g, snd g))). rewrite IH by (intros g' Hg'; apply H; right; exact Hg').
  unfold step. cbn [fst snd]. rewrite forallb_app. destruct (forallb (sat x) P) eqn:E; cbn [andb]; [|rewrite E; reflexivity].
  destruct (forallb (sat x) (fst g)); [|rewrite E; reflexivity]. rewrite (sat_ext _ x); [rewrite E; reflexivity|].
  intros q Hq. apply flip_other. intros ->. eapply H; [left; reflexivity|exact Hq].
Qed.
Lemma ctl_rev P c : rev (ctl P c) = ctl P (rev c).
Proof. symmetry. apply map_rev. Qed.
Lemma eff_ctl P c psi x : (forall g, In g c -> ~ In (snd g) (map fst P)) -> eff (ctl P c) psi x = if forallb (sat x) P then eff c psi x else psi x.
Proof.
  intros H. unfold eff. rewrite ctl_rev, run_ctl; [destruct (forallb (sat x) P); reflexivity|]. intros g Hg. apply H. apply in_rev. exact Hg.
Qed.
Lemma fst_ones cr : map fst (ones cr) = cr.
Proof. unfold ones. rewrite map_map. apply map_id. Qed.
Lemma fst_masked cr m : map fst (masked cr m) = cr.
Proof. unfold masked. rewrite map_map. cbn. clear m. induction cr as [|q cr IH]; [reflexivity|]. cbn [length seq map]. rewrite <- seq_shift, map_map. cbn [nth]. rewrite IH. reflexivity. Qed.
Lemma sat_ones cr x : forallb (sat x) (ones cr) = forallb x cr.
Proof. unfold ones. rewrite forallb_map. apply forallb_ext_in. intros q _. unfold sat. cbn. destruct (x q); reflexivity. Qed.
Lemma sat_masked cr m x : forallb (sat x) (masked cr m) = matches cr m x.
Proof. unfold masked, matches. rewrite forallb_map. reflexivity. Qed.
Lemma cok_targets L c g : cok L c -> In g c -> In (snd g) L.
Proof. intros H Hg. unfold cok in H. rewrite Forall_forall in H. destruct (H g Hg) as (_ & X & _). exact X. Qed.
Lemma controlled_eff cr L c psi : cok L c -> (forall q, In q cr -> ~ In q L) -> controlled cr (eff c) psi = eff (ctl (ones cr) c) psi.
Proof.
  intros H D. extensionality x. unfold controlled. rewrite eff_ctl, sat_ones; [reflexivity|]. intros g Hg. rewrite fst_ones. intros X. apply (D _ X). eapply cok_targets; eassumption.
Qed.
Lemma selected_eff cr m L c psi : cok L c -> (forall q, In q cr -> ~ In q L) -> selected cr m (eff c) psi = eff (ctl (masked cr m) c) psi.
Proof.
  intros H D. extensionality x. unfold selected. rewrite eff_ctl, sat_masked; [reflexivity|]. intros g Hg. rewrite fst_masked. intros X. apply (D _ X). eapply cok_targets; eassumption.
Qed.
Lemma cok_ctl P L c : cok L c -> (forall q, In q (map fst P) -> ~ In q L) -> cok (map fst P ++ L) (ctl P c).
Proof.
  intros H D. unfold cok, ctl. rewrite Forall_map. eapply Forall_impl; [|exact H]. intros g (A & B & I). unfold gok. cbn [fst snd]. rewrite map_app. split; [|split].
  - intros X. apply in_app_or in X. destruct X as [X|X]; [apply (D _ X B)|tauto].
  - apply in_or_app. right. exact B.
  - intros q Hq. apply in_app_or in Hq. apply in_or_app. destruct Hq as [Hq|Hq]; [left; exact Hq|right; apply I; exact Hq].
Qed.

(** *** Programs *)
Definition call_circ (l : line) (g : list reg) (c : list gate) : list gate :=
  match l_ctl l with None => c | Some None => ctl (ones (hd [] g)) c | Some (Some m) => ctl (masked (hd [] g) m) c end.
Definition line_circ (rs : list reg) (l : line) (c : list gate) := call_circ l (line_regs rs l) c.
Fixpoint prog_circ (rs : list reg) (ls : list (line * list gate)) : list gate :=
  match ls with [] => [] | (l, c) :: ls' => line_circ rs l c ++ prog_circ rs ls' end.
(** A line whose function is the circuit [c]. *)
Definition line_is (d : nat) (rs : list reg) (l : line) (c : list gate) : Prop :=
  line_ok rs l /\ (l_ctl l <> None -> l_args l <> []) /\ acts (call_depth d l) (l_fun l) (call_targets l (line_regs rs l)) (eff c) /\
  cok (concat (call_targets l (line_regs rs l))) c.
Lemma line_circ_ok d rs l c : line_is d rs l c -> cok (concat rs) (line_circ rs l c) /\ forall psi, line_op rs l (eff c) psi = eff (line_circ rs l c) psi.
Proof.
  intros (Lo & Hne & A & Ck). pose proof (line_regs_incl rs l Lo) as In1. destruct Lo as (_ & Ne & Nd). unfold line_circ, call_circ, line_op, call_op, call_targets in *.
  destruct (l_ctl l) as [mask|]; [|split; [eapply cok_incl; eassumption|reflexivity]].
  destruct (line_regs rs l) as [|cr rest] eqn:Er.
  { exfalso. apply Hne; [discriminate|]. unfold line_regs in Er. destruct (l_args l); [reflexivity|discriminate]. }
  cbn [hd tl concat] in *. apply NoDup_app_iff in Nd. destruct Nd as (_ & _ & Dis).
  destruct mask as [m|].
  - split; [|intros psi; eapply selected_eff; eassumption]. eapply cok_incl; [|apply cok_ctl; [exact Ck|rewrite fst_masked; exact Dis]]. rewrite fst_masked. exact In1.
  - split; [|intros psi; eapply controlled_eff; eassumption]. eapply cok_incl; [|apply cok_ctl; [exact Ck|rewrite fst_ones; exact Dis]]. rewrite fst_ones. exact In1.
Qed.
Lemma prog_circ_ok d rs ls : Forall (fun p => line_is d rs (fst p) (snd p)) ls ->
  cok (concat rs) (prog_circ rs ls) /\ forall psi, lines_op rs (map (fun p => (fst p, eff (snd p))) ls) psi = eff (prog_circ rs ls) psi.
Proof.
  induction ls as [|(l, c) ls IH]; intros F; cbn [map fst snd lines_op prog_circ].
  - split; [constructor|reflexivity].
  - inversion F as [|? ? F1 F2]; subst. cbn [fst snd] in F1. destruct (IH F2) as (A & B). destruct (line_circ_ok d rs l c F1) as (A1 & B1).
    split; [apply cok_app; assumption|]. intros psi. rewrite B1, B. apply eff_app.
Qed.
Lemma program_is d rs ls : NoDup (concat rs) -> Forall (fun r => r <> []) rs -> Forall (fun p => line_is d rs (fst p) (snd p)) ls ->
  acts d (fun d rs => program d rs (map fst ls)) rs (eff (prog_circ rs ls)).
Proof.
  intros N Ne F. destruct (prog_circ_ok d rs ls F) as (A & B).
  assert (F' : Forall (fun p => line_acts d rs (fst p) (snd p)) (map (fun p => (fst p, eff (snd p))) ls)).
  { rewrite Forall_map. eapply Forall_impl; [|exact F]. intros (l, c) (X1 & X2 & X3 & _). cbn [fst snd]. repeat split; try apply X1; try apply X2; apply X3. }
  eapply acts_eq; [|exact B]. replace (map fst ls) with (map fst (map (fun p => (fst p, eff (snd p))) ls)) by (rewrite map_map; reflexivity).
  apply program_acts; [exact N|exact Ne|exact F'|]. replace (lines_op rs (map (fun p => (fst p, eff (snd p))) ls)) with (eff (prog_circ rs ls)); [apply only_eff; exact A|].
  extensionality psi. symmetry. apply B.
Qed.

(** *** Renaming *)
Section Rename.
Context (rho : list nat) (ND : NoDup rho).
Notation n := (length rho).
Notation f := (fun j => nth j rho 0).
Lemma at_flip x q : q < n -> at_regs rho (flip x (nth q rho 0)) = flip (at_regs rho x) q.
Proof.
  intros Hq. extensionality j. unfold at_regs at 1. destruct (Nat.ltb_spec j n) as [Hj|Hj].
  - destruct (Nat.eq_dec j q) as [->|Hne].
    + rewrite !flip_same, (at_in rho) by exact Hq. reflexivity.
    + rewrite !flip_other; [rewrite (at_in rho) by exact Hj; reflexivity|exact Hne|]. intros E. apply Hne. eapply (nth_inj rho); eassumption.
  - rewrite flip_other by lia. unfold at_regs. destruct (Nat.ltb_spec j n); [lia|reflexivity].
Qed.
Lemma at_step x g : gok (seq 0 n) g -> at_regs rho (step x (rng f g)) = step (at_regs rho x) g.
Proof.
  intros (_ & B & I). unfold step, rng. cbn [fst snd]. rewrite forallb_map.
  replace (forallb (fun a : nat * bool => sat x (nth (fst a) rho 0, snd a)) (fst g)) with (forallb (sat (at_regs rho x)) (fst g)).
  - destruct (forallb (sat (at_regs rho x)) (fst g)); [|reflexivity]. apply at_flip. apply in_seq in B. lia.
  - apply forallb_ext_in. intros p Hp. unfold sat. cbn [fst snd]. rewrite (at_in rho); [reflexivity|]. specialize (I (fst p) (in_map fst _ _ Hp)). apply in_seq in I. lia.
Qed.
Lemma at_run c : cok (seq 0 n) c -> forall x, at_regs rho (run (map (rng f) c) x) = run c (at_regs rho x).
Proof.
  intros H. induction H as [|g c Hg _ IH]; intros x; [reflexivity|]. cbn [map run fold_left]. fold (run (map (rng f) c) (step x (rng f g))). rewrite IH, at_step by exact Hg. reflexivity.
Qed.
Lemma rng_ok c : cok (seq 0 n) c -> cok rho (map (rng f) c).
Proof.
  intros H. unfold cok. rewrite Forall_map. eapply Forall_impl; [|exact H]. intros g (A & B & I). unfold gok, rng. cbn [fst snd]. rewrite map_map. cbn [fst].
  apply in_seq in B. split; [|split].
  - intros X. apply in_map_iff in X. destruct X as (p & E & Hp). apply A. assert (Hpn := I (fst p) (in_map fst _ _ Hp)). apply in_seq in Hpn.
    replace (snd g) with (fst p); [apply in_map; exact Hp|]. apply (nth_inj rho); [exact ND|lia|lia|exact E].
  - apply nth_In. lia.
  - intros q Hq. apply in_map_iff in Hq. destruct Hq as (p & <- & Hp). assert (Hpn := I (fst p) (in_map fst _ _ Hp)). apply in_seq in Hpn. apply nth_In. lia.
Qed.
Lemma embed_eff c psi : cok (seq 0 n) c -> embed rho (eff c) psi = eff (map (rng f) c) psi.
Proof.
  intros H. extensionality x. rewrite embed_unfold. unfold eff. f_equal. rewrite <- map_rev. apply (put_spec rho); [exact ND| |].
  - intros j Hj. rewrite <- (at_run (rev c)) by (apply cok_rev; exact H). rewrite (at_in rho) by exact Hj. reflexivity.
  - intros q Hq. eapply run_out; [|exact Hq]. apply rng_ok. apply cok_rev. exact H.
Qed.
End Rename.
