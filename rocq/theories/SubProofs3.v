(** Subcircuits at every depth, inverted subcircuits, and the inverter. *)
From Coq Require Import Reals Lra FunctionalExtensionality Permutation.
From Coquelicot Require Import Complex.
From Verif Require Import Base BitsSpec BitsProofs OpsModel OpsSpec Instances BuilderModel RegProofs ConserveProofs DenSpec DenProofs SimSpec SimProofs LocalProofs
  RunSpec RunProofs GateProofs ToffoliProofs SwapProofs CondProofs SubSpec LinkProofs InvertProofs SubProofs SubProofs2.
Local Open Scope nat_scope.
Local Open Scope mon_scope.

(** *** Objects on a plain builder *)
Lemma local_obj_ok n cond e : wf_entry n e -> proper_entry e -> obj_ok local_aco [] cond e.
Proof.
  intros (N & R & W) Pr s HC T Lv. pose proof Pr as (Pl & U & Sz). destruct e as [qs co]. cbn [fst snd app] in *.
  eapply does_eq with (D := oden co qs); [|intros psi; symmetry; apply controlled_nil].
  unfold local_aco. rewrite Sz, Nat.eqb_refl, orb_true_r. replace ((length qs =? 1) && (1 <? length qs)) with false.
  2:{ destruct (Nat.eqb_spec (length qs) 1) as [->|]; reflexivity. }
  eapply does_then_quiet; [|intros s1 C1 T1 L1; apply quiet_ret; assumption].
  apply does_push; try assumption; [apply incl_refl|].
  apply within_local; [apply (within_oden (qs, co))|apply (oden_zero (qs, co))].
Qed.
Lemma try_X1 k q : cond_ok (mkCO k (OUnit UX)) [q] (fun cs => controlled cs (each mX [q])).
Proof. intros s cs Hc T Lv. eapply does_eq; [apply try_X; auto; discriminate|]. intros psi. rewrite toff_phase_one. apply ctl_each_1. Qed.
Lemma try_Z1 k q : cond_ok (mkCO k (OUnit UZ)) [q] (fun cs => controlled cs (each mZ [q])).
Proof. intros s cs Hc T Lv. eapply does_eq; [apply try_Z; auto; discriminate|]. intros psi. rewrite toff_phase_one. apply ctl_each_1. Qed.
Lemma friendly_cond_ok n e : wf_entry n e -> friendly e -> cond_ok (snd e) (fst e) (fun cs => controlled cs (oden (snd e) (fst e))).
Proof.
  intros (N & R & W) F. destruct e as [qs [k o]]. unfold friendly in F. cbn [fst snd co_obj] in *. destruct o as [u|m]; [|destruct F].
  destruct u; try destruct F; cbn in W.
  all: try (destruct qs as [|q [|q' qs]]; try discriminate W; unfold oden; cbn [co_obj uden];
            first [apply try_X1|apply try_Z1|apply try_S|apply try_T]).
  destruct qs as [|c [|t [|]]]; try discriminate W. intros s cs Hc T Lv. eapply does_eq; [apply try_CNOT; assumption|].
  intros psi. extensionality x. unfold ctl_nots, controlled, oden. cbn [co_obj uden]. unfold ctl_not, cflip. rewrite forallb_app. cbn [forallb]. rewrite andb_true_r.
  destruct (forallb x cs); [|reflexivity]. cbn [andb]. destruct (x c); [|reflexivity]. f_equal. extensionality q. unfold flips, flip, upd. cbn [existsb]. rewrite orb_false_r.
  destruct (Nat.eqb_spec q t) as [->|]; [destruct (x t); reflexivity|destruct (x q); reflexivity].
Qed.
Lemma friendly_obj_ok n cr e : cr <> [] -> wf_entry n e -> friendly e -> obj_ok (aco 1) cr [Some cr] e.
Proof.
  intros Hc W F s HC T Lv. pose proof (aco_does _ _ _ (friendly_cond_ok n e W F) 1 s) as H. rewrite HC in H. cbn [cqs nth_error] in H. rewrite app_nil_r in H.
  apply H; [lia| |exact T|exact Lv]. intros [|k] Hk; [|lia]. exists cr. auto.
Qed.

(** *** Renaming keeps objects proper *)
Lemma proper_ren rho e : proper_entry e -> proper_entry (map (fun j => nth j rho 0) (fst e), snd e).
Proof.
  intros (A & B & C). split; [exact A|]. split; [|cbn; rewrite map_length; exact C]. unfold unitary2_entry in *. cbn [fst snd]. rewrite map_length. exact B.
Qed.
Definition big (rho : list nat) := S (fold_right Nat.max 0 rho).
Lemma big_spec rho q : In q rho -> q < big rho.
Proof. unfold big. induction rho as [|a rho IH]; [intros []|]. intros [<-|H]; cbn; [|specialize (IH H)]; lia. Qed.
Lemma wf_rens rho sc : NoDup rho -> Forall (wf_entry (length rho)) sc -> Forall (wf_entry (big rho)) (ren rho sc).
Proof.
  intros N W. unfold ren. apply Forall_map. eapply Forall_impl; [|exact W]. intros e We. apply wf_ren; [exact N|exact We|apply big_spec].
Qed.

(** *** Depth 0 *)
Lemma sub_does n r sc D s : realizes n (length r) sc D -> tidy s -> live s r -> r <> [] ->
  does s r (apply_subcircuit 0 sc r) r r (embed r D).
Proof.
  intros Re T Lv Hr. cbn [apply_subcircuit]. pose proof (pipe_does local_aco [] (conds s) n r sc D s Re) as H. cbn [app] in H.
  eapply does_eq; [apply H; auto|intros psi; apply controlled_nil].
  intros rho Hl N. destruct Re as (_ & W & Pr & _). rewrite <- Hl in W. pose proof (wf_rens rho sc N W) as W'. rewrite Forall_forall in *. intros e He.
  apply (local_obj_ok (big rho)); [apply W'; exact He|]. unfold ren in He. apply in_map_iff in He. destruct He as (e' & <- & He'). apply proper_ren, Pr, He'.
Qed.

(** *** Under conditions *)
Lemma with_conds_does {A} c s L (m : M A) a L' D : does (mkSt (bld s) c) L m a L' D -> does s L (with_conds c m) a L' D.
Proof.
  intros (s1 & p & H1 & H2 & H3 & H4 & H5 & H6 & H7 & H8 & H9 & H10 & H11 & H12). exists (mkSt (bld s1) (conds s)), p. unfold with_conds. rewrite H1.
  split; [reflexivity|]. split; [reflexivity|]. do 9 (split; [assumption|]). assumption.
Qed.
Lemma friendly_ren rho e : friendly e -> friendly (map (fun j => nth j rho 0) (fst e), snd e).
Proof. exact (fun H => H). Qed.
Lemma local_cond_does n (r : reg) sc D s (cr : reg) : realizes n (length r) sc D -> Forall friendly sc -> cr <> [] -> tidy s -> live s (cr ++ r) -> r <> [] ->
  does s (cr ++ r) (local_cond_subcircuit sc cr r) (cr, r) (cr ++ r) (controlled cr (embed r D)).
Proof.
  intros Re F Hc T Lv Hr. unfold local_cond_subcircuit.
  pose proof (pipe_does (aco 1) cr [Some cr] n r sc D (mkSt (bld s) [Some cr]) Re) as H.
  destruct H as (s1 & p & H1 & H2 & H3 & H4 & H5 & H6 & H7 & H8 & H9 & H10 & H11 & H12); auto.
  - intros rho Hl N. destruct Re as (_ & W & Pr & _). rewrite <- Hl in W. pose proof (wf_rens rho sc N W) as W'. rewrite Forall_forall in *. intros e He.
    apply (friendly_obj_ok (big rho)); [exact Hc|apply W'; exact He|]. unfold ren in He. apply in_map_iff in He. destruct He as (e' & <- & He'). apply friendly_ren, F, He'.
  - exists (mkSt (bld s1) (conds s)), p. split.
    + unfold with_conds, mbind. rewrite H1. cbn [conds] in H2. unfold dissolve. rewrite H2. reflexivity.
    + split; [reflexivity|]. do 9 (split; [assumption|]). assumption.
Qed.
Section Depth.
Context (sc : pipe) (r : reg) (D : list nat -> state -> state).
Context (H : forall s cr, cr <> [] -> tidy s -> live s (cr ++ r) -> does s (cr ++ r) (local_cond_subcircuit sc cr r) (cr, r) (cr ++ r) (D cr)).
Lemma cond_sub_does : forall d s cr, wrapped d (conds s) -> tidy s -> cr <> [] -> live s ((cr ++ cqs d (conds s)) ++ r) ->
  does s ((cr ++ cqs d (conds s)) ++ r) (apply_cond_subcircuit d sc cr r) (cr, r) ((cr ++ cqs d (conds s)) ++ r) (D (cr ++ cqs d (conds s))).
Proof.
  induction d as [|k IH]; intros s cr Hh T Hc Lv.
  - cbn [cqs apply_cond_subcircuit] in *. rewrite app_nil_r in *. apply H; assumption.
  - destruct (Hh k (Nat.lt_succ_diag_r k)) as (c & E & Hcne).
    cbn [cqs] in *. rewrite E in *. cbn [apply_cond_subcircuit].
    assert (Q : cr ++ c ++ cqs k (conds s) = (cr ++ c) ++ cqs k (upd_nth k None (conds s))) by (rewrite cqs_upd by lia; apply app_assoc).
    rewrite Q in *. eapply does_take with (m := apply_cond_subcircuit k sc (cr ++ c) r); [exact E| | |].
    + intros s0. unfold mbind at 1. rewrite merge2_ok by exact Hc. reflexivity.
    + apply (IH (mkSt (bld s) (upd_nth k None (conds s))) (cr ++ c)).
      * apply wrapped_upd; [lia|]. eapply wrapped_le; [|exact Hh]. lia.
      * exact T.
      * destruct cr; [congruence|discriminate].
      * exact Lv.
    + intros s2 E2. cbn beta iota. unfold give_back, mbind, lift. rewrite split_rel_prefix; [reflexivity| |exact Hc|exact Hcne].
      rewrite <- !app_assoc in Lv. destruct Lv as (N & _). rewrite app_assoc in N. apply NoDup_app_iff in N. apply N.
Qed.
Lemma sub_depth : forall d s, 0 < d -> wrapped d (conds s) -> tidy s -> live s (cqs d (conds s) ++ r) ->
  does s (cqs d (conds s) ++ r) (apply_subcircuit d sc r) r (cqs d (conds s) ++ r) (D (cqs d (conds s))).
Proof.
  intros [|k] s Hd Hh T Lv; [lia|]. destruct (Hh k (Nat.lt_succ_diag_r k)) as (c & E & Hcne).
  cbn [cqs] in *. rewrite E in *. cbn [apply_subcircuit].
  assert (Q : c ++ cqs k (conds s) = c ++ cqs k (upd_nth k None (conds s))) by (rewrite cqs_upd by lia; reflexivity).
  rewrite Q in *. eapply does_take with (m := apply_cond_subcircuit k sc c r); [exact E|reflexivity| |].
  - apply (cond_sub_does k (mkSt (bld s) (upd_nth k None (conds s))) c).
    * apply wrapped_upd; [lia|]. eapply wrapped_le; [|exact Hh]. lia.
    * exact T.
    * exact Hcne.
    * exact Lv.
  - intros s2 E2. reflexivity.
Qed.
End Depth.
Lemma cond_depth_does n r sc D d s : realizes n (length r) sc D -> Forall friendly sc -> 0 < d -> wrapped d (conds s) -> tidy s -> live s (cqs d (conds s) ++ r) -> r <> [] ->
  does s (cqs d (conds s) ++ r) (apply_subcircuit d sc r) r (cqs d (conds s) ++ r) (controlled (cqs d (conds s)) (embed r D)).
Proof.
  intros Re F Hd Wr T Lv Hr. apply (sub_depth sc r (fun cr => controlled cr (embed r D))); try assumption.
  intros s0 cr Hc T0 L0. eapply local_cond_does; eassumption.
Qed.
(** All depths at once. *)
Lemma sub_any n r sc D d s : realizes n (length r) sc D -> (d = 0 \/ Forall friendly sc) -> wrapped d (conds s) -> tidy s -> live s (cqs d (conds s) ++ r) -> r <> [] ->
  does s (cqs d (conds s) ++ r) (apply_subcircuit d sc r) r (cqs d (conds s) ++ r) (controlled (cqs d (conds s)) (embed r D)).
Proof.
  intros Re F Wr T Lv Hr. destruct d as [|d].
  - cbn [cqs app] in *. eapply does_eq; [eapply sub_does; eassumption|]. intros psi. symmetry. apply controlled_nil.
  - destruct F as [X|F]; [discriminate|]. eapply cond_depth_does; try eassumption. lia.
Qed.

(** *** Inverted subcircuits *)
Lemma invert_friendly p q : Forall friendly p -> invert_subcircuit p = Ok q -> Forall friendly q.
Proof.
  unfold invert_subcircuit. intros F. apply Forall_rev in F. revert F. assert (G : Forall friendly ([] : pipe)) by constructor. revert G.
  generalize ([] : pipe). generalize (rev p). clear p. induction l as [|e l IH]; intros acc G F E; cbn [foldM] in E; [injection E as <-; exact G|].
  inversion F as [|? ? F1 F2]; subst. destruct e as [ind co]. unfold friendly in F1. cbn [snd] in F1. unfold invert_circuit_object in E.
  destruct (co_obj co) as [u|]; [|destruct F1].
  destruct u; try destruct F1; cbn [bind map] in E; (eapply IH; [|exact F2|exact E]); apply Forall_app; split; try exact G; repeat constructor.
Qed.
Lemma clean_ext ts phi phi' : (forall x, phi x = phi' x) -> clean ts phi -> clean ts phi'.
Proof. intros E H x t Ht Hx. rewrite <- E. eapply H; eassumption. Qed.
(** If the qubits from [k] on come back to 0, the inverse carries out the inverse. *)
Lemma realizes_inverse N k sc D E : realizes N k sc D -> inverses D E -> within (seq 0 k) E ->
  exists q, invert_subcircuit sc = Ok q /\ realizes N k q E.
Proof.
  intros (Hk & W & Pr & Top & Wi & B & HB & HD) I WE.
  assert (Z : E zero = zero) by (rewrite <- (proj1 (I zero)) at 2; rewrite <- HD; [rewrite den_zero; reflexivity|intros x t _ _; reflexivity]).
  destruct (invert_ok N sc W Pr) as (q & Eq & Wq & Pq & Iq & Jq). exists q. split; [exact Eq|].
  split; [exact Hk|]. split; [exact Wq|]. split; [exact Pq|]. split; [apply Jq; exact Top|]. split; [exact WE|]. exists B. split; [exact HB|].
  intros phi Hp. transitivity (den q (D (E phi))); [rewrite (proj2 (I phi)); reflexivity|]. rewrite <- HD; [apply Iq|].
  intros x t Ht. pose proof (within_local _ _ WE Z t phi) as X. apply in_seq in Ht as Ht'. intros Hx. refine (X _ _ x t (or_introl eq_refl) Hx); [rewrite in_seq; lia|].
  intros y t' [<-|[]] Hy. apply (Hp y t Ht Hy).
Qed.

(** *** The inverter *)
Lemma registers_new : forall (rs : list reg) n0, (forall r, In r rs -> r <> []) ->
  mmap (fun r => register (length r)) rs (mkSt (mkB [] n0 [] 0) []) = Ret (ranges n0 (map (@length nat) rs)) (mkSt (mkB [] (n0 + length (concat rs)) [] 0) []).
Proof.
  induction rs as [|r rs IH]; intros n0 H; cbn [mmap map ranges concat].
  - rewrite Nat.add_0_r. reflexivity.
  - unfold mbind at 1. unfold register, mbind at 1, get. cbn [bld].
    assert (Hr : r <> []) by (apply H; left; reflexivity).
    unfold mbind at 1, lift. rewrite unwrap_new_reg by (destruct r; [congruence|discriminate]). unfold mbind at 1, put, ret. cbn [pipeline bn zeroed meas conds].
    unfold mbind. rewrite IH by (intros; apply H; right; assumption). rewrite app_length, Nat.add_assoc. reflexivity.
Qed.
Lemma top_exists (p : pipe) : (exists e j, In e p /\ In j (fst e)) ->
  exists m, (exists e, In e p /\ In m (fst e)) /\ forall e j, In e p -> In j (fst e) -> j <= m.
Proof.
  intros (e & j & He & Hj). destruct (list_max_spec (concat (map fst p))) as (m & _ & I & G).
  - intros X. assert (Y : In j (concat (map fst p))) by (apply in_concat; exists (fst e); split; [apply in_map; exact He|exact Hj]). rewrite X in Y. destruct Y.
  - exists m. split.
    + apply in_concat in I. destruct I as (l & Hl & I). apply in_map_iff in Hl. destruct Hl as (e' & <- & He'). exists e'. auto.
    + intros e' j' He' Hj'. apply G. apply in_concat. exists (fst e'). split; [apply in_map; exact He'|exact Hj'].
Qed.
(** What a call on a new builder records. *)
Lemma does_realizes {A} k (m : M A) a L' D s1 : does (fresh k) (seq 0 k) m a L' D -> within (seq 0 k) D -> m (fresh k) = Ret a s1 ->
  (exists e j, In e (pipeline (bld s1)) /\ In j (fst e) /\ k <= S j) -> exists N, realizes N k (pipeline (bld s1)) D.
Proof.
  intros (s' & p & H1 & H2 & H3 & H4 & H5 & H6 & H7 & H8 & H9 & H10 & H11 & H12) Wi E (e & j & He & Hj & Hk).
  rewrite E in H1. injection H1 as <-. cbn in H5. rewrite H5 in *.
  destruct (top_exists p) as (m' & (e1 & He1 & Hm) & G); [eauto|]. exists (S m').
  split; [specialize (G e j He Hj); lia|]. split.
  - rewrite Forall_forall in *. intros x Hx. destruct (H6 x Hx) as (N & R & W). split; [exact N|]. split; [|exact W]. intros q Hq. specialize (G x q Hx Hq). lia.
  - split; [exact H7|]. split; [exists e1; cbn; rewrite Nat.sub_0_r; auto|]. split; [exact Wi|]. exists (bn (bld s1)). split.
    + rewrite Forall_forall in H6. apply (H6 e1 He1). exact Hm.
    + intros phi Hp. apply H12. intros q [Hq|[]] Hlt. cbn in Hq. intros x t [<-|[]] Hx. apply (Hp x q); [apply in_seq; lia|exact Hx].
Qed.
Section Inverter.
Context (d : nat) (rs : list reg) (f : list reg -> M (list reg)) (a : list reg) (L' : list nat) (D E : state -> state) (s s1 : st).
Notation k := (length (concat rs)).
Notation K := (cqs d (conds s)).
Context (Hf : does (fresh k) (seq 0 k) (f (ranges 0 (map (@length nat) rs))) a L' D) (I : inverses D E)
  (WD : within (seq 0 k) D) (WE : within (seq 0 k) E) (Ef : f (ranges 0 (map (@length nat) rs)) (fresh k) = Ret a s1)
  (Top : exists e j, In e (pipeline (bld s1)) /\ In j (fst e) /\ k <= S j) (Fr : d = 0 \/ Forall friendly (pipeline (bld s1)))
  (Wr : wrapped d (conds s)) (T : tidy s) (Lv : live s (K ++ concat rs)) (Hrs : rs <> []) (Hne : forall r, In r rs -> r <> []).
Lemma inverter_does : does s (K ++ concat rs) (inverter d rs f) rs (K ++ concat rs) (controlled K (embed (concat rs) E)) /\
  does s (K ++ concat rs) (inv_macro d rs f) rs (K ++ concat rs) (controlled K (embed (concat rs) E)).
Proof.
  destruct (does_realizes k _ a L' D s1 Hf WD Ef Top) as (N & Re).
  destruct (realizes_inverse N k _ D E Re I WE) as (q & Eq & Rq).
  assert (Hc : concat rs <> []).
  { destruct rs as [|r0 rs0]; [congruence|]. cbn. assert (X : r0 <> []) by (apply Hne; left; reflexivity). destruct r0; [congruence|discriminate]. }
  assert (Ncr : NoDup (concat rs)) by (destruct Lv as (X & _); apply NoDup_app_iff in X; apply X).
  assert (On : forall s0, on_new (sub_rs <- mmap (fun r => register (length r)) rs ;; _ <- f sub_rs ;; make_subcircuit) s0 = Ret (pipeline (bld s1)) s0).
  { intros s0. unfold on_new, empty_builder. unfold mbind at 1. rewrite registers_new by exact Hne. cbn [Nat.add]. unfold mbind at 1. unfold fresh in Ef. rewrite Ef. reflexivity. }
  assert (Fq : d = 0 \/ Forall friendly q) by (destruct Fr as [X|X]; [left; exact X|right; eapply invert_friendly; eassumption]).
  assert (Qn : quiet s (K ++ concat rs) (on_new (sub_rs <- mmap (fun r => register (length r)) rs ;; _ <- f sub_rs ;; make_subcircuit)) (pipeline (bld s1)) (K ++ concat rs)).
  { exists s. split; [apply On|]. do 5 (split; [reflexivity || exact T|]). split; [exact Lv|]. tauto. }
  assert (App : forall s5, conds s5 = conds s -> tidy s5 -> live s5 (K ++ concat rs) ->
    does s5 (K ++ concat rs) (apply_subcircuit d q (concat rs)) (concat rs) (K ++ concat rs) (controlled K (embed (concat rs) E))).
  { intros s5 C5 T5 L5. rewrite <- C5 in *. eapply sub_any; eassumption. }
  split.
  - unfold inverter. eapply quiet_then_does; [exact Qn|apply incl_refl|apply incl_refl|]. intros s2 C2 T2 L2.
    eapply quiet_then_does; [apply quiet_lift; [apply merge_registers_ok; exact Hne|exact T2|exact L2]|apply incl_refl|apply incl_refl|]. intros s3 C3 T3 L3.
    eapply quiet_then_does; [apply quiet_lift; [apply unwrap_new_reg; exact Hc|exact T3|exact L3]|apply incl_refl|apply incl_refl|]. intros s4 C4 T4 L4.
    eapply does_then_quiet.
    + unfold apply_inverted_subcircuit. eapply quiet_then_does; [apply quiet_lift; [exact Eq|exact T4|exact L4]|apply incl_refl|apply incl_refl|]. intros s5 C5 T5 L5.
      apply App; [congruence|exact T5|exact L5].
    + intros s5 C5 T5 L5. eapply quiet_bind; [apply quiet_lift; [apply split_groups_ranges; assumption|exact T5|exact L5]|]. intros s6 C6 T6 L6. apply quiet_ret; assumption.
  - unfold inv_macro. eapply quiet_then_does; [exact Qn|apply incl_refl|apply incl_refl|]. intros s2 C2 T2 L2.
    eapply quiet_then_does; [apply quiet_lift; [apply merge_registers_ok; exact Hne|exact T2|exact L2]|apply incl_refl|apply incl_refl|]. intros s3 C3 T3 L3.
    eapply quiet_then_does; [apply quiet_lift; [apply unwrap_new_reg; exact Hc|exact T3|exact L3]|apply incl_refl|apply incl_refl|]. intros s4 C4 T4 L4.
    eapply does_then_quiet.
    + unfold apply_inverted_subcircuit. eapply quiet_then_does; [apply quiet_lift; [exact Eq|exact T4|exact L4]|apply incl_refl|apply incl_refl|]. intros s5 C5 T5 L5.
      apply App; [congruence|exact T5|exact L5].
    + intros s5 C5 T5 L5. eapply quiet_bind; [apply quiet_lift; [apply split_groups_ranges; assumption|exact T5|exact L5]|]. intros s6 C6 T6 L6. apply quiet_ret; assumption.
Qed.
End Inverter.
