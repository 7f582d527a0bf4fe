(** What conditioned builders make of subcircuits, gate by gate. *)
From Coq Require Import Reals Lra FunctionalExtensionality Permutation.
From Coquelicot Require Import Complex.
From Verif Require Import Base BitsSpec BitsProofs OpsModel OpsSpec ConjSpec Instances BuilderModel RegProofs ConserveProofs DenSpec DenProofs SimSpec UnitaryProofs SimProofs LocalProofs
  RunSpec RunProofs GateProofs ToffoliProofs SwapProofs CondProofs SubSpec LinkProofs InvertProofs SubProofs SubProofs2 SubProofs3.
Local Open Scope nat_scope.
Local Open Scope mon_scope.

Lemma try_Y1 k q : cond_ok (mkCO k (OUnit UY)) [q] (fun cs => controlled cs (each mnY [q])).
Proof. intros s cs Hc T Lv. eapply does_eq; [apply try_Y; auto; discriminate|]. intros psi. rewrite toff_phase_one. apply ctl_each_1. Qed.
Lemma uden_mat (m : mat1) q psi : uden (UMAT [m false false; m false true; m true false; m true true]) [q] psi = on1 m q psi.
Proof.
  cbn [uden length]. extensionality x. rewrite act1. unfold on1. destruct (x q); cbn; reflexivity.
Qed.
Lemma tilt_den q psi : uden (UMAT tilt_list) [q] psi = on1 (mTilt (/ 4)) q psi.
Proof. exact (uden_mat (mTilt (/ 4)) q psi). Qed.
Lemma negy_den q psi : uden (UMAT negy_list) [q] psi = on1 mnY q psi.
Proof.
  rewrite <- (uden_mat mnY). assert (E : negy_list = [mnY false false; mnY false true; mnY true false; mnY true true]); [|rewrite E; reflexivity].
  unfold negy_list, mnY, mscal, mY, Ci, Cmult, Copp, RtoC. cbn. repeat (apply (f_equal2 (@cons C)); [f_equal; ring|]). reflexivity.
Qed.
Lemma carried_cond_ok n e : wf_entry n e -> carried e -> cond_ok (snd e) (fst e) (fun cs => controlled cs (oden (cond_obj (snd e)) (fst e))).
Proof.
  intros W F. destruct e as [qs [k o]]. unfold carried in F. cbn [fst snd co_obj] in *. destruct o as [u|m]; [|destruct F].
  destruct u; try destruct F; try (apply (friendly_cond_ok n (qs, mkCO k (OUnit _)) W); exact I).
  all: destruct W as (_ & _ & W); cbn in W; destruct qs as [|q [|q' qs]]; try discriminate W; intros s cs Hc T Lv.
  - eapply does_eq; [apply try_Y1; assumption|]. intros psi. extensionality x. unfold controlled, oden, each. cbn [cond_obj co_obj fold_left]. rewrite negy_den. reflexivity.
  - eapply does_eq; [apply try_H; assumption|]. intros psi. extensionality x. unfold controlled, oden, each. cbn [cond_obj co_obj fold_left]. rewrite tilt_den. reflexivity.
Qed.
Lemma carried_obj_alt n cr e : cr <> [] -> wf_entry n e -> carried e -> obj_alt (aco 1) cr [Some cr] cond_obj e.
Proof.
  intros Hc W F s HC T Lv. pose proof (aco_does _ _ _ (carried_cond_ok n e W F) 1 s) as H. rewrite HC in H. cbn [cqs nth_error] in H. rewrite app_nil_r in H.
  apply H; [lia| |exact T|exact Lv]. intros [|k] Hk; [|lia]. exists cr. auto.
Qed.
Lemma wf_cond_pipe n sc : Forall carried sc -> Forall (wf_entry n) (cond_pipe sc) -> Forall (wf_entry n) sc.
Proof.
  intros F W. unfold cond_pipe in W. rewrite Forall_map in W. rewrite Forall_forall in *. intros e He. specialize (W e He). specialize (F e He).
  destruct e as [qs [k o]], W as (N & R & W). split; [exact N|]. split; [exact R|]. unfold carried in F. cbn [fst snd co_obj] in *. destruct o as [u|]; [|destruct F].
  assert (L4 : qs <> [] /\ 4 = 2 ^ (2 * length qs) -> length qs = 1).
  { intros (_ & X). change 4 with (2 ^ 2) in X. apply Nat.pow_inj_r in X; lia. }
  destruct u; try destruct F; try exact W; apply L4; exact W.
Qed.
Lemma local_carried_does n (r : reg) sc D s (cr : reg) : realizes n (length r) (cond_pipe sc) D -> Forall carried sc -> cr <> [] -> tidy s -> live s (cr ++ r) -> r <> [] ->
  does s (cr ++ r) (local_cond_subcircuit sc cr r) (cr, r) (cr ++ r) (controlled cr (embed r D)).
Proof.
  intros Re F Hc T Lv Hr. unfold local_cond_subcircuit.
  pose proof (pipe_alt (aco 1) cr [Some cr] cond_obj n r sc D (mkSt (bld s) [Some cr]) Re) as H.
  destruct H as (s1 & p & H1 & H2 & H3 & H4 & H5 & H6 & H7 & H8 & H9 & H10 & H11 & H12); auto.
  - intros rho Hl N. destruct Re as (_ & W & Pr & _). apply (wf_cond_pipe n sc F) in W. rewrite <- Hl in W. pose proof (wf_rens rho sc N W) as W'. rewrite Forall_forall in *. intros e He.
    apply (carried_obj_alt (big rho)); [exact Hc|apply W'; exact He|]. unfold ren in He. apply in_map_iff in He. destruct He as (e' & <- & He'). exact (F e' He').
  - exists (mkSt (bld s1) (conds s)), p. split.
    + unfold with_conds, mbind. rewrite H1. cbn [conds] in H2. unfold dissolve. rewrite H2. reflexivity.
    + split; [reflexivity|]. do 9 (split; [assumption|]). assumption.
Qed.
Lemma carried_depth_does n r sc D d s : realizes n (length r) (cond_pipe sc) D -> Forall carried sc -> 0 < d -> wrapped d (conds s) -> tidy s -> live s (cqs d (conds s) ++ r) -> r <> [] ->
  does s (cqs d (conds s) ++ r) (apply_subcircuit d sc r) r (cqs d (conds s) ++ r) (controlled (cqs d (conds s)) (embed r D)).
Proof.
  intros Re F Hd Wr T Lv Hr. apply (sub_depth sc r (fun cr => controlled cr (embed r D))); try assumption.
  intros s0 cr Hc T0 L0. eapply local_carried_does; eassumption.
Qed.
(** The objects a conditioned builder carries out are proper. *)
Lemma tilt_unitary2 q : unitary2_entry ([q], mkCO 1 (OUnit (UMAT tilt_list))).
Proof.
  assert (U : unitary_mat CN Cconj 1 (mat_of (mTilt (/ 4)))).
  { pose proof (sin2_cos2 (/ 4)) as S. unfold Rsqr in S. apply unitary1; unfold mTilt; cbn; rewrite ?Cconj_RtoC; rewrite <- ?RtoC_mult, <- ?RtoC_plus; f_equal; nra. }
  assert (E : forall r c, length r = 1 -> length c = 1 -> nth (be r * 2 ^ 1 + be c) tilt_list (RtoC 0) = mat_of (mTilt (/ 4)) r c).
  { intros r c Hr Hc. destruct r as [|b [|? ?]]; try discriminate. destruct c as [|b' [|? ?]]; try discriminate. destruct b, b'; reflexivity. }
  assert (E' : forall r c, length r = 1 -> length c = 1 -> adj Cconj (fun r c => nth (be r * 2 ^ 1 + be c) tilt_list (RtoC 0)) r c = mat_of (mTilt (/ 4)) r c).
  { intros r c Hr Hc. unfold adj. rewrite E by assumption. destruct r as [|b [|? ?]]; try discriminate. destruct c as [|b' [|? ?]]; try discriminate.
    destruct b, b'; unfold mat_of, mTilt; cbn; apply Cconj_RtoC. }
  split; (eapply unitary_ext; [|exact U]); intros r c Hr Hc; symmetry; [apply E|apply E']; assumption.
Qed.
Lemma negy_unitary2 q : unitary2_entry ([q], mkCO 1 (OUnit (UMAT negy_list))).
Proof.
  set (m := fun r c : bool => nth (be [r] * 2 ^ 1 + be [c]) negy_list (RtoC 0)).
  assert (U : unitary_mat CN Cconj 1 (mat_of m)).
  { apply unitary1; unfold m; cbn; unfold Ci, Cconj, Cmult, Cplus, Copp, RtoC; cbn; f_equal; ring. }
  assert (E : forall r c, length r = 1 -> length c = 1 -> nth (be r * 2 ^ 1 + be c) negy_list (RtoC 0) = mat_of m r c).
  { intros r c Hr Hc. destruct r as [|b [|? ?]]; try discriminate. destruct c as [|b' [|? ?]]; try discriminate. destruct b, b'; reflexivity. }
  assert (E' : forall r c, length r = 1 -> length c = 1 -> adj Cconj (fun r c => nth (be r * 2 ^ 1 + be c) negy_list (RtoC 0)) r c = mat_of m r c).
  { intros r c Hr Hc. unfold adj. rewrite E by assumption. destruct r as [|b [|? ?]]; try discriminate. destruct c as [|b' [|? ?]]; try discriminate.
    destruct b, b'; unfold mat_of, m; cbn; unfold Ci, Cconj, Copp, RtoC; cbn; f_equal; ring. }
  split; (eapply unitary_ext; [|exact U]); intros r c Hr Hc; symmetry; [apply E|apply E']; assumption.
Qed.
Lemma cond_pipe_proper n sc : Forall (wf_entry n) sc -> Forall carried sc -> Forall proper_entry sc -> Forall (wf_entry n) (cond_pipe sc) /\ Forall proper_entry (cond_pipe sc).
Proof.
  intros W F Pr. unfold cond_pipe. rewrite !Forall_map. rewrite !Forall_forall in *.
  assert (G : forall e, In e sc -> wf_entry n (fst e, cond_obj (snd e)) /\ proper_entry (fst e, cond_obj (snd e))); [|split; intros e He; apply G, He].
  intros e He. specialize (W e He). specialize (F e He). specialize (Pr e He). destruct e as [qs [k o]]. unfold carried in F. cbn [fst snd co_obj] in *. destruct o as [u|]; [|destruct F].
  destruct u; try destruct F; try (split; assumption); destruct W as (N & R & W); cbn in W; destruct qs as [|q [|? ?]]; try discriminate W; unfold cond_obj; cbn [co_obj].
  - split; [split; [exact N|split; [exact R|split; [discriminate|reflexivity]]]|]. split; [exact I|]. split; [apply negy_unitary2|reflexivity].
  - split; [split; [exact N|split; [exact R|split; [discriminate|reflexivity]]]|]. split; [exact I|]. split; [apply tilt_unitary2|reflexivity].
Qed.
