(** S and T on several qubits through wrappers. *)
From Coq Require Import Reals Permutation.
From Coquelicot Require Import Complex.
From Verif Require Import Base BitsSpec OpsModel BuilderModel RegProofs DenSpec SimSpec RunSpec LocalProofs RunProofs GateProofs ToffoliProofs CondProofs.
From Verif Require Import OutcomeProofs2.
From Verif Require Import MoveSpec.
Local Open Scope nat_scope.
Local Open Scope mon_scope.

Lemma moves_does {A} s L (m : M A) a L' D : does s L m a L' D -> moves s (conds s) L m a L' D.
Proof. intros (s' & p & H). exists s', p. exact H. Qed.
Lemma moves_take {A B} k c c' s L (m : M A) a L' D cm (g : reg -> M B) (f : A -> M B) b :
  nth_error (conds s) k = Some (Some c) -> (forall s, g c s = mbind m f s) ->
  moves (mkSt (bld s) (upd_nth k None (conds s))) cm L m a L' D ->
  (forall s2, conds s2 = cm -> f a s2 = Ret b (mkSt (bld s2) (upd_nth k (Some c') (conds s2)))) ->
  moves s (upd_nth k (Some c') cm) L (mbind (take_cr k) g) b L' D.
Proof.
  intros E Eg (s1 & p & H1 & H2 & H3 & H4 & H5 & H6 & H7 & H8 & H9 & H10 & H11 & H12) Hf. exists (mkSt (bld s1) (upd_nth k (Some c') cm)), p.
  split; [unfold mbind at 1; unfold take_cr; rewrite E, Eg; unfold mbind; rewrite H1, (Hf s1 H2), H2; reflexivity|].
  cbn [bld conds] in *. split; [reflexivity|]. do 8 (split; [assumption|]). split; assumption.
Qed.
Section Chain.
Context (co : cobj) (r x r' : reg) (D : list nat -> state -> state).
Hypothesis base : forall s cs, cs <> [] -> tidy s -> live s (cs ++ r) -> does s (cs ++ r) (local_try cs r co) (cs ++ x, r') (cs ++ r) (D cs).
Hypothesis P : Permutation (x ++ r') r.
Lemma try_moves : forall d s cr, wrapped d (conds s) -> tidy s -> cr <> [] -> live s ((cr ++ cqs d (conds s)) ++ r) ->
  moves s (grown d x (conds s)) ((cr ++ cqs d (conds s)) ++ r) (try_cond d cr r co) ((if d =? 0 then cr ++ x else cr), r') ((cr ++ cqs d (conds s)) ++ r) (D (cr ++ cqs d (conds s))).
Proof.
  induction d as [|k IH]; intros s cr Hh T Hc Lv.
  - cbn [cqs grown Nat.eqb] in *. rewrite app_nil_r in *. apply moves_does, base; assumption.
  - destruct (Hh k (Nat.lt_succ_diag_r k)) as (c & E & Hcne).
    cbn [cqs] in *. rewrite E in *. cbn [try_cond Nat.eqb].
    assert (Q : cr ++ c ++ cqs k (conds s) = (cr ++ c) ++ cqs k (upd_nth k None (conds s))) by (rewrite cqs_upd by lia; apply app_assoc).
    assert (X : grown (S k) x (conds s) = upd_nth k (Some (if k =? 0 then c ++ x else c)) (grown k x (upd_nth k None (conds s)))).
    { destruct k as [|k]; cbn [Nat.eqb].
      - destruct (conds s) as [|o l]; [discriminate|]. cbn in E. inversion E; subst. reflexivity.
      - rewrite grown_upd by lia. rewrite upd_nth_twice, upd_nth_same by exact E. destruct (conds s) as [|[z|] l]; reflexivity. }
    assert (N : NoDup (cr ++ c ++ x)).
    { destruct Lv as (N & _). assert (P' : Permutation ((cr ++ c ++ cqs k (conds s)) ++ r) ((cr ++ c ++ x) ++ cqs k (conds s) ++ r')).
      { rewrite <- P, <- !app_assoc. apply Permutation_app_head, Permutation_app_head. apply Permutation_app_swap_app. }
      apply (Permutation_NoDup P') in N. apply NoDup_app_iff in N. apply N. }
    rewrite X. rewrite Q in *. eapply moves_take with (m := try_cond k (cr ++ c) r co); [exact E| | |].
    + intros s0. unfold mbind at 1. rewrite merge2_ok by exact Hc. reflexivity.
    + apply (IH (mkSt (bld s) (upd_nth k None (conds s))) (cr ++ c)).
      * apply wrapped_upd; [lia|]. eapply wrapped_le; [|exact Hh]. lia.
      * exact T.
      * destruct cr; [congruence|discriminate].
      * exact Lv.
    + intros s2 E2. cbn beta iota. unfold give_back, mbind, lift. destruct (Nat.eqb_spec k 0).
      * rewrite <- app_assoc, split_rel_prefix; [reflexivity|exact N|exact Hc|destruct c; [congruence|discriminate]].
      * rewrite split_rel_prefix; [reflexivity| |exact Hc|exact Hcne]. rewrite app_assoc in N. apply NoDup_app_iff in N. apply N.
Qed.
Lemma aco_moves d s : 0 < d -> wrapped d (conds s) -> tidy s -> live s (cqs d (conds s) ++ r) ->
  moves s (grown d x (conds s)) (cqs d (conds s) ++ r) (aco d r co) r' (cqs d (conds s) ++ r) (D (cqs d (conds s))).
Proof.
  intros Hd Hh T Lv. destruct d as [|k]; [lia|]. destruct (Hh k (Nat.lt_succ_diag_r k)) as (c & E & Hcne).
  cbn [cqs] in *. rewrite E in *. cbn [aco].
  assert (Q : c ++ cqs k (conds s) = c ++ cqs k (upd_nth k None (conds s))) by (rewrite cqs_upd by lia; reflexivity).
  assert (X : grown (S k) x (conds s) = upd_nth k (Some (if k =? 0 then c ++ x else c)) (grown k x (upd_nth k None (conds s)))).
  { destruct k as [|k]; cbn [Nat.eqb].
    - destruct (conds s) as [|o l]; [discriminate|]. cbn in E. inversion E; subst. reflexivity.
    - rewrite grown_upd by lia. rewrite upd_nth_twice, upd_nth_same by exact E. destruct (conds s) as [|[z|] l]; reflexivity. }
  rewrite X. rewrite Q in *. eapply moves_take with (m := try_cond k c r co); [exact E|reflexivity| |].
  - apply (try_moves k (mkSt (bld s) (upd_nth k None (conds s))) c).
    * apply wrapped_upd; [lia|]. eapply wrapped_le; [|exact Hh]. lia.
    * exact T.
    * exact Hcne.
    * exact Lv.
  - intros s2 E2. reflexivity.
Qed.
End Chain.
Lemma moves_unwrap {A} s c L (m : M A) a L' D : moves s c L m a L' D -> moves s c L (unwrapM m) a L' D.
Proof. intros (s' & p & H1 & H). exists s', p. unfold unwrapM. rewrite H1. auto. Qed.
