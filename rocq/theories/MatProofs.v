(** The full matrix of an operation. *)
From Verif Require Import Base BitsSpec BitsProofs OpsModel OpsSpec ConjSpec OpsProofs StateOpsModel StateOpsProofs ConjProofs UnitaryProofs OpsFinal.
Local Open Scope nat_scope.

Section Mat.
Context {P : Type} (N : num P) (L : num_laws N).
Lemma existsb_eqb q l : existsb (Nat.eqb q) l = true <-> In q l.
Proof. rewrite existsb_exists. split; [intros (x & H & E); apply Nat.eqb_eq in E; subst; exact H|intros H; exists q; split; [exact H|apply Nat.eqb_refl]]. Qed.
Lemma act_basis n op i j : NoDup (op_indices op) -> in_range n (op_indices op) -> i < 2 ^ n -> j < 2 ^ n ->
  act N (op_indices op) (op_mat N op) (fun y => if enc n y =? i then n1 N else n0 N) (dec n j) = full_entry N n op i j.
Proof.
  intros ND R Hi Hj. unfold act, full_entry. set (qs := op_indices op) in *. set (x := dec n j).
  destruct (forallb _ _) eqn:E.
  - rewrite forallb_forall in E.
    rewrite (big_single N L _ _ (map (dec n i) qs)).
    + replace (enc n (updl x qs (map (dec n i) qs)) =? i) with true; [apply (l_mul_1r L)|].
      symmetry. apply Nat.eqb_eq. rewrite <- (enc_dec n i Hi) at 2. apply enc_ext. intros q Hq.
      rewrite (updl_unique x qs (map (dec n i) qs) (fun p => if existsb (Nat.eqb p) qs then dec n i p else x p)); [| exact ND| |].
      * destruct (existsb (Nat.eqb q) qs) eqn:F; [reflexivity|]. specialize (E q). rewrite F in E. cbn [orb] in E. symmetry. apply eqb_prop. apply E. apply in_seq. lia.
      * apply map_ext_in. intros p Hp. rewrite (proj2 (existsb_eqb p qs) Hp). reflexivity.
      * intros q' Hq'. destruct (existsb (Nat.eqb q') qs) eqn:F; [apply existsb_eqb in F; contradiction|reflexivity].
    + apply NoDup_bools.
    + apply In_bools. apply map_length.
    + intros b Hb Hne. apply In_bools in Hb. destruct (Nat.eqb_spec (enc n (updl x qs b)) i) as [X|]; [|apply (l_mul_0r L)].
      exfalso. apply Hne. rewrite <- (updl_map x qs b ND Hb). apply map_ext_in. intros q Hq.
      rewrite <- (enc_dec n i Hi) in X. apply (enc_inj n _ _ X). apply R, Hq.
  - apply (big_zero N L). intros b Hb. destruct (Nat.eqb_spec (enc n (updl x qs b)) i) as [X|]; [|apply (l_mul_0r L)].
    exfalso. assert (Y : forallb (fun q => existsb (Nat.eqb q) qs || eqb (dec n i q) (x q)) (seq 0 n) = true); [|congruence].
    apply forallb_forall. intros q Hq. apply in_seq in Hq. destruct (existsb (Nat.eqb q) qs) eqn:F; [reflexivity|]. cbn [orb]. apply eqb_true_iff.
    rewrite <- (enc_dec n i Hi) in X. rewrite <- (enc_inj n _ _ X) by lia. apply updl_notin. intros I. apply existsb_eqb in I. congruence.
Qed.
Lemma make_op_matrix_ok n op : wf_op op -> NoDup (op_indices op) -> in_range n (op_indices op) ->
  make_op_matrix N n op = Ok (map (fun i => map (fun j => full_entry N n op i j) (seq 0 (2 ^ n))) (seq 0 (2 ^ n))).
Proof.
  intros W ND R. unfold make_op_matrix. apply mapM_ok. intros i Hi. apply in_seq in Hi. cbv zeta.
  rewrite apply_op_ok; [|exact L|exact W|exact R|rewrite repeat_length; lia]. f_equal. rewrite repeat_length. apply map_ext_in. intros j Hj. apply in_seq in Hj.
  rewrite nth_repeat, (l_add_0 L). rewrite <- act_basis by (assumption || lia). cbn [Nat.add].
  change (row_value N n op (upd_nth i (n1 N) (repeat (n0 N) (2 ^ n))) 0 j) with
    (act N (op_indices op) (op_mat N op) (fun y => amp_off N 0 (upd_nth i (n1 N) (repeat (n0 N) (2 ^ n))) (enc n y)) (dec n j)).
  apply act_ext_psi. intros y.
  unfold amp_off. cbn [Nat.ltb Nat.leb]. rewrite Nat.sub_0_r. destruct (Nat.eqb_spec (enc n y) i) as [->|X].
  - rewrite nth_upd_nth by (rewrite repeat_length; lia). rewrite Nat.eqb_refl. reflexivity.
  - rewrite nth_upd_nth by (rewrite repeat_length; lia). destruct (Nat.eqb_spec (enc n y) i); [contradiction|]. apply nth_repeat.
Qed.
End Mat.
