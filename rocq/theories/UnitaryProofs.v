(** Unitarity of swap and control, norms over C, and the vector forms of C16 and C17. *)
From Coq Require Import Permutation FunctionalExtensionality Reals Lra.
From Coquelicot Require Import Complex.
From Verif Require Import Base BitsModel BitsSpec BitsProofs OpsModel OpsSpec OpsProofs OpsProofs2
  StateOpsModel StateOpsProofs ConjSpec ConjProofs Instances.
Local Open Scope res_scope.

Section Unitary.
Context {P : Type} (N : num P) (L : num_laws N) (cj : P -> P) (J : conj_laws N cj).
Local Notation big := (big N).

Lemma unitary_ext k (M1 M2 : list bool -> list bool -> P) :
  (forall r c, length r = k -> length c = k -> M1 r c = M2 r c) ->
  unitary_mat N cj k M1 -> unitary_mat N cj k M2.
Proof.
  intros H U r c Hr Hc. rewrite <- U by auto. unfold mmul, adj. apply (big_ext N). intros m Hm.
  apply In_bools in Hm. rewrite !H; auto.
Qed.

Lemma swap_unitary n ind : length ind = n + n ->
  unitary_mat N cj (length ind) (op_mat N (Swap n ind)).
Proof.
  intros Hl r c Hr Hc. unfold mmul, adj. cbn [op_mat].
  set (sw := fun l : list bool => skipn n l ++ firstn n l).
  assert (SW : forall l, length l = n + n -> sw (sw l) = l /\ length (sw l) = n + n).
  { intros l H. unfold sw. assert (Hs : length (skipn n l) = n) by (rewrite skipn_length; lia).
    rewrite skipn_app, firstn_app, Hs, Nat.sub_diag, (skipn_all2 (skipn n l)), (firstn_all2 (skipn n l)) by lia.
    cbn [firstn skipn]. rewrite app_nil_r. cbn [app]. rewrite firstn_skipn.
    split; auto. rewrite app_length, skipn_length, firstn_length. lia. }
  destruct (SW r ltac:(lia)) as [S1 S2].
  rewrite (big_single N L _ _ (sw r)).
  - change (skipn n (sw r) ++ firstn n (sw r)) with (sw (sw r)). rewrite S1, delta_same, (c_1 J), (l_mul_1 L).
    apply (delta_sym N).
  - apply NoDup_bools.
  - apply In_bools. lia.
  - intros m Hm Hne. apply In_bools in Hm. change (skipn n m ++ firstn n m) with (sw m).
    rewrite (delta_diff N r (sw m)), (c_0 J); [apply (l_mul_0 L)|]. intros ->.
    destruct (SW m ltac:(lia)) as [S3 _]. congruence.
Qed.

Lemma control_unitary nc ind (op : mop P) : length ind = nc + length (op_indices op) ->
  unitary_mat N cj (length (op_indices op)) (op_mat N op) ->
  unitary_mat N cj (length ind) (op_mat N (Control nc ind op)).
Proof.
  intros Hl U r c Hr Hc. unfold mmul, adj. cbn [op_mat].
  set (all := fun l => forallb (fun b : bool => b) (firstn nc l)).
  change (fun m : list bool => nmul N (cj (if forallb (fun b : bool => b) (firstn nc m) then
      if forallb (fun b : bool => b) (firstn nc r) then op_mat N op (skipn nc m) (skipn nc r) else n0 N
      else delta N m r))
     (if forallb (fun b : bool => b) (firstn nc m) then
      if forallb (fun b : bool => b) (firstn nc c) then op_mat N op (skipn nc m) (skipn nc c) else n0 N
      else delta N m c)) with
   (fun m => nmul N (cj (if all m then if all r then op_mat N op (skipn nc m) (skipn nc r) else n0 N
      else delta N m r)) (if all m then if all c then op_mat N op (skipn nc m) (skipn nc c) else n0 N
      else delta N m c)).
  assert (AL : forall d, all (repeat true nc ++ d) = true /\ skipn nc (repeat true nc ++ d) = d).
  { intros d. unfold all. rewrite firstn_app, skipn_app, repeat_length, Nat.sub_diag.
    rewrite (firstn_all2 (repeat true nc)), (skipn_all2 (repeat true nc)) by (rewrite repeat_length; lia).
    cbn [firstn skipn app]. rewrite app_nil_r. split; auto. apply forallb_repeat_true. }
  assert (AI : forall l, length l = length ind -> all l = true -> l = repeat true nc ++ skipn nc l).
  { intros l H E. unfold all in E. apply forallb_true_repeat in E. rewrite firstn_length in E.
    rewrite <- (firstn_skipn nc l) at 1. rewrite E. f_equal. f_equal. lia. }
  destruct (all r) eqn:Ar.
  - rewrite Hl, (big_bools_app N L). rewrite (big_single N L _ _ (repeat true nc)).
    + transitivity (big (fun d => nmul N (cj (op_mat N op d (skipn nc r)))
         (if all c then op_mat N op d (skipn nc c) else n0 N)) (bools (length (op_indices op)))).
      { apply (big_ext N). intros d _. destruct (AL d) as [A1 A2]. rewrite A1, A2. reflexivity. }
      destruct (all c) eqn:Ac.
      * transitivity (delta N (skipn nc r) (skipn nc c)).
        { apply U; rewrite skipn_length; lia. }
        destruct (list_eq_dec bool_dec r c) as [->|Ne]; [rewrite !delta_same; reflexivity|].
        rewrite !(delta_diff N); auto. intros E. apply Ne. rewrite (AI r Hr Ar), (AI c Hc Ac), E. reflexivity.
      * rewrite (delta_diff N) by (intros ->; congruence). apply (big_zero N L). intros d _. apply (l_mul_0r L).
    + apply NoDup_bools.
    + apply In_bools, repeat_length.
    + intros b Hb Hne. apply In_bools in Hb. apply (big_zero N L). intros d _.
      assert (A : all (b ++ d) = false).
      { unfold all. rewrite firstn_app, Hb, Nat.sub_diag, firstn_all2 by lia. cbn. rewrite app_nil_r.
        destruct (forallb (fun b => b) b) eqn:E; auto. apply forallb_true_repeat in E. congruence. }
      rewrite A. rewrite (delta_diff N (b ++ d) r), (c_0 J); [apply (l_mul_0 L)|].
      intros <-. congruence.
  - rewrite (big_single N L _ _ r).
    + rewrite Ar, delta_same, (c_1 J). apply (l_mul_1 L).
    + apply NoDup_bools.
    + apply In_bools. exact Hr.
    + intros m Hm Hne. destruct (all m); [rewrite (c_0 J); apply (l_mul_0 L)|].
      rewrite (delta_diff N m r), (c_0 J) by auto. apply (l_mul_0 L).
Qed.

(** vectors and functions *)
Lemma st_of_ext n v w : length v = 2 ^ n -> length w = 2 ^ n ->
  (forall x, st_of N n v x = st_of N n w x) -> v = w.
Proof.
  intros Hv Hw H. apply (list_eq_nth (n0 N)); [lia|]. intros i Hi.
  specialize (H (dec n i)). unfold st_of in H. rewrite enc_dec in H by lia. exact H.
Qed.

Lemma st_of_zeros n x : st_of N n (repeat (n0 N) (2 ^ n)) x = n0 N.
Proof. unfold st_of. apply nth_repeat. Qed.

Lemma act_ext_psi qs M psi phi x : (forall y, psi y = phi y) -> act N qs M psi x = act N qs M phi x.
Proof. intros H. unfold act. apply (big_ext N). intros c _. rewrite H. reflexivity. Qed.

Lemma apply_op_zeros n op v : wf_op op -> in_range n (op_indices op) -> length v = 2 ^ n ->
  exists w, apply_op N n op v (repeat (n0 N) (2 ^ n)) 0 0 = Ok w /\ length w = 2 ^ n /\
    forall x, st_of N n w x = act N (op_indices op) (op_mat N op) (st_of N n v) x.
Proof.
  intros W R Hv. destruct (apply_op_act N L n op v (repeat (n0 N) (2 ^ n))) as [w (E & Hl & H)]; auto.
  { apply repeat_length. }
  exists w. repeat split; auto. intros x. rewrite H, st_of_zeros. apply (l_add_0 L).
Qed.

(** invert_op undoes a unitary op *)
Lemma invert_undoes n (op : mop P) v : wf_op op -> NoDup (op_indices op) -> in_range n (op_indices op) ->
  length v = 2 ^ n -> unitary_mat N cj (length (op_indices op)) (op_mat N op) ->
  exists op' w, invert_op cj op = Ok op' /\ apply_op N n op v (repeat (n0 N) (2 ^ n)) 0 0 = Ok w /\
    apply_op N n op' w (repeat (n0 N) (2 ^ n)) 0 0 = Ok v.
Proof.
  intros W ND R Hv U. destruct (invert_op_ok N L cj J op W) as [op' (E & W' & I & H)].
  destruct (apply_op_zeros n op v W R Hv) as [w (Ew & Lw & Hw)].
  destruct (apply_op_zeros n op' w W' ltac:(rewrite I; exact R) Lw) as [u (Eu & Lu & Hu)].
  exists op', w. repeat split; auto. rewrite Eu. f_equal. apply (st_of_ext n); auto.
  intros x. rewrite Hu, I. rewrite (act_ext_psi _ _ _ _ x Hw).
  transitivity (act N (op_indices op) (adj cj (op_mat N op)) (act N (op_indices op) (op_mat N op) (st_of N n v)) x).
  - apply act_ext. exact H.
  - apply (unitary_act_inv N L cj); auto.
Qed.
End Unitary.

(** *** Complex vectors *)
Definition norm2 (v : list C) : R := fold_right (fun a s => (Cmod a ^ 2 + s)%R) 0%R v.

Lemma Cmod2 (a : C) : Cmult (Cconj a) a = RtoC (Cmod a ^ 2).
Proof.
  unfold Cmod. rewrite <- Rsqr_pow2, Rsqr_sqrt.
  - destruct a as [x y]. unfold Cconj, Cmult, RtoC. cbn. f_equal; ring.
  - destruct a as [x y]. cbn. nra.
Qed.

Lemma big_norm2 v : big CN (fun a => Cmult (Cconj a) a) v = RtoC (norm2 v).
Proof.
  induction v as [|a v IH]; [reflexivity|]. cbn [big norm2 fold_right nadd CN].
  rewrite IH, Cmod2, RtoC_plus. reflexivity.
Qed.

Lemma ip_norm2 n v : length v = 2 ^ n -> ip CN Cconj n (st_of CN n v) (st_of CN n v) = RtoC (norm2 v).
Proof.
  intros H. rewrite <- big_norm2.
  transitivity (big CN (fun a => Cmult (Cconj a) a) (map (fun i => nth i v (n0 CN)) (seq 0 (length v))));
    [|rewrite seq_nth_map; reflexivity].
  unfold ip, bsum. rewrite (big_map CN), H. apply (big_ext CN). intros i Hi. apply in_seq in Hi.
  unfold st_of. rewrite enc_dec by lia. reflexivity.
Qed.

Lemma unitary_norm n (op : mop C) v : wf_op op -> NoDup (op_indices op) -> in_range n (op_indices op) ->
  length v = 2 ^ n -> unitary_mat CN Cconj (length (op_indices op)) (op_mat CN op) ->
  exists w, apply_op CN n op v (repeat (RtoC 0) (2 ^ n)) 0 0 = Ok w /\ norm2 w = norm2 v.
Proof.
  intros W ND R Hv U. destruct (apply_op_zeros CN CN_laws n op v W R Hv) as [w (Ew & Lw & Hw)].
  exists w. split; auto. apply RtoC_inj. rewrite <- !(ip_norm2 n) by auto.
  rewrite <- (unitary_ip CN CN_laws Cconj CN_conj n _ (op_mat CN op) (st_of CN n v) (st_of CN n v) ND R U).
  apply ip_ext; auto.
Qed.
