(** Parallel loops give what the sequential loops give, whatever the cells are. *)
From Coq Require Import Reals Permutation.
From Coquelicot Require Import Complex.
From Verif Require Import Base BitsModel OpsModel OpsSpec OpsProofs OpsProofs2 MeasureModel ScheduleModel ScheduleModel2.

Local Open Scope nat_scope.

Lemma par_same {A} (f : nat -> A -> res A) sched v d : Permutation sched (seq 0 (length v)) ->
  (forall i, i < length v -> exists a, f i (nth i v d) = Ok a) ->
  par_for_each f sched v = mapM (fun '(i, a) => f i a) (enumerate v).
Proof.
  intros HP H. set (g := fun i a => match f i a with Ok b => b | _ => d end).
  assert (Hg : forall i, i < length v -> f i (nth i v d) = Ok (g i (nth i v d))). { intros i Hi. unfold g. destruct (H i Hi) as (a & ->). reflexivity. }
  rewrite (par_for_each_perm f g d sched v HP Hg). symmetry. apply mapM_enumerate. exact Hg.
Qed.
Lemma mapM_each {A B} (f : A -> res B) l w : mapM f l = Ok w -> forall a, In a l -> exists b, f a = Ok b.
Proof.
  revert w. induction l as [|x l IH]; intros w H a [].
  - subst x. cbn [mapM] in H. destruct (f a); try discriminate. eexists. reflexivity.
  - cbn [mapM] in H. destruct (f x); try discriminate. cbn [bind] in H. destruct (mapM f l) as [w'| |] eqn:E; try discriminate. eapply IH; eauto.
Qed.
Lemma par_each {A} (f : nat -> A -> res A) (v : list A) d : forall s cur w, NoDup s -> (forall i, In i s -> i < length v) -> length cur = length v ->
  (forall i, In i s -> nth i cur d = nth i v d) -> par_for_each f s cur = Ok w -> forall i, In i s -> exists a, f i (nth i v d) = Ok a.
Proof.
  induction s as [|j s IH]; intros cur w ND R L H E i Hi; [destruct Hi|]. unfold par_for_each in E. cbn [foldM] in E. inversion ND; subst.
  rewrite (@idx_ok _ cur j d) in E by (rewrite L; apply R; left; reflexivity). cbn [bind] in E. rewrite H in E by (left; reflexivity).
  destruct (f j (nth j v d)) as [a| |] eqn:Ef; cbn [bind] in E; try discriminate. destruct Hi as [<-|Hi]; [eauto|].
  eapply (IH (upd_nth j a cur) w); eauto.
  - intros k Hk. apply R. right. exact Hk.
  - rewrite upd_nth_length. exact L.
  - intros k Hk. rewrite nth_upd_nth by (rewrite L; apply R; left; reflexivity). destruct (Nat.eqb_spec k j) as [->|_]; [contradiction|]. apply H. right. exact Hk.
Qed.
(** No assumption on [f]: if the loop ends in one order, it ends with the same cells in every order. *)
Lemma par_iff {A} (f : nat -> A -> res A) sched v w : Permutation sched (seq 0 (length v)) ->
  (par_for_each f sched v = Ok w <-> mapM (fun '(i, a) => f i a) (enumerate v) = Ok w).
Proof.
  intros HP. destruct v as [|d v'] eqn:Ev.
  - cbn in HP. apply Permutation_sym, Permutation_nil in HP. subst sched. reflexivity.
  - rewrite <- Ev in *. clear Ev. split; intros E.
    + rewrite <- (par_same f sched v d HP); [exact E|].
      intros i Hi. eapply (par_each f v d sched v w); auto.
      * apply (Permutation_NoDup (Permutation_sym HP)). apply seq_NoDup.
      * intros j Hj. apply (Permutation_in _ HP) in Hj. apply in_seq in Hj. lia.
      * apply (Permutation_in _ (Permutation_sym HP)). apply in_seq. lia.
    + rewrite (par_same f sched v d HP); [exact E|]. intros i Hi.
      apply (mapM_each _ _ _ E (i, nth i v d)). apply In_enumerate. apply nth_error_nth'. exact Hi.
Qed.

Lemma apply_op_any P (N : num P) n op input output ioff ooff sched w : Permutation sched (seq 0 (length output)) ->
  (apply_op_par N n op input output ioff ooff sched = Ok w <-> apply_op N n op input output ioff ooff = Ok w) /\
  (apply_op_overwrite_par N n op input output ioff ooff sched = Ok w <-> apply_op_overwrite N n op input output ioff ooff = Ok w).
Proof.
  intros HP. unfold apply_op_par, apply_op, apply_op_overwrite_par, apply_op_overwrite.
  destruct (mat_indices op) as [mi| |]; cbn [bind]; [|split; split; discriminate|split; split; discriminate]. split; apply par_iff; exact HP.
Qed.
Lemma apply_ops_any P (N : num P) n op1 op2 ops input output ioff ooff sched w : Permutation sched (seq 0 (length output)) ->
  (apply_ops_par N n (op1 :: op2 :: ops) input output ioff ooff sched = Ok w <-> apply_ops N n (op1 :: op2 :: ops) input output ioff ooff = Ok w).
Proof.
  intros HP. unfold apply_ops_par, apply_ops. destruct (mapM mat_indices (op1 :: op2 :: ops)) as [mis| |]; cbn [bind]; [|split; discriminate|split; discriminate].
  cbn zeta. apply par_iff. exact HP.
Qed.
Lemma combine_nth' {A B} (a : list A) (b : list B) i x y : nth_error a i = Some x -> nth_error b i = Some y -> nth_error (combine a b) i = Some (x, y).
Proof. revert b i. induction a as [|a0 a IH]; intros [|b0 b] [|i] H1 H2; cbn in *; try discriminate; [congruence|]. apply IH; assumption. Qed.
Lemma cells_any lower rm mm pm (inp out : list C) sched : length inp = length out -> Permutation sched (seq 0 (length out)) ->
  cells_par lower rm mm pm inp out sched = Ok (map (fun '(i, (c, _)) => state_cell lower rm mm pm i c) (enumerate (combine inp out))).
Proof.
  intros L HP. unfold cells_par.
  rewrite (par_for_each_perm _ (fun i _ => state_cell lower rm mm pm i (nth i inp (RtoC 0))) (RtoC 0) sched out HP).
  - f_equal. apply (nth_ext _ _ (RtoC 0) (RtoC 0)). { rewrite !map_length, seq_length, length_enumerate, combine_length. lia. }
    intros i Hi. rewrite map_length, seq_length in Hi. rewrite nth_map_seq by exact Hi. symmetry.
    assert (E : nth_error (enumerate (combine inp out)) i = Some (i, (nth i inp (RtoC 0), nth i out (RtoC 0)))).
    { unfold enumerate. apply combine_nth'.
      - rewrite nth_error_nth' with (d := 0) by (rewrite seq_length, combine_length; lia). rewrite seq_nth by (rewrite combine_length; lia). reflexivity.
      - apply combine_nth'; apply nth_error_nth'; lia. }
    apply nth_error_nth. rewrite nth_error_map, E. reflexivity.
  - intros i Hi. rewrite (@idx_ok _ inp i (RtoC 0)) by lia. reflexivity.
Qed.
Lemma probs_par_any n qs v ioff sched w : Permutation sched (seq 0 (2 ^ length qs)) ->
  (measure_probs_par n qs v ioff sched = Ok w <-> measure_probs n qs v ioff = Ok w).
Proof.
  intros HP. unfold measure_probs_par, measure_probs.
  rewrite (par_iff (fun measured _ => measure_prob n measured qs v ioff) sched (repeat 0%R (2 ^ length qs)) w) by (rewrite repeat_length; exact HP).
  unfold enumerate. rewrite repeat_length. generalize (2 ^ length qs). intros k.
  assert (G : forall s, mapM (fun '(i, _) => measure_prob n i qs v ioff) (combine (seq s k) (repeat 0%R k)) = mapM (fun m => measure_prob n m qs v ioff) (seq s k)).
  { clear. induction k as [|k IH]; intros s; cbn [seq repeat combine mapM]; [reflexivity|]. rewrite IH. reflexivity. }
  rewrite G. reflexivity.
Qed.

Lemma measure_state_any n qs m input output ioff ooff sched :
  Permutation sched (seq 0 (Nat.min (ioff + length input) (ooff + length output) - Nat.max ioff ooff)) ->
  measure_state_par n qs m input output ioff ooff sched = measure_state n qs m input output ioff ooff.
Proof.
  intros HP. unfold measure_state_par, measure_state. destruct m as [m p]. destruct (Req_EM_T p 0); [reflexivity|]. cbn zeta.
  destruct (mapM _ qs) as [rows| |]; cbn [bind]; try reflexivity.
  destruct (mapM _ (enumerate qs)) as [bits| |]; cbn [bind]; try reflexivity.
  set (lo := Nat.max ioff ooff) in *. set (up := Nat.min _ _) in *.
  unfold chk_sub, slice.
  destruct (Nat.leb_spec ioff lo); cbn [bind]; [|reflexivity]. destruct (Nat.leb_spec ioff up); cbn [bind]; [|reflexivity].
  destruct (Nat.leb_spec ooff lo); cbn [bind]; [|reflexivity]. destruct (Nat.leb_spec ooff up); cbn [bind]; [|reflexivity].
  destruct (Nat.leb_spec (lo - ioff) (up - ioff)); cbn [bind andb]; [|reflexivity].
  destruct (Nat.leb_spec (up - ioff) (length input)); cbn [bind andb]; [|reflexivity].
  destruct (Nat.leb_spec (lo - ooff) (up - ooff)); cbn [bind andb]; [|reflexivity].
  destruct (Nat.leb_spec (up - ooff) (length output)); cbn [bind andb]; [|reflexivity].
  rewrite cells_any; [reflexivity| |].
  - rewrite !firstn_length, !skipn_length. lia.
  - rewrite firstn_length, skipn_length. replace (Nat.min (up - ooff - (lo - ooff)) (length output - (lo - ooff))) with (up - lo) by lia. exact HP.
Qed.
