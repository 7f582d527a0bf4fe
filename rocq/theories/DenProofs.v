(** The list simulator computes the textbook meaning. *)
From Coq Require Import Reals QArith Qreals FunctionalExtensionality Lra.
From Coquelicot Require Import Complex.
From Verif Require Import Base BitsSpec BitsProofs OpsModel OpsSpec OpsProofs OpsProofs2 StateOpsModel StateOpsProofs
  Instances ConjSpec ConjProofs UnitaryProofs MeasureModel BuilderModel SimModel DenSpec.
Local Open Scope nat_scope.

Lemma den_nil psi : den [] psi = psi.
Proof. reflexivity. Qed.
Lemma den_cons e p psi : den (e :: p) psi = den p (oden (snd e) (fst e) psi).
Proof. reflexivity. Qed.
Lemma den_app p1 p2 psi : den (p1 ++ p2) psi = den p2 (den p1 psi).
Proof. unfold den. apply fold_left_app. Qed.
Lemma den_one e psi : den [e] psi = oden (snd e) (fst e) psi.
Proof. reflexivity. Qed.

Lemma act1 q M psi x : act CN [q] M psi x =
  (M [x q] [false] * psi (upd x q false) + M [x q] [true] * psi (upd x q true))%C.
Proof. unfold act. cbn. ring. Qed.

Lemma unitary_op_one qs d (m : mat1) :
  length qs = 1 -> length d = 4 ->
  (forall r c, nth (b2n r * 2 + b2n c) d (RtoC 0) = m r c) ->
  exists op, make_matrix_op qs d = Ok op /\ wf_op op /\ op_indices op = qs /\
    forall psi, act CN qs (op_mat CN op) psi = match qs with [q] => on1 m q psi | _ => psi end.
Proof.
  intros Hq Hd Hm. destruct qs as [|q [|? ?]]; cbn in Hq; try discriminate.
  exists (Matrix [q] d). repeat split.
  - unfold make_matrix_op. cbn [length Nat.eqb Nat.mul]. rewrite Hd. reflexivity.
  - exact Hd.
  - intros psi. extensionality x. rewrite act1. unfold on1. cbn [op_mat length].
    rewrite <- !Hm. unfold be. cbn [fold_left]. rewrite !Nat.mul_0_r, !Nat.add_0_l. reflexivity.
Qed.

Lemma rn_1 : (RtoC (-1)) = Copp (RtoC 1).
Proof. unfold RtoC, Copp. cbn. f_equal; ring. Qed.

Lemma unitary_op_ok u qs : wf_unitary u qs -> NoDup qs -> (forall t, u <> UPhase t) ->
  exists op, unitary_op qs u = Ok op /\ wf_op op /\ op_indices op = qs /\
    forall psi, act CN qs (op_mat CN op) psi = uden u qs psi.
Proof.
  intros W ND NP. destruct u; cbn [wf_unitary unitary_op] in *.
  1-6, 9: match goal with |- context [uden ?u] => idtac end;
    destruct qs as [|q [|? ?]]; cbn in W; try discriminate.
  - apply (unitary_op_one [q] _ mX); auto. intros [] []; reflexivity.
  - apply (unitary_op_one [q] _ mY); auto. intros [] []; reflexivity.
  - apply (unitary_op_one [q] _ mZ); auto. intros [] []; try reflexivity. cbn. symmetry. apply rn_1.
  - apply (unitary_op_one [q] _ mH); auto. intros [] []; cbn [nth b2n Nat.mul Nat.add mH andb];
      unfold Cmult, Copp, RtoC; cbn; f_equal; ring.
  - apply (unitary_op_one [q] _ mS); auto. intros [] []; reflexivity.
  - apply (unitary_op_one [q] _ mT); auto. intros [] []; reflexivity.
  - apply (unitary_op_one [q] _ (mRz (angle theta))); auto. intros [] []; reflexivity.
  - destruct qs as [|c [|t [|? ?]]]; cbn in W; try discriminate.
    exists (Control 1 [c; t] (Matrix [t] [RtoC 0; RtoC 1; RtoC 1; RtoC 0])). repeat split; try reflexivity.
    intros psi. extensionality x.
    pose proof (act_control CN CN_laws [c] [t] (Matrix [t] [RtoC 0; RtoC 1; RtoC 1; RtoC 0]) psi x) as H.
    cbn [app length] in H. rewrite H; [|reflexivity|].
    2:{ intros c' [<-|[]] [->|[]]. inversion ND; subst. apply H2. left. reflexivity. }
    cbn [uden ctl_not cflip forallb]. unfold ctl_not, cflip. cbn [forallb].
    destruct (x c); [|reflexivity]. cbn [andb]. rewrite act1. cbn [op_mat length]. unfold be, flip. cbn [fold_left].
    destruct (x t); cbn; ring.
  - destruct W as (Hne & k & Hk).
    assert (Hh : length qs / 2 = k).
    { rewrite Hk. replace (k + k) with (k * 2) by lia. apply Nat.div_mul. lia. }
    assert (L1 : length (firstn k qs) = k) by (rewrite firstn_length; lia).
    assert (L2 : length (skipn k qs) = k) by (rewrite skipn_length; lia).
    assert (Hm : length qs mod 2 =? 0 = true).
    { apply Nat.eqb_eq. rewrite Hk. replace (k + k) with (k * 2) by lia. apply Nat.mod_mul. lia. }
    rewrite Hm, Hh. cbn [negb].
    assert (Hk0 : k <> 0). { destruct qs; [congruence|cbn in Hk; lia]. }
    exists (Swap k qs). repeat split.
    + unfold make_swap_op. rewrite L1, L2. rewrite (proj2 (Nat.eqb_neq k 0) Hk0), Nat.eqb_refl.
      cbn [orb negb]. rewrite firstn_skipn. reflexivity.
    + exact Hk.
    + intros psi. extensionality x. cbn [uden]. rewrite Hh. unfold exchange. rewrite firstn_skipn.
      pose proof (act_swap_qubits CN CN_laws (firstn k qs) (skipn k qs) psi x) as H.
      rewrite L1 in H. rewrite firstn_skipn in H. apply H; [congruence|exact ND| |].
      * intros i Hi.
        assert (Hmap : map (updl x qs (map x (skipn k qs) ++ map x (firstn k qs))) qs
                       = map x (skipn k qs) ++ map x (firstn k qs)).
        { apply updl_map; auto. rewrite app_length, !map_length. lia. }
        set (y := updl x qs (map x (skipn k qs) ++ map x (firstn k qs))) in *.
        assert (G : forall j, j < length qs -> y (nth j qs 0) = nth j (map x (skipn k qs) ++ map x (firstn k qs)) false).
        { intros j Hj. rewrite <- Hmap. rewrite nth_indep with (d' := y 0) by (rewrite map_length; exact Hj).
          rewrite map_nth. reflexivity. }
        split.
        -- pose proof (G i ltac:(lia)) as E. rewrite app_nth1 in E by (rewrite map_length; lia).
           rewrite nth_indep with (d' := x 0) in E by (rewrite map_length; lia). rewrite map_nth in E.
           rewrite <- E. f_equal. rewrite <- (firstn_skipn k qs) at 2. rewrite app_nth1 by lia. reflexivity.
        -- pose proof (G (k + i) ltac:(lia)) as E. rewrite app_nth2 in E by (rewrite map_length; lia).
           rewrite map_length, L2 in E. replace (k + i - k) with i in E by lia.
           rewrite nth_indep with (d' := x 0) in E by (rewrite map_length; lia). rewrite map_nth in E.
           rewrite <- E. f_equal. rewrite <- (firstn_skipn k qs) at 2. rewrite app_nth2 by lia. f_equal. lia.
      * intros q Hq. apply updl_notin. exact Hq.
  - destruct W as (Hne & Hd). exists (Matrix qs data). repeat split; auto.
    unfold make_matrix_op. rewrite Hd, Nat.eqb_refl. destruct qs; [congruence|reflexivity].
  - exfalso. apply (NP theta). reflexivity.
Qed.

Lemma sim_step_plain n draws v arena ms e : wf_entry n e -> plain_entry e ->
  length v = 2 ^ n -> length arena = 2 ^ n ->
  exists v', sim_step n draws (v, arena, ms) e = Ok (v', v, ms) /\ length v' = 2 ^ n /\
    st_of CN n v' = oden (snd e) (fst e) (st_of CN n v).
Proof.
  destruct e as [qs [cn [u|m]]]; intros (ND & R & W) Pl Hv Ha; cbn [fst snd co_obj] in *; [|destruct Pl].
  destruct (unitary_op_ok u qs W ND) as (op & Eop & Wop & Iop & Hact).
  { intros t ->. exact Pl. }
  destruct (apply_op_overwrite_act CN CN_laws n op v arena Wop) as (v' & E & L & H); auto.
  { rewrite Iop. exact R. }
  exists v'. repeat split; auto.
  - unfold sim_step. cbn [co_obj]. destruct u; try (exfalso; exact Pl); rewrite Eop; cbn [bind]; rewrite E; reflexivity.
  - extensionality x. rewrite H, Iop, Hact. reflexivity.
Qed.

Lemma sim_plain n draws p : forall v arena ms, Forall (wf_entry n) p -> Forall plain_entry p ->
  length v = 2 ^ n -> length arena = 2 ^ n ->
  exists v' arena', foldM (sim_step n draws) p (v, arena, ms) = Ok (v', arena', ms) /\
    length v' = 2 ^ n /\ length arena' = 2 ^ n /\ st_of CN n v' = den p (st_of CN n v).
Proof.
  induction p as [|e p IH]; intros v arena ms W Pl Hv Ha.
  - exists v, arena. cbn. auto.
  - inversion W; subst. inversion Pl; subst.
    destruct (sim_step_plain n draws v arena ms e) as (v1 & E & L & H); auto.
    destruct (IH v1 v ms) as (v' & arena' & E' & L1 & L2 & H'); auto.
    exists v', arena'. cbn [foldM]. rewrite E. cbn [bind]. rewrite E'. repeat split; auto.
    rewrite H', den_cons, H. reflexivity.
Qed.

Lemma st_of_basis n i : i < 2 ^ n -> st_of CN n (upd_nth i (RtoC 1) (repeat (RtoC 0) (2 ^ n))) = ket n (dec n i).
Proof.
  intros Hi. extensionality x. unfold st_of, ket. rewrite nth_upd_nth by (rewrite repeat_length; exact Hi).
  rewrite enc_dec by exact Hi. rewrite Nat.eqb_sym. destruct (i =? enc n x); [reflexivity|]. apply nth_repeat.
Qed.
