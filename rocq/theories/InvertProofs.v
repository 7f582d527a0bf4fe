(** Inverting circuits. *)
From Coq Require Import Reals QArith Qreals Lra FunctionalExtensionality Permutation.
From Coquelicot Require Import Complex.
From Verif Require Import Base BitsSpec BitsProofs OpsModel OpsSpec OpsProofs OpsProofs2 StateOpsProofs ConjSpec ConjProofs UnitaryProofs Instances BuilderModel RegProofs DenSpec DenProofs SimSpec SimProofs
  RunSpec RunProofs GateProofs ToffoliProofs SwapProofs RotProofs CondProofs SubSpec.
Local Open Scope nat_scope.

(** *** The matrix loop *)
Section Data.
Context (n : nat) (data : list C).
Let nn := 2 ^ n.
Let f (m : nat) : C := Cconj (nth ((m mod nn) * nn + m / nn) data (RtoC 0)).
Let cur (m : nat) : list C := map f (seq 0 m) ++ repeat (RtoC 0) (nn * nn - m).
Context (HL : length data = nn * nn).
Lemma nn_pos : 0 < nn. Proof. apply Nat.neq_0_lt_0, Nat.pow_nonzero. lia. Qed.
Lemma cur_len m : m <= nn * nn -> length (cur m) = nn * nn.
Proof. intros H. unfold cur. rewrite app_length, map_length, seq_length, repeat_length. lia. Qed.
Lemma cur_step m : m < nn * nn -> upd_nth m (f m) (cur m) = cur (S m).
Proof.
  intros H. unfold cur. replace (nn * nn - m) with (S (nn * nn - S m)) by lia. cbn [repeat].
  rewrite seq_S, map_app, <- app_assoc. cbn [map app Nat.add].
  assert (G : forall (l : list C) x y t, upd_nth (length l) y (l ++ x :: t) = l ++ y :: t).
  { induction l as [|a l IH]; intros; [reflexivity|]. cbn. rewrite IH. reflexivity. }
  pose proof (G (map f (seq 0 m))) as G'. rewrite map_length, seq_length in G'. apply G'.
Qed.
Lemma flat_lt' i j : i < nn -> j < nn -> i * nn + j < nn * nn.
Proof. intros. nia. Qed.
Lemma divmod_flat i j : j < nn -> (i * nn + j) / nn = i /\ (i * nn + j) mod nn = j.
Proof.
  intros H. rewrite Nat.div_add_l, Nat.div_small by lia. rewrite (Nat.add_comm (i * nn)), Nat.mod_add, Nat.mod_small by lia. lia.
Qed.
Lemma inner i : i < nn -> forall k j, j + k = nn -> foldM (fun acc j =>
      let index_a := i * nn + j in let index_b := j * nn + i in
      bind (idx data index_b) (fun v => bind (idx acc index_a) (fun _ => Ok (upd_nth index_a (Cconj v) acc))))
    (seq j k) (cur (i * nn + j)) = Ok (cur (i * nn + nn)).
Proof.
  intros Hi. induction k as [|k IH]; intros j Hj; cbn [seq foldM].
  - rewrite Nat.add_0_r in Hj. subst j. reflexivity.
  - cbv zeta. assert (j < nn) by lia. pose proof (flat_lt' i j Hi H). pose proof (flat_lt' j i H Hi).
    rewrite (@idx_ok C data _ (RtoC 0)) by lia. cbn [bind]. rewrite (@idx_ok C (cur _) _ (RtoC 0)) by (rewrite cur_len by lia; lia). cbn [bind].
    replace (Cconj (nth (j * nn + i) data (RtoC 0))) with (f (i * nn + j)).
    + rewrite cur_step by lia. replace (S (i * nn + j)) with (i * nn + S j) by lia. apply IH. lia.
    + unfold f. destruct (divmod_flat i j) as (-> & ->); [assumption|reflexivity].
Qed.
Lemma invert_data_ok : invert_data n data = Ok (map f (seq 0 (nn * nn))).
Proof.
  unfold invert_data. fold nn.
  assert (G : forall k i, i + k = nn -> foldM (fun acc i => foldM (fun acc j =>
      let index_a := i * nn + j in let index_b := j * nn + i in
      bind (idx data index_b) (fun v => bind (idx acc index_a) (fun _ => Ok (upd_nth index_a (Cconj v) acc)))) (seq 0 nn) acc)
    (seq i k) (cur (i * nn)) = Ok (cur (nn * nn))).
  { induction k as [|k IH]; intros i Hi; cbn [seq foldM].
    - rewrite Nat.add_0_r in Hi. subst i. reflexivity.
    - pose proof (inner i ltac:(lia) nn 0 eq_refl) as E. rewrite Nat.add_0_r in E. cbv zeta in E |- *. rewrite E. cbn [bind].
      replace (i * nn + nn) with (S i * nn) by lia. apply IH. lia. }
  specialize (G nn 0 eq_refl). cbv zeta in G |- *. cbn [Nat.mul] in G. unfold cur in G. cbn [seq map app] in G. rewrite Nat.sub_0_r, Nat.sub_diag, app_nil_r in G. rewrite HL. exact G.
Qed.
Lemma invert_data_nth i j : i < nn -> j < nn -> nth (i * nn + j) (map f (seq 0 (nn * nn))) (RtoC 0) = Cconj (nth (j * nn + i) data (RtoC 0)).
Proof.
  intros Hi Hj. pose proof (flat_lt' i j Hi Hj). rewrite (nth_indep _ _ (f 0)) by (rewrite map_length, seq_length; lia).
  rewrite map_nth, seq_nth by lia. cbn [Nat.add]. unfold f. destruct (divmod_flat i j) as (-> & ->); [assumption|reflexivity].
Qed.
End Data.

(** *** Objects *)
Lemma on1_mul m m' q psi : on1 m q (on1 m' q psi) = on1 (mmul m m') q psi.
Proof. apply (on1f_mul (fun _ => m) (fun _ => m')). intros x p b _. reflexivity. Qed.
Lemma on1_I q psi : on1 mI q psi = psi.
Proof. apply (onall_id [q]). Qed.
Lemma on1_inv m m' q psi : mmul m m' = mI -> on1 m q (on1 m' q psi) = psi.
Proof. intros H. rewrite on1_mul, H. apply on1_I. Qed.
Lemma exchange_invol a b x : NoDup (a ++ b) -> length a = length b -> exchange a b (exchange a b x) = x.
Proof.
  intros N E. destruct (exchange_map2 a b x N E) as (M1 & M2). unfold exchange at 1. rewrite M1, M2. apply updl_unique; [exact N|apply map_app|].
  intros q Hq. symmetry. apply exchange_notin. exact Hq.
Qed.

Ltac msq := unfold mmul; meq; try ring; try (apply injective_projections; cbn; ring).
Lemma mX_inv : mmul mX mX = mI. Proof. unfold mX, mI, diag. msq. Qed.
Lemma mY_inv : mmul mY mY = mI. Proof. unfold mY, mI, diag. msq. Qed.
Lemma mZ_inv : mmul mZ mZ = mI. Proof. unfold mZ, mI, diag. msq. Qed.
Lemma mS_inv2 : mmul mS mSd = mI. Proof. unfold mS, mSd, mI, diag. msq. Qed.
Lemma mT_inv : mmul mTd mT = mI. Proof. unfold mT, mTd, mI, diag, mmul. meq; try ring. pose proof w_wd as W. rewrite Cmult_comm in W. rewrite W. ring. Qed.
Lemma mT_inv2 : mmul mT mTd = mI. Proof. unfold mT, mTd, mI, diag, mmul. meq; try ring. rewrite w_wd. ring. Qed.
Lemma mRz_inv t : mmul (mRz (- t)) (mRz t) = mI.
Proof.
  assert (X : forall u v, (u + v = 0)%R -> Cmult (expi u) (expi v) = RtoC 1) by (intros u v H; rewrite expi_add, H; apply expi_0).
  unfold mRz, mI, diag, mmul. meq; try ring; rewrite X by field; ring.
Qed.
Lemma angle_neg t : angle (rot_neg t) = (- angle t)%R.
Proof. destruct t as [p|q]; [reflexivity|]. cbn. apply Q2R_opp. Qed.

(** What an object and its inverse objects look like. *)
Definition undone (e : list nat * cobj) (cos : list cobj) : Prop :=
  forall psi, den (map (fun co => (fst e, co)) cos) (oden (snd e) (fst e) psi) = psi /\ oden (snd e) (fst e) (den (map (fun co => (fst e, co)) cos) psi) = psi.
Lemma invert_object n e : wf_entry n e -> proper_entry e -> exists cos, invert_circuit_object (snd e) = Ok cos /\ Forall (fun co => wf_entry n (fst e, co) /\ proper_entry (fst e, co)) cos /\ cos <> [] /\ undone e cos.
Proof.
  destruct e as [qs [k o]]. intros (ND & Rg & W) (Pl & U & Sz). cbn [fst snd co_obj co_n] in *. subst k.
  destruct o as [u|m]; [|destruct Pl].
  assert (One : forall u', one_qubit u' = true -> wf_unitary u qs -> length qs = 1 -> wf_entry n (qs, mkCO (length qs) (OUnit u')) /\ proper_entry (qs, mkCO (length qs) (OUnit u'))).
  { intros u' O _ L1. split; [split; [exact ND|split; [exact Rg|]]|split; [|split; [|reflexivity]]]; destruct u'; try discriminate; cbn; auto. }
  unfold invert_circuit_object. cbn [co_obj co_n].
  destruct u; cbn [wf_unitary] in W; try (destruct Pl; fail).
  all: try match type of W with length ?l = 1 => destruct l as [|q [|? ?]]; try discriminate end.
  all: cbn [bind map app co_n].
  all: try (eexists; split; [reflexivity|]; split; [repeat (apply Forall_cons || apply Forall_nil); apply One; reflexivity|]; split; [discriminate|];
    intros psi; cbn [fst snd map]; rewrite ?den_cons, ?den_nil; cbn [fst snd oden co_obj uden]; rewrite ?on1_mul, <- ?mmul_assoc).
  - rewrite mX_inv, on1_I. auto.
  - rewrite mY_inv, on1_I. auto.
  - rewrite mZ_inv, on1_I. auto.
  - rewrite mH_inv, on1_I. auto.
  - rewrite (mmul_assoc mS mZ mS), !mSd_ok, mS_inv, mS_inv2, on1_I. auto.
  - rewrite (mmul_assoc mS mZ mT), (mmul_assoc mT _ mT), mTd_ok, mT_inv, mT_inv2, on1_I. auto.
  - eexists. split; [reflexivity|]. split; [constructor; [|constructor]; split; [split; [exact ND|split; [exact Rg|exact W]]|repeat split; assumption]|]. split; [discriminate|].
    destruct qs as [|c [|t [|? ?]]]; try discriminate. intros psi. cbn [fst snd map]. rewrite !den_one. cbn [fst snd oden co_obj uden].
    assert (c <> t) by (intros ->; inversion ND; subst; cbn in *; tauto).
    assert (X : ctl_not [c] t (ctl_not [c] t psi) = psi); [|rewrite X; auto]. extensionality x. unfold ctl_not, cflip. cbn [forallb].
    destruct (x c) eqn:E; cbn [andb]; [|rewrite E; reflexivity]. unfold flip. rewrite upd_other, E by exact H. cbn. rewrite upd_same, upd_upd, negb_involutive, upd_id. reflexivity.
  - eexists. split; [reflexivity|]. split; [constructor; [|constructor]; split; [split; [exact ND|split; [exact Rg|exact W]]|repeat split; assumption]|]. split; [discriminate|].
    destruct W as (Hne & k & Hk). intros psi. cbn [fst snd map]. rewrite !den_one. cbn [fst snd oden co_obj uden].
    assert (X : forall x, exchange (firstn (length qs / 2) qs) (skipn (length qs / 2) qs) (exchange (firstn (length qs / 2) qs) (skipn (length qs / 2) qs) x) = x).
    { intros x. apply exchange_invol; [rewrite firstn_skipn; exact ND|]. rewrite firstn_length, skipn_length, Hk. replace (k + k) with (k * 2) by lia. rewrite Nat.div_mul by lia. lia. }
    split; extensionality x; cbn beta; rewrite X; reflexivity.
  - rewrite angle_neg. pose proof (mRz_inv (- angle theta)) as R2. rewrite Ropp_involutive in R2. rewrite mRz_inv, R2, on1_I. auto.
  - destruct W as (Hne & Hd). assert (EL : length data = 2 ^ length qs * 2 ^ length qs) by (rewrite Hd, <- Nat.pow_add_r; f_equal; lia).
    pose proof (invert_data_ok (length qs) data EL) as E. cbv zeta in E. rewrite E. cbn [bind map].
    set (d' := map _ (seq 0 _)) in *. eexists. split; [reflexivity|].
    assert (Hn : forall r c, length r = length qs -> length c = length qs ->
      nth (be r * 2 ^ length qs + be c) d' (RtoC 0) = adj Cconj (fun r c => nth (be r * 2 ^ length qs + be c) data (RtoC 0)) r c).
    { intros r c Hr Hc. unfold adj, d'. apply (invert_data_nth (length qs) data EL); [rewrite <- Hr|rewrite <- Hc]; apply be_lt. }
    unfold unitary2_entry in U. cbn [snd fst co_obj] in U. destruct U as (U1 & U2).
    split; [|split; [discriminate|]].
    + constructor; [|constructor]. split.
      * split; [exact ND|]. split; [exact Rg|]. cbn [snd co_obj wf_unitary]. split; [exact Hne|]. unfold d'. rewrite map_length, seq_length, <- Nat.pow_add_r. f_equal. cbn [fst]. lia.
      * split; [exact Logic.I|]. split; [|reflexivity]. cbn [unitary2_entry snd fst co_obj]. split.
        -- eapply unitary_ext; [|exact U2]. intros r c Hr Hc. symmetry. apply Hn; assumption.
        -- eapply unitary_ext; [|exact U1]. intros r c Hr Hc. unfold adj at 1. rewrite Hn by assumption. unfold adj. rewrite (c_invol CN_conj). reflexivity.
    + intros psi. cbn [fst snd map]. rewrite !den_one. cbn [fst snd oden co_obj uden].
      assert (X : forall phi, act CN qs (fun r c => nth (be r * 2 ^ length qs + be c) d' (RtoC 0)) phi = act CN qs (adj Cconj (fun r c => nth (be r * 2 ^ length qs + be c) data (RtoC 0))) phi).
      { intros phi. extensionality x. apply (act_ext CN). exact Hn. }
      rewrite !X. split; extensionality x.
      * apply (unitary_act_inv CN CN_laws Cconj); assumption.
      * pose proof (unitary_act_inv CN CN_laws Cconj qs (adj Cconj (fun r c => nth (be r * 2 ^ length qs + be c) data (RtoC 0))) psi x ND U2) as Y.
        etransitivity; [|exact Y]. apply (act_ext CN). intros r c _ _. unfold adj. symmetry. apply (c_invol CN_conj).
Qed.

(** *** Whole circuits *)
Lemma invert_fold n p : forall acc, Forall (wf_entry n) p -> Forall proper_entry p ->
  exists q, foldM (fun acc e => let '(indices, co) := e in
      bind (invert_circuit_object co) (fun cos => Ok (acc ++ map (fun co => (indices, co)) cos))) p acc = Ok (acc ++ q) /\
  Forall (wf_entry n) q /\ Forall proper_entry q /\ (forall psi, den q (den (rev p) psi) = psi /\ den (rev p) (den q psi) = psi) /\
  (forall j, (exists e, In e p /\ In j (fst e)) -> exists e, In e q /\ In j (fst e)).
Proof.
  induction p as [|e p IH]; intros acc W Pr.
  - exists []. cbn. rewrite app_nil_r. split; [reflexivity|]. split; [constructor|]. split; [constructor|]. split; [intros psi; split; reflexivity|]. intros j (e & [] & _).
  - inversion W; subst. inversion Pr; subst. destruct (invert_object n e) as (cos & E & F & Hne & U); [assumption|assumption|].
    cbn [foldM]. destruct e as [ind co]. cbn [fst snd] in *. rewrite E. cbn [bind].
    destruct (IH (acc ++ map (fun co => (ind, co)) cos)) as (q & Eq & W' & Pr' & I & J); [assumption|assumption|].
    exists (map (fun co => (ind, co)) cos ++ q). split; [rewrite Eq, app_assoc; reflexivity|].
    split; [apply Forall_app; split; [|exact W']; apply Forall_forall; intros x Hx; apply in_map_iff in Hx; destruct Hx as (co' & <- & Hc); rewrite Forall_forall in F; apply F; exact Hc|].
    split; [apply Forall_app; split; [|exact Pr']; apply Forall_forall; intros x Hx; apply in_map_iff in Hx; destruct Hx as (co' & <- & Hc); rewrite Forall_forall in F; apply F; exact Hc|].
    split.
    + intros psi. cbn [rev]. rewrite !den_app, !den_one. cbn [fst snd]. destruct (U (den (rev p) psi)) as (U1 & _). cbn [fst snd] in U1. rewrite U1.
      split; [apply I|]. rewrite (proj2 (I _)). apply (U psi).
    + intros j (x & [<-|Hx] & Hj).
      * destruct cos as [|c0 cos]; [congruence|]. exists (ind, c0). split; [left; reflexivity|exact Hj].
      * destruct (J j) as (y & Hy & Hyj); [exists x; auto|]. exists y. split; [apply in_or_app; right; exact Hy|exact Hyj].
Qed.
Lemma invert_ok n p : Forall (wf_entry n) p -> Forall proper_entry p -> exists q, invert_subcircuit p = Ok q /\
  Forall (wf_entry n) q /\ Forall proper_entry q /\ inverses (den p) (den q) /\ (forall j, (exists e, In e p /\ In j (fst e)) -> exists e, In e q /\ In j (fst e)).
Proof.
  intros W Pr. destruct (invert_fold n (rev p) []) as (q & E & W' & Pr' & I & J); [apply Forall_rev; exact W|apply Forall_rev; exact Pr|].
  exists q. rewrite rev_involutive in I. split; [exact E|]. do 2 (split; [assumption|]). split; [exact I|].
  intros j (e & He & Hj). apply J. exists e. split; [apply -> in_rev; exact He|exact Hj].
Qed.

(** With global phases, and with measurements. *)
Definition phase_entry (e : list nat * cobj) : Prop := match co_obj (snd e) with OUnit (UPhase _) => True | _ => False end.
Lemma gphase_app p q : gphase (p ++ q) = (gphase p + gphase q)%R.
Proof. induction p as [|e p IH]; [change (gphase []) with 0%R; rewrite Rplus_0_l; reflexivity|]. cbn [app gphase fold_right]. fold (gphase (p ++ q)) (gphase p). rewrite IH. destruct (co_obj (snd e)) as [[]|]; ring. Qed.
Lemma gphase_plain p : Forall plain_entry p -> gphase p = 0%R.
Proof. induction 1 as [|e p H F IH]; [reflexivity|]. cbn. fold (gphase p). unfold plain_entry in H. destruct (co_obj (snd e)) as [[]|]; auto; destruct H. Qed.
Lemma invert_fold_phase n p : forall acc, Forall (wf_entry n) p -> Forall (fun e => proper_entry e \/ phase_entry e) p ->
  exists q, foldM (fun acc e => let '(indices, co) := e in
      bind (invert_circuit_object co) (fun cos => Ok (acc ++ map (fun co => (indices, co)) cos))) p acc = Ok (acc ++ q) /\
  (forall psi, den q (den (rev p) psi) = psi /\ den (rev p) (den q psi) = psi) /\ gphase q = (- gphase p)%R.
Proof.
  induction p as [|e p IH]; intros acc W Pr.
  - exists []. cbn. rewrite app_nil_r. split; [reflexivity|]. split; [split; reflexivity|ring].
  - inversion W; subst. inversion Pr; subst.
    assert (G : exists cos, invert_circuit_object (snd e) = Ok cos /\ undone e cos /\ gphase (map (fun co => (fst e, co)) cos) = (- gphase [e])%R).
    { match goal with H : _ \/ _ |- _ => destruct H as [Hp|Hp] end.
      - destruct (invert_object n e) as (cos & E & F & Hne & U); [assumption|assumption|]. exists cos. split; [exact E|]. split; [exact U|].
        rewrite (gphase_plain [e]) by (constructor; [apply Hp|constructor]). rewrite gphase_plain; [ring|].
        apply Forall_forall. intros x Hx. apply in_map_iff in Hx. destruct Hx as (co' & <- & Hc). rewrite Forall_forall in F. apply (F co' Hc).
      - destruct e as [qs [k [[]|]]]; try (destruct Hp; fail). eexists. split; [reflexivity|]. split; [intros psi; split; reflexivity|]. cbn. rewrite angle_neg. ring. }
    destruct G as (cos & E & U & Hg). cbn [foldM]. destruct e as [ind co]. cbn [fst snd] in *. rewrite E. cbn [bind].
    destruct (IH (acc ++ map (fun co => (ind, co)) cos)) as (q & Eq & I & J); [assumption|assumption|].
    exists (map (fun co => (ind, co)) cos ++ q). split; [rewrite Eq, app_assoc; reflexivity|]. split.
    + intros psi. cbn [rev]. rewrite !den_app, !den_one. cbn [fst snd]. destruct (U (den (rev p) psi)) as (U1 & _). cbn [fst snd] in U1. rewrite U1.
      split; [apply I|]. rewrite (proj2 (I _)). apply (U psi).
    + rewrite gphase_app, J, Hg. change ((ind, co) :: p) with ([(ind, co)] ++ p). rewrite gphase_app. ring.
Qed.
Lemma gphase_rev p : gphase (rev p) = gphase p.
Proof. induction p as [|e p IH]; [reflexivity|]. cbn [rev]. rewrite gphase_app, IH. change (e :: p) with ([e] ++ p). rewrite gphase_app. ring. Qed.
Lemma invert_phase n p : Forall (wf_entry n) p -> Forall (fun e => proper_entry e \/ phase_entry e) p -> exists q, invert_subcircuit p = Ok q /\
  inverses (den p) (den q) /\ gphase q = (- gphase p)%R.
Proof.
  intros W Pr. destruct (invert_fold_phase n (rev p) []) as (q & E & I & J); [apply Forall_rev; exact W|apply Forall_rev; exact Pr|].
  exists q. rewrite rev_involutive in I. rewrite gphase_rev in J. auto.
Qed.
Definition sized_matrix (e : list nat * cobj) : Prop := match co_obj (snd e) with OUnit (UMAT d) => length d = 2 ^ (2 * co_n (snd e)) | _ => True end.
Lemma invert_measure p : Forall sized_matrix p -> (exists e m, In e p /\ co_obj (snd e) = OMeas m) -> invert_subcircuit p = Err EMeasureInvert.
Proof.
  intros F (e & m & Hin & Hm). unfold invert_subcircuit. apply Forall_rev in F. apply in_rev in Hin. revert F Hin. generalize ([] : pipe). generalize (rev p). clear p.
  intros p. induction p as [|e' p IH]; intros acc F Hin; [destruct Hin|]. inversion F; subst. cbn [foldM]. destruct e' as [ind co].
  destruct (co_obj co) as [u|m'] eqn:Eo.
  - destruct Hin as [<-|Hin]; [cbn in Hm; congruence|].
    assert (X : exists cos, invert_circuit_object co = Ok cos).
    { unfold invert_circuit_object. rewrite Eo. destruct u; try (eexists; reflexivity). unfold sized_matrix in H1. cbn [snd] in H1. rewrite Eo in H1.
      rewrite invert_data_ok by (rewrite H1, <- Nat.pow_add_r; f_equal; lia). eexists. reflexivity. }
    destruct X as (cos & ->). cbn [bind]. apply IH; assumption.
  - unfold invert_circuit_object. rewrite Eo. reflexivity.
Qed.
