(** Initial values, whole simulations, norms; the stale-buffer defects. *)
From Coq Require Import Reals QArith Qreals FunctionalExtensionality Lra.
From Coquelicot Require Import Complex.
From Verif Require Import Base BitsSpec BitsProofs OpsModel OpsSpec OpsProofs OpsProofs2 StateOpsModel StateOpsProofs
  Instances ConjSpec ConjProofs UnitaryProofs MeasureModel MeasureSpec MeasureProofs MeasureProofs2 BuilderModel SimModel DenSpec DenProofs SimSpec HandleProofs.
Local Open Scope nat_scope.

Lemma testbit_fold_lor l : forall acc i, (forall p b, In (p, b) l -> b = 0 \/ b = 1) ->
  Nat.testbit (fold_left (fun acc '(index, bit) => Nat.lor acc (Nat.shiftl bit index)) l acc) i =
  Nat.testbit acc i || existsb (fun '(p, b) => (p =? i) && (b =? 1)) l.
Proof.
  induction l as [|[p b] l IH]; intros acc i H; cbn [fold_left existsb]; [rewrite orb_false_r; reflexivity|].
  rewrite IH by (intros p' b' Hp; apply (H p' b'); right; exact Hp). rewrite Nat.lor_spec, <- orb_assoc. f_equal. f_equal.
  destruct (H p b (or_introl eq_refl)) as [-> | ->].
  - rewrite Nat.shiftl_0_l, Nat.bits_0. cbn. rewrite andb_false_r. reflexivity.
  - rewrite Nat.shiftl_1_l, Nat.pow2_bits_eqb. rewrite andb_true_r. reflexivity.
Qed.

Lemma mapM_ok {A B} (f : A -> res B) (g : A -> B) l : (forall a, In a l -> f a = Ok (g a)) -> mapM f l = Ok (map g l).
Proof.
  induction l as [|a l IH]; intros H; [reflexivity|]. cbn [mapM map]. rewrite H by (left; reflexivity). cbn [bind].
  rewrite IH by (intros b Hb; apply H; right; exact Hb). reflexivity.
Qed.

Lemma enumerate_In {A} (l : list A) i a : In (i, a) (enumerate l) <-> nth_error l i = Some a.
Proof.
  unfold enumerate. split.
  - intros H. apply In_nth with (d := (0, a)) in H. destruct H as (k & Hk & E). rewrite combine_length, seq_length, Nat.min_id in Hk.
    rewrite combine_nth in E by apply seq_length. rewrite seq_nth in E by exact Hk. inversion E. cbn in *. subst. transitivity (Some (nth i l a)); [apply nth_error_nth'; exact Hk|congruence].
  - intros H. assert (Hi : i < length l) by (apply nth_error_Some; congruence).
    apply nth_error_nth with (d := a) in H. replace (i, a) with (nth i (combine (seq 0 (length l)) l) (0, a)).
    + apply nth_In. rewrite combine_length, seq_length, Nat.min_id. exact Hi.
    + rewrite combine_nth by apply seq_length. rewrite seq_nth by exact Hi. rewrite H. reflexivity.
Qed.

Definition init_pair (n rn x : nat) (e : nat * nat) : nat * nat := let '(ri, i) := e in (n - 1 - i, b2n (Nat.testbit x (rn - 1 - ri))).
Lemma init_bits_ok n r x : in_range n r -> init_bits n (r, x) = Ok (map (init_pair n (length r) x) (enumerate (rev r))).
Proof.
  intros H. unfold init_bits. cbn zeta. apply mapM_ok. intros [ri i] Hin. apply enumerate_In in Hin.
  assert (L : ri < length r). { rewrite <- rev_length. apply nth_error_Some. congruence. }
  assert (Hi : i < n). { apply H. apply in_rev. eapply nth_error_In. exact Hin. }
  unfold chk_sub. rewrite (proj2 (Nat.leb_le 1 n)) by lia. cbn [bind]. rewrite (proj2 (Nat.leb_le i (n - 1))) by lia. cbn [bind].
  rewrite (proj2 (Nat.leb_le 1 (length r))) by lia. cbn [bind]. rewrite (proj2 (Nat.leb_le ri (length r - 1))) by lia. cbn [bind init_pair].
  rewrite land1_b2n. reflexivity.
Qed.

Lemma initial_index_ok n it x : (forall r v, In (r, v) it -> in_range n r) -> loads it x -> initial_index n it = Ok (enc n x).
Proof.
  intros R (L1 & L2). unfold initial_index.
  rewrite (mapM_ok (init_bits n) (fun rx => map (init_pair n (length (fst rx)) (snd rx)) (enumerate (rev (fst rx))))).
  2:{ intros [r v] Hin. apply init_bits_ok. eapply R. exact Hin. }
  cbn [bind]. f_equal. apply Nat.bits_inj. intros k. rewrite testbit_fold_lor.
  2:{ intros p b Hin. apply in_concat in Hin. destruct Hin as (l & Hl & Hin). apply in_map_iff in Hl. destruct Hl as ([r v] & <- & _).
      apply in_map_iff in Hin. destruct Hin as ([ri i] & E & _). inversion E. destruct (Nat.testbit _ _); cbn; auto. }
  rewrite Nat.bits_0. cbn [orb]. rewrite testbit_enc.
  apply Bool.eq_iff_eq_true. rewrite existsb_exists, andb_true_iff, Nat.ltb_lt. split.
  - intros ([p b] & Hin & E). apply andb_true_iff in E. destruct E as (E1 & E2). apply Nat.eqb_eq in E1. apply Nat.eqb_eq in E2. subst p b.
    apply in_concat in Hin. destruct Hin as (l & Hl & Hin). apply in_map_iff in Hl. destruct Hl as ([r v] & <- & Hrv). cbn [fst snd] in Hin.
    apply in_map_iff in Hin. destruct Hin as ([ri i] & E & Hin). apply enumerate_In in Hin. cbn [init_pair] in E. injection E as E1 E2.
    assert (Lr : ri < length r). { rewrite <- rev_length. apply nth_error_Some. congruence. }
    assert (Hi : i < n). { apply (R r v Hrv). apply in_rev. eapply nth_error_In. exact Hin. }
    split; [lia|]. replace (n - 1 - k) with i by lia.
    apply nth_error_nth with (d := 0) in Hin. rewrite rev_nth in Hin by exact Lr.
    specialize (L1 r v Hrv (length r - S ri) ltac:(lia)). rewrite Hin in L1. rewrite L1.
    replace (length r - S ri) with (length r - 1 - ri) by lia. destruct (Nat.testbit v (length r - 1 - ri)); [reflexivity|discriminate].
  - intros (Hk & E). set (q := n - 1 - k) in *.
    destruct (in_dec Nat.eq_dec q (concat (map fst it))) as [Hq|Hq].
    2:{ rewrite L2 in E; [discriminate|]. intros r v Hrv Hq'. apply Hq. apply in_concat. exists r. split; [|exact Hq'].
        apply in_map_iff. exists (r, v). auto. }
    apply in_concat in Hq. destruct Hq as (r & Hr & Hq). apply in_map_iff in Hr. destruct Hr as ([r' v] & E' & Hrv). cbn in E'. subst r'.
    apply In_nth with (d := 0) in Hq. destruct Hq as (j & Hj & Eq).
    exists (k, 1). split; [|rewrite Nat.eqb_refl; reflexivity].
    apply in_concat. exists (map (init_pair n (length r) v) (enumerate (rev r))). split.
    { apply in_map_iff. exists (r, v). auto. }
    apply in_map_iff. exists (length r - S j, q). split.
    + cbn [init_pair]. f_equal; [unfold q; lia|]. replace (length r - 1 - (length r - S j)) with j by lia.
      rewrite <- (L1 r v Hrv j Hj), Eq, E. reflexivity.
    + apply enumerate_In. rewrite nth_error_nth' with (d := 0) by (rewrite rev_length; lia). rewrite rev_nth by lia.
      replace (length r - S (length r - S j)) with j by lia. rewrite Eq. reflexivity.
Qed.

Lemma dec_enc_ket n x : ket n (dec n (enc n x)) = ket n x.
Proof.
  extensionality y. unfold ket. rewrite enc_dec by apply enc_lt. reflexivity.
Qed.

(** Whole simulation of a plain pipeline. *)
Lemma sim_start n i : i < 2 ^ n -> idx (repeat (RtoC 0) (2 ^ n)) i = Ok (RtoC 0).
Proof. intros H. rewrite (@idx_ok _ _ _ (RtoC 0)) by (rewrite repeat_length; exact H). rewrite nth_repeat. reflexivity. Qed.

Lemma simulate_ok b it x draws : (forall r v, In (r, v) it -> in_range (bn b) r) -> loads it x ->
  Forall (wf_entry (bn b)) (pipeline b) -> Forall plain_entry (pipeline b) ->
  exists v, calculate_state_with_init b it draws = Ok (v, []) /\ length v = 2 ^ bn b /\
    st_of CN (bn b) v = den (pipeline b) (ket (bn b) x).
Proof.
  intros R L W Pl. unfold calculate_state_with_init. rewrite (initial_index_ok _ _ x R L). cbn [bind].
  rewrite sim_start by apply enc_lt. cbn [bind].
  destruct (sim_plain (bn b) draws (pipeline b) (upd_nth (enc (bn b) x) (RtoC 1) (repeat (RtoC 0) (2 ^ bn b))) (repeat (RtoC 0) (2 ^ bn b)) [] W Pl)
    as (v & a & E & L1 & L2 & H).
  - rewrite upd_nth_length. apply repeat_length.
  - apply repeat_length.
  - rewrite E. exists v. repeat split; auto. rewrite H, st_of_basis, dec_enc_ket by apply enc_lt. reflexivity.
Qed.

(** *** Norms *)
Definition mat_of (m : mat1) : list bool -> list bool -> C := fun r c => m (hd false r) (hd false c).
Lemma Cconj_RtoC r : Cconj (RtoC r) = RtoC r.
Proof. unfold Cconj, RtoC. cbn. f_equal. ring. Qed.
Lemma unitary1 m : 
  Cplus (Cmult (Cconj (m false false)) (m false false)) (Cmult (Cconj (m true false)) (m true false)) = RtoC 1 ->
  Cplus (Cmult (Cconj (m false true)) (m false true)) (Cmult (Cconj (m true true)) (m true true)) = RtoC 1 ->
  Cplus (Cmult (Cconj (m false false)) (m false true)) (Cmult (Cconj (m true false)) (m true true)) = RtoC 0 ->
  Cplus (Cmult (Cconj (m false true)) (m false false)) (Cmult (Cconj (m true true)) (m true false)) = RtoC 0 ->
  unitary_mat CN Cconj 1 (mat_of m).
Proof.
  intros H1 H2 H3 H4 r c Hr Hc. destruct r as [|b [|? ?]]; try discriminate. destruct c as [|d [|? ?]]; try discriminate.
  unfold mmul, adj, mat_of. cbn [bools map app big hd nadd nmul n0 CN].
  transitivity (Cplus (Cmult (Cconj (m false b)) (m false d)) (Cmult (Cconj (m true b)) (m true d))); [ring|].
  destruct b, d; rewrite ?H1, ?H2, ?H3, ?H4; reflexivity.
Qed.
Lemma unitary_diag a b : Cmult (Cconj a) a = RtoC 1 -> Cmult (Cconj b) b = RtoC 1 -> unitary_mat CN Cconj 1 (mat_of (diag a b)).
Proof.
  intros H1 H2. apply unitary1; cbn; rewrite ?H1, ?H2, ?Cconj_RtoC; ring.
Qed.
Lemma expi_unit t : Cmult (Cconj (expi t)) (expi t) = RtoC 1.
Proof.
  unfold expi, Cconj, Cmult, RtoC. cbn. f_equal; [|ring]. pose proof (sin2_cos2 t) as H. unfold Rsqr in H. lra.
Qed.
Lemma Ci_unit : Cmult (Cconj Ci) Ci = RtoC 1.
Proof. unfold Ci, Cconj, Cmult, RtoC. cbn. f_equal; ring. Qed.
Lemma sqrt2_half : (/ sqrt 2 * / sqrt 2 = / 2)%R.
Proof. rewrite <- Rinv_mult. rewrite sqrt_sqrt by lra. reflexivity. Qed.

Definition gate_mat (u : unitary) : mat1 :=
  match u with UX => mX | UY => mY | UZ => mZ | UH => mH | US => mS | UT => mT | URz t => mRz (angle t) | _ => mX end.
Lemma gate_unitary u : match u with UX | UY | UZ | UH | US | UT | URz _ => unitary_mat CN Cconj 1 (mat_of (gate_mat u)) | _ => True end.
Proof.
  destruct u; try exact I; cbn [gate_mat].
  - apply unitary1; cbn; rewrite ?Cconj_RtoC; ring.
  - apply unitary1; cbn; rewrite ?Cconj_RtoC; unfold Ci, Cconj, Cmult, Cplus, Copp, RtoC; cbn; f_equal; ring.
  - apply unitary_diag; rewrite Cconj_RtoC; unfold Cmult, RtoC; cbn; f_equal; ring.
  - pose proof sqrt2_half. apply unitary1; cbn; rewrite ?Cconj_RtoC; rewrite <- ?RtoC_mult, <- ?RtoC_plus; f_equal; nra.
  - apply unitary_diag; [rewrite Cconj_RtoC; ring|apply Ci_unit].
  - apply unitary_diag; [rewrite Cconj_RtoC; ring|apply expi_unit].
  - apply unitary_diag; apply expi_unit.
Qed.

Lemma on1_act m q psi : on1 m q psi = act CN [q] (mat_of m) psi.
Proof. extensionality x. rewrite act1. reflexivity. Qed.

Definition isometry (n : nat) (D : state -> state) : Prop :=
  forall phi psi, ip CN Cconj n (D phi) (D psi) = ip CN Cconj n phi psi.

Lemma act_isometry n qs Mx : NoDup qs -> in_range n qs -> unitary_mat CN Cconj (length qs) Mx -> isometry n (act CN qs Mx).
Proof. intros ND R U phi psi. apply (unitary_ip CN CN_laws Cconj CN_conj n qs Mx phi psi ND R U). Qed.

Lemma uden_isometry n u qs : NoDup qs -> in_range n qs -> wf_unitary u qs -> unitary_entry (qs, mkCO (length qs) (OUnit u)) -> isometry n (uden u qs).
Proof.
  intros ND R W U. pose proof (gate_unitary u) as G.
  destruct u; cbn [wf_unitary gate_mat] in *.
  1-6, 9: destruct qs as [|q [|? ?]]; cbn in W; try discriminate; intros phi psi; cbn [uden]; rewrite !on1_act;
    apply (act_isometry n [q]); auto.
  - destruct qs as [|c [|t [|? ?]]]; cbn in W; try discriminate.
    destruct (unitary_op_ok UCNOT [c; t] eq_refl ND ltac:(discriminate)) as (op & E & Wop & Iop & H).
    intros phi psi. rewrite <- !H. apply (act_isometry n [c; t]); auto. cbn in E. inversion E; subst op.
    apply (control_unitary CN CN_laws Cconj CN_conj 1 [c; t]); [reflexivity|]. cbn [op_indices length].
    pose proof (gate_unitary UX) as GX. cbn in GX. eapply unitary_ext; [|exact GX].
    intros r c' Hr Hc. destruct r as [|b [|? ?]]; try discriminate. destruct c' as [|d [|? ?]]; try discriminate. destruct b, d; reflexivity.
  - destruct (unitary_op_ok USWAP qs W ND ltac:(discriminate)) as (op & E & Wop & Iop & H).
    intros phi psi. rewrite <- !H. apply (act_isometry n qs); auto.
    destruct W as (Hne & k & Hk). cbn [unitary_op] in E.
    destruct (negb _); [discriminate|]. unfold make_swap_op in E. destruct (_ || _); [discriminate|]. destruct (negb _); [discriminate|]. injection E as E. subst op. cbn [wf_op op_indices] in Wop, Iop.
    rewrite Iop in Wop |- *. apply (swap_unitary CN CN_laws Cconj CN_conj). exact Wop.
  - intros phi psi. cbn [uden]. apply (act_isometry n qs); auto.
  - intros phi psi. reflexivity.
Qed.

Lemma oden_isometry n e : wf_entry n e -> unitary_entry e -> isometry n (oden (snd e) (fst e)).
Proof.
  destruct e as [qs [k [u|m]]]; intros (ND & R & W) U; cbn [fst snd co_obj] in *.
  - apply uden_isometry; auto.
  - intros phi psi. reflexivity.
Qed.
Lemma den_isometry n p : Forall (wf_entry n) p -> Forall unitary_entry p -> isometry n (den p).
Proof.
  induction p as [|e p IH]; intros W U phi psi; [reflexivity|]. inversion W; subst. inversion U; subst.
  rewrite !den_cons. rewrite IH by assumption. apply oden_isometry; assumption.
Qed.

Lemma norm2_basis n i : i < 2 ^ n -> norm2 (upd_nth i (RtoC 1) (repeat (RtoC 0) (2 ^ n))) = 1%R.
Proof.
  generalize (2 ^ n). intros k. revert i. induction k as [|k IH]; intros i Hi; [lia|]. destruct i; cbn [repeat upd_nth norm2 fold_right].
  - rewrite Cmod_1. fold (norm2 (repeat (RtoC 0) k)). assert (Z : norm2 (repeat (RtoC 0) k) = 0%R).
    { clear. induction k; [reflexivity|]. cbn [repeat norm2 fold_right]. fold (norm2 (repeat (RtoC 0) k)). rewrite IHk, Cmod_0. ring. }
    rewrite Z. ring.
  - rewrite Cmod_0. fold (norm2 (upd_nth i (RtoC 1) (repeat (RtoC 0) k))). rewrite IH by lia. ring.
Qed.

Lemma simulate_norm b it x draws : (forall r v, In (r, v) it -> in_range (bn b) r) -> loads it x ->
  Forall (wf_entry (bn b)) (pipeline b) -> Forall plain_entry (pipeline b) -> Forall unitary_entry (pipeline b) ->
  exists v, calculate_state_with_init b it draws = Ok (v, []) /\ norm2 v = 1%R.
Proof.
  intros R L W Pl U. destruct (simulate_ok b it x draws R L W Pl) as (v & E & Lv & H). exists v. split; [exact E|].
  apply RtoC_inj. rewrite <- (ip_norm2 (bn b)) by exact Lv. rewrite H, (den_isometry (bn b)) by assumption.
  rewrite <- dec_enc_ket, <- st_of_basis by apply enc_lt. rewrite ip_norm2 by (rewrite upd_nth_length; apply repeat_length).
  rewrite norm2_basis by apply enc_lt. reflexivity.
Qed.

(** *** Measuring an initial value *)
Lemma prob_magnitude_norm2 v : prob_magnitude v = norm2 v.
Proof. rewrite prob_magnitude_ok. induction v as [|a v IH]; [reflexivity|]. cbn [rsum norm2 fold_right]. rewrite IH. reflexivity. Qed.

Lemma born_basis n qs m i : i < 2 ^ n -> born n qs m 0 (upd_nth i (RtoC 1) (repeat (RtoC 0) (2 ^ n))) = if shows qs m (dec n i) then 1%R else 0%R.
Proof.
  intros Hi. rewrite born_full. rewrite (rsum_single _ _ i).
  - rewrite nth_upd_nth by (rewrite repeat_length; exact Hi). rewrite Nat.eqb_refl, Cmod_1. destruct (shows _ _ _); ring.
  - apply seq_NoDup.
  - apply in_seq. lia.
  - intros j Hj Hne. rewrite nth_upd_nth by (rewrite repeat_length; exact Hi). rewrite (proj2 (Nat.eqb_neq j i) Hne), nth_repeat, Cmod_0.
    destruct (shows _ _ _); ring.
Qed.

Lemma measure_initial b it x draws r v k p2 : (forall r v, In (r, v) it -> in_range (bn b) r) -> loads it x -> In (r, v) it -> NoDup r ->
  (0 < draws 0%nat <= 1)%R -> pipeline b = (r, mkCO k (OMeas MSingle)) :: p2 ->
  forall st' ms, calculate_state_with_init b it draws = Ok (st', ms) -> get_measurement ms 0 = Ok (v mod 2 ^ length r, 1%R).
Proof.
  intros R L Hin ND Hd E st' ms H. apply calculate_inv in H. destruct H as (i & a & Hi & Hlt & H).
  rewrite (initial_index_ok _ _ x R L) in Hi. inversion Hi; subst i. clear Hi. rewrite E in H. apply (sim_single _ _ []) in H.
  destruct H as (v0 & a0 & ms0 & m & p & w & E0 & _ & Em & G). cbn [ConserveProofs.nmeas filter length] in *.
  cbn in E0. inversion E0; subst v0 a0 ms0. clear E0.
  set (v0 := upd_nth (enc (bn b) x) (RtoC 1) (repeat (RtoC 0) (2 ^ bn b))) in *.
  destruct (measure_ok (draws 0) (bn b) r v0 (repeat (RtoC 0) (2 ^ bn b))) as (m' & p' & w' & E' & _ & Hm & Hp & Hpos & _).
  - apply (R r v Hin).
  - exact ND.
  - unfold v0. rewrite upd_nth_length. apply repeat_length.
  - apply repeat_length.
  - rewrite prob_magnitude_norm2. apply norm2_basis, enc_lt.
  - exact Hd.
  - rewrite E' in Em. inversion Em; subst m p w. rewrite G. f_equal.
    rewrite Hp in *. unfold v0 in *. rewrite born_basis in * by apply enc_lt.
    destruct (shows r m' (dec (bn b) (enc (bn b) x))) eqn:S; [|lra]. f_equal.
    apply shows_mbits in S. apply (mbits_inj (length r)); [exact Hm|apply Nat.mod_upper_bound, Nat.pow_nonzero; lia|].
    rewrite <- S. apply nth_ext with (d := false) (d' := false); rewrite map_length; [rewrite length_mbits; reflexivity|].
    intros j Hj. rewrite nth_mbits by exact Hj. rewrite nth_indep with (d' := dec (bn b) (enc (bn b) x) 0) by (rewrite map_length; exact Hj).
    rewrite map_nth, dec_enc. rewrite (proj2 (Nat.ltb_lt _ _) (R r v Hin _ (nth_In r 0 Hj))). cbn [andb].
    rewrite (proj1 L r v Hin j Hj). rewrite Nat.mod_pow2_bits_low by exact Hj. reflexivity.
Qed.
