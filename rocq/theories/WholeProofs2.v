(** The joint distribution of the outcomes of a circuit. *)
From Coq Require Import Reals Lra FunctionalExtensionality.
From Coquelicot Require Import Hierarchy RInt Complex.
From Verif Require Import Base BitsModel BitsSpec BitsProofs BitsProofs2 OpsModel OpsSpec OpsProofs ConjSpec Instances UnitaryProofs MeasureModel MeasureSpec MeasureProofs MeasureProofs2
  BuilderModel SimModel DenSpec DenProofs SimSpec SimProofs LocalProofs HandleProofs ProjSpec WholeSpec WholeProofs.
Local Open Scope nat_scope.


Lemma act_scaled qs M c psi : act CN qs M (scaled c psi) = scaled c (act CN qs M psi).
Proof.
  extensionality x. unfold act, scaled. induction (bools (length qs)) as [|b l IH]; cbn [big]; [cbn; ring|]. rewrite IH. cbn. ring.
Qed.
Lemma uden_scaled u qs c psi : uden u qs (scaled c psi) = scaled c (uden u qs psi).
Proof.
  assert (O : forall m q, on1 m q (scaled c psi) = scaled c (on1 m q psi)) by (intros; extensionality x; unfold on1, scaled; ring).
  destruct u; try (destruct qs as [|q [|q' [|? ?]]]; cbn [uden]; rewrite ?O; reflexivity).
  cbn [uden]. destruct qs; apply act_scaled.
Qed.
Lemma proj_scaled qs m c psi : proj qs m (scaled c psi) = scaled c (proj qs m psi).
Proof. extensionality x. unfold proj, scaled. destruct (shows qs m x); [reflexivity|ring]. Qed.
Lemma branch_scaled p : forall ms c psi, branch p ms (scaled c psi) = scaled c (branch p ms psi).
Proof.
  induction p as [|[qs co] p IH]; intros ms c psi; cbn [branch]; [reflexivity|]. destruct (co_obj co).
  - rewrite uden_scaled. apply IH.
  - destruct ms; [|rewrite proj_scaled]; apply IH.
Qed.
Lemma weight_scaled n c psi : weight n (scaled c psi) = (Cmod c ^ 2 * weight n psi)%R.
Proof. unfold weight, below, scaled. rewrite <- rsum_mul. apply rsum_ext. intros i _. rewrite Cmod_mult. ring. Qed.
Lemma post_scaled n qs m psi : post n qs m psi = scaled (RtoC (/ sqrt (prob_of n qs m psi))) (proj qs m psi).
Proof. extensionality x. unfold post, scaled, proj. destruct (shows qs m x); [reflexivity|ring]. Qed.
Lemma prob_weight n qs m psi : prob_of n qs m psi = weight n (proj qs m psi).
Proof. unfold prob_of, weight, below, proj. apply rsum_ext. intros i _. destruct (shows qs m (dec n i)); [reflexivity|]. rewrite Cmod_0. ring. Qed.

(** *** Integrals over the draws *)
Lemma over_draws_ext k : forall F G a, (forall d, F d = G d) -> over_draws k F a -> over_draws k G a.
Proof.
  induction k as [|k IH]; cbn [over_draws]; intros F G a E H.
  - intros d. rewrite <- E. apply H.
  - destruct H as (g & H & I). exists g. split; [|exact I]. intros r Hr. eapply IH; [|apply H; exact Hr]. intros d. apply E.
Qed.
Lemma over_draws_zero k : forall F, (forall d, F d = 0%R) -> over_draws k F 0%R.
Proof.
  induction k as [|k IH]; cbn [over_draws]; intros F E; [exact E|].
  exists (fun _ => 0%R). split; [intros r _; apply IH; intros d; apply E|].
  assert (I := is_RInt_const 0 1 0%R). unfold scal in I. cbn in I. unfold mult in I. cbn in I. rewrite Rmult_0_r in I. exact I.
Qed.

(** *** Draws a run looks at *)
Lemma fold_draws n d1 d2 p : forall v a ms, (forall j, length ms <= j -> d1 j = d2 j) ->
  foldM (sim_step n d1) p (v, a, ms) = foldM (sim_step n d2) p (v, a, ms).
Proof.
  induction p as [|e p IH]; intros v a ms H; [reflexivity|]. cbn [foldM].
  assert (E : sim_step n d1 (v, a, ms) e = sim_step n d2 (v, a, ms) e).
  { destruct e as [qs [k [u|[]]]]; try reflexivity. unfold sim_step. cbn [co_obj]. rewrite H by lia. reflexivity. }
  rewrite E. destruct (sim_step n d2 (v, a, ms) e) as [[[v1 a1] ms1]| |] eqn:S; cbn [bind]; try reflexivity.
  apply IH. intros j Hj. apply H. apply sim_step_results in S. destruct S as (l & -> & _). rewrite app_length in Hj. lia.
Qed.

Definition gives' (r : res sim_state) (ms : list nat) : R :=
  match r with Ok (_, rs) => if list_eq_dec Nat.eq_dec (map value rs) ms then 1%R else 0%R | _ => 0%R end.
Lemma gives_not n d p v a ms0 ms r m : value r <> m ->
  gives' (foldM (sim_step n d) p (v, a, ms0 ++ [r])) (map value ms0 ++ m :: ms) = 0%R.
Proof.
  intros H. unfold gives'. destruct (foldM _ _ _) as [[[v' a'] ms']| |] eqn:E; try reflexivity.
  apply sim_results in E. destruct E as (l & -> & _). destruct (list_eq_dec _ _ _) as [E|]; [|reflexivity].
  exfalso. rewrite <- app_assoc, map_app in E. apply app_inv_head in E. cbn [map app] in E. congruence.
Qed.

Lemma proj_zero n qs m v : in_range n qs -> prob_of n qs m (st_of CN n v) = 0%R -> proj qs m (st_of CN n v) = scaled (RtoC 0) (proj qs m (st_of CN n v)).
Proof.
  intros R Z. extensionality x. unfold scaled. rewrite Cmult_0_l. unfold proj. destruct (shows qs m x) eqn:S; [|reflexivity].
  assert (S' : shows qs m (dec n (enc n x)) = true).
  { rewrite <- S. apply shows_ext. intros q Hq. rewrite dec_enc. rewrite (proj2 (Nat.ltb_lt q n)) by (apply R; exact Hq). reflexivity. }
  destruct (Ceq_dec (st_of CN n v x) (RtoC 0)) as [E|NE]; [exact E|]. exfalso.
  assert (P : (0 < prob_of n qs m (st_of CN n v))%R); [|lra].
  unfold prob_of. apply rsum_pos with (a := enc n x).
  - intros i _. destruct (shows qs m (dec n i)); [apply pow2_ge_0|lra].
  - apply in_seq. assert (B := enc_lt n x). lia.
  - rewrite S'. rewrite nth_st by apply enc_lt. apply pow_lt. apply Cmod_gt_0. exact NE.
Qed.
Lemma weight_post n p ms qs m v : in_range n qs -> (0 <= prob_of n qs m (st_of CN n v))%R ->
  (prob_of n qs m (st_of CN n v) * weight n (branch p ms (post n qs m (st_of CN n v))) = weight n (branch p ms (proj qs m (st_of CN n v))))%R.
Proof.
  intros R H. destruct (Req_dec (prob_of n qs m (st_of CN n v)) 0) as [Z|Z].
  - rewrite Z, Rmult_0_l. rewrite (proj_zero n qs m v R Z), branch_scaled, weight_scaled, Cmod_0. ring.
  - rewrite post_scaled, branch_scaled, weight_scaled, Cmod_R, pow2_abs. set (q := prob_of n qs m (st_of CN n v)) in *.
    rewrite pow_inv, pow2_sqrt by lra. field. exact Z.
Qed.

Lemma mag_isometry n v v' e : wf_entry n e -> unitary_entry e -> length v = 2 ^ n -> length v' = 2 ^ n ->
  st_of CN n v' = oden (snd e) (fst e) (st_of CN n v) -> prob_magnitude v' = prob_magnitude v.
Proof.
  intros W U Lv Lv' H. rewrite !prob_magnitude_norm2. apply RtoC_inj. rewrite <- !(ip_norm2 n) by assumption. rewrite H. apply oden_isometry; assumption.
Qed.

Lemma joint n p : forall v a ms0 ms, Forall (wf_entry n) p -> Forall unitary_entry p -> Forall gate_or_meas p ->
  length v = 2 ^ n -> length a = 2 ^ n -> prob_magnitude v = 1%R -> Forall2 (fun qs m => m < 2 ^ length qs) (measured p) ms ->
  over_draws (length ms) (fun d => gives' (foldM (sim_step n (fun j => d (j - length ms0))) p (v, a, ms0)) (map value ms0 ++ ms)) (weight n (branch p ms (st_of CN n v))).
Proof.
  induction p as [|e p IH]; intros v a ms0 ms W U G Lv La Nv O.
  - cbn [measured] in O. inversion O; subst. cbn [length over_draws branch foldM]. intros d. unfold gives'. rewrite app_nil_r.
    destruct (list_eq_dec _ _ _); [|congruence]. rewrite weight_mag by exact Lv. symmetry. exact Nv.
  - inversion W as [|? ? We Wp]; subst. inversion U as [|? ? Ue Up]; subst. inversion G as [|? ? Ge Gp]; subst. destruct e as [qs [k [u|[]]]]; [| |destruct Ge].
    + assert (Pl : plain_entry (qs, mkCO k (OUnit u))) by (unfold plain_entry, gate_or_meas in *; cbn in *; destruct u; exact Ge).
      destruct (sim_step_plain n (fun _ => 0%R) v a ms0 _ We Pl Lv La) as (v' & E & L' & H).
      assert (Nv' : prob_magnitude v' = 1%R) by (rewrite (mag_isometry n v v' _ We Ue Lv L' H); exact Nv).
      cbn [measured co_obj] in O. cbn [branch co_obj]. cbn [fst snd oden co_obj] in H. unfold oden in H. cbn [co_obj] in H. rewrite <- H.
      eapply over_draws_ext; [|apply (IH v' v ms0 ms Wp Up Gp L' Lv Nv' O)]. intros d. cbn beta. cbn [foldM].
      replace (sim_step n (fun j => d (j - length ms0)) (v, a, ms0) (qs, mkCO k (OUnit u))) with (sim_step n (fun _ => 0%R) (v, a, ms0) (qs, mkCO k (OUnit u))) by reflexivity.
      rewrite E. cbn [bind]. reflexivity.
    + cbn [measured co_obj] in O. inversion O as [|? m ? ms' Hm O']; subst. destruct We as (ND & R & _). cbn [fst snd] in *.
      cbn [branch co_obj length over_draws]. set (Wt := weight n (branch p ms' (post n qs m (st_of CN n v)))).
      exists (fun r => scal Wt (indicator (soft_measure r n qs v 0) m)). split.
      * intros r Hr. destruct (measure_ok r n qs v a R ND Lv La Nv ltac:(lra)) as (m1 & p1 & w & E & E1 & Hm1 & Ep & Pp & Lw & Nw & _ & Hw).
        rewrite E1. unfold indicator.
        assert (F : forall d, foldM (sim_step n (fun j => then_draws r d (j - length ms0))) ((qs, mkCO k (OMeas MSingle)) :: p) (v, a, ms0) =
          foldM (sim_step n (fun j => d (j - length (ms0 ++ [RSingle m1 p1])))) p (w, v, ms0 ++ [RSingle m1 p1])).
        { intros d. cbn [foldM]. unfold sim_step at 1. cbn [co_obj]. rewrite Nat.sub_diag. cbn [then_draws]. rewrite E. cbn [bind].
          apply fold_draws. intros j Hj. rewrite app_length in *. cbn [length] in *. replace (j - length ms0) with (S (j - (length ms0 + 1))) by lia. reflexivity. }
        destruct (Nat.eqb_spec m1 m) as [->|Ne].
        -- assert (Sw : st_of CN n w = post n qs m (st_of CN n v)).
           { extensionality x. unfold post. rewrite prob_born, <- Ep. unfold st_of. rewrite Hw by apply enc_lt.
             rewrite (shows_ext qs m (dec n (enc n x)) x).
             - destruct (shows qs m x); [|reflexivity]. unfold Rdiv. rewrite Rmult_1_l, Cmult_comm. reflexivity.
             - intros q Hq. rewrite dec_enc. rewrite (proj2 (Nat.ltb_lt q n)) by (apply R; exact Hq). reflexivity. }
           assert (X := IH w v (ms0 ++ [RSingle m p1]) ms' Wp Up Gp Lw Lv Nw O'). rewrite Sw in X. fold Wt in X.
           replace (scal Wt 1%R) with Wt by (unfold scal; cbn; unfold mult; cbn; ring).
           eapply over_draws_ext; [|exact X]. intros d. cbn beta. rewrite F. rewrite map_app, <- app_assoc. reflexivity.
        -- replace (scal Wt 0%R) with 0%R by (unfold scal; cbn; unfold mult; cbn; ring).
           apply over_draws_zero. intros d. rewrite F. apply gives_not. cbn. exact Ne.
      * rewrite <- (weight_post n p ms' qs m v R) by (rewrite prob_born; apply born_nonneg). fold Wt. rewrite Rmult_comm. rewrite prob_born.
        apply (is_RInt_scal (fun r => indicator (soft_measure r n qs v 0) m) 0 1 Wt). apply soft_measure_born; assumption.
Qed.

Lemma joint_born b it x ms : (forall r v, In (r, v) it -> in_range (bn b) r) -> loads it x ->
  Forall (wf_entry (bn b)) (pipeline b) -> Forall unitary_entry (pipeline b) -> Forall gate_or_meas (pipeline b) ->
  Forall2 (fun qs m => m < 2 ^ length qs) (measured (pipeline b)) ms ->
  over_draws (length ms) (fun d => gives (calculate_state_with_init b it d) ms) (weight (bn b) (branch (pipeline b) ms (ket (bn b) x))).
Proof.
  intros R L W U G O. set (n := bn b) in *. set (z := repeat (RtoC 0) (2 ^ n)). set (v0 := upd_nth (enc n x) (RtoC 1) z).
  assert (Lv : length v0 = 2 ^ n) by (unfold v0; rewrite upd_nth_length; apply repeat_length).
  assert (J := joint n (pipeline b) v0 z [] ms W U G Lv (repeat_length _ _)).
  assert (S0 : st_of CN n v0 = ket n x) by (unfold v0, z; rewrite st_of_basis, dec_enc_ket by apply enc_lt; reflexivity).
  rewrite S0 in J. eapply over_draws_ext; [|apply J; [|exact O]].
  - intros d. cbn [map app length]. replace (fun j => d (j - 0)) with d by (extensionality j; rewrite Nat.sub_0_r; reflexivity).
    unfold calculate_state_with_init. fold n. rewrite (initial_index_ok _ _ x R L). cbn [bind]. rewrite sim_start by apply enc_lt. cbn [bind].
    fold z. fold v0. destruct (foldM (sim_step n d) (pipeline b) (v0, z, [])) as [[[? ?] ?]| |]; reflexivity.
  - rewrite prob_magnitude_norm2. unfold v0, z. apply norm2_basis. apply enc_lt.
Qed.
