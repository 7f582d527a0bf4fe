(** States and probabilities along a run, and repeated measurements. *)
From Coq Require Import Reals Lra FunctionalExtensionality.
From Coquelicot Require Import Hierarchy RInt Complex.
From Verif Require Import Base BitsModel BitsSpec BitsProofs BitsProofs2 OpsModel OpsSpec OpsProofs ConjSpec Instances UnitaryProofs MeasureModel MeasureSpec MeasureProofs MeasureProofs2
  BuilderModel SimModel DenSpec DenProofs SimSpec SimProofs LocalProofs HandleProofs ProjSpec WholeSpec WholeProofs WholeProofs2.
Local Open Scope nat_scope.

Lemma scaled_scaled a b psi : scaled a (scaled b psi) = scaled (Cmult a b) psi.
Proof. extensionality x. unfold scaled. ring. Qed.
Lemma scaled_1 psi : scaled (RtoC 1) psi = psi.
Proof. extensionality x. unfold scaled. ring. Qed.

Lemma along n draws p : forall v a ms0, Forall (wf_entry n) p -> Forall unitary_entry p -> Forall gate_or_meas p ->
  length v = 2 ^ n -> length a = 2 ^ n -> prob_magnitude v = 1%R -> (forall j, (0 < draws j <= 1)%R) ->
  exists v' a' out, foldM (sim_step n draws) p (v, a, ms0) = Ok (v', a', ms0 ++ results out) /\ length v' = 2 ^ n /\ length a' = 2 ^ n /\ prob_magnitude v' = 1%R /\
    Forall2 (fun qs o => fst o < 2 ^ length qs /\ (0 < snd o)%R) (measured p) out /\
    (0 < chance out)%R /\ weight n (branch p (map fst out) (st_of CN n v)) = chance out /\
    st_of CN n v' = scaled (RtoC (/ sqrt (chance out))) (branch p (map fst out) (st_of CN n v)).
Proof.
  induction p as [|e p IH]; intros v a ms0 W U G Lv La Nv D.
  - exists v, a, []. cbn [foldM measured results chance map branch fold_right]. rewrite app_nil_r. repeat split; auto; try lra.
    + rewrite weight_mag by exact Lv. exact Nv.
    + rewrite sqrt_1, Rinv_1, scaled_1. reflexivity.
  - inversion W as [|? ? We Wp]; subst. inversion U as [|? ? Ue Up]; subst. inversion G as [|? ? Ge Gp]; subst. destruct e as [qs [k [u|[]]]]; [| |destruct Ge].
    + assert (Pl : plain_entry (qs, mkCO k (OUnit u))) by (unfold plain_entry, gate_or_meas in *; cbn in *; destruct u; exact Ge).
      destruct (sim_step_plain n draws v a ms0 _ We Pl Lv La) as (v1 & E & L1 & H).
      assert (N1 : prob_magnitude v1 = 1%R) by (rewrite (mag_isometry n v v1 _ We Ue Lv L1 H); exact Nv).
      destruct (IH v1 v ms0 Wp Up Gp L1 Lv N1 D) as (v' & a' & out & E' & R). exists v', a', out. cbn [foldM]. rewrite E. cbn [bind]. split; [exact E'|].
      cbn [measured branch co_obj]. unfold oden in H. cbn [snd fst co_obj] in H. rewrite <- H. exact R.
    + destruct We as (ND & R & _). cbn [fst snd] in *.
      destruct (measure_ok (draws (length ms0)) n qs v a R ND Lv La Nv (D _)) as (m & p1 & w & E & E1 & Hm & Ep & Pp & Lw & Nw & _ & Hw).
      assert (Sw : st_of CN n w = post n qs m (st_of CN n v)).
      { extensionality x. unfold post. rewrite prob_born, <- Ep. unfold st_of. rewrite Hw by apply enc_lt.
        rewrite (shows_ext qs m (dec n (enc n x)) x).
        - destruct (shows qs m x); [|reflexivity]. unfold Rdiv. rewrite Rmult_1_l, Cmult_comm. reflexivity.
        - intros q Hq. rewrite dec_enc. rewrite (proj2 (Nat.ltb_lt q n)) by (apply R; exact Hq). reflexivity. }
      destruct (IH w v (ms0 ++ [RSingle m p1]) Wp Up Gp Lw Lv Nw D) as (v' & a' & out & E' & Lv' & La' & Nv' & Fo & Cp & Wo & So).
      exists v', a', ((m, p1) :: out). cbn [foldM]. unfold sim_step at 1. cbn [co_obj]. rewrite E. cbn [bind]. rewrite E'. cbn [results map fst snd].
      rewrite <- app_assoc. split; [reflexivity|]. split; [exact Lv'|]. split; [exact La'|]. split; [exact Nv'|].
      cbn [measured branch co_obj]. split; [constructor; [split; assumption|exact Fo]|].
      cbn [chance fold_right snd]. fold (chance out). split; [apply Rmult_lt_0_compat; assumption|].
      rewrite Sw, post_scaled, branch_scaled in Wo, So. rewrite prob_born, <- Ep in Wo, So. rewrite weight_scaled, Cmod_R, pow2_abs, pow_inv, pow2_sqrt in Wo by lra.
      split.
      * rewrite <- Wo. field. lra.
      * rewrite So, scaled_scaled. f_equal. rewrite <- RtoC_mult. f_equal. rewrite sqrt_mult by lra. rewrite Rinv_mult. ring.
Qed.

(** *** Repeated measurements *)
Lemma shows_updl qs qs' m x c : (forall q, In q qs -> ~ In q qs') -> shows qs m (updl x qs' c) = shows qs m x.
Proof. intros H. apply shows_ext. intros q Hq. apply updl_notin. apply H. exact Hq. Qed.
Lemma proj_act qs qs' m M psi : (forall q, In q qs -> ~ In q qs') -> act CN qs' M (proj qs m psi) = proj qs m (act CN qs' M psi).
Proof.
  intros H. extensionality x. unfold act, proj. destruct (shows qs m x) eqn:S.
  - apply big_ext. intros c _. rewrite shows_updl, S by exact H. reflexivity.
  - apply (big_zero CN CN_laws). intros c _. rewrite shows_updl, S by exact H. apply Cmult_0_r.
Qed.
Lemma proj_on1 qs q m M psi : ~ In q qs -> on1 M q (proj qs m psi) = proj qs m (on1 M q psi).
Proof. intros H. rewrite !on1_act. apply proj_act. intros q' Hq [<-|[]]. exact (H Hq). Qed.
Lemma proj_perm qs m psi (f : bs -> bs) : (forall x q, In q qs -> f x q = x q) -> (fun x => proj qs m psi (f x)) = proj qs m (fun x => psi (f x)).
Proof. intros H. extensionality x. unfold proj. rewrite (shows_ext qs m (f x) x) by (intros q Hq; apply H; exact Hq). reflexivity. Qed.
Lemma proj_uden qs m u qs' psi : (forall q, In q qs -> ~ In q qs') -> uden u qs' (proj qs m psi) = proj qs m (uden u qs' psi).
Proof.
  intros H. assert (O : forall q M, In q qs' -> on1 M q (proj qs m psi) = proj qs m (on1 M q psi)) by (intros q M Hq; apply proj_on1; intros Hq'; exact (H q Hq' Hq)).
  assert (X : (fun x => proj qs m psi (exchange (firstn (length qs' / 2) qs') (skipn (length qs' / 2) qs') x)) = proj qs m (fun x => psi (exchange (firstn (length qs' / 2) qs') (skipn (length qs' / 2) qs') x))).
  { apply (proj_perm qs m psi (exchange (firstn (length qs' / 2) qs') (skipn (length qs' / 2) qs'))). intros x q Hq. unfold exchange. rewrite firstn_skipn. apply updl_notin. apply H. exact Hq. }
  destruct u; try (destruct qs' as [|q [|q' [|? ?]]]; cbn [uden] in *; try reflexivity; try (apply O; left; reflexivity)).
  - unfold ctl_not. apply (proj_perm qs m psi (cflip [q] q')). intros x r Hr. unfold cflip, flip. destruct (forallb x [q]); [|reflexivity].
    unfold upd. destruct (Nat.eqb_spec r q') as [->|]; [|reflexivity]. exfalso. apply (H q' Hr). right. left. reflexivity.
  all: first [exact X|apply proj_act; exact H].
Qed.
Lemma proj_proj qs qs' m m' psi : proj qs' m' (proj qs m psi) = proj qs m (proj qs' m' psi).
Proof. extensionality x. unfold proj. destruct (shows qs' m' x), (shows qs m x); reflexivity. Qed.
Lemma branch_proj qs m p : forall ms psi, Forall (fun e => forall q, In q qs -> ~ In q (fst e)) p -> branch p ms (proj qs m psi) = proj qs m (branch p ms psi).
Proof.
  induction p as [|[qs' co] p IH]; intros ms psi H; [reflexivity|]. inversion H; subst. cbn [branch fst] in *. destruct (co_obj co).
  - rewrite proj_uden by assumption. apply IH. assumption.
  - destruct ms; [apply IH; assumption|]. rewrite proj_proj. apply IH. assumption.
Qed.
Lemma branch_app p1 : forall p2 ms1 ms2 psi, length ms1 = length (measured p1) -> branch (p1 ++ p2) (ms1 ++ ms2) psi = branch p2 ms2 (branch p1 ms1 psi).
Proof.
  induction p1 as [|[qs co] p1 IH]; intros p2 ms1 ms2 psi H; cbn [measured app branch] in *.
  - destruct ms1; [reflexivity|discriminate].
  - destruct (co_obj co); [apply IH; exact H|]. destruct ms1 as [|m1 ms1]; [discriminate|]. cbn [app]. apply IH. cbn in H. lia.
Qed.

Lemma measured_app p1 p2 : measured (p1 ++ p2) = measured p1 ++ measured p2.
Proof. induction p1 as [|[qs co] p1 IH]; [reflexivity|]. cbn [app measured]. destruct (co_obj co); rewrite IH; reflexivity. Qed.
Lemma prob_le_weight n qs m psi : (0 <= prob_of n qs m psi <= weight n psi)%R.
Proof.
  unfold prob_of, weight, below. induction (seq 0 (2 ^ n)) as [|i l IH]; cbn [rsum]; [lra|]. pose proof (pow2_ge_0 (Cmod (psi (dec n i)))). destruct (shows qs m (dec n i)); lra.
Qed.
Lemma prob_two n qs m m' psi : m < 2 ^ length qs -> m' < 2 ^ length qs -> m <> m' -> (prob_of n qs m psi + prob_of n qs m' psi <= weight n psi)%R.
Proof.
  intros Hm Hm' Ne. unfold prob_of, weight, below. induction (seq 0 (2 ^ n)) as [|i l IH]; cbn [rsum]; [lra|]. pose proof (pow2_ge_0 (Cmod (psi (dec n i)))).
  destruct (shows qs m (dec n i)) eqn:S, (shows qs m' (dec n i)) eqn:S'; try lra. exfalso. apply Ne. eapply (shows_one qs); eassumption.
Qed.
Lemma results_app a b : results (a ++ b) = results a ++ results b.
Proof. apply map_app. Qed.
Lemma results_length a : length (results a) = length a.
Proof. apply map_length. Qed.
Lemma chance_app a b : chance (a ++ b) = (chance a * chance b)%R.
Proof. unfold chance. induction a as [|o a IH]; cbn [app fold_right]; [ring|]. rewrite IH. ring. Qed.

Lemma Forall2_length' {A B} (R : A -> B -> Prop) l l' : Forall2 R l l' -> length l = length l'.
Proof. induction 1; cbn; congruence. Qed.

Lemma twice b it x draws p1 qs k p2 k' p3 : (forall r v, In (r, v) it -> in_range (bn b) r) -> loads it x ->
  pipeline b = p1 ++ (qs, mkCO k (OMeas MSingle)) :: p2 ++ (qs, mkCO k' (OMeas MSingle)) :: p3 ->
  Forall (wf_entry (bn b)) (pipeline b) -> Forall unitary_entry (pipeline b) -> Forall gate_or_meas (pipeline b) ->
  Forall (fun e => forall q, In q qs -> ~ In q (fst e)) p2 -> (forall j, (0 < draws j <= 1)%R) ->
  exists v rs m p, calculate_state_with_init b it draws = Ok (v, rs) /\
    nth_error rs (length (measured p1)) = Some (RSingle m p) /\ nth_error rs (length (measured (p1 ++ (qs, mkCO k (OMeas MSingle)) :: p2))) = Some (RSingle m 1%R).
Proof.
  intros R L Ep W U G Dj D. set (n := bn b) in *. set (z := repeat (RtoC 0) (2 ^ n)). set (v0 := upd_nth (enc n x) (RtoC 1) z).
  assert (Lv : length v0 = 2 ^ n) by (unfold v0; rewrite upd_nth_length; apply repeat_length).
  assert (N0 : prob_magnitude v0 = 1%R) by (rewrite prob_magnitude_norm2; unfold v0, z; apply norm2_basis; apply enc_lt).
  assert (Calc : forall v' a' rs, foldM (sim_step n draws) (pipeline b) (v0, z, []) = Ok (v', a', rs) -> calculate_state_with_init b it draws = Ok (v', rs)).
  { intros v' a' rs E. unfold calculate_state_with_init. fold n. rewrite (initial_index_ok _ _ x R L). cbn [bind]. rewrite sim_start by apply enc_lt. cbn [bind].
    fold z. fold v0. rewrite E. reflexivity. }
  set (e1 := (qs, mkCO k (OMeas MSingle))) in *. set (e2 := (qs, mkCO k' (OMeas MSingle))) in *. rewrite Ep in W, U, G.
  apply Forall_app in W. destruct W as (W1 & W). inversion W as [|? ? We1 W']; subst. apply Forall_app in W'. destruct W' as (W2 & W'). inversion W' as [|? ? We2 W3]; subst.
  apply Forall_app in U. destruct U as (U1 & U). inversion U as [|? ? Ue1 U']; subst. apply Forall_app in U'. destruct U' as (U2 & U'). inversion U' as [|? ? Ue2 U3]; subst.
  apply Forall_app in G. destruct G as (G1 & G). inversion G as [|? ? Ge1 G']; subst. apply Forall_app in G'. destruct G' as (G2 & G'). inversion G' as [|? ? Ge2 G3]; subst.
  (* up to the first measurement *)
  destruct (along n draws p1 v0 z [] W1 U1 G1 Lv (repeat_length _ _) N0 D) as (v1 & a1 & o1 & E1 & L1 & La1 & M1 & F1 & _).
  destruct (along n draws [e1] v1 a1 (results o1) (Forall_cons _ We1 (Forall_nil _)) (Forall_cons _ Ue1 (Forall_nil _)) (Forall_cons _ Ge1 (Forall_nil _)) L1 La1 M1 D) as (v2 & a2 & o2 & E2 & L2 & La2 & M2 & F2 & C2 & _ & S2).
  cbn [measured e1 co_obj] in F2. inversion F2 as [|? [m p] ? [|? ?] (Hm & Hp) F2']; subst; [|inversion F2']. cbn [fst snd] in *.
  destruct (along n draws p2 v2 a2 (results o1 ++ results [(m, p)]) W2 U2 G2 L2 La2 M2 D) as (v3 & a3 & o3 & E3 & L3 & La3 & M3 & F3 & C3 & _ & S3).
  destruct (along n draws [e2] v3 a3 ((results o1 ++ results [(m, p)]) ++ results o3) (Forall_cons _ We2 (Forall_nil _)) (Forall_cons _ Ue2 (Forall_nil _)) (Forall_cons _ Ge2 (Forall_nil _)) L3 La3 M3 D) as (v4 & a4 & o4 & E4 & L4 & La4 & M4 & F4 & C4 & W4 & S4).
  cbn [measured e2 co_obj] in F4. inversion F4 as [|? [m' p'] ? [|? ?] (Hm' & Hp') F4']; subst; [|inversion F4']. cbn [fst snd] in *.
  destruct (along n draws p3 v4 a4 (((results o1 ++ results [(m, p)]) ++ results o3) ++ results [(m', p')]) W3 U3 G3 L4 La4 M4 D) as (v5 & a5 & o5 & E5 & L5 & La5 & M5 & F5 & C5 & W5 & S5).
  (* the state before the second one shows the first outcome *)
  cbn [branch e1 e2 co_obj map fst] in *. rewrite S2, branch_scaled, branch_proj in S3 by exact Dj.
  assert (P3 : proj qs m (st_of CN n v3) = st_of CN n v3).
  { rewrite S3. rewrite !proj_scaled. f_equal. f_equal. extensionality y. unfold proj. destruct (shows qs m y); reflexivity. }
  assert (T3 : prob_of n qs m (st_of CN n v3) = 1%R) by (rewrite prob_weight, P3, weight_mag by exact L3; exact M3).
  assert (T4 : prob_of n qs m' (st_of CN n v3) = p'). { rewrite prob_weight, W4. unfold chance. cbn [fold_right snd]. ring. }
  assert (T5 : weight n (st_of CN n v3) = 1%R) by (rewrite weight_mag by exact L3; exact M3).
  assert (Em : m' = m). { destruct (Nat.eq_dec m' m) as [E|E]; [exact E|]. exfalso. pose proof (prob_two n qs m' m (st_of CN n v3) Hm' Hm E). lra. }
  subst m'. rewrite T3 in T4. subst p'.
  exists v5, (((((results o1 ++ results [(m, p)]) ++ results o3) ++ results [(m, 1%R)]) ++ results o5)), m, p.
  split; [|split].
  - apply Calc with (a' := a5). rewrite Ep. rewrite foldM_app, E1. cbn [bind]. change (e1 :: p2 ++ e2 :: p3) with ([e1] ++ p2 ++ [e2] ++ p3).
    rewrite foldM_app. change (foldM (sim_step n draws) [e1] (v1, a1, [] ++ results o1)) with (foldM (sim_step n draws) [e1] (v1, a1, results o1)). rewrite E2. cbn [bind].
    rewrite foldM_app, E3. cbn [bind]. rewrite foldM_app, E4. cbn [bind]. exact E5.
  - apply Forall2_length' in F1. rewrite <- !app_assoc. rewrite nth_error_app2 by (rewrite results_length; lia). rewrite results_length, F1, Nat.sub_diag. reflexivity.
  - apply Forall2_length' in F1. apply Forall2_length' in F3. rewrite measured_app, app_length. cbn [measured e1 co_obj length].
    assert (Lr : length ((results o1 ++ results [(m, p)]) ++ results o3) = length (measured p1) + S (length (measured p2))) by (rewrite !app_length, !results_length; cbn [length]; lia).
    rewrite <- (app_assoc ((results o1 ++ results [(m, p)]) ++ results o3)). rewrite nth_error_app2 by lia. rewrite Lr, Nat.sub_diag. reflexivity.
Qed.

Lemma run_branch b it x draws : (forall r v, In (r, v) it -> in_range (bn b) r) -> loads it x ->
  Forall (wf_entry (bn b)) (pipeline b) -> Forall unitary_entry (pipeline b) -> Forall gate_or_meas (pipeline b) -> (forall j, (0 < draws j <= 1)%R) ->
  exists v out, calculate_state_with_init b it draws = Ok (v, results out) /\ Forall2 (fun qs o => fst o < 2 ^ length qs /\ (0 < snd o)%R) (measured (pipeline b)) out /\
    weight (bn b) (branch (pipeline b) (map fst out) (ket (bn b) x)) = chance out /\ (0 < chance out)%R /\
    st_of CN (bn b) v = scaled (RtoC (/ sqrt (chance out))) (branch (pipeline b) (map fst out) (ket (bn b) x)).
Proof.
  intros R L W U G D. set (n := bn b) in *. set (z := repeat (RtoC 0) (2 ^ n)). set (v0 := upd_nth (enc n x) (RtoC 1) z).
  assert (Lv : length v0 = 2 ^ n) by (unfold v0; rewrite upd_nth_length; apply repeat_length).
  assert (N0 : prob_magnitude v0 = 1%R) by (rewrite prob_magnitude_norm2; unfold v0, z; apply norm2_basis; apply enc_lt).
  assert (S0 : st_of CN n v0 = ket n x) by (unfold v0, z; rewrite st_of_basis, dec_enc_ket by apply enc_lt; reflexivity).
  destruct (along n draws (pipeline b) v0 z [] W U G Lv (repeat_length _ _) N0 D) as (v & a & out & E & _ & _ & _ & F & C & Wt & S). rewrite S0 in Wt, S.
  exists v, out. split; [|auto]. unfold calculate_state_with_init. fold n. rewrite (initial_index_ok _ _ x R L). cbn [bind]. rewrite sim_start by apply enc_lt. cbn [bind].
  fold z. fold v0. rewrite E. reflexivity.
Qed.
