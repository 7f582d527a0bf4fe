(** Whole runs of the simulator. *)
From Coq Require Import Reals Lra FunctionalExtensionality.
From Coquelicot Require Import Hierarchy RInt Complex.
From Verif Require Import Base BitsModel BitsSpec BitsProofs BitsProofs2 OpsModel OpsSpec ConjSpec Instances UnitaryProofs MeasureModel MeasureSpec MeasureProofs MeasureProofs2
  BuilderModel SimModel DenSpec DenProofs SimSpec SimProofs LocalProofs ProjSpec WholeSpec.
Local Open Scope nat_scope.

(** *** Vectors and states *)
Lemma nth_st n v i : i < 2 ^ n -> st_of CN n v (dec n i) = nth i v (RtoC 0).
Proof. intros H. unfold st_of. rewrite enc_dec by exact H. reflexivity. Qed.
Lemma prob_born n qs m v : prob_of n qs m (st_of CN n v) = born n qs m 0 v.
Proof. rewrite born_full. apply rsum_ext. intros i Hi. apply in_seq in Hi. rewrite nth_st by lia. reflexivity. Qed.
Lemma below_cum n v j : length v = 2 ^ n -> j <= 2 ^ n -> below n j (st_of CN n v) = cum v j.
Proof.
  intros Lv Hj. induction j as [|j IH]; [reflexivity|]. unfold below in *. rewrite seq_S, rsum_app, IH by lia. cbn [rsum Nat.add].
  rewrite cum_S by lia. rewrite nth_st by lia. lra.
Qed.
Lemma weight_mag n v : length v = 2 ^ n -> weight n (st_of CN n v) = prob_magnitude v.
Proof. intros Lv. unfold weight. rewrite below_cum by lia. rewrite <- Lv. apply cum_all. Qed.
Lemma st_zero n : st_of CN n (repeat (RtoC 0) (2 ^ n)) = fun _ => RtoC 0.
Proof. extensionality x. unfold st_of. apply nth_repeat. Qed.

Lemma scan_first v : forall r i, (exists j, j < length v /\ (r <= cum v (S j))%R /\ (forall k, k < j -> (cum v (S k) < r)%R) /\ soft_scan r i v 0 = i + j) \/
  ((forall k, k < length v -> (cum v (S k) < r)%R) /\ soft_scan r i v 0 = 0).
Proof.
  induction v as [|a v IH]; intros r i; [right; split; [cbn; lia|reflexivity]|]. cbn [soft_scan length].
  assert (C : forall k, cum (a :: v) (S k) = (norm_sqr a + cum v k)%R) by (intros k; unfold cum; cbn [firstn rsum]; rewrite norm_sqr_Cmod; reflexivity).
  destruct (Rle_dec (r - norm_sqr a) 0) as [H|H].
  - left. exists 0. split; [lia|]. rewrite C, cum_0. split; [lra|]. split; [lia|lia].
  - destruct (IH (r - norm_sqr a)%R (S i)) as [(j & Hj & H1 & H2 & E)|(H1 & E)].
    + left. exists (S j). split; [lia|]. rewrite C. split; [lra|]. split; [|rewrite E; lia].
      intros [|k] Hk; rewrite C; [rewrite cum_0; lra|]. specialize (H2 k ltac:(lia)). lra.
    + right. split; [|exact E]. intros [|k] Hk; rewrite C; [rewrite cum_0; lra|]. specialize (H1 k ltac:(lia)). lra.
Qed.
Lemma scan_picks n v r : length v = 2 ^ n -> picks n r (st_of CN n v) (soft_scan r 0 v 0).
Proof.
  intros Lv. destruct (scan_first v r 0) as [(j & Hj & H1 & H2 & E)|(H1 & E)]; rewrite E; [left|right].
  - cbn [Nat.add]. split; [lia|]. rewrite below_cum by lia. split; [exact H1|]. intros i Hi. rewrite below_cum by lia. auto.
  - split; [reflexivity|]. intros i Hi. rewrite below_cum by lia. apply H1. lia.
Qed.
Lemma picks_one n d psi i j : picks n d psi i -> picks n d psi j -> i = j.
Proof.
  intros [(A1 & A2 & A3)|(A1 & A2)] [(B1 & B2 & B3)|(B1 & B2)].
  - destruct (Nat.lt_trichotomy i j) as [L|[L|L]]; [specialize (B3 i L); lra|exact L|specialize (A3 j L); lra].
  - specialize (B2 i A1). lra.
  - specialize (A2 j B1). lra.
  - congruence.
Qed.
Lemma picks_lt n d psi j : picks n d psi j -> j < 2 ^ n.
Proof. intros [(A & _)|(-> & _)]; [exact A|]. pose proof (Nat.pow_nonzero 2 n). lia. Qed.

(** *** One entry *)
Lemma measure_any random n qs v out : in_range n qs -> NoDup qs -> length v = 2 ^ n -> length out = 2 ^ n ->
  exists j m w, measure random n qs v out None None = Ok ((m, prob_of n qs m (st_of CN n v)), w) /\ length w = 2 ^ n /\
    picks n random (st_of CN n v) j /\ m < 2 ^ length qs /\ shows qs m (dec n j) = true /\
    ((prob_of n qs m (st_of CN n v) <> 0%R /\ st_of CN n w = post n qs m (st_of CN n v)) \/ (prob_of n qs m (st_of CN n v) = 0%R /\ w = out)).
Proof.
  intros Hr Hn Hv Ho. set (j := soft_scan random 0 v 0). set (m := outcome_of n qs j). exists j, m.
  assert (E1 : soft_measure random n qs v 0 = Ok m).
  { rewrite soft_measure_scan by exact Hr. unfold draw. rewrite Hv, Nat.ltb_irrefl, Rmult_1_r. reflexivity. }
  assert (Sh : m < 2 ^ length qs /\ shows qs m (dec n j) = true).
  { split; [apply outcome_lt|]. rewrite <- outcome_shows by apply outcome_lt. apply Nat.eqb_refl. }
  assert (Pj := scan_picks n v random Hv). fold j in Pj. rewrite prob_born.
  destruct (Req_EM_T (born n qs m 0 v) 0) as [Z|Z].
  - exists out. unfold measure. rewrite E1. cbn [bind]. rewrite measure_prob_ok by assumption. cbn [bind]. rewrite Z, measure_state_p0. cbn [bind].
    split; [reflexivity|]. tauto.
  - destruct (measure_state_full n qs m (born n qs m 0 v) v out) as (w & E & L & H); try assumption. exists w.
    unfold measure. rewrite E1. cbn [bind]. rewrite measure_prob_ok by assumption. cbn [bind]. rewrite E. cbn [bind].
    split; [reflexivity|]. split; [exact L|]. split; [exact Pj|]. split; [apply Sh|]. split; [apply Sh|]. left. split; [exact Z|].
    extensionality x. unfold post. rewrite prob_born. unfold st_of. rewrite H by apply enc_lt.
    rewrite (shows_ext qs m (dec n (enc n x)) x).
    + destruct (shows qs m x); [|reflexivity]. unfold Rdiv. rewrite Rmult_1_l, Cmult_comm. reflexivity.
    + intros q Hq. rewrite dec_enc. rewrite (proj2 (Nat.ltb_lt q n)) by (apply Hr; exact Hq). reflexivity.
Qed.
Lemma probs_any n qs v : in_range n qs -> NoDup qs -> length v = 2 ^ n ->
  measure_probs n qs v 0 = Ok (map (fun m => prob_of n qs m (st_of CN n v)) (seq 0 (2 ^ length qs))).
Proof. intros Hr Hn Lv. unfold measure_probs. apply mapM_ok. intros m _. rewrite measure_prob_ok by assumption. rewrite prob_born. reflexivity. Qed.

Lemma step_exact n draws v a ms e : wf_entry n e -> length v = 2 ^ n -> length a = 2 ^ n ->
  exists v' ms', sim_step n draws (v, a, ms) e = Ok (v', v, ms') /\ length v' = 2 ^ n /\
    step n draws (mkSim (st_of CN n v) (st_of CN n a) ms) e (mkSim (st_of CN n v') (st_of CN n v) ms').
Proof.
  intros W Lv La. destruct e as [qs [k [u|[]]]].
  - assert (D : (exists t, u = UPhase t) \/ (forall t, u <> UPhase t)) by (destruct u; try (right; discriminate); left; eexists; reflexivity).
    destruct D as [(t & ->)|NP].
    + exists a, ms. rewrite sim_step_phase. split; [reflexivity|]. split; [exact La|]. apply (step_phase n draws (mkSim _ _ ms)).
    + assert (Pl : plain_entry (qs, mkCO k (OUnit u))) by (unfold plain_entry; cbn; destruct u; try exact Logic.I; exact (NP _ eq_refl)).
      destruct (sim_step_plain n draws v a ms _ W Pl Lv La) as (v' & E & L' & H). exists v', ms. split; [exact E|]. split; [exact L'|]. rewrite H.
      apply (step_gate n draws (mkSim _ _ ms)). exact NP.
  - destruct W as (ND & R & _). cbn [fst snd] in *. destruct (measure_any (draws (length ms)) n qs v a R ND Lv La) as (j & m & w & E & Lw & Pj & Hm & Sh & D).
    exists w, (ms ++ [RSingle m (prob_of n qs m (st_of CN n v))]). unfold sim_step. cbn [co_obj]. rewrite E. cbn [bind]. split; [reflexivity|]. split; [exact Lw|].
    destruct D as [(Z & ->)|(Z & ->)].
    + apply (step_meas n draws (mkSim _ _ ms) qs k j); assumption.
    + rewrite Z. apply (step_none n draws (mkSim (st_of CN n v) (st_of CN n a) ms) qs k j); assumption.
  - destruct W as (ND & R & _). cbn [fst snd] in *. exists a, (ms ++ [RStochastic (map (fun m => prob_of n qs m (st_of CN n v)) (seq 0 (2 ^ length qs)))]).
    unfold sim_step. cbn [co_obj]. rewrite probs_any by assumption. cbn [bind]. split; [reflexivity|]. split; [exact La|]. apply (step_stoch n draws (mkSim _ _ ms)).
Qed.

Lemma steps_exact n draws p : forall v a ms, Forall (wf_entry n) p -> length v = 2 ^ n -> length a = 2 ^ n ->
  exists v' a' ms', foldM (sim_step n draws) p (v, a, ms) = Ok (v', a', ms') /\ length v' = 2 ^ n /\ length a' = 2 ^ n /\
    steps n draws (mkSim (st_of CN n v) (st_of CN n a) ms) p (mkSim (st_of CN n v') (st_of CN n a') ms').
Proof.
  induction p as [|e p IH]; intros v a ms W Lv La.
  - exists v, a, ms. cbn. repeat split; auto. constructor.
  - inversion W; subst. destruct (step_exact n draws v a ms e) as (v1 & ms1 & E & L1 & S1); auto.
    destruct (IH v1 v ms1) as (v' & a' & ms' & E' & L' & La' & S'); auto. exists v', a', ms'. cbn [foldM]. rewrite E. cbn [bind]. rewrite E'.
    repeat split; auto. econstructor; eassumption.
Qed.

Lemma run_exact b it x draws : (forall r v, In (r, v) it -> in_range (bn b) r) -> loads it x -> Forall (wf_entry (bn b)) (pipeline b) ->
  exists v ms last, calculate_state_with_init b it draws = Ok (v, ms) /\ length v = 2 ^ bn b /\
    steps (bn b) draws (mkSim (ket (bn b) x) (fun _ => RtoC 0) []) (pipeline b) (mkSim (st_of CN (bn b) v) last ms).
Proof.
  intros R L W. set (n := bn b) in *. set (z := repeat (RtoC 0) (2 ^ n)). set (v0 := upd_nth (enc n x) (RtoC 1) z).
  destruct (steps_exact n draws (pipeline b) v0 z [] W) as (v & a & ms & E & Lv & _ & S).
  - unfold v0. rewrite upd_nth_length. apply repeat_length.
  - apply repeat_length.
  - exists v, ms, (st_of CN n a). split; [|split; [exact Lv|]].
    + unfold calculate_state_with_init. fold n. rewrite (initial_index_ok _ _ x R L). cbn [bind]. rewrite sim_start by apply enc_lt. cbn [bind].
      fold z. fold v0. rewrite E. reflexivity.
    + unfold v0, z in S. rewrite st_of_basis, dec_enc_ket, st_zero in S by apply enc_lt. exact S.
Qed.

Lemma shows_one qs m m' x : m < 2 ^ length qs -> m' < 2 ^ length qs -> shows qs m x = true -> shows qs m' x = true -> m = m'.
Proof. intros Hm Hm' S S'. destruct (shows_unique qs x) as (k & Hk & _ & U). rewrite (U m Hm S), (U m' Hm' S'). reflexivity. Qed.
Lemma step_det n draws s e s1 s2 : step n draws s e s1 -> step n draws s e s2 -> s1 = s2.
Proof.
  intros H1 H2. inversion H1; subst; inversion H2; subst; try reflexivity; try (exfalso; match goal with H : forall t, ?u <> UPhase t |- _ => exact (H _ eq_refl) end).
  all: match goal with A : picks _ _ _ ?i, B : picks _ _ _ ?j |- _ => assert (i = j) by (eapply picks_one; eassumption); subst end.
  all: match goal with A : shows ?qs ?m _ = true, B : shows ?qs ?m' _ = true |- _ => assert (m = m') by (eapply (shows_one qs); eassumption); subst end.
  all: try reflexivity; contradiction.
Qed.
Lemma steps_det n draws s p s1 : steps n draws s p s1 -> forall s2, steps n draws s p s2 -> s1 = s2.
Proof.
  induction 1 as [s|s e t p s1 S1 Ss IH]; intros s2 H; inversion H; subst; [reflexivity|]. apply IH.
  match goal with A : step _ _ s e ?t' |- _ => assert (t = t') by (eapply step_det; eassumption); subst end. assumption.
Qed.
