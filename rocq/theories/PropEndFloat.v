(** From builder calls to what the floating-point simulator reports: C92. *)
From Coq Require Import ZArith Reals Lra FunctionalExtensionality.
From Flocq Require Import Core.Core IEEE754.BinarySingleNaN.
From Coquelicot Require Import Complex.
From Verif Require Import Base BitsSpec BitsProofs OpsModel OpsSpec BuilderModel RegProofs SimModel DenSpec DenProofs SimSpec MeasureSpec MeasureProofs RunSpec RunProofs LinkProofs ProjSpec
  FloatModel FloatSpec FloatProofs FloatProofs2 FloatProofs3 FloatProofs4 FloatProofs5 FloatProofs6 FloatProofs7 FloatProofs8 PropFloat CircProofs ArithModel ArithSpec ProgramModel ProgramSpec PropArith.
Local Open Scope R_scope.
Local Notation pipeline := BuilderModel.pipeline.

Lemma ket_enc n x : ket n (dec n (enc n x)) = ket n x.
Proof. unfold ket. rewrite enc_dec by apply enc_lt. reflexivity. Qed.
Lemma does_pipe {A} s L (m : M A) a L' D x : does s L m a L' D ->
  Forall (wf_entry (bn (bld s))) (pipeline (bld s)) -> (forall n q, idle s q -> (q < n)%nat -> clean [q] (den (pipeline (bld s)) (ket n x))) ->
  exists s', m s = Ret a s' /\ (bn (bld s) <= bn (bld s'))%nat /\ Forall (wf_entry (bn (bld s'))) (pipeline (bld s')) /\
    den (pipeline (bld s')) (ket (bn (bld s')) x) = D (den (pipeline (bld s)) (ket (bn (bld s')) x)) /\ (forall q, In q L' -> (q < bn (bld s'))%nat).
Proof.
  intros (s1 & p & H1 & H2 & H3 & H4 & H5 & H6 & H7 & H8 & H9 & H10 & H11 & H12) W Cl. exists s1. split; [exact H1|]. split; [exact H4|]. split.
  - rewrite H5. apply Forall_app. split; [eapply wf_entries_mono; [exact H4|exact W]|exact H6].
  - split.
    + rewrite H5, den_app. apply H12. intros q Hq Hl. apply Cl; assumption.
    + intros q Hq. destruct (Nat.lt_ge_cases q (bn (bld s1))) as [X|X]; [exact X|]. exfalso. apply (proj2 H9 q Hq). left. exact X.
Qed.

(** *** C92 *)
Theorem C92_float_calls (prec emax : Z) (Hp : FLX.Prec_gt_0 prec) (He : Prec_lt_emax prec emax) (pf : platform prec emax) (d : R) A s L (m : M A) a L' D x :
  (8 <= prec)%Z -> (8 <= emax)%Z -> accurate pf d -> @uro prec <= d <= / 5 ->
  does s L m a L' D -> Forall (wf_entry (bn (bld s))) (pipeline (bld s)) -> (forall n q, idle s q -> (q < n)%nat -> clean [q] (den (pipeline (bld s)) (ket n x))) ->
  exists s', m s = Ret a s' /\ (bn (bld s) <= bn (bld s'))%nat /\
  let n := bn (bld s') in let psi := D (den (pipeline (bld s)) (ket n x)) in
  let cost := INR (rounding_gates (pipeline (bld s'))) * (44 * @uro prec + 10 * d + 20 * @eta prec emax * sqrt (2 ^ n)) in
  forall fp draws, Forall2 (fentry d) fp (pipeline (bld s')) -> cost <= / 2 ->
  exists v, fsimulate pf n (enc n x) fp draws = Ok (v, []) /\ length v = (2 ^ n)%nat /\ Forall cfin v /\ dist n (fstate n v) psi <= 2 * cost.
Proof.
  intros Pp Pe Ac Hd H W Cl. destruct (does_pipe s L m a L' D x H W Cl) as (s' & E & Eb & W' & Ed & _). exists s'. split; [exact E|]. split; [exact Eb|].
  intros n psi cost fp draws F Hc. destruct (C77_float_close prec emax Hp He pf d n (enc n x) fp (pipeline (bld s')) draws Pp Pe Ac Hd F W' (enc_lt n x) Hc) as (v & E1 & E2 & E3 & E4).
  exists v. split; [exact E1|]. split; [exact E2|]. split; [exact E3|]. rewrite ket_enc in E4. change (den (pipeline (bld s')) (ket n x) = psi) in Ed. rewrite Ed in E4. exact E4.
Qed.
Print Assumptions C92_float_calls.

Theorem C92_float_probabilities (prec emax : Z) (Hp : FLX.Prec_gt_0 prec) (He : Prec_lt_emax prec emax) (pf : platform prec emax) (d : R) A s L (m : M A) a L' D (f : A -> reg) x :
  (8 <= prec)%Z -> (8 <= emax)%Z -> accurate pf d -> @uro prec <= d <= / 5 ->
  does s L m a L' D -> Forall (wf_entry (bn (bld s))) (pipeline (bld s)) -> (forall n q, idle s q -> (q < n)%nat -> clean [q] (den (pipeline (bld s)) (ket n x))) ->
  NoDup (f a) -> incl (f a) L' ->
  exists s', m s = Ret a s' /\ (bn (bld s) <= bn (bld s'))%nat /\
  let n := bn (bld s') in let psi := D (den (pipeline (bld s)) (ket n x)) in
  let cost := INR (rounding_gates (pipeline (bld s'))) * (44 * @uro prec + 10 * d + 20 * @eta prec emax * sqrt (2 ^ n)) in
  let M := 2 ^ (n - length (f a)) in
  forall fp draws, Forall2 (fentry d) fp (pipeline (bld s')) -> cost <= / 2 -> 2 * M * @uro prec <= 1 ->
  exists w ps, fsimulate pf n (enc n x) (fp ++ [(f a, FStoch)]) draws = Ok (w, [FRStochastic ps]) /\ length ps = (2 ^ length (f a))%nat /\
    forall k, (k < 2 ^ length (f a))%nat -> fin (nth k ps fzero) /\
      Rabs (B2R (nth k ps fzero) - prob_of n (f a) k psi) <= 6 * cost + 12 * (M + 1) * @uro prec + 10 * M * @eta prec emax.
Proof.
  intros Pp Pe Ac Hd H W Cl Nd In'. destruct (does_pipe s L m a L' D x H W Cl) as (s' & E & Eb & W' & Ed & Hr). exists s'. split; [exact E|]. split; [exact Eb|].
  intros n psi cost M fp draws F Hc HM.
  destruct (C80_run prec emax Hp He pf d n (enc n x) fp (pipeline (bld s')) draws (f a) Pp Pe Ac Hd F W' (enc_lt n x) Nd (fun q Hq => Hr q (In' q Hq)) Hc HM) as (w & ps & E1 & E2 & E3).
  exists w, ps. split; [exact E1|]. split; [exact E2|]. intros k Hk. specialize (E3 k Hk). rewrite ket_enc in E3. change (den (pipeline (bld s')) (ket n x) = psi) in Ed. rewrite Ed in E3. exact E3.
Qed.
Print Assumptions C92_float_probabilities.

(** The sum in floating point: the probability reported for the right answer is 1 up to rounding. *)
Lemma prob_one n r y psi : (forall q, In q r -> (q < n)%nat) -> psi (dec n (enc n y)) = RtoC 1 -> 1 <= prob_of n r (val r y) psi.
Proof.
  intros Hr E. unfold prob_of. pose proof (rsum_in (fun i => if shows r (val r y) (dec n i) then Cmod (psi (dec n i)) ^ 2 else 0) (seq 0 (2 ^ n)) (enc n y)) as X. cbv beta in X.
  assert (S : shows r (val r y) (dec n (enc n y)) = true).
  { unfold shows. apply forallb_forall. intros j Hj. apply in_seq in Hj. unfold val. rewrite testbit_le, dec_enc.
    rewrite (proj2 (Nat.ltb_lt _ _) (Hr _ (nth_In r 0%nat (proj2 Hj)))). cbn [andb].
    rewrite (nth_indep _ false (y 0%nat)) by (rewrite map_length; lia). rewrite map_nth. apply Bool.eqb_reflx. }
  rewrite S, E, Cmod_1 in X. eapply Rle_trans; [|apply X]; [lra| |].
  - clear S. intros i _. destruct (shows _ _ _); [apply pow2_ge_0|lra].
  - apply in_seq. pose proof (enc_lt n y). lia.
Qed.
Theorem C92_float_add (prec emax : Z) (Hp : FLX.Prec_gt_0 prec) (He : Prec_lt_emax prec emax) (pf : platform prec emax) (d : R) N rc ra rb it x :
  (8 <= prec)%Z -> (8 <= emax)%Z -> accurate pf d -> @uro prec <= d <= / 5 ->
  length ra = length rc -> length rb = S (length rc) -> rc <> [] -> NoDup (rc ++ ra ++ rb) -> in_range N (rc ++ ra ++ rb) ->
  (forall r v, In (r, v) it -> in_range N r) -> loads it x -> zero_in (tl rc) x ->
  exists s', add 0 [rc; ra; rb] (fresh N) = Ret [rc; ra; rb] s' /\
  let n := bn (bld s') in
  let cost := INR (rounding_gates (pipeline (bld s'))) * (44 * @uro prec + 10 * d + 20 * @eta prec emax * sqrt (2 ^ n)) in
  let M := 2 ^ (n - length rb) in
  forall fp draws, Forall2 (fentry d) fp (pipeline (bld s')) -> cost <= / 2 -> 2 * M * @uro prec <= 1 ->
  exists w ps, fsimulate pf n (enc n x) (fp ++ [(rb, FStoch)]) draws = Ok (w, [FRStochastic ps]) /\
    1 - (6 * cost + 12 * (M + 1) * @uro prec + 10 * M * @eta prec emax) <= B2R (nth ((val ra x + val rb x + b2n (x (hd 0%nat rc))) mod 2 ^ length rb) ps fzero).
Proof.
  intros Pp Pe Ac Hd La Lb Hc N1 Rg R Lo Z. destruct (C56_add rc ra rb La Lb Hc N1) as (D & (_ & Ac') & Tk).
  assert (Ec : concat [rc; ra; rb] = rc ++ ra ++ rb) by (cbn; rewrite app_nil_r; reflexivity).
  assert (Dd : does (fresh N) (rc ++ ra ++ rb) (add 0 [rc; ra; rb]) [rc; ra; rb] (rc ++ ra ++ rb) (controlled [] D)).
  { pose proof (Ac' (fresh N)) as X. rewrite Ec in X. apply X; [split; [reflexivity|intros k Hk; lia]|apply fresh_tidy|]. apply fresh_live; assumption. }
  assert (Nb : NoDup rb) by (rewrite !NoDup_app_iff in N1; apply N1).
  assert (X0 : forall q, (N <= q)%nat -> x q = false).
  { intros q Hq. apply (proj2 Lo). intros r v Hin Hr. specialize (R r v Hin q Hr). lia. }
  pose proof (C92_float_probabilities prec emax Hp He pf d _ (fresh N) _ _ _ _ _ (fun rs => nth 2 rs []) x Pp Pe Ac Hd Dd) as H. cbn [nth] in H.
  destruct H as (s' & E & Eb & H).
  - constructor.
  - intros n q [Hq|[]] Hl. cbn. apply ket_clean; [exact Hl|]. apply X0. cbn in Hq. lia.
  - exact Nb.
  - intros q Hq. rewrite !in_app_iff. auto.
  - exists s'. split; [exact E|]. intros n cost M fp draws F Hcost HM. specialize (H fp draws F Hcost HM). destruct H as (w & ps & E1 & E2 & E3). exists w, ps. split; [exact E1|].
    set (S := ((val ra x + val rb x + b2n (x (hd 0%nat rc))) mod 2 ^ length rb)%nat).
    assert (Sl : (S < 2 ^ length rb)%nat) by (apply Nat.mod_upper_bound, Nat.pow_nonzero; discriminate).
    set (y := updl x rb (mbits S (length rb))).
    assert (Vy : val rb y = S) by (unfold val, y; rewrite updl_map, le_mbits by (try exact Sl; try exact Nb; rewrite length_mbits; reflexivity); reflexivity).
    assert (Ay : adds rc ra rb x y) by (split; [exact Z|]; split; [intros q Hq; apply updl_notin; exact Hq|exact Vy]).
    assert (Ey : dec n (enc n y) = y).
    { extensionality q. rewrite dec_enc. destruct (Nat.ltb_spec q n) as [Hq|Hq]; [reflexivity|]. cbn [andb]. cbn in Eb. unfold n in Hq. unfold y. rewrite updl_notin; [symmetry; apply X0; lia|].
      intros Hin. assert (q < N)%nat by (apply Rg; rewrite !in_app_iff; auto). lia. }
    specialize (E3 S Sl). destruct E3 as (_ & E3). pose proof (prob_one n rb y (controlled [] D (den (pipeline (bld (fresh N))) (ket n x)))) as P. rewrite Vy, Ey in P.
    assert (P1 : 1 <= prob_of n rb S (controlled [] D (den (pipeline (bld (fresh N))) (ket n x)))).
    { apply P.
      - intros q Hq. assert (q < N)%nat by (apply Rg; rewrite !in_app_iff; auto). cbn in Eb. unfold n. lia.
      - unfold controlled. cbn [forallb]. rewrite (Tk _ x y Ay). cbn. unfold ket. rewrite Nat.eqb_refl. reflexivity. }
    match goal with |- 1 - ?c <= ?b => match type of E3 with Rabs (_ - ?p) <= _ => change (Rabs (b - p) <= c) in E3; pose proof (Rle_abs (- (b - p))) as X; rewrite Rabs_Ropp in X; change (1 <= p) in P1; generalize dependent p; generalize b; generalize c end end.
    intros; lra.
Qed.
Print Assumptions C92_float_add.
(** One-qubit operands in f64, with the platform that rounds the exact functions. *)
#[local] Instance prec53 : FLX.Prec_gt_0 53. Proof. reflexivity. Qed.
#[local] Instance pe64 : Prec_lt_emax 53 1024. Proof. reflexivity. Qed.
Definition float_of (e : list nat * cobj) : list nat * fobj 53 1024 :=
  (fst e, match co_obj (snd e) with
          | OUnit UX => FUnit FX | OUnit UY => FUnit FY | OUnit UZ => FUnit FZ | OUnit UH => FUnit FH | OUnit US => FUnit FS | OUnit UT => FUnit FT
          | OUnit UCNOT => FUnit FCNOT | OUnit USWAP => FUnit FSWAP | _ => FMeas end).
Example C92_example : exists s', add 0 [[0%nat]; [1%nat]; [2%nat; 3%nat]] (fresh 4) = Ret [[0%nat]; [1%nat]; [2%nat; 3%nat]] s' /\ bn (bld s') = 4%nat /\
  Forall2 (fentry (4 * @uro 53)) (map float_of (pipeline (bld s'))) (pipeline (bld s')) /\ rounding_gates (pipeline (bld s')) = 18%nat /\
  INR 18 * (44 * @uro 53 + 10 * (4 * @uro 53) + 20 * @eta 53 1024 * sqrt (2 ^ 4)) <= / 2 /\ accurate (@ideal 53 1024 prec53 pe64) (4 * @uro 53).
Proof.
  eexists. split; [vm_compute; reflexivity|]. split; [reflexivity|]. split.
  { cbn [bld BuilderModel.pipeline map]. repeat (apply Forall2_cons; [split; [reflexivity|cbn; constructor]|]). apply Forall2_nil. }
  split; [reflexivity|]. assert (Pp : (8 <= 53)%Z) by lia. assert (Pe : (8 <= 1024)%Z) by lia. split; [|apply (ideal_accurate Pp Pe)].
  pose proof uro53 as U. pose proof (@uro_pos 53) as U0. pose proof (@eta_uro 53 1024 (big_ok Pe)) as T. pose proof (@eta_pos 53 1024) as T0.
  replace (sqrt (2 ^ 4)) with 4 by (symmetry; replace (2 ^ 4) with (4 * 4) by ring; apply sqrt_square; lra). cbn [INR]. lra.
Qed.
