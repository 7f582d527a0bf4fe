(** Floating point: the simulator of [FloatModel], against exact arithmetic. *)
From Coq Require Import ZArith Reals Lra Psatz SpecFloat.
From Flocq Require Import Core.Core IEEE754.BinarySingleNaN.
From Coquelicot Require Import Complex.
From Verif Require Import Base BitsSpec BitsModel BitsProofs OpsModel OpsSpec OpsProofs BuilderModel DenSpec DenProofs MeasureModel MeasureSpec MeasureProofs2 FloatModel FloatSpec
  FloatProofs FloatProofs2 FloatProofs3 FloatProofs4 FloatProofs5 FloatProofs6 FloatProofs7 FloatProofs8.
Local Open Scope R_scope.

#[local] Instance prec24 : FLX.Prec_gt_0 24. Proof. reflexivity. Qed.
#[local] Instance pe32 : Prec_lt_emax 24 128. Proof. reflexivity. Qed.
#[local] Instance prec53 : FLX.Prec_gt_0 53. Proof. reflexivity. Qed.
#[local] Instance pe64 : Prec_lt_emax 53 1024. Proof. reflexivity. Qed.

Local Ltac lt_bool := repeat match goal with |- context[(?a <? ?b)%nat] => let r := eval vm_compute in (a <? b)%nat in change (a <? b)%nat with r end.

(** ** C77: circuits of gates and rotations *)
Theorem C77_float_close (prec emax : Z) (Hp : FLX.Prec_gt_0 prec) (He : Prec_lt_emax prec emax) (pf : platform prec emax) (d : R)
  n start fp p draws : (8 <= prec)%Z -> (8 <= emax)%Z -> accurate pf d -> @uro prec <= d <= / 5 ->
  Forall2 (fentry d) fp p -> Forall (wf_entry n) p -> (start < 2 ^ n)%nat ->
  let cost := INR (rounding_gates p) * (44 * @uro prec + 10 * d + 20 * @eta prec emax * sqrt (2 ^ n)) in
  cost <= / 2 ->
  exists v, fsimulate pf n start fp draws = Ok (v, []) /\ length v = (2 ^ n)%nat /\ Forall cfin v /\
    dist n (fstate n v) (den p (ket n (dec n start))) <= 2 * cost.
Proof.
  intros Pp Pe A (Du & D1) H W Hs cost Hc. pose proof (@uro_pos prec) as U0.
  assert (K0 : 0 <= kap (prec:=prec) d) by (unfold kap; lra). assert (H0 : 0 <= hh (prec:=prec) (emax:=emax) n) by apply hh_pos.
  pose proof (budget (rounding_gates p) (kap (prec:=prec) d) (hh (prec:=prec) (emax:=emax) n) K0 H0 Hc) as B. fold cost in B.
  destruct (fsim_close Pp Pe pf d A Du D1 n start fp p draws H W Hs) as (v & E & L & F & D).
  - eapply Rle_trans; [exact B|]. unfold kap, hh. fold cost. lra.
  - exists v. repeat split; auto. eapply Rle_trans; [exact D|]. unfold kap, hh in *. fold cost in B. lra.
Qed.
Print Assumptions C77_float_close.

(** H, CNOT, T and a rotation by 1 on two qubits, in f64 and f32, with the platform that rounds
    the exact functions. *)
Definition one_f (prec emax : Z) {Hp : FLX.Prec_gt_0 prec} {He : Prec_lt_emax prec emax} : list (list nat * fobj prec emax) :=
  [([0%nat], FUnit FH); ([0%nat; 1%nat], FUnit FCNOT); ([1%nat], FUnit FT); ([0%nat], FUnit (FRz fone))].
Definition one_p : pipe :=
  [([0%nat], mkCO 1 (OUnit UH)); ([0%nat; 1%nat], mkCO 2 (OUnit UCNOT)); ([1%nat], mkCO 1 (OUnit UT)); ([0%nat], mkCO 1 (OUnit (URz (Floating 1))))].
Local Ltac nd := repeat (apply NoDup_cons; [cbn; intuition discriminate|]); apply NoDup_nil.
Lemma one_wf : Forall (wf_entry 2) one_p.
Proof. repeat apply Forall_cons; try apply Forall_nil; (split; [nd|split; [intros q Hq; cbn in Hq; intuition lia|reflexivity]]). Qed.
Lemma one_rep (prec emax : Z) {Hp : FLX.Prec_gt_0 prec} {He : Prec_lt_emax prec emax} d : 0 <= d -> Forall2 (fentry d) (one_f prec emax) one_p.
Proof.
  intros Hd. repeat apply Forall2_cons; try apply Forall2_nil; (split; [reflexivity|]); cbn; try (constructor; fail). apply rep_Rz. - apply fone_ok. - cbn. rewrite (proj2 fone_ok). rewrite Rminus_diag_eq, Rabs_R0 by reflexivity. exact Hd.
Qed.
Lemma sqrt4 : sqrt (2 ^ 2) = 2.
Proof. replace (2 ^ 2) with (2 * 2) by ring. apply sqrt_square. lra. Qed.
Lemma uro53 : @uro 53 <= / 1048576.
Proof. unfold uro. eapply Rle_trans; [apply (bpow_le radix2 (-53) (-20)); lia|]. cbn. lra. Qed.
Lemma uro24 : @uro 24 <= / 1048576.
Proof. unfold uro. eapply Rle_trans; [apply (bpow_le radix2 (-24) (-20)); lia|]. cbn. lra. Qed.
(** The bound in multiples of the unit roundoff: 3 rounding gates. *)
Lemma one_cost (prec emax : Z) {Hp : FLX.Prec_gt_0 prec} {He : Prec_lt_emax prec emax} : (8 <= prec)%Z -> (8 <= emax)%Z -> @uro prec <= / 1048576 ->
  exists v, fsimulate (@ideal prec emax Hp He) 2 0 (one_f prec emax) (fun _ => fzero) = Ok (v, []) /\ Forall cfin v /\
    dist 2 (fstate 2 v) (den one_p (ket 2 (dec 2 0))) <= 750 * @uro prec.
Proof.
  intros Pp Pe U. pose proof (@uro_pos prec) as U0. pose proof (@eta_uro prec emax (big_ok Pe)) as T. pose proof (@eta_pos prec emax) as T0.
  destruct (C77_float_close prec emax Hp He ideal (4 * @uro prec) 2 0 (one_f prec emax) one_p (fun _ => fzero) Pp Pe (ideal_accurate Pp Pe)) as (v & E & _ & F & D).
  - lra.
  - apply one_rep. lra.
  - apply one_wf.
  - cbn. lia.
  - rewrite sqrt4. change (rounding_gates one_p) with 3%nat. cbn [INR]. lra.
  - exists v. split; [exact E|]. split; [exact F|]. eapply Rle_trans; [exact D|]. rewrite sqrt4. change (rounding_gates one_p) with 3%nat. cbn [INR]. lra.
Qed.
Example C77_ex_f64 : exists v, fsimulate (ideal (prec:=53) (emax:=1024)) 2 0 (one_f 53 1024) (fun _ => fzero) = Ok (v, []) /\ Forall cfin v /\
  dist 2 (fstate 2 v) (den one_p (ket 2 (dec 2 0))) <= 750 * @uro 53.
Proof. apply one_cost; [lia|lia|apply uro53]. Qed.
Example C77_ex_f32 : exists v, fsimulate (ideal (prec:=24) (emax:=128)) 2 0 (one_f 24 128) (fun _ => fzero) = Ok (v, []) /\ Forall cfin v /\
  dist 2 (fstate 2 v) (den one_p (ket 2 (dec 2 0))) <= 750 * @uro 24.
Proof. apply one_cost; [lia|lia|apply uro24]. Qed.

(** A matrix object: the rotation with entries 3/5 and 4/5, rounded to f64, between two H. *)
Definition f06 : fl 53 1024 := SF2B (prec:=53) (emax:=1024) (S754_finite false 5404319552844595 (-53)) eq_refl.
Definition f08 : fl 53 1024 := SF2B (prec:=53) (emax:=1024) (S754_finite false 7205759403792794 (-53)) eq_refl.
Definition f345 (r c : bool) : fc 53 1024 := if Bool.eqb r c then (f06, fzero) else if r then (f08, fzero) else (fneg f08, fzero).
Definition m345 : mat1 := fun r c => RtoC (if Bool.eqb r c then 3 / 5 else if r then 4 / 5 else - (4 / 5)).
Lemma m345_rep : frep (prec:=53) (emax:=1024) (4 * @uro 53) (FMAT [f345 false false; f345 false true; f345 true false; f345 true true])
  (UMAT [m345 false false; m345 false true; m345 true false; m345 true true]).
Proof.
  assert (U : @uro 53 = / 9007199254740992) by reflexivity.
  assert (E6 : B2R f06 = 5404319552844595 * / 9007199254740992) by (rewrite <- SF2R_B2SF; unfold f06; rewrite B2SF_SF2B; unfold SF2R, F2R; cbn; reflexivity).
  assert (E8 : B2R f08 = 7205759403792794 * / 9007199254740992) by (rewrite <- SF2R_B2SF; unfold f08; rewrite B2SF_SF2B; unfold SF2R, F2R; cbn; reflexivity).
  apply rep_MAT.
  - intros r c. split; [destruct r, c; split; reflexivity|]. rewrite U.
    assert (Q : forall (x : fl 53 1024) y, Rabs (B2R x - y) <= 4 * / 9007199254740992 -> Cmod (B2C (x, fzero) - RtoC y)%C <= 4 * / 9007199254740992).
    { intros x y H. replace (B2C (x, fzero) - RtoC y)%C with (RtoC (B2R x - y)); [rewrite Cmod_R; exact H|].
      unfold B2C, RtoC, Cminus, Cplus, Copp. cbn [fst snd]. change (B2R (fzero : fl 53 1024)) with 0. f_equal; ring. }
    unfold f345, m345. destruct r, c; cbn [Bool.eqb]; apply Q; unfold fneg; rewrite ?B2R_Bopp, ?E6, ?E8; apply Rabs_le; lra.
  - intros a b. unfold m345. rewrite !SimProofs.Cconj_RtoC, <- !RtoC_mult, <- RtoC_plus. f_equal. destruct a, b; cbn [Bool.eqb]; lra.
Qed.
Definition mat_f : list (list nat * fobj 53 1024) :=
  [([0%nat], FUnit FH); ([0%nat], FUnit (FMAT [f345 false false; f345 false true; f345 true false; f345 true true])); ([0%nat], FUnit FH)].
Definition mat_p : pipe :=
  [([0%nat], mkCO 1 (OUnit UH)); ([0%nat], mkCO 1 (OUnit (UMAT [m345 false false; m345 false true; m345 true false; m345 true true]))); ([0%nat], mkCO 1 (OUnit UH))].
Example C77_ex_matrix : Forall2 (fentry (4 * @uro 53)) mat_f mat_p /\ Forall (wf_entry 2) mat_p /\
  exists v, fsimulate (ideal (prec:=53) (emax:=1024)) 2 0 mat_f (fun _ => fzero) = Ok (v, []) /\ Forall cfin v /\
    dist 2 (fstate 2 v) (den mat_p (ket 2 (dec 2 0))) <= 750 * @uro 53.
Proof.
  assert (R : Forall2 (fentry (4 * @uro 53)) mat_f mat_p).
  { repeat apply Forall2_cons; try apply Forall2_nil; (split; [reflexivity|]); cbn [snd co_obj]; try (constructor; fail). exact m345_rep. }
  assert (W : Forall (wf_entry 2) mat_p).
  { repeat apply Forall_cons; try apply Forall_nil; (split; [nd|split; [intros q Hq; cbn in Hq; intuition lia|]]); try reflexivity. split; [discriminate|reflexivity]. }
  split; [exact R|]. split; [exact W|].
  pose proof (@uro_pos 53) as U0. pose proof uro53 as U. assert (Pp : (8 <= 53)%Z) by lia. assert (Pe : (8 <= 1024)%Z) by lia. pose proof (@eta_uro 53 1024 (big_ok Pe)) as T. pose proof (@eta_pos 53 1024) as T0.
  destruct (C77_float_close 53 1024 _ _ ideal (4 * @uro 53) 2 0 mat_f mat_p (fun _ => fzero) Pp Pe (ideal_accurate Pp Pe)) as (v & E & _ & F & D).
  - lra.
  - exact R.
  - exact W.
  - cbn. lia.
  - rewrite sqrt4. change (rounding_gates mat_p) with 3%nat. cbn [INR]. lra.
  - exists v. split; [exact E|]. split; [exact F|]. eapply Rle_trans; [exact D|]. rewrite sqrt4. change (rounding_gates mat_p) with 3%nat. cbn [INR]. lra.
Qed.

(** The simulation is not exact: two Hadamards in f64, whatever the elementary functions. *)
Definition h64 : fl 53 1024 := SF2B (prec:=53) (emax:=1024) (S754_finite false 6369051672525773 (-53)) eq_refl.
Definition hh64 : list (list nat * fobj 53 1024) := [([0%nat], FUnit FH); ([0%nat], FUnit FH)].
(** The bits of a run: amplitudes and single results. *)
Definition bits {prec emax : Z} (r : res (list (fc prec emax) * list (fresult prec emax))) : option (list (spec_float * spec_float) * list (nat * spec_float)) :=
  match r with
  | Ok (v, ms) => Some (map (fun a => (B2SF (fst a), B2SF (snd a))) v, map (fun m => match m with FRSingle m p => (m, B2SF p) | FRStochastic _ => (0%nat, S754_nan) end) ms)
  | _ => None
  end.
Theorem C77_not_exact (pf : platform 53 1024) : p_sqrt_half pf = h64 ->
  exists v, fsimulate pf 1 0 hh64 (fun _ => fzero) = Ok (v, []) /\
    fstate 1 v (dec 1 0) <> den [([0%nat], mkCO 1 (OUnit UH)); ([0%nat], mkCO 1 (OUnit UH))] (ket 1 (dec 1 0)) (dec 1 0).
Proof.
  intros E. destruct pf as [pc ps pq pp ph]. cbn in E. subst pq.
  assert (B : option_map fst (bits (fsimulate (mkPlatform pc ps h64 pp ph) 1 0 hh64 (fun _ => fzero))) = Some [(S754_finite false 4503599627370497 (-52), S754_zero false); (S754_zero false, S754_zero false)]) by (vm_compute; reflexivity).
  assert (B' : option_map snd (bits (fsimulate (mkPlatform pc ps h64 pp ph) 1 0 hh64 (fun _ => fzero))) = Some []) by (vm_compute; reflexivity).
  destruct (fsimulate _ _ _ _ _) as [[v ms]|?|?]; try discriminate. cbn in B, B'. destruct ms; [|discriminate]. destruct v as [|a v]; [discriminate|]. exists (a :: v). split; [reflexivity|].
  assert (Ha : B2R (fst a) = 4503599627370497 * / 4503599627370496). { destruct a as [a0 a1]. injection B as B _ _. cbn [fst] in *. rewrite <- SF2R_B2SF, B. unfold SF2R, F2R. cbn. reflexivity. }
  clear B B'. assert (X : den [([0%nat], mkCO 1 (OUnit UH)); ([0%nat], mkCO 1 (OUnit UH))] (ket 1 (dec 1 0)) (dec 1 0) = RtoC 1).
  { unfold den, oden, uden, on1, mH, ket, dec, enc, upd. cbn -[Cmult Cplus RtoC sqrt]. lt_bool. cbn -[Cmult Cplus RtoC sqrt]. rewrite !Cmult_0_r, !Cplus_0_r, !Cmult_1_r, <- !RtoC_mult, <- RtoC_plus. f_equal. rewrite <- Rinv_mult, sqrt_sqrt by lra. lra. }
  rewrite X, fstate_nth by (cbn; lia). cbn [nth]. intros Y. apply (f_equal fst) in Y. unfold B2C in Y. cbn [fst RtoC] in Y. rewrite Ha in Y. lra.
Qed.
Print Assumptions C77_not_exact.
Example C77_not_exact_ex : p_sqrt_half (mkPlatform (fun x => x) (fun x => x) h64 fone fone) = h64.
Proof. reflexivity. Qed.

(** H on qubit 0, then the two-qubit matrix with entries 1/2 and -1/2 (its first row all 1/2) in f64: 1 + 4 roundings. *)
Definition fhalf64 : fl 53 1024 := SF2B (prec:=53) (emax:=1024) (S754_finite false 4503599627370496 (-53)) eq_refl.
Definition f2 (b : bool) : fc 53 1024 := (if b then fneg fhalf64 else fhalf64, fzero).
Definition sgn4 : list bool := [false; false; false; false; false; true; false; true; false; false; true; true; false; true; true; false].
Definition m2 (b : bool) : C := RtoC (if b then - / 2 else / 2).
Lemma hh_table : unitary_table 2 (map m2 sgn4).
Proof.
  assert (B : forall l : list bool, length l = 2%nat -> l = [false; false] \/ l = [false; true] \/ l = [true; false] \/ l = [true; true]).
  { intros [|a [|b [|? ?]]] H; try discriminate. destruct a, b; auto. }
  split; [reflexivity|]. split; intros r c Hr Hc;
    (destruct (B r Hr) as [->|[->|[->| ->]]]; destruct (B c Hc) as [->|[->|[->| ->]]]; apply injective_projections; cbn; lra).
Qed.
Lemma hh_rep : frep (prec:=53) (emax:=1024) (4 * @uro 53) (FMAT (map f2 sgn4)) (UMAT (map m2 sgn4)).
Proof.
  pose proof (@uro_pos 53) as U0. assert (U : @uro 53 <= / 1048576) by apply uro53.
  apply (rep_MATk _ 2); [|exact hh_table|lra|lra].
  assert (E : B2R fhalf64 = / 2) by (unfold fhalf64; cbn; unfold F2R; cbn; lra).
  assert (Q : forall b, cfin (f2 b) /\ Cmod (B2C (f2 b) - m2 b)%C <= 4 * @uro 53).
  { intros b. split; [destruct b; split; reflexivity|].
    replace (B2C (f2 b) - m2 b)%C with (RtoC 0); [rewrite Cmod_0; lra|].
    unfold B2C, f2, m2. cbn [fst snd]. change (B2R (fzero : fl 53 1024)) with 0. destruct b; unfold fneg; rewrite ?B2R_Bopp, E; unfold RtoC, Cminus, Cplus, Copp; cbn [fst snd]; f_equal; ring. }
  induction sgn4 as [|b l IH]; cbn [map]; constructor; auto.
Qed.
Definition mat2_f : list (list nat * fobj 53 1024) := [([0%nat], FUnit FH); ([0%nat; 1%nat], FUnit (FMAT (map f2 sgn4)))].
Definition mat2_p : pipe := [([0%nat], mkCO 1 (OUnit UH)); ([0%nat; 1%nat], mkCO 2 (OUnit (UMAT (map m2 sgn4))))].
Example C77_ex_matrix2 : Forall2 (fentry (4 * @uro 53)) mat2_f mat2_p /\ Forall (wf_entry 2) mat2_p /\ rounding_gates mat2_p = 5%nat /\
  exists v, fsimulate (ideal (prec:=53) (emax:=1024)) 2 0 mat2_f (fun _ => fzero) = Ok (v, []) /\ Forall cfin v /\
    dist 2 (fstate 2 v) (den mat2_p (ket 2 (dec 2 0))) <= 1300 * @uro 53.
Proof.
  assert (R : Forall2 (fentry (4 * @uro 53)) mat2_f mat2_p).
  { repeat apply Forall2_cons; try apply Forall2_nil; (split; [reflexivity|]); cbn [snd co_obj]; [constructor|exact hh_rep]. }
  assert (W : Forall (wf_entry 2) mat2_p).
  { repeat apply Forall_cons; try apply Forall_nil; (split; [nd|split; [intros q Hq; cbn in Hq; intuition lia|]]); try reflexivity. split; [discriminate|reflexivity]. }
  split; [exact R|]. split; [exact W|]. split; [reflexivity|].
  pose proof (@uro_pos 53) as U0. pose proof uro53 as U. assert (Pp : (8 <= 53)%Z) by lia. assert (Pe : (8 <= 1024)%Z) by lia. pose proof (@eta_uro 53 1024 (big_ok Pe)) as T. pose proof (@eta_pos 53 1024) as T0.
  destruct (C77_float_close 53 1024 _ _ ideal (4 * @uro 53) 2 0 mat2_f mat2_p (fun _ => fzero) Pp Pe (ideal_accurate Pp Pe)) as (v & E & _ & F & D).
  - lra.
  - exact R.
  - exact W.
  - cbn. lia.
  - rewrite sqrt4. change (rounding_gates mat2_p) with 5%nat. cbn [INR]. lra.
  - exists v. split; [exact E|]. split; [exact F|]. eapply Rle_trans; [exact D|]. rewrite sqrt4. change (rounding_gates mat2_p) with 5%nat. cbn [INR]. lra.
Qed.

(** ** C78: gates that only move and negate amplitudes *)
Theorem C78_float_exact (prec emax : Z) (Hp : FLX.Prec_gt_0 prec) (He : Prec_lt_emax prec emax) (pf : platform prec emax) (d : R)
  n start fp p draws : (8 <= prec)%Z -> (8 <= emax)%Z -> Forall2 (fentry d) fp p -> rounding_gates p = O -> Forall (wf_entry n) p -> (start < 2 ^ n)%nat ->
  exists v, fsimulate pf n start fp draws = Ok (v, []) /\ length v = (2 ^ n)%nat /\ Forall cfin v /\
    forall i, (i < 2 ^ n)%nat -> B2C (nth i v fc0) = den p (ket n (dec n start)) (dec n i).
Proof.
  intros Pp Pe H R0 W Hs. rewrite (fsimulate_pf pf ideal d n start draws fp p H R0).
  pose proof (@uro_pos prec) as U0. pose proof (uro_small Pp) as U1.
  assert (H' : Forall2 (fentry (4 * @uro prec)) fp p).
  { clear -H R0. induction H as [|fe e fp p Hfe Hfp IH]; [constructor|]. cbn [rounding_gates fold_right] in R0. fold (rounding_gates p) in R0. assert (Er : roundings e = O) by lia.
    constructor; [|apply IH; lia]. destruct Hfe as (Eq & Hr). split; [exact Eq|]. unfold roundings in Er.
    destruct (snd fe) as [fu| |]; destruct (co_obj (snd e)) as [u|?]; try contradiction. destruct Hr; try discriminate; try constructor; exfalso; revert Er; apply Nat.pow_nonzero; lia. }
  destruct (fsim_close Pp Pe ideal (4 * @uro prec) (ideal_accurate Pp Pe) ltac:(lra) ltac:(lra) n start fp p draws H' W Hs) as (v & E & L & F & D).
  - rewrite R0. cbn. lra.
  - exists v. repeat split; auto. intros i Hi. rewrite R0 in D. cbn [pow INR] in D.
    assert (Z : dist n (fstate n v) (den p (ket n (dec n start))) <= 0) by lra.
    pose proof (l2_zero n _ Z i Hi) as Q. cbn beta in Q. rewrite fstate_nth in Q by exact Hi.
    replace (B2C (nth i v fc0)) with (B2C (nth i v fc0) - den p (ket n (dec n start)) (dec n i) + den p (ket n (dec n start)) (dec n i))%C by ring. rewrite Q. ring.
Qed.
Print Assumptions C78_float_exact.
Definition c78 : list (list nat * fobj 24 128) := [([0%nat], FUnit FY); ([0%nat; 1%nat], FUnit FCNOT); ([0%nat], FUnit FS); ([0%nat; 1%nat], FUnit FSWAP)].
Example C78_ex : exists v, fsimulate (ideal (prec:=24) (emax:=128)) 2 1 c78 (fun _ => fzero) = Ok (v, []) /\ B2C (nth 1 v fc0) = RtoC (-1).
Proof.
  assert (B : option_map (fun x => nth 1 (fst x) (S754_nan, S754_nan)) (bits (fsimulate (ideal (prec:=24) (emax:=128)) 2 1 c78 (fun _ => fzero))) = Some (S754_finite true 8388608 (-23), S754_zero false)) by (vm_compute; reflexivity).
  assert (B' : option_map snd (bits (fsimulate (ideal (prec:=24) (emax:=128)) 2 1 c78 (fun _ => fzero))) = Some []) by (vm_compute; reflexivity).
  destruct (fsimulate _ _ _ _ _) as [[v ms]|?|?]; try discriminate. cbn [bits option_map fst snd] in B, B'. destruct ms; [|discriminate]. exists v. split; [reflexivity|].
  destruct v as [|a0 [|[a1 a2] v]]; try discriminate. cbn [map nth fst snd] in *. injection B as B1 B2. unfold B2C, RtoC. cbn [fst snd].
  rewrite <- !SF2R_B2SF, B1, B2. unfold SF2R, F2R. cbn. f_equal. lra.
Qed.

(** ** C79: measurement *)
(** Any floats at all, NaN and infinities included. *)
Theorem C79_total (prec emax : Z) (Hp : FLX.Prec_gt_0 prec) (He : Prec_lt_emax prec emax) (random : fl prec emax) n qs (v out : list (fc prec emax)) :
  (forall q, In q qs -> (q < n)%nat) -> NoDup qs -> length v = (2 ^ n)%nat -> length out = (2 ^ n)%nat ->
  exists m p w, fmeasure random n qs v out = Ok ((m, p), w) /\ (m < 2 ^ length qs)%nat /\ length w = (2 ^ n)%nat.
Proof. apply fmeasure_total. Qed.
Print Assumptions C79_total.
Example C79_total_ex : exists p w, fmeasure (prec:=24) (emax:=128) fone 1 [0%nat] [(B754_nan, fzero); (B754_infinity false, fone)] [fc0; fc0] = Ok ((0%nat, p), w).
Proof.
  assert (B : match fmeasure (prec:=24) (emax:=128) fone 1 [0%nat] [(B754_nan, fzero); (B754_infinity false, fone)] [fc0; fc0] with Ok ((m, _), _) => Some m | _ => None end = Some 0%nat) by (vm_compute; reflexivity).
  destruct (fmeasure _ _ _ _ _) as [[[m p] w]|?|?]; try discriminate. injection B as ->. exists p, w. reflexivity.
Qed.

(** On a finite state of norm at most 2 a positive draw gives an outcome of positive computed
    probability, or 0. *)
Theorem C79_possible (prec emax : Z) (Hp : FLX.Prec_gt_0 prec) (He : Prec_lt_emax prec emax) (random : fl prec emax) n qs (v out : list (fc prec emax)) :
  (8 <= prec)%Z -> (8 <= emax)%Z -> (forall q, In q qs -> (q < n)%nat) -> NoDup qs -> length v = (2 ^ n)%nat -> length out = (2 ^ n)%nat ->
  Forall cfin v -> l2 n (fstate n v) <= 2 -> 2 * INR (2 ^ (n - length qs)) * @uro prec <= 1 -> fin random -> 0 < B2R random ->
  exists m p w, fmeasure random n qs v out = Ok ((m, p), w) /\ (m < 2 ^ length qs)%nat /\ length w = (2 ^ n)%nat /\
    (m = O \/ fin p /\ 0 < B2R p).
Proof. intros Pp Pe. apply (fmeasure_possible Pp Pe). Qed.
Print Assumptions C79_possible.
Example C79_possible_ex : let v := upd_nth 1 fc1 (repeat (fc0 : fc 24 128) (2 ^ 1)) in
  Forall cfin v /\ l2 1 (fstate 1 v) <= 2 /\ 2 * INR (2 ^ (1 - 1)) * @uro 24 <= 1 /\ fin (fone : fl 24 128) /\ 0 < B2R (fone : fl 24 128).
Proof.
  cbn zeta. destruct (fstart_ok (prec:=24) (emax:=128) 1 1 ltac:(cbn; lia)) as (L & F & S).
  split; [exact F|]. split; [|split; [|split]].
  - rewrite (l2_ext 1 _ (ket 1 (dec 1 1))) by (intros; apply S). rewrite (ket_l2 1 1) by (cbn; lia). lra.
  - cbn [Nat.sub Nat.pow INR]. pose proof uro24. lra.
  - apply fone_ok.
  - rewrite (proj2 fone_ok). lra.
Qed.

(** Outcome 0 can be an impossible one, and the run goes on from the wrong state: in f32, on the
    state |1>(|0>+|1>) with a draw that rounds to 1, measuring qubit 0 reports 0 with probability 0
    and leaves |10>. *)
Definition h32 : fl 24 128 := SF2B (prec:=24) (emax:=128) (S754_finite false 11863283 (-24)) eq_refl.
Definition c79 : list (list nat * fobj 24 128) := [([0%nat], FUnit FX); ([1%nat], FUnit FH); ([0%nat], FMeas)].
Definition c79_p : pipe := [([0%nat], mkCO 1 (OUnit UX)); ([1%nat], mkCO 1 (OUnit UH))].
Theorem C79_refuted (pf : platform 24 128) : p_sqrt_half pf = h32 ->
  exists v p, fsimulate pf 2 0 c79 (fun _ => fone) = Ok (v, [FRSingle 0 p]) /\ B2R p = 0 /\
    map (fun a => (B2SF (fst a), B2SF (snd a))) v = map (fun a : fc 24 128 => (B2SF (fst a), B2SF (snd a))) [fc0; fc0; fc1; fc0] /\
    prob_of 2 [0%nat] 0 (den c79_p (ket 2 (dec 2 0))) = 0.
Proof.
  intros E. destruct pf as [pc ps pq pp ph]. cbn in E. subst pq.
  assert (B : bits (fsimulate (mkPlatform pc ps h32 pp ph) 2 0 c79 (fun _ => fone)) = Some (map (fun a : fc 24 128 => (B2SF (fst a), B2SF (snd a))) [fc0; fc0; fc1; fc0], [(0%nat, S754_zero false)])) by (vm_compute; reflexivity).
  assert (B' : match fsimulate (mkPlatform pc ps h32 pp ph) 2 0 c79 (fun _ => fone) with Ok (_, [FRSingle _ _]) => true | _ => false end = true) by (vm_compute; reflexivity).
  destruct (fsimulate _ _ _ _ _) as [[v [|[m p|] [|]]]|?|?]; try discriminate. unfold bits in B. injection B as B1 B2 B3. subst m. clear B'. exists v, p. split; [reflexivity|].
  split; [rewrite <- SF2R_B2SF, B3; reflexivity|]. split; [exact B1|].
  unfold prob_of, den, oden, uden, on1, mH, mX, ket, shows, dec, enc, upd. cbn -[Cmult Cplus RtoC sqrt Cmod pow]. lt_bool. cbn -[Cmult Cplus RtoC sqrt Cmod pow].
  rewrite ?Cmult_0_r, ?Cmult_0_l, ?Cplus_0_r, ?Cplus_0_l, ?Cmult_0_r, ?Cmult_0_l, ?Cplus_0_r, ?Cmod_0. ring.
Qed.
Print Assumptions C79_refuted.
Example C79_refuted_ex : p_sqrt_half (mkPlatform (fun x => x) (fun x => x) h32 fone fone) = h32.
Proof. reflexivity. Qed.

(** ** C80: reported probabilities *)
(** Whatever the order in which the squared moduli are added. *)
Theorem C80_any_order (prec emax : Z) (Hp : FLX.Prec_gt_0 prec) (He : Prec_lt_emax prec emax) n qs m (v : list (fc prec emax)) :
  (8 <= prec)%Z -> (8 <= emax)%Z -> (forall q, In q qs -> (q < n)%nat) -> NoDup qs -> Forall cfin v -> l2 n (fstate n v) <= 2 ->
  let M := INR (2 ^ (n - length qs)) in
  2 * M * @uro prec <= 1 ->
  exists items, fmeasure_items n m qs v 0 = Ok items /\ fmeasure_prob n m qs v 0 = Ok (fsum items) /\ fsums items (fsum items) /\
    forall s, fsums items s -> fin s /\ 0 <= B2R s /\
      Rabs (B2R s - prob_of n qs m (fstate n v)) <= (3 * M + 3) * @uro prec * prob_of n qs m (fstate n v) + 10 * M * @eta prec emax.
Proof.
  intros Pp Pe Hr Hn Fv HB M HM. exists (vitems n qs m v).
  assert (E := fmeasure_items_ok n m qs v Hr Hn). split; [exact E|]. split; [unfold fmeasure_prob; rewrite E; reflexivity|]. split; [apply fsum_fsums|].
  intros s Hs. destruct (prob_err Pp Pe n qs m v s _ Hr Hn Fv HB HM E Hs) as ((G1 & G2) & G3). auto.
Qed.
Print Assumptions C80_any_order.
Example C80_any_order_ex : let v := upd_nth 1 fc1 (repeat (fc0 : fc 24 128) (2 ^ 1)) in
  exists items, fmeasure_items 1 1 [0%nat] v 0 = Ok items /\ forall s, fsums items s -> Rabs (B2R s - 1) <= 6 * @uro 24 + 10 * @eta 24 128.
Proof.
  cbn zeta. destruct C79_possible_ex as (F & L & U & _). set (v := upd_nth _ _ _) in *.
  destruct (C80_any_order 24 128 _ _ 1 [0%nat] 1 v) as (items & E & _ & _ & G); try lia.
  - intros q Hq; cbn in Hq; intuition lia.
  - nd.
  - exact F.
  - exact L.
  - exact U.
  - exists items. split; [exact E|]. intros s Hs. destruct (G s Hs) as (_ & _ & B).
    destruct (fstart_ok (prec:=24) (emax:=128) 1 1 ltac:(cbn; lia)) as (_ & _ & S).
    assert (P : prob_of 1 [0%nat] 1 (fstate 1 v) = 1).
    { unfold prob_of. cbn [Nat.pow Nat.mul Nat.add seq rsum]. unfold v. rewrite !S. unfold ket, shows, dec, enc. cbn -[Cmod pow]. lt_bool. cbn -[Cmod pow]. rewrite ?Cmod_1, ?Cmod_0. ring. }
    rewrite P in B. cbn [Nat.sub length Nat.pow INR] in B. lra.
Qed.

Theorem C80_run (prec emax : Z) (Hp : FLX.Prec_gt_0 prec) (He : Prec_lt_emax prec emax) (pf : platform prec emax) (d : R)
  n start fp p draws qs : (8 <= prec)%Z -> (8 <= emax)%Z -> accurate pf d -> @uro prec <= d <= / 5 ->
  Forall2 (fentry d) fp p -> Forall (wf_entry n) p -> (start < 2 ^ n)%nat -> NoDup qs -> (forall q, In q qs -> (q < n)%nat) ->
  let cost := INR (rounding_gates p) * (44 * @uro prec + 10 * d + 20 * @eta prec emax * sqrt (2 ^ n)) in
  let M := 2 ^ (n - length qs) in
  cost <= / 2 -> 2 * M * @uro prec <= 1 ->
  exists w ps, fsimulate pf n start (fp ++ [(qs, FStoch)]) draws = Ok (w, [FRStochastic ps]) /\ length ps = (2 ^ length qs)%nat /\
    forall m, (m < 2 ^ length qs)%nat -> fin (nth m ps fzero) /\
      Rabs (B2R (nth m ps fzero) - prob_of n qs m (den p (ket n (dec n start)))) <= 6 * cost + 12 * (M + 1) * @uro prec + 10 * M * @eta prec emax.
Proof.
  intros Pp Pe A (Du & D1) H W Hs Hn Hr cost M Hc HM. pose proof (@uro_pos prec) as U0.
  assert (K0 : 0 <= kap (prec:=prec) d) by (unfold kap; lra). assert (H0 : 0 <= hh (prec:=prec) (emax:=emax) n) by apply hh_pos.
  pose proof (budget (rounding_gates p) (kap (prec:=prec) d) (hh (prec:=prec) (emax:=emax) n) K0 H0 Hc) as B.
  assert (B' : (1 + kap (prec:=prec) d) ^ rounding_gates p * (1 + INR (rounding_gates p) * hh (prec:=prec) (emax:=emax) n) - 1 <= 2 * cost) by (unfold cost, kap, hh in *; lra).
  destruct (fsim_probs Pp Pe pf d A Du D1 n start fp p draws qs H W Hs Hn Hr) as (w & ps & E & L & G); [lra|exact HM|].
  exists w, ps. split; [exact E|]. split; [exact L|]. intros m Hm. destruct (G m Hm) as (G1 & G2). split; [exact G1|]. fold M in G2. lra.
Qed.
Print Assumptions C80_run.
Example C80_ex : exists w ps, fsimulate (ideal (prec:=53) (emax:=1024)) 2 0 (one_f 53 1024 ++ [([1%nat], FStoch)]) (fun _ => fzero) = Ok (w, [FRStochastic ps]) /\ length ps = 2%nat /\
  forall m, (m < 2)%nat -> fin (nth m ps fzero) /\ Rabs (B2R (nth m ps fzero) - prob_of 2 [1%nat] m (den one_p (ket 2 (dec 2 0)))) <= 2400 * @uro 53.
Proof.
  pose proof (@uro_pos 53) as U0. assert (Pe53 : (8 <= 1024)%Z) by lia. pose proof (@eta_uro 53 1024 (big_ok Pe53)) as T. pose proof (@eta_pos 53 1024) as T0. pose proof uro53 as U.
  destruct (C80_run 53 1024 _ _ ideal (4 * @uro 53) 2 0 (one_f 53 1024) one_p (fun _ => fzero) [1%nat]) as (w & ps & E & L & G); try lia.
  - apply ideal_accurate; lia.
  - lra.
  - apply one_rep. lra.
  - apply one_wf.
  - cbn. lia.
  - nd.
  - intros q Hq; cbn in Hq; intuition lia.
  - rewrite sqrt4. change (rounding_gates one_p) with 3%nat. cbn [INR]. lra.
  - cbn. lra.
  - exists w, ps. split; [exact E|]. split; [exact L|]. intros m Hm. destruct (G m Hm) as (G1 & G2). split; [exact G1|]. eapply Rle_trans; [exact G2|].
    rewrite sqrt4. change (rounding_gates one_p) with 3%nat. cbn [INR length Nat.sub pow]. lra.
Qed.

(** ** C81: runs with measurements *)
Theorem C81_tracks (prec emax : Z) (Hp : FLX.Prec_gt_0 prec) (He : Prec_lt_emax prec emax) (pf : platform prec emax) (d : R)
  n start fp draws out psi D : (8 <= prec)%Z -> (prec + 2 <= emax)%Z -> accurate pf d -> @uro prec <= d <= / 5 -> (start < 2 ^ n)%nat ->
  tracks d n draws fp 0 (ket n (dec n start)) 0 out psi D ->
  exists v rs, fsimulate pf n start fp draws = Ok (v, rs) /\ length v = (2 ^ n)%nat /\ Forall cfin v /\ l2 n psi = 1 /\ dist n (fstate n v) psi <= D /\ Forall2 reported rs out.
Proof. intros Pp Pl A (Du & D1). assert (Pe : (8 <= emax)%Z) by lia. apply (fsim_tracks Pp Pe Pl pf d A Du D1). Qed.
Print Assumptions C81_tracks.

(** H, a measurement with draw 1/4, and a CNOT, in f64. *)
Definition quarter : fl 53 1024 := SF2B (prec:=53) (emax:=1024) (S754_finite false 4503599627370496 (-54)) eq_refl.
Lemma quarter_ok : fin quarter /\ B2R quarter = / 4.
Proof. split; [reflexivity|]. unfold quarter. cbn. unfold F2R. cbn. lra. Qed.
Definition c81 : list (list nat * fobj 53 1024) := [([0%nat], FUnit FH); ([0%nat], FMeas); ([0%nat; 1%nat], FUnit FCNOT)].
Example C81_ex : exists v p, fsimulate (ideal (prec:=53) (emax:=1024)) 2 0 c81 (fun _ => quarter) = Ok (v, [FRSingle 0 p]) /\ Forall cfin v /\
  Rabs (B2R p - / 2) <= 500 * @uro 53.
Proof.
  pose proof (@uro_pos 53) as U0. assert (Pe53 : (8 <= 1024)%Z) by lia. pose proof (@eta_uro 53 1024 (big_ok Pe53)) as T. pose proof (@eta_pos 53 1024) as T0.
  assert (U : @uro 53 <= / 1048576) by apply uro53.
  set (d := 4 * @uro 53). set (psi0 := ket 2 (dec 2 0)). set (psi1 := on1 mH 0 psi0).
  set (D1 := @grow 53 1024 d 2 ([0%nat], mkCO 1 (OUnit UH)) 0).
  assert (HD : 0 <= D1 <= 124 * @uro 53). { unfold D1, grow, d. cbn [roundings co_obj snd INR]. rewrite sqrt4. lra. }
  assert (HS : 0 <= slack 53 1024 2 D1 <= 480 * @uro 53). { unfold slack. cbn [pow]. lra. }
  assert (I2 : / sqrt 2 * / sqrt 2 = / 2) by (rewrite <- Rinv_mult, sqrt_sqrt by lra; reflexivity).
  assert (A0 : psi1 (dec 2 0) = RtoC (/ sqrt 2)).
  { unfold psi1, psi0, on1, mH, ket, dec, enc, upd. cbn -[Cmult Cplus RtoC sqrt]. lt_bool. cbn -[Cmult Cplus RtoC sqrt]. rewrite Cmult_0_r, Cplus_0_r, Cmult_1_r. reflexivity. }
  assert (A1 : psi1 (dec 2 1) = RtoC 0).
  { unfold psi1, psi0, on1, mH, ket, dec, enc, upd. cbn -[Cmult Cplus RtoC sqrt]. lt_bool. cbn -[Cmult Cplus RtoC sqrt]. rewrite !Cmult_0_r, Cplus_0_r. reflexivity. }
  assert (H2 : Rabs (/ sqrt 2) ^ 2 = / 2) by (rewrite pow2_abs; rewrite <- I2; ring).
  assert (P0 : prob_of 2 [0%nat] 0 psi1 = / 2).
  { unfold prob_of. cbn [Nat.pow Nat.mul Nat.add seq rsum]. rewrite A0, A1, Cmod_0, Cmod_R, H2.
    assert (S0 : shows [0%nat] 0 (dec 2 0) = true) by reflexivity. assert (S1 : shows [0%nat] 0 (dec 2 1) = true) by reflexivity.
    assert (S2 : shows [0%nat] 0 (dec 2 2) = false) by reflexivity. assert (S3 : shows [0%nat] 0 (dec 2 3) = false) by reflexivity. rewrite S0, S1, S2, S3. ring. }
  destruct (C81_tracks 53 1024 _ _ ideal d 2 0 c81 (fun _ => quarter) [(0%nat, prob_of 2 [0%nat] 0 psi1, slack 53 1024 2 D1)]
    (ctl_not [0%nat] 1 (post 2 [0%nat] 0 psi1)) (3 * slack 53 1024 2 D1 / prob_of 2 [0%nat] 0 psi1)) as (v & rs & E & _ & F & _ & _ & R); try lia.
  - apply ideal_accurate; lia.
  - unfold d. lra.
  - cbn. lia.
  - apply (tr_gate d 2 _ _ ([0%nat], mkCO 1 (OUnit UH))); [split; [reflexivity|constructor]| |lra|].
    { split; [nd|split; [intros q Hq; cbn in Hq; intuition lia|reflexivity]]. }
    fold D1. change (oden (snd ([0%nat], mkCO 1 (OUnit UH))) (fst ([0%nat], mkCO 1 (OUnit UH))) (ket 2 (dec 2 0))) with psi1.
    apply (tr_meas d 2 _ [0%nat] 0 0); [nd|intros q Hq; cbn in Hq; intuition lia|cbn; lia|cbn; lia|reflexivity|apply quarter_ok| |].
    + rewrite (proj2 quarter_ok). unfold below. cbn [seq rsum]. rewrite A0, Cmod_R, H2. lra.
    + apply (tr_gate d 2 _ _ ([0%nat; 1%nat], mkCO 2 (OUnit UCNOT))); [split; [reflexivity|constructor]| | |].
      * split; [nd|split; [intros q Hq; cbn in Hq; intuition lia|reflexivity]].
      * rewrite P0. lra.
      * match goal with |- tracks _ _ _ _ _ _ (grow _ _ _ ?D) _ _ _ => replace (grow d 2 ([0%nat; 1%nat], mkCO 2 (OUnit UCNOT)) D) with D by (unfold grow; cbn [roundings co_obj snd INR]; ring) end. apply tr_nil.
  - inversion R as [|r x rs' o' Hr Ho]; subst. inversion Ho; subst. destruct r as [m p|]; [|contradiction]. unfold reported in Hr. cbn [fst snd] in Hr. destruct Hr as (-> & _ & Hr).
    exists v, p. split; [exact E|]. split; [exact F|]. rewrite P0 in Hr. lra.
Qed.
