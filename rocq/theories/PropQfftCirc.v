(** C119: the circuit of the Fourier transform, its cost, and what it gives in floating point. *)
From Coq Require Import ZArith QArith Reals Lra Lia.
From Flocq Require Import Core.Core IEEE754.BinarySingleNaN.
From Coquelicot Require Import Complex.
From Verif Require Import Base BitsSpec BitsProofs OpsModel OpsSpec BuilderModel RegProofs SimModel DenSpec DenProofs SimSpec RunSpec LocalProofs RunProofs LinkProofs
  FloatModel FloatSpec FloatProofs FloatProofs2 FloatProofs3 FloatProofs5 ArithSpec QfftModel QfftSpec QfftCircSpec QfftCircProofs CostSpec PropFloat PropQfft PropEndFloat.
Local Open Scope R_scope.
Local Notation pipeline := BuilderModel.pipeline.

(** On any builder state, whatever conditions are around: the circuit is appended and nothing
    else changes. *)
Theorem C119_circuit : forall r s, NoDup r -> r <> [] -> (length r <= 63)%nat ->
  exists s', qfft 0 r s = Ret r s' /\ pipeline (bld s') = pipeline (bld s) ++ fourier_circuit r /\
    bn (bld s') = bn (bld s) /\ zeroed (bld s') = zeroed (bld s) /\ meas (bld s') = meas (bld s) /\ conds s' = conds s.
Proof. intros r s N Hr Hn. exists (appended s (fourier_circuit r)). split; [apply qfft_records; assumption|]. repeat split. Qed.
Print Assumptions C119_circuit.

(** No new qubit, no temporary; n (n + 1) / 2 rotations and Hadamard gates and 3 negations for
    every exchange. *)
Theorem C119_cost : forall r s, NoDup r -> r <> [] -> (length r <= 63)%nat ->
  exists s', qfft 0 r s = Ret r s' /\ conds s' = conds s /\ uses 0 (length r * (length r + 1) / 2 + 3 * (length r / 2)) s s'.
Proof.
  intros r s N Hr Hn. destruct (C119_circuit r s N Hr Hn) as (s' & E & Ep & Eb & Ez & _ & Ec). exists s'. split; [exact E|]. split; [exact Ec|].
  unfold uses, spare. rewrite Ep, Eb, Ez, app_length, fourier_length. repeat split; lia.
Qed.
Print Assumptions C119_cost.

Lemma rounding_app p q : rounding_gates (p ++ q) = (rounding_gates p + rounding_gates q)%nat.
Proof. unfold rounding_gates. induction p as [|e p IH]; [reflexivity|]. cbn [app fold_right]. lia. Qed.
Lemma rounding_all p : Forall (fun e => roundings e = 1%nat) p -> rounding_gates p = length p.
Proof. induction 1 as [|e p H _ IH]; [reflexivity|]. unfold rounding_gates in *. cbn [fold_right length]. lia. Qed.
Lemma rounding_none p : Forall (fun e => roundings e = 0%nat) p -> rounding_gates p = 0%nat.
Proof. induction 1 as [|e p H _ IH]; [reflexivity|]. unfold rounding_gates in *. cbn [fold_right]. lia. Qed.
Lemma Forall_concat {A B} (P : B -> Prop) (f : A -> list B) l : (forall a, In a l -> Forall P (f a)) -> Forall P (concat (map f l)).
Proof. induction l as [|a l IH]; intros H; cbn; [constructor|]. apply Forall_app. split; [apply H; left; reflexivity|]. apply IH. intros b Hb. apply H. right. exact Hb. Qed.
Lemma fourier_roundings r : rounding_gates (fourier_circuit r) = (length r * (length r + 1) / 2)%nat.
Proof.
  unfold fourier_circuit. rewrite rounding_app, rounding_all, rounding_none.
  - rewrite Nat.add_0_r. pose proof (fourier_length r) as E. unfold fourier_circuit in E. rewrite app_length in E.
    assert (X : length (concat (map (exchange3 r) (seq 0 (length r / 2)))) = (3 * (length r / 2))%nat).
    { assert (H : forall k j, length (concat (map (exchange3 r) (seq j k))) = (3 * k)%nat); [|apply H].
      induction k as [|k IH]; intros j; [reflexivity|]. cbn [seq map concat]. rewrite app_length. specialize (IH (S j)). cbn [exchange3 length]. lia. }
    rewrite X in E. lia.
  - apply Forall_concat. intros i _. repeat constructor.
  - apply Forall_concat. intros i _. unfold fourier_qubit. apply Forall_app. split; [|repeat constructor]. apply Forall_forall. intros e He. apply in_map_iff in He. destruct He as (j & <- & _). reflexivity.
Qed.

(** In floating point (any precision, any accurate platform): every amplitude that the simulator
    computes is within the error of n (n + 1) / 2 roundings of the exact one. *)
Theorem C119_float (prec emax : Z) (Hp : FLX.Prec_gt_0 prec) (He : Prec_lt_emax prec emax) (pf : platform prec emax) (d : R) k r x fp draws :
  (8 <= prec)%Z -> (8 <= emax)%Z -> accurate pf d -> @uro prec <= d <= / 5 ->
  NoDup r -> r <> [] -> (length r <= 63)%nat -> in_range k r -> (forall q, (k <= q)%nat -> x q = false) ->
  Forall2 (fentry d) fp (fourier_circuit r) ->
  let cost := INR (length r * (length r + 1) / 2) * (44 * @uro prec + 10 * d + 20 * @eta prec emax * sqrt (2 ^ k)) in
  cost <= / 2 ->
  exists s' v, qfft 0 r (fresh k) = Ret r s' /\ bn (bld s') = k /\ pipeline (bld s') = fourier_circuit r /\
    fsimulate pf k (enc k x) fp draws = Ok (v, []) /\
    forall y, only_in r x y -> cfin (nth (enc k y) v fc0) /\ Cmod (B2C (nth (enc k y) v fc0) - qfft_amp r x y)%C <= 2 * cost.
Proof.
  intros Pp Pe Ac Hd N Hr Hn Rg Hx F cost Hc.
  destruct (C61_qfft_exact r (fresh k) N Hr Hn (fresh_tidy k) (fresh_live k _ N Rg)) as (D & H & H1 & _).
  destruct (C119_circuit r (fresh k) N Hr Hn) as (s1 & E1 & Ep & Eb & _).
  destruct (C92_float_calls prec emax Hp He pf d reg (fresh k) r (qfft 0 r) r r D x Pp Pe Ac Hd H) as (s' & E & _ & Q).
  - constructor.
  - intros n q [Hq|[]] Hl. cbn. apply ket_clean; [exact Hl|]. apply Hx. cbn in Hq. lia.
  - rewrite E1 in E. injection E as <-. cbn [app] in Ep. change (pipeline (bld s1) = fourier_circuit r) in Ep. change (bn (bld s1) = k) in Eb. cbv zeta in Q. rewrite Ep, Eb, fourier_roundings in Q.
    destruct (Q fp draws F Hc) as (v & Ev & Lv & Fv & Dv). exists s1, v. split; [exact E1|]. split; [exact Eb|]. split; [exact Ep|]. split; [exact Ev|].
    intros y Hy. split.
    + apply (proj1 (Forall_forall _ _) Fv). apply nth_In. rewrite Lv. apply enc_lt.
    + eapply Rle_trans; [|exact Dv]. pose proof (l2_in k (fun z => (fstate k v z - D (den (pipeline (bld (fresh k))) (ket k x)) z)%C) (enc k y) (enc_lt k y)) as X.
      cbv beta in X. assert (Ey : dec k (enc k y) = y).
      { apply FunctionalExtensionality.functional_extensionality. intros q. rewrite dec_enc. destruct (Nat.ltb_spec q k) as [Hq|Hq]; [reflexivity|]. cbn [andb]. rewrite Hy; [symmetry; apply Hx; exact Hq|]. intros I. specialize (Rg q I). lia. }
      rewrite Ey in X. unfold fstate in X. rewrite (H1 _ x y) in X; [|clear X|exact Hy].
      * change (den (pipeline (bld (fresh k))) (ket k x) x) with (ket k x x) in X. unfold ket in X at 1. rewrite Nat.eqb_refl, Cmult_1_r in X. exact X.
      * intros z (q & Iq & Nz). change (ket k x z = RtoC 0). unfold ket. destruct (Nat.eqb_spec (enc k x) (enc k z)) as [e|e]; [|reflexivity].
        exfalso. apply Nz. symmetry. apply (enc_inj k x z e). apply Rg. exact Iq.
Qed.
Print Assumptions C119_float.

(** The circuit in floats exists for every register. *)
Definition to_float {prec emax : Z} {Hp : FLX.Prec_gt_0 prec} {He : Prec_lt_emax prec emax} (e : list nat * cobj) : list nat * fobj prec emax :=
  (fst e, match co_obj (snd e) with OUnit (URz t) => FUnit (FRz (nearest (angle t))) | OUnit UCNOT => FUnit FCNOT | _ => FUnit FH end).
Lemma to_float_rep (prec emax : Z) (Hp : FLX.Prec_gt_0 prec) (He : Prec_lt_emax prec emax) r : (8 <= prec)%Z -> (8 <= emax)%Z ->
  Forall2 (fentry (4 * @uro prec)) (map (to_float (prec:=prec) (emax:=emax)) (fourier_circuit r)) (fourier_circuit r).
Proof.
  intros Pp Pe.
  assert (G : Forall (fun e => fentry (4 * @uro prec) (to_float (prec:=prec) (emax:=emax) e) e) (fourier_circuit r)).
  { apply Forall_app. split; apply Forall_concat; intros i _.
    - unfold fourier_qubit. apply Forall_app. split; [|repeat constructor]. apply Forall_forall. intros e He'. apply in_map_iff in He'. destruct He' as (j & <- & _).
      split; [reflexivity|]. cbn [turn to_float snd fst co_obj]. set (t := PiRational _). destruct (nearest_ok (angle t) Pp Pe) as (A & _ & B); [|apply rep_Rz; assumption].
      unfold t, angle, Q2R. cbn [Qnum Qden]. rewrite Rmult_1_l. set (z := (2 ^ Z.of_nat (j - i))%Z). assert (P : (0 < z)%Z) by (apply Z.pow_pos_nonneg; lia).
      rewrite Z2Pos.id by exact P. assert (1 <= IZR z) by (apply (IZR_le 1); lia). rewrite Rabs_pos_eq.
      + rewrite <- Rinv_1. apply Rinv_le_contravar; lra.
      + apply Rlt_le, Rinv_0_lt_compat. lra.
    - repeat constructor. }
  induction G; constructor; auto.
Qed.

#[local] Instance prec53 : FLX.Prec_gt_0 53. Proof. reflexivity. Qed.
#[local] Instance pe64 : Prec_lt_emax 53 1024. Proof. reflexivity. Qed.
(** Three qubits in f64, starting from 101: 9 objects; every amplitude is within 1900 unit
    roundoffs of the exact one. *)
Example C119_three : length (fourier_circuit [0; 1; 2]%nat) = 9%nat /\ nth 1 (fourier_circuit [0; 1; 2]%nat) (had 0) = turn 0 2.
Proof. split; reflexivity. Qed.
Example C119_float_ex : exists s' v, qfft 0 [0; 1; 2]%nat (fresh 3) = Ret [0; 1; 2]%nat s' /\ pipeline (bld s') = fourier_circuit [0; 1; 2]%nat /\
  fsimulate (ideal (prec:=53) (emax:=1024)) 3 5 (map to_float (fourier_circuit [0; 1; 2]%nat)) (fun _ => fzero) = Ok (v, []) /\
  forall y, (forall q, (3 <= q)%nat -> y q = false) -> Cmod (B2C (nth (enc 3 y) v fc0) - qfft_amp [0; 1; 2]%nat (dec 3 5) y)%C <= 1900 * @uro 53.
Proof.
  assert (Pp : (8 <= 53)%Z) by lia. assert (Pe : (8 <= 1024)%Z) by lia.
  pose proof (@uro_pos 53) as U0. pose proof uro53 as U. pose proof (@eta_uro 53 1024 (big_ok Pe)) as T. pose proof (@eta_pos 53 1024) as T0.
  assert (S8 : sqrt (2 ^ 3) <= 3) by (rewrite <- (sqrt_square 3) by lra; apply sqrt_le_1; lra).
  pose proof (sqrt_pos (2 ^ 3)) as S0.
  assert (ES : @eta 53 1024 * sqrt (2 ^ 3) <= 3 * @eta 53 1024) by (rewrite (Rmult_comm 3); apply Rmult_le_compat_l; lra).
  destruct (C119_float 53 1024 _ _ ideal (4 * @uro 53) 3 [0; 1; 2]%nat (dec 3 5) (map to_float (fourier_circuit [0; 1; 2]%nat)) (fun _ => fzero) Pp Pe (ideal_accurate Pp Pe)) as (s' & v & E1 & _ & E2 & E3 & E4).
  - lra.
  - repeat constructor; cbn; intuition discriminate.
  - discriminate.
  - cbn. lia.
  - intros q Hq. cbn in Hq. intuition lia.
  - intros q Hq. unfold dec. rewrite (proj2 (Nat.ltb_ge _ _) Hq). reflexivity.
  - apply to_float_rep; assumption.
  - change (length [0; 1; 2]%nat * (length [0; 1; 2]%nat + 1) / 2)%nat with 6%nat. cbn [INR]. lra.
  - exists s', v. split; [exact E1|]. split; [exact E2|]. split; [exact E3|]. intros y Hy. eapply Rle_trans; [apply E4|].
    + intros q Hq. assert (3 <= q)%nat by (cbn in Hq; lia). rewrite Hy by assumption. unfold dec. rewrite (proj2 (Nat.ltb_ge _ _)) by assumption. reflexivity.
    + change (length [0; 1; 2]%nat * (length [0; 1; 2]%nat + 1) / 2)%nat with 6%nat. cbn [INR]. lra.
Qed.
