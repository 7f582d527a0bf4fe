(** Rounding errors of the float operations. *)
From Coq Require Import ZArith Reals Lra Psatz.
From Flocq Require Import Core.Core IEEE754.BinarySingleNaN Relative Mult_error.
From Coquelicot Require Import Complex.
From Verif Require Import Base OpsModel FloatModel FloatSpec.
Local Open Scope R_scope.

Section Arith.
Context {prec emax : Z} {Hp : FLX.Prec_gt_0 prec} {He : Prec_lt_emax prec emax}.
Local Notation fl := (fl prec emax).
Local Notation fc := (fc prec emax).
Local Notation emin := (3 - emax - prec)%Z.
Local Notation rnd := (round radix2 (FLT_exp emin prec) ZnearestE).

Local Notation uro := (@uro prec).
Local Notation eta := (@eta prec emax).
Definition big1 : R := bpow radix2 (emax - 1).

Lemma uro_pos : 0 < uro. Proof. apply bpow_gt_0. Qed.
Lemma eta_pos : 0 < eta. Proof. unfold eta. pose proof (bpow_gt_0 radix2 emin). lra. Qed.

Lemma rnd_err x : Rabs (rnd x - x) <= uro * Rabs x + eta.
Proof.
  destruct (relative_error_N_FLT'_ex radix2 emin prec Hp (fun x => negb (Z.even x)) x) as (eps & et & H1 & H2 & _ & H3).
  change (Znearest (fun x => negb (Z.even x))) with ZnearestE in H3. rewrite H3.
  replace (x * (1 + eps) + et - x) with (x * eps + et) by ring.
  eapply Rle_trans; [apply Rabs_triang|]. apply Rplus_le_compat; [|exact H2].
  rewrite Rabs_mult, Rmult_comm. apply Rmult_le_compat_r; [apply Rabs_pos|].
  eapply Rle_trans; [exact H1|].
  assert (E : u_ro radix2 prec = uro).
  { unfold u_ro, uro. replace (- prec + 1)%Z with (1 + - prec)%Z by ring. rewrite bpow_plus. change (bpow radix2 1) with 2. lra. }
  rewrite E. pose proof uro_pos. unfold Rdiv. rewrite <- (Rmult_1_r uro) at 3. apply Rmult_le_compat_l; [lra|].
  rewrite <- Rinv_1. apply Rinv_le_contravar; lra.
Qed.

Lemma emax_pos : (0 < emax)%Z.
Proof. pose proof (prec_gt_0 prec). pose proof (prec_lt_emax prec emax). lia. Qed.

Lemma rnd_small x : Rabs x <= big1 -> Rabs (rnd x) < bpow radix2 emax.
Proof.
  intros H. apply Rle_lt_trans with big1; [|apply bpow_lt; lia].
  apply abs_round_le_generic; auto with typeclass_instances. apply generic_format_bpow.
  unfold FLT_exp. pose proof (prec_gt_0 prec). pose proof (prec_lt_emax prec emax). lia.
Qed.


Lemma mul_ok x y : fin x -> fin y -> Rabs (B2R x * B2R y) <= big1 ->
  fin (fmul x y) /\ B2R (fmul x y) = rnd (B2R x * B2R y).
Proof.
  intros Fx Fy H. pose proof (Bmult_correct prec emax Hp He mode_NE x y) as B.
  change (round radix2 (SpecFloat.fexp prec emax) (round_mode mode_NE)) with rnd in B.
  rewrite Rlt_bool_true in B by (apply rnd_small; exact H). destruct B as (B1 & B2 & _). unfold fin in *.
  rewrite Fx, Fy in B2. split; assumption.
Qed.
Lemma add_ok x y : fin x -> fin y -> Rabs (B2R x + B2R y) <= big1 ->
  fin (fadd x y) /\ B2R (fadd x y) = rnd (B2R x + B2R y).
Proof.
  intros Fx Fy H. pose proof (Bplus_correct prec emax Hp He mode_NE x y Fx Fy) as B.
  change (round radix2 (SpecFloat.fexp prec emax) (round_mode mode_NE)) with rnd in B.
  rewrite Rlt_bool_true in B by (apply rnd_small; exact H). destruct B as (B1 & B2 & _). split; assumption.
Qed.
Lemma sub_ok x y : fin x -> fin y -> Rabs (B2R x - B2R y) <= big1 ->
  fin (fsub x y) /\ B2R (fsub x y) = rnd (B2R x - B2R y).
Proof.
  intros Fx Fy H. pose proof (Bminus_correct prec emax Hp He mode_NE x y Fx Fy) as B.
  change (round radix2 (SpecFloat.fexp prec emax) (round_mode mode_NE)) with rnd in B.
  rewrite Rlt_bool_true in B by (apply rnd_small; exact H). destruct B as (B1 & B2 & _). split; assumption.
Qed.

(** Complex values. *)
Definition ab1 (z : C) : R := Rabs (fst z) + Rabs (snd z).

Lemma Cmod_n1 z : Cmod z <= ab1 z.
Proof.
  unfold ab1. pose proof (Rabs_pos (fst z)). pose proof (Rabs_pos (snd z)).
  apply Rsqr_incr_0_var; [|lra]. unfold Cmod, Rsqr. rewrite sqrt_sqrt.
  - rewrite <- (pow2_abs (fst z)), <- (pow2_abs (snd z)). nra.
  - pose proof (pow2_ge_0 (fst z)). pose proof (pow2_ge_0 (snd z)). lra.
Qed.
Lemma n1_Cmod z : ab1 z <= 2 * Cmod z.
Proof.
  unfold ab1. pose proof (Rmax_Cmod z) as H. pose proof (Rmax_l (Rabs (fst z)) (Rabs (snd z))). pose proof (Rmax_r (Rabs (fst z)) (Rabs (snd z))). lra.
Qed.

Lemma n1_sqrt2 z : ab1 z <= sqrt 2 * Cmod z.
Proof.
  unfold ab1. pose proof (Rabs_pos (fst z)). pose proof (Rabs_pos (snd z)). pose proof (Cmod_ge_0 z). pose proof (sqrt_pos 2).
  apply Rsqr_incr_0_var; [|nra]. rewrite Rsqr_mult, Rsqr_sqrt by lra. unfold Cmod at 1, Rsqr. rewrite sqrt_sqrt.
  - rewrite <- (pow2_abs (fst z)), <- (pow2_abs (snd z)). pose proof (pow2_ge_0 (Rabs (fst z) - Rabs (snd z))). nra.
  - pose proof (pow2_ge_0 (fst z)). pose proof (pow2_ge_0 (snd z)). lra.
Qed.
Lemma n1_mul v a : ab1 v * ab1 a <= 2 * (Cmod v * Cmod a).
Proof.
  pose proof (n1_sqrt2 v). pose proof (n1_sqrt2 a). pose proof (sqrt_pos 2). pose proof (Cmod_ge_0 v). pose proof (Cmod_ge_0 a).
  assert (0 <= ab1 v) by (unfold ab1; pose proof (Rabs_pos (fst v)); pose proof (Rabs_pos (snd v)); lra).
  assert (0 <= ab1 a) by (unfold ab1; pose proof (Rabs_pos (fst a)); pose proof (Rabs_pos (snd a)); lra).
  eapply Rle_trans; [apply Rmult_le_compat; eassumption|].
  replace (sqrt 2 * Cmod v * (sqrt 2 * Cmod a)) with (sqrt 2 * sqrt 2 * (Cmod v * Cmod a)) by ring. rewrite sqrt_sqrt by lra. lra.
Qed.
Lemma Cmod_fst z : Rabs (fst z) <= Cmod z.
Proof. eapply Rle_trans; [apply Rmax_l|apply Rmax_Cmod]. Qed.
Lemma Cmod_snd z : Rabs (snd z) <= Cmod z.
Proof. eapply Rle_trans; [apply Rmax_r|apply Rmax_Cmod]. Qed.

Lemma cadd_err x y : cfin x -> cfin y -> Cmod (B2C x + B2C y)%C <= big1 ->
  cfin (fcadd x y) /\ Cmod (B2C (fcadd x y) - (B2C x + B2C y))%C <= 2 * uro * Cmod (B2C x + B2C y)%C + 2 * eta.
Proof.
  intros (Fx1 & Fx2) (Fy1 & Fy2) H.
  destruct (add_ok (fst x) (fst y) Fx1 Fy1) as (A1 & A2).
  { eapply Rle_trans; [apply (Cmod_fst (B2C x + B2C y)%C)|exact H]. }
  destruct (add_ok (snd x) (snd y) Fx2 Fy2) as (A3 & A4).
  { eapply Rle_trans; [apply (Cmod_snd (B2C x + B2C y)%C)|exact H]. }
  split; [split; assumption|]. eapply Rle_trans; [apply Cmod_n1|]. unfold ab1.
  cbn [fcadd B2C fst snd Cminus Cplus Copp]. rewrite A2, A4.
  pose proof (rnd_err (B2R (fst x) + B2R (fst y))) as E1. pose proof (rnd_err (B2R (snd x) + B2R (snd y))) as E2.
  unfold Rminus in E1, E2. pose proof (n1_Cmod (B2C x + B2C y)%C) as N. unfold ab1 in N. cbn [B2C Cplus fst snd] in N.
  set (m := Cmod _) in *. pose proof uro_pos.
  assert (uro * (Rabs (B2R (fst x) + B2R (fst y)) + Rabs (B2R (snd x) + B2R (snd y))) <= uro * (2 * m)) by (apply Rmult_le_compat_l; lra).
  lra.
Qed.

(** One component of a product. *)
Lemma comp_err (t1 t2 X Y : R) (w : R) : Rabs (t1 - X) <= uro * Rabs X + eta -> Rabs (t2 - Y) <= uro * Rabs Y + eta ->
  Rabs (w - (t1 + t2)) <= uro * Rabs (t1 + t2) + eta -> uro <= / 16 ->
  Rabs (w - (X + Y)) <= (2 * uro + uro * uro) * (Rabs X + Rabs Y) + (3 + 2 * uro) * eta.
Proof.
  intros H1 H2 H3 U. pose proof uro_pos as U0. pose proof eta_pos as E0.
  assert (T1 : Rabs (t1 + t2) <= Rabs X + Rabs Y + (uro * Rabs X + eta) + (uro * Rabs Y + eta)).
  { replace (t1 + t2) with ((X + Y) + ((t1 - X) + (t2 - Y))) by ring.
    eapply Rle_trans; [apply Rabs_triang|]. pose proof (Rabs_triang X Y). pose proof (Rabs_triang (t1 - X) (t2 - Y)). lra. }
  replace (w - (X + Y)) with ((w - (t1 + t2)) + ((t1 - X) + (t2 - Y))) by ring.
  eapply Rle_trans; [apply Rabs_triang|]. pose proof (Rabs_triang (t1 - X) (t2 - Y)).
  assert (uro * Rabs (t1 + t2) <= uro * (Rabs X + Rabs Y + (uro * Rabs X + eta) + (uro * Rabs Y + eta))) by (apply Rmult_le_compat_l; lra).
  lra.
Qed.

Lemma bounded_pair t1 t2 X Y q : Rabs (t1 - X) <= uro * Rabs X + eta -> Rabs (t2 - Y) <= uro * Rabs Y + eta ->
  uro <= / 16 -> eta <= 1 -> Rabs X <= q -> Rabs Y <= q -> q <= 16 -> Rabs (t1 + t2) <= 64.
Proof.
  intros H1 H2 U E HX HY Q. replace (t1 + t2) with (X + Y + ((t1 - X) + (t2 - Y))) by ring.
  eapply Rle_trans; [apply Rabs_triang|]. pose proof (Rabs_triang X Y). pose proof (Rabs_triang (t1 - X) (t2 - Y)).
  assert (uro * Rabs X <= / 16 * q) by (apply Rmult_le_compat; [pose proof uro_pos; lra|apply Rabs_pos|lra|lra]).
  assert (uro * Rabs Y <= / 16 * q) by (apply Rmult_le_compat; [pose proof uro_pos; lra|apply Rabs_pos|lra|lra]).
  lra.
Qed.

Lemma cmul_err v a : cfin v -> cfin a -> uro <= / 16 -> eta <= 1 -> 128 <= big1 -> Cmod (B2C v) * Cmod (B2C a) <= 16 ->
  cfin (fcmul v a) /\ Cmod (B2C (fcmul v a) - (B2C v * B2C a))%C <= 5 * uro * (Cmod (B2C v) * Cmod (B2C a)) + 7 * eta.
Proof.
  intros (Fv1 & Fv2) (Fa1 & Fa2) U E1 M Q. set (q := Cmod (B2C v) * Cmod (B2C a)) in *.
  set (vr := B2R (fst v)). set (vi := B2R (snd v)). set (r := B2R (fst a)). set (s := B2R (snd a)).
  assert (V1 : Rabs vr <= Cmod (B2C v)) by apply (Cmod_fst (B2C v)).
  assert (V2 : Rabs vi <= Cmod (B2C v)) by apply (Cmod_snd (B2C v)).
  assert (A1 : Rabs r <= Cmod (B2C a)) by apply (Cmod_fst (B2C a)).
  assert (A2 : Rabs s <= Cmod (B2C a)) by apply (Cmod_snd (B2C a)).
  assert (P : forall x y, Rabs x <= Cmod (B2C v) -> Rabs y <= Cmod (B2C a) -> Rabs (x * y) <= q).
  { intros x y Hx Hy. rewrite Rabs_mult. apply Rmult_le_compat; auto using Rabs_pos. }
  assert (P' : forall x y, Rabs x <= Cmod (B2C v) -> Rabs y <= Cmod (B2C a) -> Rabs (x * y) <= big1).
  { intros x y Hx Hy. pose proof (P x y Hx Hy). lra. }
  destruct (mul_ok (fst v) (fst a) Fv1 Fa1 (P' _ _ V1 A1)) as (F1 & M1).
  destruct (mul_ok (snd v) (snd a) Fv2 Fa2 (P' _ _ V2 A2)) as (F2 & M2).
  destruct (mul_ok (fst v) (snd a) Fv1 Fa2 (P' _ _ V1 A2)) as (F3 & M3).
  destruct (mul_ok (snd v) (fst a) Fv2 Fa1 (P' _ _ V2 A1)) as (F4 & M4).
  pose proof (rnd_err (vr * r)) as R1. pose proof (rnd_err (vi * s)) as R2. pose proof (rnd_err (vr * s)) as R3. pose proof (rnd_err (vi * r)) as R4.
  fold vr vi r s in M1, M2, M3, M4. rewrite <- M1 in R1. rewrite <- M2 in R2. rewrite <- M3 in R3. rewrite <- M4 in R4.
  assert (R2' : Rabs (- B2R (fmul (snd v) (snd a)) - (- (vi * s))) <= uro * Rabs (- (vi * s)) + eta).
  { rewrite Rabs_Ropp. replace (- B2R (fmul (snd v) (snd a)) - - (vi * s)) with (- (B2R (fmul (snd v) (snd a)) - vi * s)) by ring. rewrite Rabs_Ropp. exact R2. }
  pose proof (P _ _ V1 A1) as Q1. pose proof (P _ _ V2 A2) as Q2. pose proof (P _ _ V1 A2) as Q3. pose proof (P _ _ V2 A1) as Q4.
  assert (Q2' : Rabs (- (vi * s)) <= q) by (rewrite Rabs_Ropp; exact Q2).
  pose proof (bounded_pair _ _ _ _ q R1 R2' U E1 Q1 Q2' Q) as B1.
  pose proof (bounded_pair _ _ _ _ q R3 R4 U E1 Q3 Q4 Q) as B2.
  destruct (sub_ok _ _ F1 F2) as (F5 & M5). { unfold Rminus. lra. }
  destruct (add_ok _ _ F3 F4) as (F6 & M6). { lra. }
  split; [split; assumption|].
  eapply Rle_trans; [apply Cmod_n1|]. unfold ab1. cbn [fcmul B2C fst snd Cminus Cplus Copp Cmult]. fold vr vi r s.
  pose proof (rnd_err (B2R (fmul (fst v) (fst a)) - B2R (fmul (snd v) (snd a)))) as R5. rewrite <- M5 in R5. unfold Rminus in R5.
  pose proof (rnd_err (B2R (fmul (fst v) (snd a)) + B2R (fmul (snd v) (fst a)))) as R6. rewrite <- M6 in R6.
  pose proof (comp_err _ _ _ _ _ R1 R2' R5 U) as C1. pose proof (comp_err _ _ _ _ _ R3 R4 R6 U) as C2.
  replace (B2R (fsub (fmul (fst v) (fst a)) (fmul (snd v) (snd a))) + - (vr * r - vi * s)) with
    (B2R (fsub (fmul (fst v) (fst a)) (fmul (snd v) (snd a))) - (vr * r + - (vi * s))) by ring.
  unfold Rminus in *. rewrite Rabs_Ropp in C1.
  assert (N : Rabs (vr * r) + Rabs (vi * s) + (Rabs (vr * s) + Rabs (vi * r)) <= 2 * q).
  { rewrite !Rabs_mult. pose proof (n1_mul (B2C v) (B2C a)) as N. unfold ab1 in N. cbn [B2C fst snd] in N. fold vr vi r s in N. fold q in N. lra. }
  pose proof uro_pos as U0. pose proof eta_pos as E0.
  assert (0 <= q) by (apply Rmult_le_pos; apply Cmod_ge_0).
  assert ((2 * uro + uro * uro) * (Rabs (vr * r) + Rabs (vi * s) + (Rabs (vr * s) + Rabs (vi * r))) <= (2 * uro + uro * uro) * (2 * q)).
  { apply Rmult_le_compat_l; [nra|exact N]. }
  assert (uro * uro * (2 * q) <= uro * q). { assert (uro * (2 * q) <= q) by nra. nra. }
  assert (uro * eta <= / 16 * eta) by (apply Rmult_le_compat_r; lra).
  lra.
Qed.

(** Exact sum of products, and the sum of the moduli. *)
Fixpoint csum (l : list (fc * fc)) : C := match l with [] => RtoC 0 | (v, a) :: l' => (B2C v * B2C a + csum l')%C end.
Fixpoint asum (l : list (fc * fc)) : R := match l with [] => 0 | (v, a) :: l' => Cmod (B2C v) * Cmod (B2C a) + asum l' end.

Lemma asum_pos l : 0 <= asum l.
Proof. induction l as [|[v a] l IH]; cbn; [lra|]. pose proof (Cmod_ge_0 (B2C v)). pose proof (Cmod_ge_0 (B2C a)). nra. Qed.

(** The smallest positive number is far below the unit roundoff. *)
Lemma eta_uro : 128 <= big1 -> eta <= uro.
Proof.
  intros M. unfold eta, uro.
  assert (G : (3 <= emax)%Z).
  { destruct (Z_le_gt_dec 3 emax); [assumption|]. exfalso. unfold big1 in M.
    assert (Q : bpow radix2 (emax - 1) <= bpow radix2 2) by (apply bpow_le; lia). change (bpow radix2 2) with 4 in Q. lra. }
  assert (Q : bpow radix2 emin <= bpow radix2 (- prec)) by (apply bpow_le; lia).
  pose proof (bpow_gt_0 radix2 (- prec)). lra.
Qed.

Lemma sum_step (acc p : fc) (ae pe : C) S s j : cfin acc -> cfin p -> 128 <= big1 -> eta <= 1 -> 32 * (INR j + 3) * uro <= 1 ->
  0 <= S -> 0 <= s -> S + s <= 16 -> Cmod ae <= S -> Cmod pe <= s ->
  Cmod (B2C acc - ae)%C <= (5 + 3 * INR j) * uro * S + 10 * INR j * eta ->
  Cmod (B2C p - pe)%C <= 5 * uro * s + 7 * eta ->
  cfin (fcadd acc p) /\
  Cmod (B2C (fcadd acc p) - (ae + pe))%C <= (5 + 3 * INR (Datatypes.S j)) * uro * (S + s) + 10 * INR (Datatypes.S j) * eta.
Proof.
  intros Fa Fp M E1 J HS Hs Q1 Ha Hpe Ea Ep. pose proof uro_pos as U0. pose proof eta_pos as E0. pose proof (pos_INR j) as J0.
  set (e1 := Cmod (B2C acc - ae)%C) in *. set (e2 := Cmod (B2C p - pe)%C) in *.
  assert (B : Cmod (B2C acc + B2C p)%C <= (S + s) + (e1 + e2)).
  { replace (B2C acc + B2C p)%C with ((ae + pe) + ((B2C acc - ae) + (B2C p - pe)))%C by ring.
    eapply Rle_trans; [apply Cmod_triangle|]. pose proof (Cmod_triangle ae pe). pose proof (Cmod_triangle (B2C acc - ae)%C (B2C p - pe)%C).
    fold e1 e2 in H0. lra. }
  assert (U1 : uro * INR j <= / 32 - 3 * uro) by lra.
  assert (H1 : (5 + 3 * INR j) * uro * S <= / 4 * S). { apply Rmult_le_compat_r; [lra|]. lra. }
  assert (H2 : 5 * uro * s <= / 4 * s). { apply Rmult_le_compat_r; [lra|]. nra. }
  assert (H3 : 0 <= uro * S) by nra. assert (H4 : 0 <= uro * s) by nra.
  assert (X1 : 10 * INR j * eta + 7 * eta <= 10 * (INR j + 1) * eta) by nra.
  assert (X2 : uro * (10 * (INR j + 1) * eta) <= / 3 * eta). { replace (uro * (10 * (INR j + 1) * eta)) with ((10 * (INR j + 1) * uro) * eta) by ring. apply Rmult_le_compat_r; [lra|]. lra. }
  assert (X3 : e1 + e2 <= / 4 * (S + s) + 10 * (INR j + 1) * eta) by lra.
  assert (X4 : uro * (e1 + e2) <= uro * (/ 4 * (S + s)) + / 3 * eta).
  { eapply Rle_trans; [apply Rmult_le_compat_l; [lra|exact X3]|]. rewrite Rmult_plus_distr_l. lra. }
  assert (J1 : INR (Datatypes.S j) = INR j + 1) by apply S_INR.
  destruct (cadd_err acc p Fa Fp) as (F & E).
  { assert (Y : 10 * (INR j + 1) * eta <= 60).
    { (* eta is far below uro *) 
      pose proof (eta_uro M).
      assert (10 * (INR j + 1) * eta <= 10 * (INR j + 1) * uro) by (apply Rmult_le_compat_l; lra). lra. }
    lra. }
  split; [exact F|]. rewrite J1.
  replace (B2C (fcadd acc p) - (ae + pe))%C with ((B2C (fcadd acc p) - (B2C acc + B2C p)) + ((B2C acc - ae) + (B2C p - pe)))%C by ring.
  eapply Rle_trans; [apply Cmod_triangle|]. pose proof (Cmod_triangle (B2C acc - ae)%C (B2C p - pe)%C) as T. fold e1 e2 in T.
  assert (Y : 2 * uro * Cmod (B2C acc + B2C p)%C <= 2 * (uro * (S + s)) + 2 * (uro * (e1 + e2))).
  { replace (2 * (uro * (S + s)) + 2 * (uro * (e1 + e2))) with (2 * uro * ((S + s) + (e1 + e2))) by ring. apply Rmult_le_compat_l; lra. }
  assert (W : 0 <= INR j * (uro * s)) by nra. lra.
Qed.

Lemma sum_err_gen l : forall acc ae S j, cfin acc -> Forall (fun va => cfin (fst va) /\ cfin (snd va)) l -> 128 <= big1 -> eta <= 1 ->
  32 * (INR (j + length l) + 3) * uro <= 1 -> 0 <= S -> S + asum l <= 16 -> Cmod ae <= S ->
  Cmod (B2C acc - ae)%C <= (5 + 3 * INR j) * uro * S + 10 * INR j * eta ->
  let r := fold_left fcadd (map (fun va => fcmul (fst va) (snd va)) l) acc in
  cfin r /\ Cmod (B2C r - (ae + csum l))%C <= (5 + 3 * INR (j + length l)) * uro * (S + asum l) + 10 * INR (j + length l) * eta.
Proof.
  induction l as [|[v a] l IH]; intros acc ae S j Fa Fl M E1 J HS Q Ha Ea; cbn [fold_left map length fst snd csum asum] in *.
  - rewrite Nat.add_0_r. split; [exact Fa|]. replace (ae + RtoC 0)%C with ae by ring. rewrite Rplus_0_r. exact Ea.
  - inversion Fl as [|? ? (Fv & Fa') Fl']; subst. cbn [fst snd] in Fv, Fa'.
    pose proof (asum_pos l) as A0. set (s := Cmod (B2C v) * Cmod (B2C a)) in *.
    assert (Hs : 0 <= s) by (apply Rmult_le_pos; apply Cmod_ge_0).
    assert (Jl : INR j + 1 + INR (length l) = INR (j + Datatypes.S (length l))). { rewrite plus_INR, S_INR. ring. }
    pose proof (pos_INR (length l)) as L0. pose proof (pos_INR j) as J0. pose proof uro_pos as U0.
    assert (J' : 32 * (INR j + 3) * uro <= 1). { rewrite <- Jl in J. nra. }
    assert (U : uro <= / 16) by nra.
    destruct (cmul_err v a Fv Fa' U E1 M) as (Fp & Ep). { fold s. lra. }
    destruct (sum_step acc (fcmul v a) ae (B2C v * B2C a)%C S s j Fa Fp M E1 J' HS Hs) as (F & E); [lra|exact Ha| |exact Ea|exact Ep|].
    { rewrite Cmod_mult. apply Rle_refl. }
    destruct (IH (fcadd acc (fcmul v a)) (ae + B2C v * B2C a)%C (S + s) (Datatypes.S j) F Fl' M E1) as (R1 & R2).
    + replace (Datatypes.S j + length l)%nat with (j + Datatypes.S (length l))%nat by lia. exact J.
    + lra.
    + lra.
    + eapply Rle_trans; [apply Cmod_triangle|]. rewrite Cmod_mult. fold s. lra.
    + exact E.
    + split; [exact R1|]. replace (Datatypes.S j + length l)%nat with (j + Datatypes.S (length l))%nat in R2 by lia.
      replace (ae + (B2C v * B2C a + csum l))%C with (ae + B2C v * B2C a + csum l)%C by ring.
      replace (S + (s + asum l)) with (S + s + asum l) by ring. exact R2.
Qed.

Lemma sum_err l : Forall (fun va => cfin (fst va) /\ cfin (snd va)) l -> 128 <= big1 -> eta <= 1 ->
  32 * (INR (length l) + 3) * uro <= 1 -> asum l <= 16 ->
  let r := nsum FN (map (fun va => fcmul (fst va) (snd va)) l) in
  cfin r /\ Cmod (B2C r - csum l)%C <= (5 + 3 * INR (length l)) * uro * asum l + 10 * INR (length l) * eta.
Proof.
  intros Fl M E1 J Q. destruct (sum_err_gen l fc0 (RtoC 0) 0 0) as (R1 & R2); auto.
  - split; reflexivity.
  - lra.
  - lra.
  - rewrite Cmod_0. lra.
  - change (B2C fc0) with (RtoC 0). replace (RtoC 0 - RtoC 0)%C with (RtoC 0) by ring. rewrite Cmod_0. cbn. lra.
  - cbn [Nat.add] in R2. split; [exact R1|]. replace (RtoC 0 + csum l)%C with (csum l) in R2 by ring. rewrite Rplus_0_l in R2. exact R2.
Qed.

End Arith.
