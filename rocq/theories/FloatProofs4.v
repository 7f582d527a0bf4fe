(** Every gate, and whole circuits, in floats. *)
From Coq Require Import ZArith Reals Lra Psatz FunctionalExtensionality.
From Flocq Require Import Core.Core IEEE754.BinarySingleNaN.
From Coquelicot Require Import Complex.
From Verif Require Import Base BitsSpec BitsModel BitsProofs OpsModel OpsSpec OpsProofs ConjSpec StateOpsModel Instances BuilderModel DenSpec DenProofs
  SimSpec UnitaryProofs SimProofs FloatModel FloatSpec FloatProofs FloatProofs2 FloatProofs3 FloatMatProofs.
Local Open Scope R_scope.

Lemma uden_sub u qs phi psi x : uden u qs (fun x => phi x - psi x)%C x = (uden u qs phi x - uden u qs psi x)%C.
Proof.
  destruct u; cbn [uden]; try reflexivity; try (destruct qs as [|q [|t [|? ?]]]; try reflexivity; unfold on1; ring).
  apply act_sub.
Qed.

Lemma cos_lip a b : Rabs (cos a - cos b) <= Rabs (a - b).
Proof.
  destruct (MVT_abs cos (fun x => - sin x) b a) as (c & H & _); [intros; apply derivable_pt_lim_cos|].
  rewrite H. assert (S : Rabs (- sin c) <= 1). { rewrite Rabs_Ropp. apply Rabs_le. apply SIN_bound. }
  pose proof (Rabs_pos (a - b)). nra.
Qed.
Lemma sin_lip a b : Rabs (sin a - sin b) <= Rabs (a - b).
Proof.
  destruct (MVT_abs sin cos b a) as (c & H & _); [intros; apply derivable_pt_lim_sin|].
  rewrite H. assert (S : Rabs (cos c) <= 1). { apply Rabs_le. apply COS_bound. }
  pose proof (Rabs_pos (a - b)). nra.
Qed.
Lemma Cmod_expi t : Cmod (expi t) = 1.
Proof.
  unfold Cmod, expi. cbn [fst snd]. replace (cos t ^ 2 + sin t ^ 2) with 1; [apply sqrt_1|]. pose proof (sin2_cos2 t) as H. unfold Rsqr in H. lra.
Qed.
Lemma inv_sqrt2_le : 0 <= / sqrt 2 <= 1.
Proof.
  assert (S : 1 <= sqrt 2). { rewrite <- sqrt_1. apply sqrt_le_1_alt. lra. }
  split; [left; apply Rinv_0_lt_compat; lra|]. rewrite <- Rinv_1. apply Rinv_le_contravar; lra.
Qed.

Section Circuits.
Context {prec emax : Z} {Hp : FLX.Prec_gt_0 prec} {He : Prec_lt_emax prec emax}.
Local Notation fl := (fl prec emax).
Local Notation fc := (fc prec emax).
Local Notation uro := (@uro prec).
Local Notation eta := (@eta prec emax).
Context (Pp : (8 <= prec)%Z) (Pe : (8 <= emax)%Z).
Context (pf : platform prec emax) (d : R) (A : accurate pf d) (Du : uro <= d) (D1 : d <= / 5).

Lemma eta_d : eta <= d.
Proof. pose proof (@eta_uro prec emax (big_ok Pe)). lra. Qed.

Lemma polar_err (t : fl) s e : fin t -> Rabs (B2R t - s) <= e ->
  cfin (fpolar pf t) /\ Cmod (B2C (fpolar pf t) - expi s)%C <= 2 * (d + e).
Proof.
  intros Ft Es. destruct (a_cos pf d A t Ft) as (Fc & Ec). destruct (a_sin pf d A t Ft) as (Fs & Esn).
  destruct (mul_m1 fone (p_cos pf t) (proj1 fone_ok) Fc) as (C1 & C2); [right; left; apply fone_ok|].
  destruct (mul_m1 fone (p_sin pf t) (proj1 fone_ok) Fs) as (S1 & S2); [right; left; apply fone_ok|].
  split; [split; assumption|]. eapply Rle_trans; [apply Cmod_n1|]. unfold ab1, B2C, fpolar, expi, Cminus, Cplus, Copp. cbn [fst snd].
  rewrite C2, S2, (proj2 fone_ok), !Rmult_1_l.
  pose proof (cos_lip (B2R t) s). pose proof (sin_lip (B2R t) s).
  assert (X : Rabs (B2R (p_cos pf t) + - cos s) <= d + e).
  { replace (B2R (p_cos pf t) + - cos s) with ((B2R (p_cos pf t) - cos (B2R t)) + (cos (B2R t) - cos s)) by ring. eapply Rle_trans; [apply Rabs_triang|]. lra. }
  assert (Y : Rabs (B2R (p_sin pf t) + - sin s) <= d + e).
  { replace (B2R (p_sin pf t) + - sin s) with ((B2R (p_sin pf t) - sin (B2R t)) + (sin (B2R t) - sin s)) by ring. eapply Rle_trans; [apply Rabs_triang|]. lra. }
  lra.
Qed.

(** Matrices as functions of row and column. *)
Definition mk4 (a b c e : fc) : bool -> bool -> fc := fun r k => match r, k with false, false => a | false, true => b | true, false => c | true, true => e end.

Lemma dist_0 n (f g : state) : (forall i, (i < 2 ^ n)%nat -> f (dec n i) = g (dec n i)) -> dist n f g <= 0.
Proof.
  intros H. unfold dist. rewrite (l2_ext n _ (fun _ => RtoC 0)).
  - rewrite l2_const by lra. lra.
  - intros i Hi. rewrite H by exact Hi. ring.
Qed.

Definition kap : R := 44 * uro + 10 * d.
Definition hh (n : nat) : R := 20 * eta * sqrt (2 ^ n).
Definition gcost (u : unitary) (qs : list nat) (n : nat) (s : R) : R := match u with UH | UT | URz _ => kap * s + hh n | UMAT _ => 4 ^ (length qs - 1) * (kap * s + hh n) | _ => 0 end.

Lemma cfin_1 : cfin (fc1 : fc). Proof. apply u4_1. Qed.
Lemma cfin_0 : cfin (fc0 : fc). Proof. split; reflexivity. Qed.
Lemma cfin_i : cfin (fci : fc). Proof. apply u4_i. Qed.
Lemma fcis0_0 : fcis0 (fc0 : fc) = true. Proof. reflexivity. Qed.
Lemma fcis0_1 : fcis0 (fc1 : fc) = false.
Proof. destruct (fcis0 fc1) eqn:E; [|reflexivity]. apply (fcis0_ok _ cfin_1) in E. rewrite B2C_1 in E. exfalso. apply RtoC_inj in E. lra. Qed.

Lemma e0_err x : 0 <= x -> cfin (fc0 : fc) /\ Cmod (B2C (fc0 : fc) - RtoC 0)%C <= x.
Proof. intros H. split; [apply cfin_0|]. rewrite B2C_0. replace (RtoC 0 - RtoC 0)%C with (RtoC 0) by ring. rewrite Cmod_0. exact H. Qed.

Lemma h_err : let nl := fcscale fc1 (p_sqrt_half pf) in cfin nl /\ Cmod (B2C nl - RtoC (/ sqrt 2))%C <= d.
Proof.
  cbn zeta. destruct (a_sqrt_half pf d A) as (F & E).
  destruct (mul_m1 fone (p_sqrt_half pf) (proj1 fone_ok) F) as (C1 & C2); [right; left; apply fone_ok|].
  destruct (mul_m1 fzero (p_sqrt_half pf) eq_refl F) as (S1 & S2); [left; reflexivity|].
  split; [split; assumption|]. unfold B2C, fcscale, fc1. cbn [fst snd]. rewrite C2, S2, (proj2 fone_ok), Rmult_1_l.
  change (B2R (fzero : fl)) with 0. rewrite Rmult_0_l.
  replace ((B2R (p_sqrt_half pf), 0) - RtoC (/ sqrt 2))%C with (RtoC (B2R (p_sqrt_half pf) - / sqrt 2)).
  - rewrite Cmod_R. exact E.
  - unfold RtoC, Cminus, Cplus, Copp. cbn. f_equal; ring.
Qed.

Lemma mk_one q (x : bool -> bool -> fc) : make_matrix_op [q] (fmat x) = Ok (Matrix [q] (fmat x)).
Proof. reflexivity. Qed.
Lemma fmat_mk4 a b c e : fmat (mk4 a b c e) = [a; b; c; e]. Proof. reflexivity. Qed.

Lemma mat_one {T} (l : list T) (qs : list nat) : qs <> [] /\ length l = (2 ^ (2 * length qs))%nat -> length l = 4%nat -> length qs = 1%nat.
Proof.
  intros (Hn & H) L. rewrite L in H. change 4%nat with (2 ^ 2)%nat in H. apply Nat.pow_inj_r in H; lia.
Qed.
Lemma uden_mat1 (m : mat1) q psi : uden (UMAT [m false false; m false true; m true false; m true true]) [q] psi = on1 m q psi.
Proof. cbn [uden length]. extensionality x. rewrite act1. unfold on1. destruct (x q); cbn; reflexivity. Qed.
Lemma ortho_le (m : mat1) : ortho m -> forall r c, Cmod (m r c) <= 1.
Proof.
  intros O r c. specialize (O c c). rewrite eqb_reflx in O. apply (f_equal fst) in O. unfold Cconj, Cmult, Cplus, RtoC in O. cbn [fst snd] in O.
  unfold Cmod. rewrite <- sqrt_1. apply sqrt_le_1_alt. destruct r; cbn [pow]; nra.
Qed.
Lemma ortho_unitary (m : mat1) q k : ortho m -> unitary_entry ([q], mkCO k (OUnit (UMAT [m false false; m false true; m true false; m true true]))).
Proof.
  intros O r c Hr Hc. cbn [fst length] in Hr, Hc |- *. destruct r as [|a [|? ?]]; try discriminate. destruct c as [|b [|? ?]]; try discriminate.
  unfold mmul, adj. cbn [bools map app big hd nadd nmul n0 CN].
  transitivity (Cconj (m false a) * m false b + Cconj (m true a) * m true b)%C.
  - destruct a, b; cbn; ring.
  - rewrite O. destruct a, b; reflexivity.
Qed.

Lemma gate_err fu u n qs v : frep d fu u -> wf_unitary u qs -> NoDup qs -> in_range n qs ->
  length v = (2 ^ n)%nat -> Forall cfin v -> l2 n (fstate n v) <= 2 ->
  exists op, funitary_op pf qs fu = Ok op /\ wf_op op /\ op_indices op = qs /\
    let v' := map (raw_row FN n op v) (seq 0 (2 ^ n)) in
    Forall cfin v' /\ dist n (fstate n v') (uden u qs (fstate n v)) <= gcost u qs n (l2 n (fstate n v)).
Proof.
  intros Rp W ND R Lv Fv HB. pose proof (@uro_pos prec) as U0. pose proof eta_d as Ed. pose proof (@eta_pos prec emax) as T0.
  pose proof inv_sqrt2_le as (I0 & I1).
  assert (Ex : forall fm (m : mat1) q, qs = [q] -> (q < n)%nat ->
    (forall r c, cfin (fm r c) /\ B2C (fm r c) = m r c) ->
    (forall r, (unit4 (fm r false) /\ m r true = RtoC 0) \/ (unit4 (fm r true) /\ m r false = RtoC 0)) ->
    exists op, make_matrix_op qs (fmat fm) = Ok op /\ wf_op op /\ op_indices op = qs /\
      let v' := map (raw_row FN n op v) (seq 0 (2 ^ n)) in Forall cfin v' /\ dist n (fstate n v') (on1 m q (fstate n v)) <= 0).
  { intros fm m q -> Hq H1 H2. exists (Matrix [q] (fmat fm)). repeat (split; [reflexivity|]).
    destruct (one_exact fm m n q v Hq Lv Fv H1 H2) as (K1 & K2). split; [exact K1|]. apply dist_0. exact K2. }
  assert (Er : forall fm (m : mat1) q, qs = [q] -> (q < n)%nat ->
    (forall r c, cfin (fm r c) /\ Cmod (B2C (fm r c) - m r c)%C <= 5 * d) -> (forall r c, Cmod (m r c) <= 1) ->
    exists op, make_matrix_op qs (fmat fm) = Ok op /\ wf_op op /\ op_indices op = qs /\
      let v' := map (raw_row FN n op v) (seq 0 (2 ^ n)) in Forall cfin v' /\ dist n (fstate n v') (on1 m q (fstate n v)) <= kap * l2 n (fstate n v) + hh n).
  { intros fm m q -> Hq H1 H2. exists (Matrix [q] (fmat fm)). repeat (split; [reflexivity|]).
    destruct (one_err Pp Pe fm m n q v (5 * d) Hq Lv Fv H1 H2) as (K1 & K2); [lra|exact HB|]. split; [exact K1|].
    unfold kap, hh. replace (44 * uro + 10 * d) with (44 * uro + 2 * (5 * d)) by ring. exact K2. }
  assert (Hdiag : forall a b (A B : C), cfin a -> cfin b -> Cmod (B2C a - A)%C <= 5 * d -> Cmod (B2C b - B)%C <= 5 * d ->
    forall r c, cfin (mk4 a fc0 fc0 b r c) /\ Cmod (B2C (mk4 a fc0 fc0 b r c) - diag A B r c)%C <= 5 * d).
  { intros a b A' B' Fa Fb Ea Eb [] []; cbn [mk4 diag eqb]; try (apply e0_err; lra); split; assumption. }
  assert (Hdiag1 : forall (A B : C), Cmod A <= 1 -> Cmod B <= 1 -> forall r c, Cmod (diag A B r c) <= 1).
  { intros A' B' H1 H2 [] []; cbn [diag eqb]; rewrite ?Cmod_0; try assumption; lra. }
  destruct Rp; cbn [wf_unitary funitary_op gcost] in *.
  11: { (* matrix on k qubits *)
    destruct H0 as (Ld & _ & U). destruct W as (Hne & Lq). assert (Ek : k = length qs) by (rewrite Ld in Lq; apply Nat.pow_inj_r in Lq; lia). subst k.
    assert (Lf : length fdata = (2 ^ (2 * length qs))%nat) by (rewrite <- Ld; clear -H; induction H; cbn; congruence).
    exists (Matrix qs fdata). split.
    { unfold make_matrix_op. destruct (length qs =? 0)%nat eqn:E0; [destruct qs; [congruence|discriminate]|]. rewrite Lf, Nat.eqb_refl. reflexivity. }
    split; [exact Lf|]. split; [reflexivity|].
    destruct (mat_err Pp Pe n qs fdata data v d ND R Lv Fv H Ld U) as (K1 & K2); [lra|assumption|assumption|exact HB|].
    split; [exact K1|]. eapply Rle_trans; [exact K2|]. clear K1 K2. set (k := length qs) in *. set (K := 2 ^ k) in *.
    assert (Hk : (1 <= k)%nat) by (unfold k; destruct qs; [congruence|cbn; lia]).
    assert (K2 : 2 <= K). { unfold K. rewrite <- (pow_1 2) at 1. apply Rle_pow; [lra|exact Hk]. }
    assert (EW : K * K = 4 * 4 ^ (k - 1)). { unfold K. rewrite <- Rpow_mult_distr. replace (2 * 2) with 4 by ring.  replace k with (S (k - 1)) at 1 by lia. cbn [pow]. ring. }
    set (w := 4 ^ (k - 1)) in *. assert (KW : K <= 2 * w) by nra.
    set (s := l2 n (fstate n v)) in *. assert (S0 : 0 <= s) by apply l2_pos. pose proof (sqrt_pos (2 ^ n)) as Q0.
    rewrite Rmult_plus_distr_l. apply Rplus_le_compat.
    - rewrite <- Rmult_assoc. apply Rmult_le_compat_r; [exact S0|]. unfold kap.
      assert (((10 + 6 * K) * K) * uro <= (44 * w) * uro) by (apply Rmult_le_compat_r; [lra|nra]).
      assert (d * K <= d * (2 * w)) by (apply Rmult_le_compat_l; lra). assert (0 <= d * w) by (apply Rmult_le_pos; lra). lra.
    - unfold hh. assert (0 <= eta * sqrt (2 ^ n)) by (apply Rmult_le_pos; lra).
      assert (10 * K * (eta * sqrt (2 ^ n)) <= 20 * w * (eta * sqrt (2 ^ n))) by (apply Rmult_le_compat_r; lra). lra. }
  10: pose proof (mat_one _ _ W eq_refl) as W1; clear W; rename W1 into W; rewrite W; cbn [Nat.sub pow]; rewrite Rmult_1_l.
  1-6, 9, 10: destruct qs as [|q [|? ?]]; cbn in W; try discriminate; assert (Hq : (q < n)%nat) by (apply R; left; reflexivity).
  - (* X *) rewrite <- (fmat_mk4 fc0 fc1 fc1 fc0). apply (Ex _ mX q eq_refl Hq).
    + intros [] []; cbn [mk4 mX eqb]; (split; [first [apply cfin_0|apply cfin_1]|first [apply B2C_0|apply B2C_1]]).
    + intros []; cbn [mk4 mX eqb]; [left|right]; split; try reflexivity; apply u4_1.
  - (* Y *) rewrite <- (fmat_mk4 fc0 (fcneg fci) fci fc0). apply (Ex _ mY q eq_refl Hq).
    + intros [] []; cbn [mk4 mY]; (split; [first [apply cfin_0|apply cfin_neg, cfin_i|apply cfin_i]|first [apply B2C_0|rewrite B2C_neg, B2C_i; reflexivity|apply B2C_i]]).
    + intros []; cbn [mk4 mY]; [left|right]; split; try reflexivity; [apply u4_i|apply u4_neg, u4_i].
  - (* Z *) rewrite <- (fmat_mk4 fc1 fc0 fc0 (fcneg fc1)). apply (Ex _ mZ q eq_refl Hq).
    + intros [] []; unfold mZ; cbn [mk4 diag eqb]; (split; [first [apply cfin_0|apply cfin_neg, cfin_1|apply cfin_1]|first [apply B2C_0|rewrite B2C_neg, B2C_1, rn_1; reflexivity|apply B2C_1]]).
    + intros []; unfold mZ; cbn [mk4 diag eqb]; [right|left]; split; try reflexivity; [apply u4_neg, u4_1|apply u4_1].
  - (* H *) destruct h_err as (Fh & Eh). set (nl := fcscale fc1 (p_sqrt_half pf)) in *.
    rewrite <- (fmat_mk4 nl nl nl (fcneg nl)). apply (Er _ mH q eq_refl Hq).
    + intros [] []; cbn [mk4 mH andb]; (split; [first [exact Fh|apply cfin_neg, Fh]|]); try (eapply Rle_trans; [exact Eh|lra]).
      rewrite B2C_neg. replace (Copp (B2C nl) - RtoC (- / sqrt 2))%C with (Copp (B2C nl - RtoC (/ sqrt 2)))%C by (rewrite RtoC_opp; ring).
      rewrite Cmod_opp. eapply Rle_trans; [exact Eh|lra].
    + intros [] []; cbn [mH andb]; rewrite Cmod_R, ?Rabs_Ropp, Rabs_pos_eq by lra; lra.
  - (* S *) rewrite <- (fmat_mk4 fc1 fc0 fc0 fci). apply (Ex _ mS q eq_refl Hq).
    + intros [] []; unfold mS; cbn [mk4 diag eqb]; (split; [first [apply cfin_0|apply cfin_i|apply cfin_1]|first [apply B2C_0|apply B2C_i|apply B2C_1]]).
    + intros []; unfold mS; cbn [mk4 diag eqb]; [right|left]; split; try reflexivity; [apply u4_i|apply u4_1].
  - (* T *) destruct (a_pi_4 pf d A) as (Fp & Ep). destruct (polar_err (p_pi_4 pf) (PI / 4) d Fp Ep) as (Fq & Eq).
    rewrite <- (fmat_mk4 fc1 fc0 fc0 (fpolar pf (p_pi_4 pf))). apply (Er _ mT q eq_refl Hq).
    + unfold mT. apply Hdiag; [apply cfin_1|exact Fq| |lra]. rewrite B2C_1. replace (RtoC 1 - RtoC 1)%C with (RtoC 0) by ring. rewrite Cmod_0. lra.
    + unfold mT. apply Hdiag1; [rewrite Cmod_1; lra|rewrite Cmod_expi; lra].
  - (* Rz *) destruct (half_err theta (p_half pf) H (proj1 (a_half pf d A)) (proj2 (a_half pf d A))) as (Fh & Eh).
    set (h := fmul theta (p_half pf)) in *.
    assert (E1 : Rabs (B2R h - angle t / 2) <= 3 / 2 * d).
    { replace (B2R h - angle t / 2) with ((B2R h - B2R theta / 2) + (B2R theta - angle t) * / 2) by field. eapply Rle_trans; [apply Rabs_triang|].
      rewrite Rabs_mult, (Rabs_pos_eq (/ 2)) by lra. lra. }
    destruct (fneg_ok h Fh) as (Fn & En).
    destruct (polar_err h (angle t / 2) (3 / 2 * d) Fh E1) as (F1 & G1).
    destruct (polar_err (fneg h) (- (angle t / 2)) (3 / 2 * d) Fn) as (F2 & G2).
    { rewrite En. replace (- B2R h - - (angle t / 2)) with (- (B2R h - angle t / 2)) by ring. rewrite Rabs_Ropp. exact E1. }
    rewrite <- (fmat_mk4 (fpolar pf (fneg h)) fc0 fc0 (fpolar pf h)). apply (Er _ (mRz (angle t)) q eq_refl Hq).
    + unfold mRz. apply Hdiag; [exact F2|exact F1|lra|lra].
    + unfold mRz. apply Hdiag1; rewrite Cmod_expi; lra.
  - (* MAT *) change [fm false false; fm false true; fm true false; fm true true] with (fmat fm).
    replace (uden (UMAT [m false false; m false true; m true false; m true true]) [q]) with (on1 m q) by (extensionality psi; symmetry; apply uden_mat1).
    apply (Er fm m q eq_refl Hq).
    + intros r c. destruct (H r c) as (F & E). split; [exact F|lra].
    + intros r c. apply ortho_le. assumption.
  - (* CNOT *)
    destruct qs as [|c [|t [|? ?]]]; cbn in W; try discriminate.
    exists (Control 1 [c; t] (Matrix [t] [fc0; fc1; fc1; fc0])). split; [reflexivity|]. split; [split; reflexivity|]. split; [reflexivity|].
    assert (Nct : c <> t). { intros ->. inversion ND; subst. apply H1. left. reflexivity. }
    assert (Row : forall row, let y := raw_row FN n (Control 1 [c; t] (Matrix [t] [fc0; fc1; fc1; fc0])) v row in
      cfin y /\ B2C y = ctl_not [c] t (fstate n v) (dec n row)).
    { intros row. set (x := dec n row). cbn zeta.
      assert (It : exists col, op_items FN (Control 1 [c; t] (Matrix [t] [fc0; fc1; fc1; fc0])) (be (map (dec n row) [c; t])) = [(col, fc1)] /\
        updl x [c; t] (bits_be 2 col) = cflip [c] t x).
      { fold x. cbn [map op_items length op_indices]. unfold be. cbn [fold_left b2n]. unfold dense_items. cbn [length Nat.pow Nat.mul Nat.add seq].
        unfold cflip, flip. cbn [forallb andb].
        destruct (x c) eqn:Xc; destruct (x t) eqn:Xt; cbn [b2n Nat.mul Nat.add Nat.sub Nat.leb map nth filter snd fst nis0 FN n1 negb];
          rewrite ?fcis0_0, ?fcis0_1; cbn [negb map fst snd Nat.add]; eexists; (split; [reflexivity|]);
          extensionality i; cbn; unfold upd; repeat match goal with |- context [Nat.eqb ?a ?b] => destruct (Nat.eqb_spec a b) end; congruence. }
      destruct It as (col & E1 & E2). pose proof (row_single n (Control 1 [c; t] (Matrix [t] [fc0; fc1; fc1; fc0])) v row col Fv E1) as K.
      cbn zeta in K. cbn [op_indices length] in K. fold x in K. rewrite E2 in K. exact K. }
    cbn zeta. split.
    + apply Forall_forall. intros y Hy. apply in_map_iff in Hy. destruct Hy as (i & <- & _). apply Row.
    + apply dist_0. intros i Hi. rewrite fstate_map by exact Hi. cbn [uden]. apply Row.
  - (* SWAP *)
    destruct W as (Hne & k & Hk).
    assert (Hh : (length qs / 2)%nat = k). { rewrite Hk. replace (k + k)%nat with (k * 2)%nat by lia. apply Nat.div_mul. lia. }
    assert (L1 : length (firstn k qs) = k) by (rewrite firstn_length; lia).
    assert (L2 : length (skipn k qs) = k) by (rewrite skipn_length; lia).
    assert (Hm : (length qs mod 2 =? 0)%nat = true). { apply Nat.eqb_eq. rewrite Hk. replace (k + k)%nat with (k * 2)%nat by lia. apply Nat.mod_mul. lia. }
    rewrite Hm, Hh. cbn [negb].
    assert (Hk0 : k <> O). { destruct qs; [congruence|cbn in Hk; lia]. }
    exists (Swap k qs). split.
    { unfold make_swap_op. rewrite L1, L2. rewrite (proj2 (Nat.eqb_neq k 0) Hk0), Nat.eqb_refl. cbn [orb negb]. rewrite firstn_skipn. reflexivity. }
    split; [exact Hk|]. split; [reflexivity|].
    assert (Row : forall row, let y := raw_row FN n (Swap k qs) v row in
      cfin y /\ B2C y = fstate n v (exchange (firstn k qs) (skipn k qs) (dec n row))).
    { intros row. set (x := dec n row). cbn zeta.
      pose proof (row_single n (Swap k qs) v row (be (map x (skipn k qs) ++ map x (firstn k qs))) Fv) as K. cbn zeta in K. cbn [op_items op_indices n1 FN] in K.
      fold x in K. unfold exchange. rewrite firstn_skipn.
      assert (Lb : length qs = length (map x (skipn k qs) ++ map x (firstn k qs))) by (rewrite app_length, !map_length; lia).
      rewrite Lb, bits_be_be in K. apply K.
      f_equal. f_equal. rewrite <- (firstn_skipn k qs) at 1. rewrite map_app. apply swap_col_be; rewrite map_length; assumption. }
    cbn zeta. split.
    + apply Forall_forall. intros y Hy. apply in_map_iff in Hy. destruct Hy as (i & <- & _). apply Row.
    + apply dist_0. intros i Hi. rewrite fstate_map by exact Hi. cbn [uden]. rewrite Hh. apply Row.
Qed.

Lemma kap_pos : 0 <= kap. Proof. unfold kap. pose proof (@uro_pos prec). lra. Qed.
Lemma hh_pos n : 0 <= hh n. Proof. unfold hh. pose proof (@eta_pos prec emax). pose proof (sqrt_pos (2 ^ n)). apply Rmult_le_pos; lra. Qed.

Lemma dist_triangle n f g h : dist n f h <= dist n f g + dist n g h.
Proof.
  unfold dist. eapply Rle_trans; [|apply (l2_triangle n (fun x => f x - g x)%C (fun x => g x - h x)%C)].
  right. apply l2_ext. intros i _. ring.
Qed.
Lemma l2_dist n f g : l2 n f <= dist n f g + l2 n g.
Proof.
  unfold dist. eapply Rle_trans; [|apply (l2_triangle n (fun x => f x - g x)%C g)]. right. apply l2_ext. intros i _. ring.
Qed.

Lemma frep_unitary (fu : funitary prec emax) u qs : frep d fu u -> wf_unitary u qs ->
  fu <> FPhase /\ unitary_entry (qs, mkCO (length qs) (OUnit u)).
Proof.
  intros [] W; (split; [discriminate|]); try exact I.
  - pose proof (mat_one _ _ W eq_refl) as L. destruct qs as [|q [|? ?]]; try discriminate. apply ortho_unitary. assumption.
  - destruct H0 as (Ld & U & _). destruct W as (_ & Lq). assert (Ek : k = length qs) by (rewrite Ld in Lq; apply Nat.pow_inj_r in Lq; lia). subst k. exact U.
Qed.

Lemma fstep draws n v arena ms fe e phi : fentry d fe e -> wf_entry n e -> length v = (2 ^ n)%nat -> length arena = (2 ^ n)%nat -> Forall cfin v ->
  l2 n phi = 1 -> 1 + dist n (fstate n v) phi <= 2 ->
  exists v', fsim_step pf n draws (v, arena, ms) fe = Ok (v', v, ms) /\ length v' = (2 ^ n)%nat /\ Forall cfin v' /\ l2 n (oden (snd e) (fst e) phi) = 1 /\
    1 + dist n (fstate n v') (oden (snd e) (fst e) phi) <=
      (1 + INR (roundings e) * kap) * (1 + dist n (fstate n v) phi) + INR (roundings e) * hh n.
Proof.
  destruct fe as [fqs fo], e as [qs [k o]]. intros (Eq & Hr) (ND & R & W) Lv La Fv Hphi HB. cbn [fst snd co_obj] in *. subst fqs.
  destruct fo as [fu| |]; destruct o as [u|?]; try contradiction.
  destruct (frep_unitary _ _ _ Hr W) as (NP & UE).
  pose proof (l2_dist n (fstate n v) phi) as L2. rewrite Hphi in L2.
  destruct (gate_err fu u n qs v Hr W ND R Lv Fv) as (op & Eop & Wop & Iop & Fv' & E); [lra|].
  set (v' := map (raw_row FN n op v) (seq 0 (2 ^ n))) in *. exists v'.
  assert (Iso : isometry n (uden u qs)).
  { apply uden_isometry; auto. }
  split.
  { unfold fsim_step. assert (E' : apply_op_overwrite FN n op v arena 0 0 = Ok v').
    { apply apply_op_overwrite_raw; auto. rewrite Iop. exact R. }
    destruct fu; try congruence; rewrite Eop; cbn [bind]; rewrite E'; reflexivity. }
  split. { unfold v'. rewrite map_length, seq_length. reflexivity. }
  split; [exact Fv'|]. unfold oden. cbn [co_obj]. split; [rewrite (iso_l2 n _ phi Iso); exact Hphi|].
  pose proof (dist_triangle n (fstate n v') (uden u qs (fstate n v)) (uden u qs phi)) as T.
  assert (Q : dist n (uden u qs (fstate n v)) (uden u qs phi) = dist n (fstate n v) phi).
  { unfold dist. rewrite <- (iso_l2 n _ (fun x => fstate n v x - phi x)%C Iso). apply l2_ext. intros i _. rewrite uden_sub. reflexivity. }
  rewrite Q in T. pose proof kap_pos as K0.
  assert (G : gcost u qs n (l2 n (fstate n v)) <= INR (roundings (qs, mkCO k (OUnit u))) * (kap * (1 + dist n (fstate n v) phi) + hh n)).
  { assert (G1 : kap * l2 n (fstate n v) + hh n <= kap * (1 + dist n (fstate n v) phi) + hh n) by (apply Rplus_le_compat_r, Rmult_le_compat_l; lra).
    unfold gcost, roundings. cbn [co_obj snd fst]. destruct u; change (INR 0) with 0; change (INR 1) with 1; try lra.
    rewrite pow_INR. replace (INR 4) with 4 by (cbn; ring). apply Rmult_le_compat_l; [apply pow_le; lra|exact G1]. }
  set (w := INR (roundings (qs, mkCO k (OUnit u)))) in *. lra.
Qed.

Lemma frun draws n fp p : Forall2 (fentry d) fp p -> forall v arena ms phi B, Forall (wf_entry n) p ->
  length v = (2 ^ n)%nat -> length arena = (2 ^ n)%nat -> Forall cfin v -> l2 n phi = 1 -> 1 + dist n (fstate n v) phi <= B ->
  (1 + kap) ^ rounding_gates p * (B + INR (rounding_gates p) * hh n) <= 2 ->
  exists v' arena', foldM (fsim_step pf n draws) fp (v, arena, ms) = Ok (v', arena', ms) /\ length v' = (2 ^ n)%nat /\ length arena' = (2 ^ n)%nat /\ Forall cfin v' /\
    1 + dist n (fstate n v') (den p phi) <= (1 + kap) ^ rounding_gates p * (B + INR (rounding_gates p) * hh n).
Proof.
  pose proof kap_pos as K0. pose proof (hh_pos n) as H0.
  induction 1 as [|fe e fp p Hfe Hfp IH]; intros v arena ms phi B W Lv La Fv Hphi HB Hbud.
  - exists v, arena. cbn [foldM]. repeat split; auto. unfold rounding_gates. cbn. lra.
  - inversion W as [|? ? We Wp]; subst. rewrite den_cons.
    pose proof (l2_pos n (fun x => fstate n v x - phi x)%C) as D0. change (0 <= dist n (fstate n v) phi) in D0.
    cbn [rounding_gates fold_right] in *. fold (rounding_gates p) in *.
    set (k := rounding_gates p) in *. set (w := roundings e) in *.
    assert (P1 : 1 <= (1 + kap) ^ k) by (apply pow_R1_Rle; lra).
    assert (PW : 1 + INR w * kap <= (1 + kap) ^ w). { pose proof (poly w kap) as Q. destruct (Req_dec kap 0) as [Z|Z]; [rewrite Z, Rmult_0_r, Rplus_0_r, pow1; lra|]. apply Q. lra. }
    assert (HB2 : 1 + dist n (fstate n v) phi <= 2).
    { eapply Rle_trans; [exact HB|]. eapply Rle_trans; [|exact Hbud]. pose proof (pos_INR (w + k)).
      assert (B <= B + INR (w + k) * hh n) by nra. assert (1 <= (1 + kap) ^ (w + k)) by (apply pow_R1_Rle; lra).
      rewrite <- (Rmult_1_l B) at 1. apply Rmult_le_compat; lra. }
    destruct (fstep draws n v arena ms fe e phi Hfe We Lv La Fv Hphi HB2) as (v1 & E1 & L1 & F1 & N1 & D1').
    cbn [foldM]. rewrite E1. cbn [bind]. fold w in D1'.
    set (B' := (1 + INR w * kap) * B + INR w * hh n). pose proof (pos_INR w) as W0. pose proof (pos_INR k) as Kp.
    assert (Wk : 0 <= INR w * kap) by (apply Rmult_le_pos; lra).
    assert (Hle : (1 + kap) ^ k * (B' + INR k * hh n) <= (1 + kap) ^ (w + k) * (B + INR (w + k) * hh n)).
    { rewrite pow_add, plus_INR, (Rmult_comm ((1 + kap) ^ w)), Rmult_assoc. apply Rmult_le_compat_l; [lra|]. unfold B'.
      apply Rle_trans with ((1 + INR w * kap) * (B + (INR w + INR k) * hh n)).
      - assert (0 <= INR w * kap * ((INR w + INR k) * hh n)) by (apply Rmult_le_pos; [exact Wk|]; apply Rmult_le_pos; lra). lra.
      - apply Rmult_le_compat_r; [|exact PW]. assert (0 <= (INR w + INR k) * hh n) by (apply Rmult_le_pos; lra). lra. }
    destruct (IH v1 v ms (oden (snd e) (fst e) phi) B' Wp L1 Lv F1 N1) as (v' & ar & G1 & G2 & G2' & G3 & G4).
    + unfold B'. assert ((1 + INR w * kap) * (1 + dist n (fstate n v) phi) <= (1 + INR w * kap) * B) by (apply Rmult_le_compat_l; lra). lra.
    + eapply Rle_trans; [exact Hle|exact Hbud].
    + exists v', ar. repeat split; auto. eapply Rle_trans; [exact G4|exact Hle].
Qed.

Lemma fstart_ok n i : (i < 2 ^ n)%nat -> let v := upd_nth i fc1 (repeat (fc0 : fc) (2 ^ n)) in
  length v = (2 ^ n)%nat /\ Forall cfin v /\ forall x, fstate n v x = ket n (dec n i) x.
Proof.
  intros Hi. cbn zeta. split; [rewrite upd_nth_length; apply repeat_length|]. split.
  - apply Forall_forall. intros a Ha. apply In_nth with (d := fc0) in Ha. destruct Ha as (j & Hj & <-).
    rewrite nth_upd_nth by (rewrite repeat_length; exact Hi). destruct (j =? i)%nat; [apply cfin_1|]. rewrite nth_repeat. apply cfin_0.
  - intros x. unfold fstate, ket. rewrite nth_upd_nth by (rewrite repeat_length; exact Hi). rewrite enc_dec by exact Hi. rewrite Nat.eqb_sym.
    destruct (i =? enc n x)%nat; [apply B2C_1|]. rewrite nth_repeat. apply B2C_0.
Qed.
Lemma ket_l2 n i : (i < 2 ^ n)%nat -> l2 n (ket n (dec n i)) = 1.
Proof.
  intros Hi. pose proof (ip_l2 n (ket n (dec n i))) as H.
  rewrite <- st_of_basis in H by exact Hi. rewrite (ip_norm2 n), norm2_basis in H by (try exact Hi; rewrite upd_nth_length; apply repeat_length).
  rewrite st_of_basis in H by exact Hi. apply RtoC_inj in H. pose proof (l2_pos n (ket n (dec n i))). nra.
Qed.

Theorem fsim_close n start fp p draws : Forall2 (fentry d) fp p -> Forall (wf_entry n) p -> (start < 2 ^ n)%nat ->
  let k := rounding_gates p in
  let bound := (1 + kap) ^ k * (1 + INR k * hh n) in
  bound <= 2 ->
  exists v, fsimulate pf n start fp draws = Ok (v, []) /\ length v = (2 ^ n)%nat /\ Forall cfin v /\
    dist n (fstate n v) (den p (ket n (dec n start))) <= bound - 1.
Proof.
  intros H W Hs k bound Hb. destruct (fstart_ok n start Hs) as (L0 & F0 & S0).
  destruct (frun draws n fp p H (upd_nth start fc1 (repeat fc0 (2 ^ n))) (repeat fc0 (2 ^ n)) [] (ket n (dec n start)) 1 W L0 (repeat_length _ _) F0 (ket_l2 n start Hs)) as (v & ar & E & Lv & _ & Fv & D).
  - assert (dist n (fstate n (upd_nth start fc1 (repeat fc0 (2 ^ n)))) (ket n (dec n start)) <= 0) by (apply dist_0; intros; apply S0). lra.
  - exact Hb.
  - exists v. unfold fsimulate. rewrite (idx_ok (repeat fc0 (2 ^ n)) fc0) by (rewrite repeat_length; exact Hs). cbn [bind]. rewrite E.
    repeat split; auto. fold k in D. unfold bound. lra.
Qed.
End Circuits.
