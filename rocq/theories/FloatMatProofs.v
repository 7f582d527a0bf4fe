(** A unitary matrix on any number of qubits in floats. *)
From Coq Require Import ZArith Reals Lra Psatz FunctionalExtensionality.
From Flocq Require Import Core.Core IEEE754.BinarySingleNaN.
From Coquelicot Require Import Complex.
From Verif Require Import Base BitsSpec BitsModel BitsProofs OpsModel OpsSpec OpsProofs ConjSpec StateOpsModel Instances BuilderModel DenSpec DenProofs
  SimSpec UnitaryProofs SimProofs MeasureSpec MeasureProofs FloatModel FloatSpec FloatProofs FloatProofs2 FloatProofs3 FloatOpSpec FloatOpProofs.
Local Open Scope R_scope.

Lemma rsum_le {A} (f g : A -> R) l : (forall a, In a l -> f a <= g a) -> rsum f l <= rsum g l.
Proof. induction l as [|a l IH]; intros H; cbn [rsum]; [lra|]. apply Rplus_le_compat; [apply H; left; reflexivity|apply IH; intros; apply H; right; assumption]. Qed.
Lemma rsum_const {A} (c : R) (l : list A) : rsum (fun _ => c) l = INR (length l) * c.
Proof. induction l as [|a l IH]; cbn [rsum]; [cbn; ring|]. cbn [length]. rewrite S_INR, IH. ring. Qed.
Lemma rsum_incl (f : nat -> R) l : forall L, (forall a, In a L -> 0 <= f a) -> NoDup l -> incl l L -> rsum f l <= rsum f L.
Proof.
  induction l as [|a l IH]; intros L P ND I; cbn [rsum]; [apply rsum_nonneg, P|].
  inversion ND as [|? ? Na Nl]; subst. destruct (in_split a L) as (L1 & L2 & E); [apply I; left; reflexivity|]. subst L.
  rewrite rsum_app. cbn [rsum]. assert (K : rsum f l <= rsum f (L1 ++ L2)).
  { apply IH; [|exact Nl|].
    - intros b Hb. apply P. apply in_app_iff in Hb. apply in_app_iff. cbn. tauto.
    - intros b Hb. assert (Hin : In b (L1 ++ a :: L2)) by (apply I; right; exact Hb). apply in_app_iff in Hin. apply in_app_iff. destruct Hin as [?|[->|?]]; tauto. }
  rewrite rsum_app in K. lra.
Qed.
Lemma rsum_in1 {A} (f : A -> R) l a : (forall b, In b l -> 0 <= f b) -> In a l -> f a <= rsum f l.
Proof.
  induction l as [|b l IH]; intros P []; cbn [rsum].
  - subst b. pose proof (rsum_nonneg f l (fun c H => P c (or_intror H))). lra.
  - pose proof (P b (or_introl eq_refl)). specialize (IH (fun c H => P c (or_intror H)) H). lra.
Qed.
Lemma Cmod_big {A} (f : A -> C) l : Cmod (big CN f l) <= rsum (fun a => Cmod (f a)) l.
Proof. induction l as [|a l IH]; cbn [big rsum]; [cbn [n0 CN]; rewrite Cmod_0; lra|]. eapply Rle_trans; [apply Cmod_triangle|]. lra. Qed.
Lemma big_real {A} (f : A -> R) l : big CN (fun a => RtoC (f a)) l = RtoC (rsum f l).
Proof. induction l as [|a l IH]; [reflexivity|]. cbn [big rsum]. rewrite IH, RtoC_plus. reflexivity. Qed.
Lemma big_sub {A} (f g : A -> C) l : big CN (fun a => f a - g a)%C l = (big CN f l - big CN g l)%C.
Proof. induction l as [|a l IH]; cbn [big nadd n0 CN]; [ring|]. rewrite IH. ring. Qed.
Lemma length_bools k : length (bools k) = (2 ^ k)%nat.
Proof. rewrite <- (map_length be), map_be_bools, seq_length. reflexivity. Qed.

Lemma act_sub qs M phi psi x : act CN qs M (fun y => phi y - psi y)%C x = (act CN qs M phi x - act CN qs M psi x)%C.
Proof. unfold act. rewrite <- big_sub. apply big_ext. intros c _. cbn [nmul CN]. ring. Qed.

Lemma map_inj_nodup {A B} (f : A -> B) l : (forall a b, In a l -> In b l -> f a = f b -> a = b) -> NoDup l -> NoDup (map f l).
Proof.
  induction l as [|a l IH]; intros I ND; cbn [map]; [apply NoDup_nil|]. inversion ND as [|? ? Na Nl]; subst. apply NoDup_cons.
  - intros Hin. apply in_map_iff in Hin. destruct Hin as (b & E & Hb). apply Na. rewrite <- (I b a); [exact Hb|right; exact Hb|left; reflexivity|exact E].
  - apply IH; [|exact Nl]. intros x y Hx Hy. apply I; right; assumption.
Qed.

(** The moduli of all amplitudes that differ from [x] on [qs] only. *)
Definition around (qs : list nat) (psi : state) (x : bs) : R := rsum (fun c => Cmod (psi (updl x qs c))) (bools (length qs)).
Lemma around_cons q qs psi x : around (q :: qs) psi x = around qs psi x + around qs psi (flip x q).
Proof.
  rewrite <- (two_terms x q (around qs psi)). unfold around. cbn [length bools]. rewrite rsum_app, !rsum_map. reflexivity.
Qed.
Lemma around_l2 n qs psi : in_range n qs -> l2 n (fun x => RtoC (around qs psi x)) <= 2 ^ length qs * l2 n psi.
Proof.
  induction qs as [|q qs IH]; intros R.
  - cbn [length pow]. rewrite Rmult_1_l, <- (l2_abs n psi). right. apply l2_ext. intros i _. unfold around. cbn. rewrite Rplus_0_r. reflexivity.
  - assert (Hq : (q < n)%nat) by (apply R; left; reflexivity). assert (R' : in_range n qs) by (intros p Hp; apply R; right; exact Hp). specialize (IH R').
    rewrite (l2_ext n _ (fun x => RtoC (around qs psi x) + RtoC (around qs psi (flip x q)))%C).
    2:{ intros i _. rewrite around_cons, RtoC_plus. reflexivity. }
    eapply Rle_trans; [apply (l2_triangle n (fun x => RtoC (around qs psi x)) (fun x => RtoC (around qs psi (flip x q))))|].
    rewrite (l2_flip n q (fun x => RtoC (around qs psi x)) Hq). cbn [length pow]. lra.
Qed.
Lemma l2_rsum n psi : l2 n psi ^ 2 = rsum (fun i => Cmod (psi (dec n i)) ^ 2) (seq 0 (2 ^ n)).
Proof.
  unfold l2. rewrite pow2_sqrt.
  - induction (seq 0 (2 ^ n)) as [|i l IH]; [reflexivity|]. cbn [map fold_right rsum]. rewrite IH. reflexivity.
  - induction (seq 0 (2 ^ n)) as [|i l IH]; cbn [map fold_right]; [lra|]. pose proof (pow2_ge_0 (Cmod (psi (dec n i)))). lra.
Qed.
Lemma around_sq n qs psi x : NoDup qs -> in_range n qs -> (forall y, psi y = psi (dec n (enc n y))) ->
  rsum (fun c => Cmod (psi (updl x qs c)) ^ 2) (bools (length qs)) <= l2 n psi ^ 2.
Proof.
  intros ND R Hpsi. rewrite l2_rsum.
  rewrite (rsum_ext _ (fun c => Cmod (psi (dec n (enc n (updl x qs c)))) ^ 2)) by (intros c _; rewrite <- Hpsi; reflexivity).
  rewrite <- (rsum_map (fun i => Cmod (psi (dec n i)) ^ 2) (fun c => enc n (updl x qs c))). apply rsum_incl.
  - intros a _. apply pow2_ge_0.
  - apply (map_inj_nodup (fun c => enc n (updl x qs c))); [|apply NoDup_bools]. intros a b Ha Hb E. apply In_bools in Ha, Hb.
    rewrite <- (updl_map x qs a ND Ha), <- (updl_map x qs b ND Hb). apply map_ext_in. intros q Hq. apply (enc_inj n _ _ E), R, Hq.
  - intros i Hi. apply in_map_iff in Hi. destruct Hi as (c & <- & _). apply in_seq. pose proof (enc_lt n (updl x qs c)). lia.
Qed.

Section Mat.
Context {prec emax : Z} {Hp : FLX.Prec_gt_0 prec} {He : Prec_lt_emax prec emax}.
Local Notation fl := (fl prec emax).
Local Notation fc := (fc prec emax).
Local Notation uro := (@uro prec).
Local Notation eta := (@eta prec emax).
Context (Pp : (8 <= prec)%Z) (Pe : (8 <= emax)%Z).

Lemma raw_float n op (v : list fc) row : length v = (2 ^ n)%nat -> raw_row FN n op v row = float_row n op v 0 row.
Proof.
  intros L. unfold raw_row, float_row, cells. rewrite map_map. f_equal. apply map_ext. intros e. unfold cell.
  set (cb := enc n _). change (cb <? 0)%nat with false. cbn [orb]. rewrite Nat.sub_0_r. assert (cb < 2 ^ n)%nat by apply enc_lt.
  destruct (Nat.leb_spec (length v) cb); [lia|]. reflexivity.
Qed.
Lemma amp_fstate n (v : list fc) x : amp_off CN 0 (map B2C v) (enc n x) = fstate n v x.
Proof.
  unfold amp_off, fstate. change (enc n x <? 0)%nat with false. cbn iota. rewrite Nat.sub_0_r. cbn [n0 CN]. rewrite <- (B2C_0 (prec:=prec) (emax:=emax)), map_nth. reflexivity.
Qed.
Lemma amp_mod n (v : list fc) x : amp_off CN 0 (map modulus v) (enc n x) = RtoC (Cmod (fstate n v x)).
Proof.
  unfold amp_off, fstate. change (enc n x <? 0)%nat with false. cbn iota. rewrite Nat.sub_0_r. cbn [n0 CN]. rewrite <- (mod_0 (prec:=prec) (emax:=emax)), map_nth. reflexivity.
Qed.

Lemma row_norm k data r : unitary_mat CN Cconj k (adj Cconj (entries k data)) -> length r = k -> rsum (fun c => Cmod (entries k data r c) ^ 2) (bools k) = 1.
Proof.
  intros U Hr. specialize (U r r Hr Hr). unfold mmul, adj in U. unfold delta in U.
  assert (E : lb_eq r r = true) by (apply lb_eq_refl). rewrite E in U. cbn [n1 CN] in U.
  apply RtoC_inj. rewrite <- U, <- big_real. apply big_ext. intros c _. cbn [nmul CN]. rewrite <- Cmod2.
  destruct (entries k data r c) as [a b]. apply injective_projections; cbn; ring.
Qed.

Lemma mat_err n qs (fdata : list fc) (data : list C) v d : NoDup qs -> in_range n qs -> length v = (2 ^ n)%nat -> Forall cfin v ->
  Forall2 (fun a m => cfin a /\ Cmod (B2C a - m)%C <= d) fdata data -> length data = (2 ^ (2 * length qs))%nat ->
  unitary_mat CN Cconj (length qs) (adj Cconj (entries (length qs) data)) ->
  let K := 2 ^ length qs in
  0 <= d <= 1 -> 32 * (K + 3) * uro <= 1 -> K * d <= 1 -> l2 n (fstate n v) <= 2 ->
  let v' := map (raw_row FN n (Matrix qs fdata) v) (seq 0 (2 ^ n)) in
  Forall cfin v' /\
  dist n (fstate n v') (act CN qs (entries (length qs) data) (fstate n v)) <= ((10 + 6 * K) * uro + d) * K * l2 n (fstate n v) + 10 * K * eta * sqrt (2 ^ n).
Proof.
  intros ND R Lv Fv HF Ld U K Hd HL Hk HB. set (k := length qs) in *. set (op := Matrix qs fdata). set (psi := fstate n v) in *.
  pose proof (@uro_pos prec) as U0. pose proof (@eta_pos prec emax) as T0.
  assert (K0 : 0 < K) by (apply pow_lt; lra).
  assert (Lf : length fdata = (2 ^ (2 * k))%nat) by (rewrite <- Ld; clear -HF; induction HF; cbn; congruence).
  assert (Fo : op_all cfin op) by (cbn [op op_all]; clear -HF; induction HF as [|a m fd dd (Ha & _) H IH]; constructor; assumption).
  assert (W : wf_op op) by exact Lf.
  assert (EL : INR (row_entries op) = K) by (cbn [row_entries op]; fold k; rewrite pow_INR; reflexivity).
  set (A := fun r c => B2C (nth (be r * 2 ^ k + be c) fdata fc0)). set (M := entries k data) in *.
  assert (HA : forall r c, length r = k -> length c = k -> Cmod (A r c - M r c)%C <= d).
  { intros r c Hr Hc. unfold A, M, entries. set (i := (be r * 2 ^ k + be c)%nat).
    assert (Hi : (i < length fdata)%nat).
    { rewrite Lf. unfold i. pose proof (be_lt r) as B1. pose proof (be_lt c) as B2. rewrite Hr in B1. rewrite Hc in B2. replace (2 * k)%nat with (k + k)%nat by lia. rewrite Nat.pow_add_r. nia. }
    clear -HF Hi. clearbody i. revert i Hi. induction HF as [|a m fd dd (_ & Ha) H IH]; intros i Hi; [cbn in Hi; lia|]. destruct i as [|i]; [exact Ha|]. apply IH. cbn in Hi. lia. }
  assert (Hc : forall c, In c (bools k) -> length c = k) by (intros c Hin; apply In_bools, Hin).
  assert (Row : forall row, (row < 2 ^ n)%nat -> let y := raw_row FN n op v row in let x := dec n row in
    cfin y /\ Cmod (B2C y - act CN qs M psi x)%C <= ((10 + 6 * K) * uro + d) * around qs psi x + 10 * K * eta).
  { intros row Hrow. cbn zeta. set (x := dec n row). set (r := map x qs). assert (Lr : length r = k) by apply map_length.
    set (l := cells n op v 0 row).
    assert (Ea : asum l = rsum (fun c => Cmod (A r c) * Cmod (psi (updl x qs c))) (bools k)).
    { apply RtoC_inj. unfold l. rewrite <- weight_cells by assumption. rewrite <- big_real. cbn [op op_indices map_op]. unfold act. fold k. apply big_ext. intros c _.
      rewrite amp_mod. cbn [nmul CN op_mat n0]. fold k x r. rewrite <- (mod_0 (prec:=prec) (emax:=emax)), map_nth. rewrite RtoC_mult. reflexivity. }
    assert (Ec : csum l = big CN (fun c => A r c * psi (updl x qs c))%C (bools k)).
    { unfold l. rewrite <- exact_cells by assumption. cbn [op op_indices map_op]. unfold act. fold k. apply big_ext. intros c _.
      rewrite amp_fstate. cbn [nmul CN op_mat n0]. fold k x r. rewrite <- (B2C_0 (prec:=prec) (emax:=emax)), map_nth. reflexivity. }
    assert (AM : forall c, In c (bools k) -> Cmod (A r c) <= Cmod (M r c) + d).
    { intros c Hin. replace (A r c) with ((A r c - M r c) + M r c)%C by ring. eapply Rle_trans; [apply Cmod_triangle|]. pose proof (HA r c Lr (Hc c Hin)). lra. }
    pose proof (row_norm k data r U Lr) as N1. fold M in N1.
    assert (M1 : forall c, In c (bools k) -> Cmod (M r c) <= 1).
    { intros c Hin. assert (Q : Cmod (M r c) ^ 2 <= 1).
      { rewrite <- N1. apply (rsum_in1 (fun c => Cmod (M r c) ^ 2)); [intros; apply pow2_ge_0|exact Hin]. }
      pose proof (Cmod_ge_0 (M r c)). nra. }
    assert (S2 : asum l <= 2 * around qs psi x).
    { rewrite Ea. unfold around. fold k. rewrite <- rsum_mul. apply rsum_le. intros c Hin. apply Rmult_le_compat_r; [apply Cmod_ge_0|]. pose proof (AM c Hin). pose proof (M1 c Hin). lra. }
    assert (S16 : asum l <= 16).
    { rewrite Ea. apply Rle_trans with (rsum (fun c => (Cmod (M r c) ^ 2 + (d * d + / 2 * Cmod (psi (updl x qs c)) ^ 2))) (bools k)).
      - apply rsum_le. intros c Hin. pose proof (AM c Hin) as H1. pose proof (Cmod_ge_0 (psi (updl x qs c))) as H2. pose proof (Cmod_ge_0 (M r c)) as H3.
        set (p := Cmod (psi (updl x qs c))) in *. set (m := Cmod (M r c)) in *. clearbody p m. apply Rle_trans with ((m + d) * p); [apply Rmult_le_compat_r; assumption|].
        pose proof (pow2_ge_0 (m + d - p)). pose proof (pow2_ge_0 (m - d)). cbn [pow] in *. lra.
      - rewrite !rsum_add, N1, rsum_const, rsum_mul, length_bools, pow_INR. change (INR 2) with 2. fold K.
        assert (Q : rsum (fun c => Cmod (psi (updl x qs c)) ^ 2) (bools k) <= 4).
        { unfold k. eapply Rle_trans; [apply (around_sq n qs psi x ND R)|].
          - intros y. unfold psi. apply fstate_dec.
          - pose proof (l2_pos n psi). replace 4 with (2 ^ 2) by ring. apply pow_incr. lra. }
        assert (K * (d * d) <= 1) by (replace (K * (d * d)) with (K * d * d) by ring; nra). lra. }
    destruct (op_row_err Pp Pe n op v 0 row Fo Fv) as (G1 & G2); [rewrite EL; exact HL|exact S16|]. rewrite EL in G2. fold l in G2.
    rewrite raw_float by exact Lv. split; [exact G1|].
    set (y := float_row n op v 0 row) in *.
    replace (B2C y - act CN qs M psi x)%C with ((B2C y - csum l) + (csum l - act CN qs M psi x))%C by ring. eapply Rle_trans; [apply Cmod_triangle|].
    assert (D : Cmod (csum l - act CN qs M psi x)%C <= d * around qs psi x).
    { rewrite Ec. unfold act. fold k r. cbn [nmul CN]. rewrite <- big_sub. eapply Rle_trans; [apply Cmod_big|]. unfold around. fold k. rewrite <- rsum_mul. apply rsum_le. intros c Hin.
      replace (A r c * psi (updl x qs c) - M r c * psi (updl x qs c))%C with ((A r c - M r c) * psi (updl x qs c))%C by ring. rewrite Cmod_mult.
      apply Rmult_le_compat_r; [apply Cmod_ge_0|apply HA; auto]. }
    assert ((5 + 3 * K) * uro * asum l <= (5 + 3 * K) * uro * (2 * around qs psi x)) by (apply Rmult_le_compat_l; [apply Rmult_le_pos; lra|exact S2]). lra. }
  cbn zeta. fold op. split.
  - apply Forall_forall. intros y Hy. apply in_map_iff in Hy. destruct Hy as (i & <- & Hi). apply in_seq in Hi. apply Row. lia.
  - unfold dist. set (h := (10 + 6 * K) * uro + d) in *.
    assert (H0 : 0 <= h). { unfold h. assert (0 <= (10 + 6 * K) * uro) by (apply Rmult_le_pos; lra). lra. }
    apply Rle_trans with (l2 n (fun x => RtoC h * RtoC (around qs psi x) + RtoC (10 * K * eta))%C).
    + apply l2_mono. intros i Hi. rewrite fstate_map by exact Hi. eapply Rle_trans; [apply Row, Hi|].
      rewrite <- RtoC_mult, <- RtoC_plus, Cmod_R. apply Rle_abs.
    + eapply Rle_trans; [apply (l2_triangle n (fun x => RtoC h * RtoC (around qs psi x))%C (fun _ => RtoC (10 * K * eta)))|].
      assert (0 <= 10 * K * eta) by (apply Rmult_le_pos; lra).
      rewrite l2_const by assumption. rewrite l2_scale by exact H0. apply Rplus_le_compat_r. rewrite Rmult_assoc. apply Rmult_le_compat_l; [exact H0|].
      apply around_l2, R.
Qed.
End Mat.
