(** The 2-norm of states; float gates against exact gates. *)
From Coq Require Import ZArith Reals Lra Psatz FunctionalExtensionality.
From Flocq Require Import Core.Core IEEE754.BinarySingleNaN Relative Mult_error.
From Coquelicot Require Import Complex.
From Verif Require Import Base BitsSpec BitsModel BitsProofs OpsModel OpsSpec OpsProofs ConjSpec StateOpsModel Instances BuilderModel DenSpec DenProofs
  SimSpec UnitaryProofs SimProofs FloatModel FloatSpec FloatProofs FloatProofs2.
Local Open Scope R_scope.

(** *** The 2-norm *)
Fixpoint nl (l : list C) : R := match l with [] => 0 | a :: l' => Cmod (Cmod a, nl l') end.

Lemma nl_pos l : 0 <= nl l.
Proof. destruct l; cbn; [lra|apply Cmod_ge_0]. Qed.
Lemma Cmod_pair_sq a b : Cmod (a, b) ^ 2 = a ^ 2 + b ^ 2.
Proof. unfold Cmod. cbn [fst snd]. rewrite <- Rsqr_pow2, Rsqr_sqrt; [reflexivity|nra]. Qed.
Lemma nl_sq l : nl l ^ 2 = fold_right Rplus 0 (map (fun a => Cmod a ^ 2) l).
Proof. induction l as [|a l IH]; cbn [nl map fold_right]; [ring|]. rewrite Cmod_pair_sq, IH. reflexivity. Qed.
Lemma nl_sqrt l : sqrt (fold_right Rplus 0 (map (fun a => Cmod a ^ 2) l)) = nl l.
Proof. rewrite <- nl_sq. rewrite <- Rsqr_pow2. apply sqrt_Rsqr, nl_pos. Qed.

Lemma Cmod_pair_mono a b a' b' : 0 <= a -> 0 <= b -> a <= a' -> b <= b' -> Cmod (a, b) <= Cmod (a', b').
Proof. intros. unfold Cmod. cbn [fst snd]. apply sqrt_le_1_alt. nra. Qed.
Lemma nl_triangle {A} (f g : A -> C) l : nl (map (fun i => f i + g i)%C l) <= nl (map f l) + nl (map g l).
Proof.
  induction l as [|a l IH]; cbn [nl map]; [lra|].
  apply Rle_trans with (Cmod (Cmod (f a) + Cmod (g a), nl (map f l) + nl (map g l))).
  - apply Cmod_pair_mono; [apply Cmod_ge_0|apply nl_pos|apply Cmod_triangle|exact IH].
  - pose proof (Cmod_triangle (Cmod (f a), nl (map f l)) (Cmod (g a), nl (map g l))) as T. unfold Cplus in T. cbn [fst snd] in T. exact T.
Qed.
Lemma nl_mono {A} (f g : A -> C) l : (forall a, In a l -> Cmod (f a) <= Cmod (g a)) -> nl (map f l) <= nl (map g l).
Proof.
  induction l as [|a l IH]; cbn [nl map In]; intros H; [lra|].
  apply Cmod_pair_mono; [apply Cmod_ge_0|apply nl_pos|apply H; auto|apply IH; auto].
Qed.
Lemma nl_scale {A} (c : R) (f : A -> C) l : 0 <= c -> nl (map (fun i => RtoC c * f i)%C l) = c * nl (map f l).
Proof.
  intros Hc. induction l as [|a l IH]; cbn [nl map]; [ring|]. rewrite IH, Cmod_mult, Cmod_R, Rabs_pos_eq by exact Hc.
  replace (c * Cmod (f a), c * nl (map f l)) with (RtoC c * (Cmod (f a), nl (map f l)))%C.
  - rewrite Cmod_mult, Cmod_R, Rabs_pos_eq by exact Hc. reflexivity.
  - unfold Cmult, RtoC. cbn. f_equal; ring.
Qed.
Lemma nl_one (l : list nat) : nl (map (fun _ => RtoC 1) l) = sqrt (INR (length l)).
Proof.
  rewrite <- nl_sqrt, map_map. f_equal. induction l as [|a l IH]; [reflexivity|]. cbn [map fold_right length]. rewrite IH, S_INR, Cmod_1. ring.
Qed.
Lemma nl_in {A} (f : A -> C) l a : In a l -> Cmod (f a) <= nl (map f l).
Proof.
  induction l as [|b l IH]; cbn [nl map In]; [tauto|]. intros [->|H].
  - pose proof (Cmod_ge_0 (f a)) as C0. pose proof (nl_pos (map f l)). eapply Rle_trans; [|apply (Cmod_pair_mono (Cmod (f a)) 0 _ (nl (map f l))); lra].
    unfold Cmod at 2. cbn [fst snd]. replace (Cmod (f a) ^ 2 + 0 ^ 2) with (Rsqr (Cmod (f a))) by (unfold Rsqr; ring). rewrite sqrt_Rsqr by exact C0. lra.
  - eapply Rle_trans; [apply IH, H|]. pose proof (nl_pos (map f l)) as C0. pose proof (Cmod_ge_0 (f b)).
    eapply Rle_trans; [|apply (Cmod_pair_mono 0 (nl (map f l)) (Cmod (f b)) (nl (map f l))); lra].
    unfold Cmod. cbn [fst snd]. replace (0 ^ 2 + nl (map f l) ^ 2) with (Rsqr (nl (map f l))) by (unfold Rsqr; ring). rewrite sqrt_Rsqr by exact C0. lra.
Qed.

Lemma l2_nl n psi : l2 n psi = nl (map (fun i => psi (dec n i)) (seq 0 (2 ^ n))).
Proof. unfold l2. rewrite <- nl_sqrt, map_map. reflexivity. Qed.
Lemma l2_pos n psi : 0 <= l2 n psi. Proof. apply sqrt_pos. Qed.
Lemma l2_triangle n f g : l2 n (fun x => f x + g x)%C <= l2 n f + l2 n g.
Proof. rewrite !l2_nl. apply (nl_triangle (fun i => f (dec n i)) (fun i => g (dec n i))). Qed.
Lemma l2_mono n f g : (forall i, (i < 2 ^ n)%nat -> Cmod (f (dec n i)) <= Cmod (g (dec n i))) -> l2 n f <= l2 n g.
Proof. intros H. rewrite !l2_nl. apply (nl_mono (fun i => f (dec n i)) (fun i => g (dec n i))). intros i Hi. apply in_seq in Hi. apply H. lia. Qed.
Lemma l2_ext n f g : (forall i, (i < 2 ^ n)%nat -> f (dec n i) = g (dec n i)) -> l2 n f = l2 n g.
Proof. intros H. rewrite !l2_nl. f_equal. apply map_ext_in. intros i Hi. apply in_seq in Hi. apply H. lia. Qed.
Lemma l2_scale n c f : 0 <= c -> l2 n (fun x => RtoC c * f x)%C = c * l2 n f.
Proof. intros Hc. rewrite !l2_nl. apply (nl_scale c (fun i => f (dec n i))). exact Hc. Qed.
Lemma l2_const n c : 0 <= c -> l2 n (fun _ => RtoC c) = c * sqrt (2 ^ n).
Proof.
  intros Hc. replace (fun _ : bs => RtoC c) with (fun _ : bs => RtoC c * RtoC 1)%C by (extensionality x; ring).
  rewrite (l2_scale n c (fun _ => RtoC 1)) by exact Hc. f_equal. rewrite l2_nl, nl_one, seq_length. f_equal. rewrite pow_INR. reflexivity.
Qed.
Lemma l2_in n f i : (i < 2 ^ n)%nat -> Cmod (f (dec n i)) <= l2 n f.
Proof. intros H. rewrite l2_nl. apply (nl_in (fun i => f (dec n i))). apply in_seq. lia. Qed.
Lemma l2_abs n f : l2 n (fun x => RtoC (Cmod (f x))) = l2 n f.
Proof.
  apply Rle_antisym; apply l2_mono; intros i _; rewrite Cmod_R, Rabs_pos_eq by apply Cmod_ge_0; apply Rle_refl.
Qed.

Lemma ip_l2 n psi : ip CN Cconj n psi psi = RtoC (l2 n psi ^ 2).
Proof.
  unfold ip, bsum. rewrite l2_nl, nl_sq, map_map. induction (seq 0 (2 ^ n)) as [|i l IH]; [reflexivity|].
  cbn [big map fold_right]. rewrite IH. cbn [nadd nmul CN]. rewrite Cmod2, RtoC_plus. reflexivity.
Qed.
Lemma iso_l2 n D psi : isometry n D -> l2 n (D psi) = l2 n psi.
Proof.
  intros H. specialize (H psi psi). rewrite !ip_l2 in H. apply RtoC_inj in H.
  pose proof (l2_pos n psi). pose proof (l2_pos n (D psi)). nra.
Qed.
(** A value moved along [X] on a qubit. *)
Lemma l2_flip n q psi : (q < n)%nat -> l2 n (fun x => psi (flip x q)) = l2 n psi.
Proof.
  intros Hq. rewrite <- (iso_l2 n (uden UX [q]) psi).
  - apply l2_ext. intros i _. cbn [uden]. unfold on1, mX, flip. destruct (dec n i q); cbn [eqb negb]; ring.
  - apply uden_isometry; cbn; auto. { repeat constructor. intros []. } intros p [<-|[]]. exact Hq.
Qed.

Lemma two_terms (x : bs) q (f : bs -> R) : f (upd x q false) + f (upd x q true) = f x + f (flip x q).
Proof.
  unfold flip. assert (E : upd x q (x q) = x). { extensionality i. unfold upd. destruct (Nat.eqb_spec i q) as [->|]; reflexivity. }
  destruct (x q); cbn [negb]; rewrite E; ring.
Qed.

(** *** Gates *)
Section Gates.
Context {prec emax : Z} {Hp : FLX.Prec_gt_0 prec} {He : Prec_lt_emax prec emax}.
Local Notation fl := (fl prec emax).
Local Notation fc := (fc prec emax).
Local Notation uro := (@uro prec).
Local Notation eta := (@eta prec emax).
Local Notation emin := (3 - emax - prec)%Z.
Local Notation rnd := (round radix2 (FLT_exp emin prec) ZnearestE).
Context (Pp : (8 <= prec)%Z) (Pe : (8 <= emax)%Z).

Lemma uro_small : 160 * uro <= 1.
Proof.
  unfold FloatSpec.uro. assert (H : bpow radix2 (- prec) <= bpow radix2 (-8)) by (apply bpow_le; lia).
  change (bpow radix2 (-8)) with (/ 256) in H. lra.
Qed.
Lemma big_ok : 128 <= @big1 emax.
Proof. unfold big1. assert (H : bpow radix2 7 <= bpow radix2 (emax - 1)) by (apply bpow_le; lia). change (bpow radix2 7) with 128 in H. lra. Qed.
Lemma eta_1 : eta <= 1.
Proof. pose proof (@eta_uro prec emax big_ok). pose proof uro_small. pose proof (@uro_pos prec). lra. Qed.

Lemma fstate_dec n v y : @fstate prec emax n v y = fstate n v (dec n (enc n y)).
Proof. unfold fstate. rewrite enc_dec by apply enc_lt. reflexivity. Qed.
Lemma fstate_le n v y : Cmod (@fstate prec emax n v y) <= l2 n (fstate n v).
Proof. rewrite fstate_dec. apply l2_in, enc_lt. Qed.
Lemma fstate_map n (f : nat -> fc) i : (i < 2 ^ n)%nat -> fstate n (map f (seq 0 (2 ^ n))) (dec n i) = B2C (f i).
Proof. intros H. unfold fstate. rewrite enc_dec by exact H. rewrite nth_map_seq by exact H. reflexivity. Qed.

Lemma one_exact (fm : bool -> bool -> fc) (m : mat1) n q v : (q < n)%nat -> length v = (2 ^ n)%nat -> Forall cfin v ->
  (forall r c, cfin (fm r c) /\ B2C (fm r c) = m r c) ->
  (forall r, (unit4 (fm r false) /\ m r true = RtoC 0) \/ (unit4 (fm r true) /\ m r false = RtoC 0)) ->
  let v' := map (raw_row FN n (Matrix [q] (fmat fm)) v) (seq 0 (2 ^ n)) in
  Forall cfin v' /\ forall i, (i < 2 ^ n)%nat -> fstate n v' (dec n i) = on1 m q (fstate n v) (dec n i).
Proof.
  intros Hq Lv Fv Hm Hu. cbn zeta.
  assert (R : forall row, let y := raw_row FN n (Matrix [q] (fmat fm)) v row in cfin y /\ B2C y = on1 m q (fstate n v) (dec n row)).
  { intros row. cbn zeta. assert (E : on1 m q (fstate n v) (dec n row) = on1 (fun r c => B2C (fm r c)) q (fstate n v) (dec n row)).
    { unfold on1. rewrite !(proj2 (Hm _ _)). reflexivity. }
    rewrite E. apply row_exact; [intros; apply Hm|exact Fv|]. intros r. rewrite !(proj2 (Hm _ _)). apply Hu. }
  split.
  - apply Forall_forall. intros y Hy. apply in_map_iff in Hy. destruct Hy as (i & <- & _). apply R.
  - intros i Hi. rewrite fstate_map by exact Hi. apply R.
Qed.

Lemma one_err (fm : bool -> bool -> fc) (m : mat1) n q v delta : (q < n)%nat -> length v = (2 ^ n)%nat -> Forall cfin v ->
  (forall r c, cfin (fm r c) /\ Cmod (B2C (fm r c) - m r c)%C <= delta) -> (forall r c, Cmod (m r c) <= 1) -> delta <= 1 ->
  l2 n (fstate n v) <= 2 ->
  let v' := map (raw_row FN n (Matrix [q] (fmat fm)) v) (seq 0 (2 ^ n)) in
  Forall cfin v' /\
  dist n (fstate n v') (on1 m q (fstate n v)) <= (44 * uro + 2 * delta) * l2 n (fstate n v) + 20 * eta * sqrt (2 ^ n).
Proof.
  intros Hq Lv Fv Hm Hm1 Hd HB. cbn zeta. set (psi := fstate n v) in *.
  pose proof (@uro_pos prec) as U0. pose proof (@eta_pos prec emax) as T0.
  assert (D0 : 0 <= delta). { eapply Rle_trans; [apply Cmod_ge_0|]. apply (proj2 (Hm true true)). }
  assert (V : forall r c, Cmod (B2C (fm r c)) <= 2).
  { intros r c. replace (B2C (fm r c)) with ((B2C (fm r c) - m r c) + m r c)%C by ring. eapply Rle_trans; [apply Cmod_triangle|].
    pose proof (proj2 (Hm r c)). pose proof (Hm1 r c). lra. }
  assert (R : forall row, let y := raw_row FN n (Matrix [q] (fmat fm)) v row in let x := dec n row in
    cfin y /\ Cmod (B2C y - on1 m q psi x)%C <= (22 * uro + delta) * (Cmod (psi x) + Cmod (psi (flip x q))) + 20 * eta).
  { intros row. cbn zeta. set (x := dec n row).
    pose proof (fstate_le n v (upd x q false)) as B0. pose proof (fstate_le n v (upd x q true)) as B1. fold psi in B0, B1.
    destruct (row_err fm n q v row 2 (fun r c => proj1 (Hm r c)) Fv big_ok eta_1 uro_small V) as (F & E).
    { fold x psi. lra. }
    fold x psi in E. split; [exact F|].
    rewrite <- (two_terms x q (fun y => Cmod (psi y))).
    set (S := Cmod (psi (upd x q false)) + Cmod (psi (upd x q true))) in *.
    replace (B2C (raw_row FN n (Matrix [q] (fmat fm)) v row) - on1 m q psi x)%C with
      ((B2C (raw_row FN n (Matrix [q] (fmat fm)) v row) - on1 (fun r c => B2C (fm r c)) q psi x) +
       ((B2C (fm (x q) false) - m (x q) false) * psi (upd x q false) + (B2C (fm (x q) true) - m (x q) true) * psi (upd x q true)))%C by (unfold on1; ring).
    eapply Rle_trans; [apply Cmod_triangle|].
    assert (T : Cmod ((B2C (fm (x q) false) - m (x q) false) * psi (upd x q false) + (B2C (fm (x q) true) - m (x q) true) * psi (upd x q true))%C <= delta * S).
    { eapply Rle_trans; [apply Cmod_triangle|]. rewrite !Cmod_mult. unfold S. rewrite Rmult_plus_distr_l.
      apply Rplus_le_compat; (apply Rmult_le_compat_r; [apply Cmod_ge_0|apply Hm]). }
    lra. }
  split.
  - apply Forall_forall. intros y Hy. apply in_map_iff in Hy. destruct Hy as (i & <- & _). apply R.
  - unfold dist.
    set (k := 22 * uro + delta) in *.
    apply Rle_trans with (l2 n (fun x => RtoC k * (RtoC (Cmod (psi x)) + RtoC (Cmod (psi (flip x q)))) + RtoC (20 * eta))%C).
    + apply l2_mono. intros i Hi. rewrite fstate_map by exact Hi. eapply Rle_trans; [apply R|].
      rewrite <- RtoC_plus, <- RtoC_mult, <- RtoC_plus, Cmod_R. apply Rle_abs.
    + eapply Rle_trans; [apply (l2_triangle n (fun x => RtoC k * (RtoC (Cmod (psi x)) + RtoC (Cmod (psi (flip x q)))))%C (fun _ => RtoC (20 * eta)))|].
      assert (K0 : 0 <= k) by (unfold k; lra).
      rewrite l2_const by lra. rewrite l2_scale by exact K0.
      assert (T : l2 n (fun x => RtoC (Cmod (psi x)) + RtoC (Cmod (psi (flip x q))))%C <= l2 n psi + l2 n psi).
      { eapply Rle_trans; [apply (l2_triangle n (fun x => RtoC (Cmod (psi x))) (fun x => RtoC (Cmod (psi (flip x q)))))|].
        rewrite (l2_abs n (fun x => psi (flip x q))), (l2_abs n psi), (l2_flip n q psi Hq). lra. }
      assert (T2 : k * l2 n (fun x => RtoC (Cmod (psi x)) + RtoC (Cmod (psi (flip x q))))%C <= k * (l2 n psi + l2 n psi)) by (apply Rmult_le_compat_l; assumption).
      unfold k in *. lra.
Qed.

(** Halving loses at most [eta]. *)
Lemma half_err (x h : fl) : fin x -> fin h -> B2R h = / 2 -> fin (fmul x h) /\ Rabs (B2R (fmul x h) - B2R x / 2) <= eta.
Proof.
  intros Fx Fh Eh. pose proof (Bmult_correct prec emax Hp He mode_NE x h) as B.
  change (round radix2 (SpecFloat.fexp prec emax) (round_mode mode_NE)) with rnd in B. rewrite Eh in B.
  assert (Q : Rabs (B2R x * / 2) <= Rabs (B2R x)). { rewrite Rabs_mult, (Rabs_pos_eq (/ 2)) by lra. pose proof (Rabs_pos (B2R x)). lra. }
  assert (L : Rabs (rnd (B2R x * / 2)) < bpow radix2 emax).
  { apply Rle_lt_trans with (Rabs (B2R x)); [|apply abs_B2R_lt_emax]. apply abs_round_le_generic; auto with typeclass_instances.
    apply generic_format_abs, fl_format. }
  rewrite Rlt_bool_true in B by exact L. destruct B as (B1 & B2 & _). unfold fin in *. rewrite Fx, Fh in B2. split; [exact B2|].
  change (B2R (fmul x h)) with (B2R (Bmult mode_NE x h)). rewrite B1.
  replace (B2R x / 2) with (B2R x * / 2) by reflexivity.
  destruct (Rle_or_lt (bpow radix2 (emin + prec)) (Rabs (B2R x))) as [Hx|Hx].
  - assert (E : rnd (B2R x * / 2) = B2R x * / 2).
    { apply round_generic; [auto with typeclass_instances|]. change (/ 2) with (bpow radix2 (-1)). apply mult_bpow_exact_FLT; [apply fl_format|].
      assert (M : (emin + prec < mag radix2 (B2R x))%Z) by (apply mag_gt_bpow; exact Hx). lia. }
    rewrite E. replace (B2R x * / 2 - B2R x * / 2) with 0 by ring. rewrite Rabs_R0. pose proof (@eta_pos prec emax). lra.
  - eapply Rle_trans; [apply (error_le_half_ulp radix2 (FLT_exp emin prec) (fun z => negb (Z.even z)))|].
    rewrite ulp_FLT_small; [unfold FloatSpec.eta; lra|exact Hp|]. lra.
Qed.
End Gates.
