(** The CSWAP example. *)
From Coq Require Import Reals Lra Psatz FunctionalExtensionality Permutation.
From Coquelicot Require Import Complex.
From Verif Require Import Base BitsSpec BitsProofs OpsModel OpsSpec StateOpsProofs Instances MeasureSpec MeasureProofs BuilderModel RegProofs SimModel DenSpec DenProofs SimSpec SimProofs SimProofs2
  RunSpec RunProofs GateProofs ToffoliProofs SwapProofs InvertProofs LinkProofs CondProofs ProjSpec WholeSpec WholeProofs WholeProofs2 WholeProofs3 PropCond EndSpec EndProofs ProgramModel ExampleModel.
Local Open Scope nat_scope.
Local Open Scope mon_scope.

Lemma does_same {A} s L (m m' : M A) a L' D : (forall s0, m s0 = m' s0) -> does s L m a L' D -> does s L m' a L' D.
Proof. intros E (s' & p & H & X). exists s', p. rewrite <- E. split; assumption. Qed.
Definition swap_test (q : nat) (ra rb : list nat) (psi : state) : state := on1 mH q (ctl_swap [q] ra rb (on1 mH q psi)).
Lemma cswap_does s q ra rb : conds s = [] -> tidy s -> live s (q :: ra ++ rb) -> length ra = length rb -> ra <> [] ->
  does s (q :: ra ++ rb) (cswap_calls [q] ra rb) ([q], ra, rb) (q :: ra ++ rb) (swap_test q ra rb).
Proof.
  intros C T Lv E N.
  apply (does_same _ _ (mbind (g_h (aco 0) [q]) (fun q0 => mbind (under q0 (swap (aco 1) ra rb)) (fun x => mbind (g_h (aco 0) (fst x)) (fun q1 => ret (q1, fst (snd x), snd (snd x))))))).
  { intros s0. unfold cswap_calls, under, mbind. destruct (g_h (aco 0) [q] s0) as [q0 s1| |]; try reflexivity. destruct (condition_with q0 s1) as [u s2| |]; try reflexivity.
    destruct (swap (aco 1) ra rb s2) as [[ra1 rb1] s3| |]; try reflexivity. destruct (dissolve s3) as [q1 s4| |]; try reflexivity. }
  assert (I1 : incl [q] (q :: ra ++ rb)) by (intros x [<-|[]]; left; reflexivity). assert (N1 : NoDup [q]) by (repeat constructor; cbn; tauto).
  eapply does_eq.
  - eapply does_bind; [apply (gate_does UH [q]); auto; discriminate|apply incl_refl|apply incl_refl|]. intros s1 C1 T1 L1.
    eapply does_bind; [|apply incl_refl|apply incl_refl|].
    + apply does_section. change (q :: ra ++ rb) with ([q] ++ ra ++ rb). rewrite C1, C. refine (_ : does _ _ _ _ _ (ctl_swap [q] ra rb)).
      apply (C47_conditioned_swap 1 (mkSt (bld s1) ([] ++ [Some [q]])) ra rb); auto.
      * cbn [conds app]. intros k Hk. exists [q]. destruct k; [|lia]. split; [reflexivity|discriminate].
    + intros s2 C2 T2 L2. eapply does_bind; [apply (gate_does UH [q]); auto; discriminate|apply incl_refl|apply incl_refl|]. intros s3 C3 T3 L3. apply does_ret; assumption.
  - intros psi. reflexivity.
Qed.

(** *** The probabilities *)
Definition is1 (k : nat) : bool := k =? 1.
Lemma shows1 q k y : k < 2 -> shows [q] k y = Bool.eqb (y q) (is1 k).
Proof. intros H. unfold shows. cbn [length seq forallb nth]. rewrite andb_true_r. destruct k as [|[|k]]; [reflexivity|reflexivity|lia]. Qed.
Lemma ket_at n q x i c : q < n -> i < 2 ^ n -> x q = false -> dec n i q = c -> ket n x (upd (dec n i) q false) = if i =? enc n (upd x q c) then RtoC 1 else RtoC 0.
Proof.
  intros Hq Hi Hx Hc. unfold ket. replace (enc n x =? enc n (upd (dec n i) q false)) with (i =? enc n (upd x q c)); [reflexivity|].
  apply Bool.eq_true_iff_eq. rewrite !Nat.eqb_eq. split.
  - intros ->. apply enc_ext. intros p Hp. unfold upd at 1. destruct (Nat.eqb_spec p q) as [->|Np]; [exact Hx|]. rewrite dec_enc, (proj2 (Nat.ltb_lt p n) Hp). cbn [andb]. unfold upd. rewrite (proj2 (Nat.eqb_neq p q) Np). reflexivity.
  - intros E. rewrite <- (enc_dec n i Hi). apply enc_ext. intros p Hp. unfold upd. destruct (Nat.eqb_spec p q) as [->|Np]; [exact Hc|].
    pose proof (enc_inj n _ _ E p Hp) as X. rewrite X. unfold upd. rewrite (proj2 (Nat.eqb_neq p q) Np). reflexivity.
Qed.
Lemma updl_upd x L c q b : ~ In q L -> updl (upd x q b) L c = upd (updl x L c) q b.
Proof.
  revert x c. induction L as [|p L IH]; intros x [|d c] H; try reflexivity. cbn [updl]. rewrite <- IH by (intros X; apply H; right; exact X). f_equal.
  apply upd_comm. intros ->. apply H. left. reflexivity.
Qed.
Lemma exchange_upd ra rb x q b : ~ In q (ra ++ rb) -> exchange ra rb (upd x q b) = upd (exchange ra rb x) q b.
Proof.
  intros H. unfold exchange. assert (E : forall l, incl l (ra ++ rb) -> map (upd x q b) l = map x l).
  { intros l Hl. apply map_ext_in. intros p Hp. apply upd_other. intros ->. apply H. apply Hl. exact Hp. }
  rewrite !E by (intros p Hp; apply in_app_iff; auto). apply updl_upd. exact H.
Qed.
Lemma ket_exchange n ra rb x y : in_range n (ra ++ rb) -> NoDup (ra ++ rb) -> length ra = length rb -> ket n x (exchange ra rb y) = ket n (exchange ra rb x) y.
Proof.
  intros R N E. assert (X : forall x y, (forall q, q < n -> x q = y q) -> forall q, q < n -> exchange ra rb x q = exchange ra rb y q).
  { intros a b H q Hq. unfold exchange. assert (M : forall l, incl l (ra ++ rb) -> map a l = map b l) by (intros l Hl; apply map_ext_in; intros p Hp; apply H, R, Hl, Hp).
    rewrite !M by (intros p Hp; apply in_app_iff; auto). destruct (in_dec Nat.eq_dec q (ra ++ rb)) as [I|I].
    - assert (G : forall z, map (updl z (ra ++ rb) (map b rb ++ map b ra)) (ra ++ rb) = map b rb ++ map b ra) by (intros z; apply updl_map; [exact N|rewrite !app_length, !map_length; lia]).
      destruct (In_nth _ _ 0 I) as (j & Hj & <-). pose proof (f_equal (fun l => nth j l false) (eq_trans (G a) (eq_sym (G b)))) as F. cbv beta in F.
      rewrite !(nth_indep _ false (updl a (ra ++ rb) (map b rb ++ map b ra) 0)) in F by (rewrite map_length; exact Hj). rewrite map_nth in F.
      rewrite (nth_indep _ (updl a (ra ++ rb) (map b rb ++ map b ra) 0) (updl b (ra ++ rb) (map b rb ++ map b ra) 0)) in F by (rewrite map_length; exact Hj). rewrite map_nth in F. exact F.
    - rewrite !updl_notin by exact I. apply H. exact Hq. }
  unfold ket. replace (enc n x =? enc n (exchange ra rb y)) with (enc n (exchange ra rb x) =? enc n y); [reflexivity|].
  apply Bool.eq_true_iff_eq. rewrite !Nat.eqb_eq. split; intros H; apply enc_ext; intros q Hq; pose proof (X _ _ (enc_inj n _ _ H) q Hq) as Y; rewrite exchange_invol in Y by assumption; exact Y.
Qed.
Lemma swap_test_at n q ra rb x y : q < n -> x q = false -> in_range n (ra ++ rb) -> NoDup (q :: ra ++ rb) -> length ra = length rb ->
  swap_test q ra rb (ket n x) y = (RtoC (/ 2) * (ket n x (upd y q false) + (if y q then RtoC (-1) else RtoC 1) * ket n (exchange ra rb x) (upd y q false)))%C.
Proof.
  intros Hq Hx R N E. inversion N as [|? ? Nq N2]; subst.
  assert (S2 : (RtoC (/ sqrt 2) * RtoC (/ sqrt 2))%C = RtoC (/ 2)).
  { rewrite <- RtoC_mult. f_equal. rewrite <- Rinv_mult, sqrt_sqrt by lra. reflexivity. }
  assert (Z : forall z, z q = true -> ket n x z = RtoC 0) by (intros z Hz; apply (ket_ne n x z q Hq); rewrite Hx, Hz; discriminate).
  assert (F : forall z, on1 mH q (ket n x) z = (RtoC (/ sqrt 2) * ket n x (upd z q false))%C).
  { intros z. unfold on1. rewrite (Z (upd z q true)) by apply upd_same. unfold mH at 1. rewrite andb_false_r. ring. }
  unfold swap_test, on1 at 1, ctl_swap. cbn [forallb]. rewrite !upd_same. cbn [andb]. rewrite !F, exchange_upd, !upd_upd by exact Nq. rewrite <- exchange_upd by exact Nq. rewrite ket_exchange by assumption.
  replace (upd (upd y q false) q false) with (upd y q false) by (symmetry; apply upd_upd). unfold mH. rewrite andb_false_r, andb_true_r. destruct (y q).
  - rewrite <- S2. replace (RtoC (- / sqrt 2)) with (RtoC (-1) * RtoC (/ sqrt 2))%C by (rewrite <- RtoC_mult; f_equal; ring). ring.
  - rewrite <- S2. ring.
Qed.
Lemma swap_test_prob n q ra rb x k : q < n -> x q = false -> in_range n (ra ++ rb) -> NoDup (q :: ra ++ rb) -> length ra = length rb -> k < 2 ->
  prob_of n [q] k (swap_test q ra rb (ket n x)) = (if list_eq_dec Bool.bool_dec (map x ra) (map x rb) then if is1 k then 0 else 1 else / 2)%R.
Proof.
  intros Hq Hx R N E Hk. assert (Nq : ~ In q (ra ++ rb)) by (inversion N; assumption). assert (N2 : NoDup (ra ++ rb)) by (inversion N; assumption).
  assert (Hx' : exchange ra rb x q = false) by (rewrite exchange_notin by exact Nq; exact Hx).
  set (i1 := enc n (upd x q (is1 k))). set (i2 := enc n (upd (exchange ra rb x) q (is1 k))).
  assert (In1 : In i1 (seq 0 (2 ^ n))) by (apply in_seq; split; [lia|apply enc_lt]). assert (In2 : In i2 (seq 0 (2 ^ n))) by (apply in_seq; split; [lia|apply enc_lt]).
  assert (D1 : dec n i1 q = is1 k) by (unfold i1; rewrite dec_enc, (proj2 (Nat.ltb_lt q n) Hq), upd_same; reflexivity).
  assert (D2 : dec n i2 q = is1 k) by (unfold i2; rewrite dec_enc, (proj2 (Nat.ltb_lt q n) Hq), upd_same; reflexivity).
  set (sg := if is1 k then (-1)%R else 1%R).
  unfold prob_of. transitivity (rsum (fun i => ((/ 2 * ((if i =? i1 then 1 else 0) + sg * (if i =? i2 then 1 else 0))) ^ 2)%R) (seq 0 (2 ^ n))).
  { apply rsum_ext. intros i Hi. apply in_seq in Hi. rewrite shows1 by exact Hk. destruct (Bool.eqb (dec n i q) (is1 k)) eqn:B.
    - apply Bool.eqb_prop in B. rewrite swap_test_at by assumption. rewrite (ket_at n q x i (is1 k)), (ket_at n q (exchange ra rb x) i (is1 k)) by (assumption || lia). fold i1 i2. rewrite B.
      unfold sg. destruct (is1 k), (i =? i1), (i =? i2); rewrite <- ?RtoC_mult, <- ?RtoC_plus, <- ?RtoC_mult, Cmod_R, pow2_abs; lra.
    - destruct (Nat.eqb_spec i i1) as [->|_]; [rewrite D1, Bool.eqb_reflx in B; discriminate|]. destruct (Nat.eqb_spec i i2) as [->|_]; [rewrite D2, Bool.eqb_reflx in B; discriminate|]. lra. }
  assert (P : forall i0, In i0 (seq 0 (2 ^ n)) -> rsum (fun i => if i =? i0 then 1%R else 0%R) (seq 0 (2 ^ n)) = 1%R).
  { intros i0 H0. rewrite (rsum_single _ _ i0 (seq_NoDup _ _) H0); [rewrite Nat.eqb_refl; reflexivity|]. intros b _ Nb. rewrite (proj2 (Nat.eqb_neq b i0) Nb). reflexivity. }
  destruct (list_eq_dec Bool.bool_dec (map x ra) (map x rb)) as [Em|Nm].
  - assert (Ex : exchange ra rb x = x).
    { unfold exchange. rewrite <- Em. rewrite Em at 2. rewrite <- map_app. extensionality p. destruct (in_dec Nat.eq_dec p (ra ++ rb)) as [I|I]; [|apply updl_notin; exact I].
      assert (G : map (updl x (ra ++ rb) (map x (ra ++ rb))) (ra ++ rb) = map x (ra ++ rb)) by (apply updl_map; [exact N2|apply map_length]).
      destruct (In_nth _ _ 0 I) as (j & Hj & <-). pose proof (f_equal (fun l => nth j l false) G) as F. cbv beta in F.
      rewrite (nth_indep _ false (updl x (ra ++ rb) (map x (ra ++ rb)) 0)) in F by (rewrite map_length; exact Hj). rewrite map_nth in F.
      rewrite (nth_indep _ false (x 0)) in F by (rewrite map_length; exact Hj). rewrite map_nth in F. exact F. }
    assert (i2 = i1) as -> by (unfold i1, i2; rewrite Ex; reflexivity).
    transitivity (((/ 2 * (1 + sg)) ^ 2) * rsum (fun i => if i =? i1 then 1%R else 0%R) (seq 0 (2 ^ n)))%R.
    { rewrite <- rsum_mul. apply rsum_ext. intros i _. destruct (i =? i1); lra. }
    rewrite P by exact In1. unfold sg. destruct (is1 k); lra.
  - assert (Ni : i1 <> i2).
    { intros X. apply Nm. pose proof (enc_inj n _ _ X) as Y. destruct (exchange_map2 ra rb x N2 E) as (M1 & _). rewrite <- M1. apply map_ext_in. intros p Hp.
      assert (Ip : In p (ra ++ rb)) by (apply in_app_iff; auto). specialize (Y p (R p Ip)). rewrite !upd_other in Y by (intros ->; exact (Nq Ip)). exact Y. }
    transitivity (/ 4 * rsum (fun i => if i =? i1 then 1%R else 0%R) (seq 0 (2 ^ n)) + / 4 * rsum (fun i => if i =? i2 then 1%R else 0%R) (seq 0 (2 ^ n)))%R.
    { rewrite <- !rsum_mul, <- rsum_add. apply rsum_ext. intros i _. destruct (Nat.eqb_spec i i1) as [->|_].
      - rewrite (proj2 (Nat.eqb_neq i1 i2) Ni). unfold sg. destruct (is1 k); lra.
      - unfold sg. destruct (i =? i2), (is1 k); lra. }
    rewrite !P by assumption. lra.
Qed.
