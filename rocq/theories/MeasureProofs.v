(** Proofs about measurement. *)
From Coq Require Import Reals Lra Permutation FunctionalExtensionality.
From Coquelicot Require Import Complex.
From Verif Require Import Base BitsModel BitsSpec BitsProofs BitsProofs2 OpsModel OpsSpec OpsProofs
  Instances UnitaryProofs MeasureModel MeasureSpec.
Local Open Scope res_scope.

Lemma norm_sqr_Cmod c : norm_sqr c = (Cmod c ^ 2)%R.
Proof.
  unfold norm_sqr, Cmod. destruct c as [a b]. cbn [fst snd].
  rewrite pow2_sqrt; [ring|]. nra.
Qed.
Lemma norm_sqr_nonneg c : (0 <= norm_sqr c)%R.
Proof. unfold norm_sqr. nra. Qed.
Lemma norm_sqr_0 c : norm_sqr c = 0%R -> c = RtoC 0.
Proof.
  unfold norm_sqr. destruct c as [a b]. cbn. intros H.
  assert (a = 0%R) by nra. assert (b = 0%R) by nra. subst. reflexivity.
Qed.
Lemma Cmod0_2 : (Cmod (RtoC 0) ^ 2 = 0)%R.
Proof. rewrite Cmod_0. ring. Qed.

(** rsum *)
Lemma rsum_big {A} (f : A -> R) l : rsum f l = big RN f l.
Proof. induction l as [|a l IH]; cbn; [reflexivity|]. rewrite IH. reflexivity. Qed.
Lemma rsum_nsum {A} (f : A -> R) l : nsum RN (map f l) = rsum f l.
Proof. rewrite (nsum_big RN RN_laws), (big_map RN). symmetry. apply rsum_big. Qed.
Lemma rsum_ext {A} (f g : A -> R) l : (forall a, In a l -> f a = g a) -> rsum f l = rsum g l.
Proof. rewrite !rsum_big. apply big_ext. Qed.
Lemma rsum_add {A} (f g : A -> R) l : rsum (fun a => (f a + g a)%R) l = (rsum f l + rsum g l)%R.
Proof. rewrite !rsum_big. apply (big_add RN RN_laws). Qed.
Lemma rsum_mul {A} (f : A -> R) c l : rsum (fun a => (c * f a)%R) l = (c * rsum f l)%R.
Proof. induction l as [|a l IH]; cbn; [ring|]. rewrite IH. ring. Qed.
Lemma rsum_perm {A} (f : A -> R) l1 l2 : Permutation l1 l2 -> rsum f l1 = rsum f l2.
Proof. rewrite !rsum_big. apply (big_perm RN RN_laws). Qed.
Lemma rsum_app {A} (f : A -> R) l1 l2 : rsum f (l1 ++ l2) = (rsum f l1 + rsum f l2)%R.
Proof. rewrite !rsum_big. apply (big_app RN RN_laws). Qed.
Lemma rsum_zero {A} (f : A -> R) l : (forall a, In a l -> f a = 0%R) -> rsum f l = 0%R.
Proof. rewrite !rsum_big. apply (big_zero RN RN_laws). Qed.
Lemma rsum_exchange {A B} (f : A -> B -> R) l1 l2 :
  rsum (fun a => rsum (f a) l2) l1 = rsum (fun b => rsum (fun a => f a b) l1) l2.
Proof.
  transitivity (big RN (fun a => big RN (f a) l2) l1).
  - rewrite rsum_big. apply big_ext. intros. apply rsum_big.
  - rewrite (big_exchange RN RN_laws). symmetry. rewrite rsum_big. apply big_ext. intros. apply rsum_big.
Qed.
Lemma rsum_single {A} (f : A -> R) l a : NoDup l -> In a l -> (forall b, In b l -> b <> a -> f b = 0%R) ->
  rsum f l = f a.
Proof. rewrite rsum_big. apply (big_single RN RN_laws). Qed.
Lemma rsum_nonneg {A} (f : A -> R) l : (forall a, In a l -> (0 <= f a)%R) -> (0 <= rsum f l)%R.
Proof.
  induction l as [|a l IH]; cbn; intros H; [lra|].
  assert (0 <= f a)%R by auto. assert (0 <= rsum f l)%R by auto. lra.
Qed.
Lemma rsum_pos {A} (f : A -> R) l a : (forall a, In a l -> (0 <= f a)%R) -> In a l -> (0 < f a)%R -> (0 < rsum f l)%R.
Proof.
  induction l as [|b l IH]; cbn; intros H Hi Hp; [tauto|]. destruct Hi as [->|Hi].
  - assert (0 <= rsum f l)%R by (apply rsum_nonneg; auto). lra.
  - assert (0 <= f b)%R by auto. assert (0 < rsum f l)%R by auto. lra.
Qed.
Lemma rsum_filter {A} (p : A -> bool) (f : A -> R) l :
  rsum f (filter p l) = rsum (fun a => if p a then f a else 0%R) l.
Proof.
  induction l as [|a l IH]; cbn; [reflexivity|]. destruct (p a); cbn; rewrite IH; ring.
Qed.
Lemma rsum_map {A B} (f : B -> R) (g : A -> B) l : rsum f (map g l) = rsum (fun a => f (g a)) l.
Proof. induction l as [|a l IH]; cbn; [reflexivity|]. rewrite IH. reflexivity. Qed.

(** Outcome bits. *)
Definition mbits (m k : nat) : list bool := map (Nat.testbit m) (seq 0 k).
Lemma length_mbits m k : length (mbits m k) = k.
Proof. unfold mbits. rewrite map_length, seq_length. reflexivity. Qed.
Lemma mbits_S m k : mbits m (S k) = mbits m k ++ [Nat.testbit m k].
Proof. unfold mbits. rewrite seq_S, map_app. reflexivity. Qed.
Lemma nth_mbits m k j : j < k -> nth j (mbits m k) false = Nat.testbit m j.
Proof. intros H. unfold mbits. apply nth_map_seq. exact H. Qed.

Lemma shows_mbits qs m x : shows qs m x = true <-> map x qs = mbits m (length qs).
Proof.
  unfold shows. rewrite forallb_forall. split.
  - intros H. apply (list_eq_nth false).
    + rewrite map_length, length_mbits. reflexivity.
    + intros i Hi. rewrite map_length in Hi. rewrite nth_mbits by lia.
      rewrite nth_indep with (d' := x 0) by (rewrite map_length; lia). rewrite map_nth.
      apply eqb_prop. apply H. apply in_seq. lia.
  - intros H j Hj. apply in_seq in Hj. rewrite <- (nth_mbits m (length qs)) by lia. rewrite <- H.
    rewrite nth_indep with (d' := x 0) by (rewrite map_length; lia). rewrite map_nth.
    apply eqb_reflx.
Qed.
Lemma shows_ext qs m x y : (forall q, In q qs -> x q = y q) -> shows qs m x = shows qs m y.
Proof.
  intros H. assert (E : map x qs = map y qs) by (apply map_ext_in; exact H).
  destruct (shows qs m x) eqn:E1, (shows qs m y) eqn:E2; auto.
  - apply shows_mbits in E1. rewrite E in E1. apply shows_mbits in E1. congruence.
  - apply shows_mbits in E2. rewrite <- E in E2. apply shows_mbits in E2. congruence.
Qed.

Definition zero_bs : bs := fun _ => false.

Lemma lor_set_bit a p m i : Nat.testbit a p = false ->
  Nat.lor a (Nat.shiftl (Nat.land (Nat.shiftr m i) 1) p) = set_bit a p (Nat.testbit m i).
Proof.
  intros H. apply Nat.bits_inj. intros j.
  rewrite Nat.lor_spec, testbit_shiftl_bit, testbit_set_bit, Nat.shiftr_spec' , Nat.add_0_l.
  destruct (Nat.eqb_spec j p) as [->|Hj]; cbn; [rewrite H|rewrite orb_false_r]; reflexivity.
Qed.

Lemma updl_zero_notin q : forall qs c, ~ In q qs -> updl zero_bs qs c q = false.
Proof. intros qs c H. rewrite updl_notin by exact H. reflexivity. Qed.

Lemma scatter_ok n m qs : in_range n qs -> NoDup qs ->
  scatter n m qs = Ok (enc n (updl zero_bs qs (mbits m (length qs)))).
Proof.
  unfold scatter. induction qs as [|q qs IH] using rev_ind; intros Hr Hn.
  - cbn. f_equal. apply Nat.bits_inj. intros i. rewrite testbit_enc, Nat.bits_0. unfold zero_bs.
    rewrite andb_false_r. reflexivity.
  - apply in_range_app in Hr. destruct Hr as [Hr Hq].
    assert (Hqn : q < n) by (apply Hq; left; reflexivity).
    apply NoDup_app_iff in Hn. destruct Hn as (Hn & _ & Hd).
    assert (Hnq : ~ In q qs) by (intros HI; apply (Hd q HI); left; reflexivity).
    rewrite enumerate_app_single, foldM_app, IH by assumption. cbn [bind foldM].
    unfold scatter_step. rewrite chk_sub_ok by lia. cbn [bind]. rewrite chk_sub_ok by lia. cbn [bind].
    rewrite lor_set_bit.
    + rewrite enc_upd by (try apply enc_lt; assumption).
      rewrite app_length. cbn [length]. rewrite Nat.add_1_r, mbits_S, updl_app by apply length_mbits.
      cbn [updl]. f_equal. apply enc_ext. intros p Hp. unfold upd. destruct (p =? q); [reflexivity|].
      rewrite dec_enc. destruct (Nat.ltb_spec p n); [reflexivity|lia].
    + rewrite testbit_enc. replace (n - 1 - (n - 1 - q)) with q by lia.
      rewrite updl_zero_notin by exact Hnq. apply andb_false_r.
Qed.

(** The remaining qubits. *)
Definition rest_of (n : nat) (qs : list nat) : list nat :=
  filter (fun i => negb (existsb (Nat.eqb i) qs)) (seq 0 n).
Lemma existsb_eqb_In i qs : existsb (Nat.eqb i) qs = true <-> In i qs.
Proof.
  rewrite existsb_exists. split.
  - intros (x & Hx & He). apply Nat.eqb_eq in He. subst. exact Hx.
  - intros H. exists i. split; [exact H|apply Nat.eqb_refl].
Qed.
Lemma In_rest_of n qs q : In q (rest_of n qs) <-> q < n /\ ~ In q qs.
Proof.
  unfold rest_of. rewrite filter_In, in_seq, negb_true_iff, <- existsb_eqb_In.
  destruct (existsb (Nat.eqb q) qs); intuition (try lia; try congruence).
Qed.
Lemma NoDup_rest_of n qs : NoDup (rest_of n qs).
Proof. apply NoDup_filter, seq_NoDup. Qed.

Lemma testbit_le l : forall i, Nat.testbit (le l) i = nth i l false.
Proof.
  induction l as [|b l IH]; intros i; cbn [le].
  - rewrite Nat.bits_0. destruct i; reflexivity.
  - rewrite testbit_b2n_add. destruct i as [|i]; cbn; [reflexivity|]. rewrite Nat.sub_0_r. apply IH.
Qed.
Lemma le_lt l : le l < 2 ^ length l.
Proof. induction l as [|b l IH]; cbn; [lia|]. destruct b; cbn; lia. Qed.
Lemma mbits_le l : mbits (le l) (length l) = l.
Proof.
  apply (list_eq_nth false).
  - apply length_mbits.
  - intros i Hi. rewrite length_mbits in Hi. rewrite nth_mbits by exact Hi. apply testbit_le.
Qed.
Lemma le_mbits m k : m < 2 ^ k -> le (mbits m k) = m.
Proof.
  intros H. apply Nat.bits_inj. intros i. rewrite testbit_le.
  destruct (Nat.lt_ge_cases i k).
  - apply nth_mbits. exact H0.
  - rewrite nth_default by (rewrite length_mbits; exact H0). symmetry. apply (testbit_high _ k); assumption.
Qed.
Lemma mbits_inj k a b : a < 2 ^ k -> b < 2 ^ k -> mbits a k = mbits b k -> a = b.
Proof. intros Ha Hb H. rewrite <- (le_mbits a k Ha), <- (le_mbits b k Hb), H. reflexivity. Qed.

(** The index visited for the remaining bits [r]. *)
Definition visit (n : nat) (qs : list nat) (m r : nat) : nat :=
  enc n (updl (updl zero_bs qs (mbits m (length qs))) (rest_of n qs) (mbits r (length (rest_of n qs)))).

Lemma add_disjoint a b : (forall i, Nat.testbit a i = true -> Nat.testbit b i = false) -> a + b = Nat.lor a b.
Proof.
  intros H. assert (L : Nat.land a b = 0).
  { apply Nat.bits_inj. intros i. rewrite Nat.land_spec, Nat.bits_0.
    destruct (Nat.testbit a i) eqn:E; [rewrite (H i E)|]; reflexivity. }
  rewrite Nat.add_nocarry_lxor by exact L. apply Nat.lxor_lor. exact L.
Qed.

Lemma visit_sum n qs m r : in_range n qs -> NoDup qs ->
  enc n (updl zero_bs (rest_of n qs) (mbits r (length (rest_of n qs)))) +
  enc n (updl zero_bs qs (mbits m (length qs))) = visit n qs m r.
Proof.
  intros Hr Hn. rewrite add_disjoint.
  - apply Nat.bits_inj. intros i. unfold visit. rewrite Nat.lor_spec, !testbit_enc.
    destruct (Nat.ltb_spec i n) as [Hi|Hi]; cbn; [|reflexivity].
    set (q := n - 1 - i). destruct (in_dec Nat.eq_dec q qs) as [I|I].
    + assert (I' : ~ In q (rest_of n qs)) by (rewrite In_rest_of; tauto).
      rewrite !(updl_notin (rest_of n qs)) by exact I'. reflexivity.
    + rewrite (updl_zero_notin q qs) by exact I. rewrite orb_false_r.
      assert (I' : In q (rest_of n qs)) by (rewrite In_rest_of; split; [unfold q; lia|exact I]).
      assert (G : forall rs c x y, NoDup rs -> length c = length rs -> In q rs -> updl x rs c q = updl y rs c q).
      { intros rs c x y Hd Hl Hi'. assert (E : map (updl x rs c) rs = map (updl y rs c) rs)
          by (rewrite !updl_map by assumption; reflexivity).
        revert E. generalize (updl x rs c), (updl y rs c). clear - Hi'.
        induction rs as [|z rs IH]; cbn in *; intros f g E; [tauto|]. inversion E. destruct Hi' as [->|H]; auto. }
      apply G; [apply NoDup_rest_of|apply length_mbits|exact I'].
  - intros i. rewrite !testbit_enc. destruct (i <? n); cbn; [|discriminate].
    set (q := n - 1 - i). destruct (in_dec Nat.eq_dec q qs) as [I|I].
    + rewrite updl_zero_notin by (rewrite In_rest_of; tauto). discriminate.
    + intros _. apply updl_zero_notin. exact I.
Qed.

Lemma dec_visit_rest n qs m r : map (dec n (visit n qs m r)) (rest_of n qs) = mbits r (length (rest_of n qs)).
Proof.
  transitivity (map (updl (updl zero_bs qs (mbits m (length qs))) (rest_of n qs) (mbits r (length (rest_of n qs)))) (rest_of n qs)).
  - apply map_ext_in. intros q Hq. apply In_rest_of in Hq. unfold visit. rewrite dec_enc.
    destruct (Nat.ltb_spec q n); [reflexivity|lia].
  - apply updl_map; [apply NoDup_rest_of|apply length_mbits].
Qed.
Lemma dec_visit_qs n qs m r : in_range n qs -> NoDup qs ->
  map (dec n (visit n qs m r)) qs = mbits m (length qs).
Proof.
  intros Hr Hn. transitivity (map (updl zero_bs qs (mbits m (length qs))) qs).
  - apply map_ext_in. intros q Hq. unfold visit. rewrite dec_enc.
    assert (q < n) by auto. destruct (Nat.ltb_spec q n); [|lia]. cbn.
    apply updl_notin. rewrite In_rest_of. tauto.
  - apply updl_map; [exact Hn|apply length_mbits].
Qed.

Lemma NoDup_map_in {A B} (f : A -> B) l :
  (forall a b, In a l -> In b l -> f a = f b -> a = b) -> NoDup l -> NoDup (map f l).
Proof.
  intros Hi. induction 1 as [|a l Ha Hl IH]; cbn; constructor.
  - intros HI. apply in_map_iff in HI. destruct HI as (b & E & Hb).
    assert (b = a) by (apply Hi; cbn; auto). subst. contradiction.
  - apply IH. intros; apply Hi; cbn; auto.
Qed.

Lemma visits_perm n qs m : in_range n qs -> NoDup qs ->
  Permutation (map (visit n qs m) (seq 0 (2 ^ length (rest_of n qs))))
              (filter (fun i => shows qs m (dec n i)) (seq 0 (2 ^ n))).
Proof.
  intros Hr Hn. apply NoDup_Permutation.
  - apply NoDup_map_in; [|apply seq_NoDup].
    intros a b Ha Hb E. apply in_seq in Ha, Hb. apply (mbits_inj (length (rest_of n qs))); [lia|lia|].
    rewrite <- (dec_visit_rest n qs m a), <- (dec_visit_rest n qs m b), E. reflexivity.
  - apply NoDup_filter, seq_NoDup.
  - intros i. rewrite in_map_iff, filter_In, in_seq. split.
    + intros (r & <- & Hi). split.
      * split; [lia|]. apply enc_lt.
      * apply shows_mbits. apply dec_visit_qs; assumption.
    + intros [[_ Hi] Hs]. apply shows_mbits in Hs. cbn in Hi.
      exists (le (map (dec n i) (rest_of n qs))). split.
      * unfold visit. transitivity (enc n (dec n i)); [|apply enc_dec; exact Hi].
        assert (E : mbits (le (map (dec n i) (rest_of n qs))) (length (rest_of n qs)) = map (dec n i) (rest_of n qs)).
        { assert (E := mbits_le (map (dec n i) (rest_of n qs))). rewrite map_length in E. exact E. }
        rewrite E, <- Hs. apply enc_ext. intros q Hq.
        destruct (in_dec Nat.eq_dec q qs) as [I|I].
        -- rewrite updl_notin by (rewrite In_rest_of; tauto).
           assert (G : forall rs x f, NoDup rs -> In q rs -> updl x rs (map f rs) q = f q).
           { intros rs x f Hd Hi'. assert (E' : map (updl x rs (map f rs)) rs = map f rs)
               by (apply updl_map; [exact Hd|apply map_length]).
             revert E'. generalize (updl x rs (map f rs)). clear - Hi'.
             induction rs as [|z rs IH]; cbn in *; intros g E; [tauto|]. inversion E. destruct Hi' as [->|H]; auto. }
           apply G; assumption.
        -- assert (I' : In q (rest_of n qs)) by (rewrite In_rest_of; tauto).
           assert (G : forall rs x f, NoDup rs -> In q rs -> updl x rs (map f rs) q = f q).
           { intros rs x f Hd Hi'. assert (E' : map (updl x rs (map f rs)) rs = map f rs)
               by (apply updl_map; [exact Hd|apply map_length]).
             revert E'. generalize (updl x rs (map f rs)). clear - Hi'.
             induction rs as [|z rs IH]; cbn in *; intros g E'; [tauto|]. inversion E'. destruct Hi' as [->|H]; auto. }
           apply G; [apply NoDup_rest_of|exact I'].
      * apply in_seq. split; [lia|]. assert (L := le_lt (map (dec n i) (rest_of n qs))).
        rewrite map_length in L. lia.
Qed.

Lemma filter_somes_map {A B} (f : A -> option B) l :
  filter_somes (map f l) = flat_map (fun a => match f a with Some b => [b] | None => [] end) l.
Proof. induction l as [|a l IH]; cbn; [reflexivity|]. destruct (f a); cbn; rewrite IH; reflexivity. Qed.

Lemma amp_fn (v : list C) i : (if length v <=? i then RtoC 0 else nth i v (RtoC 0)) = nth i v (RtoC 0).
Proof. destruct (Nat.leb_spec (length v) i); [symmetry; apply nth_default; assumption|reflexivity]. Qed.

Lemma measure_prob_ok n m qs v off : in_range n qs -> NoDup qs ->
  measure_prob n m qs v off = Ok (born n qs m off v).
Proof.
  intros Hr Hn. unfold measure_prob, measure_prob_fn. rewrite scatter_ok by assumption. cbn [bind].
  fold (rest_of n qs).
  set (g := fun i => if i <? off then None
                     else if C_is0 (nth (i - off) v (RtoC 0)) then None
                     else Some (norm_sqr (nth (i - off) v (RtoC 0)))).
  rewrite (mapM_ok _ (fun r => g (visit n qs m r))).
  - cbn [bind]. f_equal. rewrite filter_somes_map, (nsum_big RN RN_laws), (big_flat_map RN RN_laws), <- rsum_big.
    rewrite (rsum_ext _ (fun r => (Cmod (amp_off CN off v (visit n qs m r)) ^ 2)%R)).
    + transitivity (rsum (fun i => (Cmod (amp_off CN off v i) ^ 2)%R) (map (visit n qs m) (seq 0 (2 ^ length (rest_of n qs))))).
      { rewrite rsum_map. reflexivity. }
      rewrite (rsum_perm _ _ _ (visits_perm n qs m Hr Hn)), rsum_filter. reflexivity.
    + intros r _. unfold g, amp_off. destruct (visit n qs m r <? off); cbn [n0 CN]; [rewrite Cmod0_2; reflexivity|].
      unfold C_is0. destruct (Ceq_dec _ _) as [E|E]; cbn.
      * rewrite E, Cmod_0. ring.
      * rewrite norm_sqr_Cmod. cbn. ring.
  - intros r _. unfold prob_item. rewrite scatter_ok; [|intros q Hq; apply In_rest_of in Hq; tauto|apply NoDup_rest_of].
    cbn [bind]. rewrite visit_sum by assumption. unfold g.
    destruct (visit n qs m r <? off); [reflexivity|]. rewrite amp_fn.
    destruct (C_is0 _); reflexivity.
Qed.


(** Probabilities form a distribution. *)
Lemma born_nonneg n qs m off v : (0 <= born n qs m off v)%R.
Proof. apply rsum_nonneg. intros i _. destruct (shows _ _ _); [apply pow2_ge_0|lra]. Qed.

Lemma shows_unique qs x : exists m, m < 2 ^ length qs /\ shows qs m x = true /\
  forall m', m' < 2 ^ length qs -> shows qs m' x = true -> m' = m.
Proof.
  exists (le (map x qs)). assert (L := le_lt (map x qs)). rewrite map_length in L.
  assert (E := mbits_le (map x qs)). rewrite map_length in E. repeat split.
  - exact L.
  - apply shows_mbits. symmetry. exact E.
  - intros m' Hm Hs. apply shows_mbits in Hs. apply (mbits_inj (length qs)); [assumption..|]. congruence.
Qed.

Lemma rsum_seq_nth (v : list C) (f : C -> R) : rsum (fun i => f (nth i v (RtoC 0))) (seq 0 (length v)) = rsum f v.
Proof. rewrite <- (rsum_map f (fun i => nth i v (RtoC 0))), seq_nth_map. reflexivity. Qed.

Lemma born_total n qs v : length v = 2 ^ n ->
  rsum (fun m => born n qs m 0 v) (seq 0 (2 ^ length qs)) = rsum (fun a => (Cmod a ^ 2)%R) v.
Proof.
  intros Hv. unfold born. rewrite rsum_exchange. rewrite <- (rsum_seq_nth v (fun a => (Cmod a ^ 2)%R)), Hv.
  apply rsum_ext. intros i _. destruct (shows_unique qs (dec n i)) as (m & Hm & Hs & Hu).
  rewrite (rsum_single _ _ m).
  - rewrite Hs. unfold amp_off. cbn. rewrite Nat.sub_0_r. reflexivity.
  - apply seq_NoDup.
  - apply in_seq. lia.
  - intros b Hb Hne. apply in_seq in Hb. destruct (shows qs b (dec n i)) eqn:E; [|reflexivity].
    exfalso. apply Hne, Hu; [lia|exact E].
Qed.

Lemma prob_magnitude_ok v : prob_magnitude v = rsum (fun a => (Cmod a ^ 2)%R) v.
Proof. unfold prob_magnitude. rewrite rsum_nsum. apply rsum_ext. intros. apply norm_sqr_Cmod. Qed.

Lemma measure_probs_ok n qs v : in_range n qs -> NoDup qs -> length v = 2 ^ n ->
  exists ps, measure_probs n qs v 0 = Ok ps /\ length ps = 2 ^ length qs /\
    (forall m, m < 2 ^ length qs -> nth m ps 0%R = born n qs m 0 v) /\
    (forall p, In p ps -> (0 <= p)%R) /\ rsum (fun p => p) ps = prob_magnitude v.
Proof.
  intros Hr Hn Hv. exists (map (fun m => born n qs m 0 v) (seq 0 (2 ^ length qs))). repeat split.
  - unfold measure_probs. apply mapM_ok. intros. apply measure_prob_ok; assumption.
  - rewrite map_length, seq_length. reflexivity.
  - intros m Hm. apply (nth_map_seq (fun m => born n qs m 0 v)). exact Hm.
  - intros p Hp. apply in_map_iff in Hp. destruct Hp as (m & <- & _). apply born_nonneg.
  - rewrite rsum_map, born_total, prob_magnitude_ok by assumption. reflexivity.
Qed.

(** Chunks. *)
Lemma born_app n qs m off a b :
  born n qs m off (a ++ b) = (born n qs m off a + born n qs m (off + length a) b)%R.
Proof.
  unfold born. rewrite <- rsum_add. apply rsum_ext. intros i _. destruct (shows _ _ _); [|ring].
  unfold amp_off. destruct (Nat.ltb_spec i off).
  - destruct (Nat.ltb_spec i (off + length a)); [|lia]. cbn [n0 CN]. rewrite Cmod_0. ring.
  - destruct (Nat.ltb_spec i (off + length a)).
    + rewrite app_nth1 by lia. cbn [n0 CN]. rewrite Cmod_0. ring.
    + rewrite app_nth2 by lia. rewrite (nth_default a) by lia. cbn [n0 CN]. rewrite Cmod_0.
      replace (i - off - length a) with (i - (off + length a)) by lia. ring.
Qed.
Lemma born_nil n qs m off : born n qs m off [] = 0%R.
Proof.
  unfold born. apply rsum_zero. intros i _. destruct (shows _ _ _); [|reflexivity].
  unfold amp_off. destruct (i <? off); [|destruct (i - off) as [|w]]; cbn [n0 CN nth]; rewrite Cmod_0; ring.
Qed.

(** Probabilities of the chunks of a state, each asked with its own offset. *)
Fixpoint chunk_probs (n m : nat) (qs : list nat) (chunks : list (list C)) (off : nat) : res (list R) :=
  match chunks with
  | [] => Ok []
  | c :: cs => p <- measure_prob n m qs c off ;; ps <- chunk_probs n m qs cs (off + length c) ;; Ok (p :: ps)
  end.
Lemma chunk_probs_ok n m qs : in_range n qs -> NoDup qs -> forall chunks off,
  exists ps, chunk_probs n m qs chunks off = Ok ps /\ length ps = length chunks /\
    measure_prob n m qs (concat chunks) off = Ok (rsum (fun p => p) ps).
Proof.
  intros Hr Hn. induction chunks as [|c cs IH]; intros off.
  - exists []. cbn. rewrite measure_prob_ok, born_nil by assumption. auto.
  - destruct (IH (off + length c)) as (ps & E & L & H). exists (born n qs m off c :: ps).
    cbn [chunk_probs concat]. rewrite measure_prob_ok, E by assumption. cbn [bind length rsum]. repeat split; [lia|].
    rewrite measure_prob_ok in H by assumption. inversion H as [H'].
    rewrite measure_prob_ok by assumption. rewrite born_app, H'. reflexivity.
Qed.
