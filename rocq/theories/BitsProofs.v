From Coq Require Import FunctionalExtensionality NArith.
From Verif Require Import Base BitsModel BitsSpec.
Local Open Scope res_scope.

(** ** Generic *)
Lemma pow2_pos n : 0 < 2 ^ n.
Proof. induction n; cbn; lia. Qed.

Lemma testbit_high a n i : a < 2 ^ n -> n <= i -> Nat.testbit a i = false.
Proof.
  intros H Hi. destruct (Nat.eq_dec a 0) as [->|N]; [apply Nat.bits_0|].
  apply Nat.bits_above_log2. apply Nat.log2_lt_pow2 in H; lia.
Qed.

Lemma bits_lt a n : (forall i, n <= i -> Nat.testbit a i = false) -> a < 2 ^ n.
Proof.
  intros H. destruct (Nat.lt_ge_cases a (2 ^ n)) as [L|L]; [exact L|exfalso].
  assert (N : a <> 0) by (pose proof (pow2_pos n); lia).
  assert (E := Nat.bit_log2 a N). rewrite H in E; [discriminate|].
  apply Nat.log2_le_pow2 in L; lia.
Qed.

Lemma testbit_b2n b i : Nat.testbit (b2n b) i = (i =? 0) && b.
Proof. destruct b, i; cbn; try reflexivity; rewrite ?Nat.bits_0; try reflexivity. Qed.

Lemma testbit_b2n_add b a i :
  Nat.testbit (b2n b + 2 * a) i = if i =? 0 then b else Nat.testbit a (i - 1).
Proof.
  destruct i as [|i].
  - cbn [Nat.eqb]. rewrite Nat.add_comm. destruct b; cbn [b2n].
    + apply Nat.testbit_odd_0.
    + rewrite Nat.add_0_r. apply Nat.testbit_even_0.
  - cbn [Nat.eqb]. replace (S i - 1) with i by lia. rewrite Nat.add_comm. destruct b; cbn [b2n].
    + apply Nat.testbit_odd_succ. lia.
    + rewrite Nat.add_0_r. apply Nat.testbit_even_succ. lia.
Qed.

(** ** set_bit / get_bit *)
Lemma get_bit_testbit num i : get_bit num i = Nat.testbit num i.
Proof.
  unfold get_bit.
  replace (Nat.testbit num i) with (Nat.testbit (Nat.shiftr num i) 0)
    by (rewrite Nat.shiftr_spec'; reflexivity).
  generalize (Nat.shiftr num i) as a. intros a.
  change 1 with (Nat.ones 1). rewrite Nat.land_ones. cbn [Nat.pow Nat.mul Nat.add].
  change (Nat.testbit a 0) with (Nat.odd a).
  assert (E := Nat.bit0_mod a). change (Nat.testbit a 0) with (Nat.odd a) in E.
  rewrite <- E. destruct (Nat.odd a); reflexivity.
Qed.

Lemma testbit_set_bit num i v j :
  Nat.testbit (set_bit num i v) j = if j =? i then v else Nat.testbit num j.
Proof.
  unfold set_bit. destruct v.
  - rewrite Nat.lor_spec. rewrite Nat.shiftl_1_l || idtac.
    replace (Nat.testbit (2 ^ i) j) with (j =? i).
    + destruct (Nat.eqb_spec j i); rewrite ?orb_true_r, ?orb_false_r; reflexivity.
    + rewrite Nat.pow2_bits_eqb, Nat.eqb_sym. reflexivity.
  - rewrite Nat.ldiff_spec. rewrite Nat.shiftl_1_l || idtac.
    replace (Nat.testbit (2 ^ i) j) with (j =? i).
    + destruct (Nat.eqb_spec j i); cbn; rewrite ?andb_true_r, ?andb_false_r; reflexivity.
    + rewrite Nat.pow2_bits_eqb, Nat.eqb_sym. reflexivity.
Qed.

Lemma set_bit_get_bit num i j v :
  get_bit (set_bit num i v) j = if j =? i then v else get_bit num j.
Proof. rewrite !get_bit_testbit. apply testbit_set_bit. Qed.

(** ** Big-endian lists *)
Lemma be_app l b : be (l ++ [b]) = 2 * be l + b2n b.
Proof. unfold be. rewrite fold_left_app. reflexivity. Qed.

Lemma testbit_be l i :
  Nat.testbit (be l) i = (i <? length l) && nth (length l - 1 - i) l false.
Proof.
  revert i. induction l as [|b l IH] using rev_ind; intros i.
  - cbn. apply Nat.bits_0.
  - rewrite be_app, Nat.add_comm, testbit_b2n_add, app_length. cbn [length].
    destruct i as [|i].
    + cbn [Nat.eqb]. rewrite app_nth2 by lia.
      replace (length l + 1 - 1 - 0 - length l) with 0 by lia. rewrite Nat.add_1_r. reflexivity.
    + cbn [Nat.eqb]. replace (S i - 1) with i by lia. rewrite IH.
      destruct (Nat.ltb_spec i (length l)), (Nat.ltb_spec (S i) (length l + 1)); try lia; cbn.
      rewrite app_nth1 by lia. f_equal. lia.
Qed.

Lemma be_lt l : be l < 2 ^ length l.
Proof.
  apply bits_lt. intros i H. rewrite testbit_be.
  destruct (Nat.ltb_spec i (length l)); [lia|reflexivity].
Qed.

Lemma length_bits_be k i : length (bits_be k i) = k.
Proof. unfold bits_be. rewrite map_length, seq_length. reflexivity. Qed.

Lemma nth_bits_be k i j : j < k -> nth j (bits_be k i) false = Nat.testbit i (k - 1 - j).
Proof. intros H. unfold bits_be. rewrite nth_map_seq by lia. reflexivity. Qed.

Lemma be_bits_be k i : i < 2 ^ k -> be (bits_be k i) = i.
Proof.
  intros H. apply Nat.bits_inj. intros j. rewrite testbit_be, length_bits_be.
  destruct (Nat.ltb_spec j k); cbn.
  - rewrite nth_bits_be by lia. f_equal. lia.
  - symmetry. apply testbit_high with k; auto.
Qed.

Lemma bits_be_be l : bits_be (length l) (be l) = l.
Proof.
  apply (list_eq_nth false). { apply length_bits_be. }
  rewrite length_bits_be. intros i H. rewrite nth_bits_be, testbit_be by lia.
  destruct (Nat.ltb_spec (length l - 1 - i) (length l)); [|lia]. cbn. f_equal. lia.
Qed.

Lemma be_inj l1 l2 : length l1 = length l2 -> be l1 = be l2 -> l1 = l2.
Proof. intros H E. rewrite <- (bits_be_be l1), <- (bits_be_be l2), H, E. reflexivity. Qed.

Lemma be_cons b l : be (b :: l) = b2n b * 2 ^ length l + be l.
Proof.
  assert (G : forall l a, fold_left (fun acc b => 2 * acc + b2n b) l a = a * 2 ^ length l + be l).
  { clear. induction l as [|c l IH]; intros a; cbn [fold_left length Nat.pow].
    - cbn. lia.
    - rewrite IH. unfold be at 2. cbn [fold_left]. rewrite IH. cbn. lia. }
  unfold be at 1. cbn [fold_left]. rewrite G. cbn. lia.
Qed.

Lemma be_app_gen l1 l2 : be (l1 ++ l2) = be l1 * 2 ^ length l2 + be l2.
Proof.
  induction l1 as [|b l1 IH]; [reflexivity|].
  cbn [app]. rewrite !be_cons, IH, app_length, Nat.pow_add_r. lia.
Qed.

(** ** bools *)
Lemma length_bools k : length (bools k) = 2 ^ k.
Proof. induction k as [|k IH]; cbn; [reflexivity|]. rewrite app_length, !map_length. lia. Qed.

Lemma In_bools k c : In c (bools k) <-> length c = k.
Proof.
  revert c. induction k as [|k IH]; intros c; cbn.
  - destruct c; cbn; split; intros H; auto; try lia. destruct H as [H|[]]; discriminate.
  - rewrite in_app_iff, !in_map_iff. split.
    + intros [[c' [<- H]]|[c' [<- H]]]; apply IH in H; cbn; lia.
    + destruct c as [|b c]; cbn; intros H; [lia|].
      destruct b; [right|left]; exists c; split; auto; apply IH; lia.
Qed.

Lemma seq_shift_add a m : forall s, seq (a + s) m = map (Nat.add a) (seq s m).
Proof.
  induction m as [|m IH]; intros s; cbn; [reflexivity|].
  f_equal. rewrite <- Nat.add_succ_r. apply IH.
Qed.

Lemma map_be_bools k : map be (bools k) = seq 0 (2 ^ k).
Proof.
  induction k as [|k IH]; [reflexivity|]. cbn [bools Nat.pow].
  rewrite map_app, !map_map.
  replace (2 * 2 ^ k) with (2 ^ k + 2 ^ k) by lia. rewrite seq_app. f_equal.
  - rewrite <- IH. apply map_ext_in. intros c Hc. rewrite be_cons. reflexivity.
  - rewrite Nat.add_0_l. rewrite <- (Nat.add_0_r (2 ^ k)) at 1. rewrite seq_shift_add, <- IH, map_map.
    apply map_ext_in. intros c Hc.
    rewrite be_cons. apply In_bools in Hc. rewrite Hc. cbn. lia.
Qed.

Lemma NoDup_bools k : NoDup (bools k).
Proof. apply (NoDup_map_inv be). rewrite map_be_bools. apply seq_NoDup. Qed.

(** ** enc / dec *)
Lemma enc_lt n x : enc n x < 2 ^ n.
Proof. unfold enc. eapply Nat.lt_le_trans; [apply be_lt|]. rewrite map_length, seq_length. lia. Qed.

Lemma testbit_enc n x i : Nat.testbit (enc n x) i = (i <? n) && x (n - 1 - i).
Proof.
  unfold enc. rewrite testbit_be, map_length, seq_length.
  destruct (Nat.ltb_spec i n); [|reflexivity]. cbn. apply nth_map_seq. lia.
Qed.

Lemma dec_enc n x q : dec n (enc n x) q = (q <? n) && x q.
Proof.
  unfold dec. rewrite testbit_enc. destruct (Nat.ltb_spec q n); [|reflexivity].
  destruct (Nat.ltb_spec (n - 1 - q) n); [|lia]. cbn. f_equal. lia.
Qed.

Lemma enc_dec n i : i < 2 ^ n -> enc n (dec n i) = i.
Proof.
  intros H. apply Nat.bits_inj. intros j. rewrite testbit_enc. unfold dec.
  destruct (Nat.ltb_spec j n); cbn [andb].
  - destruct (Nat.ltb_spec (n - 1 - j) n); [|lia]. cbn [andb].
    replace (n - 1 - (n - 1 - j)) with j by lia. reflexivity.
  - symmetry. apply testbit_high with n; auto.
Qed.

Lemma enc_ext n x y : (forall q, q < n -> x q = y q) -> enc n x = enc n y.
Proof.
  intros H. unfold enc. f_equal. apply map_ext_in. intros q Hq. apply in_seq in Hq. apply H. lia.
Qed.

Lemma enc_inj n x y : enc n x = enc n y -> forall q, q < n -> x q = y q.
Proof.
  intros H q Hq. assert (E := dec_enc n x q). rewrite H, dec_enc in E.
  destruct (Nat.ltb_spec q n); [cbn in E; congruence|lia].
Qed.

(** ** updl *)
Lemma upd_same x q b : upd x q b q = b.
Proof. unfold upd. rewrite Nat.eqb_refl. reflexivity. Qed.
Lemma upd_other x q b p : p <> q -> upd x q b p = x p.
Proof. intros H. unfold upd. destruct (Nat.eqb_spec p q); [contradiction|reflexivity]. Qed.
Lemma upd_upd x q b c : upd (upd x q b) q c = upd x q c.
Proof. extensionality p. unfold upd. destruct (p =? q); reflexivity. Qed.
Lemma upd_id x q : upd x q (x q) = x.
Proof. extensionality p. unfold upd. destruct (Nat.eqb_spec p q); subst; reflexivity. Qed.
Lemma upd_comm x p q b c : p <> q -> upd (upd x p b) q c = upd (upd x q c) p b.
Proof.
  intros H. extensionality r. unfold upd.
  destruct (Nat.eqb_spec r q), (Nat.eqb_spec r p); subst; try reflexivity. contradiction.
Qed.

Lemma updl_notin qs : forall c x p, ~ In p qs -> updl x qs c p = x p.
Proof.
  induction qs as [|q qs IH]; intros [|b c] x p H; cbn; auto.
  rewrite IH by (intros I; apply H; cbn; auto).
  apply upd_other. intros ->. apply H. cbn; auto.
Qed.

Lemma updl_map x qs c : NoDup qs -> length c = length qs -> map (updl x qs c) qs = c.
Proof.
  revert x c. induction qs as [|q qs IH]; intros x [|b c] N L; cbn in *; try lia; auto.
  inversion N as [|? ? N1 N2]; subst. f_equal.
  - rewrite updl_notin by auto. apply upd_same.
  - apply IH; auto.
Qed.

Lemma updl_self x qs : updl x qs (map x qs) = x.
Proof.
  induction qs as [|q qs IH]; cbn; auto. rewrite upd_id. exact IH.
Qed.

Lemma updl_updl_same qs : forall x c d, length c = length qs -> length d = length qs ->
  updl (updl x qs c) qs d = updl x qs d.
Proof.
  induction qs as [|q qs IH]; intros x [|b c] [|b' d] L1 L2; cbn in *; try lia; auto.
  destruct (in_dec Nat.eq_dec q qs) as [I|I].
  - (* q occurs later again *)
    extensionality p.
    assert (G : forall qs (y z : bs) d, length d = length qs ->
        (forall p, ~ In p qs -> y p = z p) -> forall p, updl y qs d p = updl z qs d p).
    { clear. induction qs as [|q qs IH]; intros y z [|b d] L H p; cbn in *; try lia; auto.
      apply IH; [lia|]. intros r Hr. unfold upd. destruct (Nat.eqb_spec r q); auto.
      apply H. intros [E|E]; auto. }
    apply G; [lia|]. intros r Hr. unfold upd at 1 3. destruct (r =? q) eqn:E; auto.
    rewrite updl_notin by auto. unfold upd. rewrite E. reflexivity.
  - replace (upd (updl (upd x q b) qs c) q b') with (updl (upd x q b') qs c).
    + apply IH; lia.
    + assert (G : forall qs (y : bs) c, ~ In q qs -> forall b, upd (updl y qs c) q b = updl (upd y q b) qs c).
      { clear. induction qs as [|r qs IH]; intros y [|e c] H b; cbn in *; auto.
        rewrite IH by tauto. rewrite upd_comm by (intros ->; tauto). reflexivity. }
      rewrite G by auto. rewrite upd_upd. reflexivity.
Qed.

(** [updl] is determined by the values on and off the list. *)
Lemma updl_unique x qs c y : NoDup qs -> map y qs = c -> (forall q, ~ In q qs -> y q = x q) ->
  updl x qs c = y.
Proof.
  intros ND <- H. extensionality q. destruct (in_dec Nat.eq_dec q qs) as [I|I].
  2:{ rewrite updl_notin by auto. symmetry. auto. }
  assert (M := updl_map x qs (map y qs) ND (map_length _ _)).
  clear - M I. revert M. generalize (updl x qs (map y qs)) as z. intros z M.
  induction qs as [|a qs IH]; [destruct I|]. inversion M. destruct I as [->|I]; auto.
Qed.

Lemma updl_ext_n n qs : forall x y c, (forall q, q < n -> x q = y q) ->
  forall q, q < n -> updl x qs c q = updl y qs c q.
Proof.
  induction qs as [|p qs IH]; intros x y [|b c] H q Hq; cbn; auto.
  apply IH; auto. intros r Hr. unfold upd. destruct (r =? p); auto.
Qed.

Lemma updl_app qs1 : forall qs2 x c1 c2, length c1 = length qs1 ->
  updl x (qs1 ++ qs2) (c1 ++ c2) = updl (updl x qs1 c1) qs2 c2.
Proof.
  induction qs1 as [|q qs IH]; intros qs2 x [|b c] c2 L; cbn in *; try lia; auto.
Qed.

(** ** full_to_sub / sub_to_full *)
Ltac chk := cbn [bind]; repeat (rewrite chk_sub_ok by lia; cbn [bind]).

Definition in_range (n : nat) (qs : list nat) : Prop := forall q, In q qs -> q < n.

Lemma in_range_cons n q qs : in_range n (q :: qs) <-> q < n /\ in_range n qs.
Proof. unfold in_range. cbn. split; [intros H; split; auto|intros [H1 H2] p [<-|H]; auto]. Qed.
Lemma in_range_app n a b : in_range n (a ++ b) <-> in_range n a /\ in_range n b.
Proof. unfold in_range. split; [intros H; split; intros; apply H, in_app_iff; auto|].
  intros [H1 H2] q H. apply in_app_iff in H. destruct H; auto. Qed.

Lemma testbit_fold_set (l : list (nat * bool)) : forall a i,
  NoDup (map fst l) ->
  Nat.testbit (fold_left (fun acc '(p, b) => set_bit acc p b) l a) i =
  match find (fun e => fst e =? i) l with Some (_, b) => b | None => Nat.testbit a i end.
Proof.
  induction l as [|[p b] l IH]; intros a i N; cbn [fold_left find fst]; [reflexivity|].
  inversion N as [|? ? N1 N2]; subst. rewrite IH by auto. cbn [fst] in *.
  destruct (Nat.eqb_spec p i) as [->|Hp].
  - destruct (find _ l) as [[p' b']|] eqn:E.
    + apply find_some in E. destruct E as [E1 E2]. cbn in E2. apply Nat.eqb_eq in E2. subst.
      exfalso. apply N1. apply (in_map fst) in E1. exact E1.
    + rewrite testbit_set_bit, Nat.eqb_refl. reflexivity.
  - destruct (find _ l) as [[p' b']|]; auto.
    rewrite testbit_set_bit. destruct (Nat.eqb_spec i p); [subst; contradiction|reflexivity].
Qed.

Lemma full_to_sub_ok n qs i : in_range n qs ->
  full_to_sub n qs i = Ok (be (map (dec n i) qs)).
Proof.
  intros R. unfold full_to_sub.
  set (K := length qs).
  assert (G : forall l pre, qs = pre ++ l ->
     foldM (full_to_sub_step n K i) (combine (seq (length pre) (length l)) l)
       (be (map (dec n i) pre) * 2 ^ length l)
     = Ok (be (map (dec n i) qs))).
  { induction l as [|q l IH]; intros pre E.
    - rewrite app_nil_r in E. subst pre. cbn. f_equal. lia.
    - cbn [length seq combine foldM].
      assert (Hq : q < n) by (apply R; rewrite E; apply in_app_iff; cbn; auto).
      assert (HK : K = length pre + S (length l)) by (unfold K; rewrite E, app_length; reflexivity).
      (unfold full_to_sub_step at 1 || unfold sub_to_full_step at 1); chk.
      replace (K - 1 - length pre) with (length l) by lia.
      specialize (IH (pre ++ [q])). rewrite <- app_assoc in IH. specialize (IH E).
      rewrite app_length in IH. cbn [length] in IH. rewrite Nat.add_1_r in IH.
      rewrite map_app in IH. cbn [map] in IH. rewrite be_app in IH.
      replace (set_bit (be (map (dec n i) pre) * 2 ^ S (length l)) (length l) (get_bit i (n - 1 - q)))
        with ((2 * be (map (dec n i) pre) + b2n (dec n i q)) * 2 ^ length l); [exact IH|].
      cbn [length]. rewrite get_bit_testbit.
      replace (dec n i q) with (Nat.testbit i (n - 1 - q)).
      2:{ unfold dec. destruct (Nat.ltb_spec q n); [reflexivity|lia]. }
      generalize (be (map (dec n i) pre)) as a. generalize (Nat.testbit i (n - 1 - q)) as b.
      generalize (length l) as m. clear. intros m b a.
      apply Nat.bits_inj. intros j. rewrite testbit_set_bit, <- !Nat.shiftl_mul_pow2.
      destruct (Nat.lt_ge_cases j m).
      + rewrite !Nat.shiftl_spec_low by lia. destruct (Nat.eqb_spec j m); [lia|reflexivity].
      + rewrite Nat.shiftl_spec_high' by lia. rewrite (Nat.add_comm (2 * a)), testbit_b2n_add.
        destruct (Nat.eqb_spec j m) as [->|Hj].
        * rewrite Nat.sub_diag. reflexivity.
        * rewrite Nat.shiftl_spec_high' by lia. destruct (Nat.eqb_spec (j - m) 0); [lia|].
          f_equal. lia. }
  specialize (G qs []). cbn in G. apply G. reflexivity.
Qed.

Lemma enc_upd n i q b : i < 2 ^ n -> q < n ->
  set_bit i (n - 1 - q) b = enc n (upd (dec n i) q b).
Proof.
  intros Hi Hq. apply Nat.bits_inj. intros j. rewrite testbit_set_bit, testbit_enc. unfold upd, dec.
  destruct (Nat.ltb_spec j n); cbn [andb].
  - destruct (Nat.eqb_spec j (n - 1 - q)), (Nat.eqb_spec (n - 1 - j) q); try lia; auto.
    destruct (Nat.ltb_spec (n - 1 - j) n); [|lia]. cbn [andb].
    replace (n - 1 - (n - 1 - j)) with j by lia. reflexivity.
  - destruct (Nat.eqb_spec j (n - 1 - q)); [lia|]. apply testbit_high with n; auto.
Qed.

Lemma sub_to_full_ok n qs c i : in_range n qs -> length c = length qs -> i < 2 ^ n ->
  sub_to_full n qs (be c) i = Ok (enc n (updl (dec n i) qs c)).
Proof.
  intros R L Hi. unfold sub_to_full. set (K := length qs).
  assert (G : forall l pre cl cpre x, qs = pre ++ l -> c = cpre ++ cl -> length pre = length cpre ->
     foldM (sub_to_full_step n K (be c)) (combine (seq (length pre) (length l)) l)
       (enc n x)
     = Ok (enc n (updl x l cl))).
  { induction l as [|q l IH]; intros pre cl cpre x E Ec Lp.
    - reflexivity.
    - assert (HK : K = length pre + S (length l)) by (unfold K; rewrite E, app_length; reflexivity).
      assert (Hl : length cl = S (length l)).
      { rewrite Ec, E, !app_length in L. cbn in L. lia. }
      destruct cl as [|b cl]; cbn in Hl; [lia|].
      cbn [length seq combine foldM].
      assert (Hq : q < n) by (apply R; rewrite E; apply in_app_iff; cbn; auto).
      (unfold full_to_sub_step at 1 || unfold sub_to_full_step at 1); chk.
      specialize (IH (pre ++ [q]) cl (cpre ++ [b])). rewrite <- !app_assoc in IH. cbn in IH.
      rewrite !app_length in IH. cbn in IH. rewrite !Nat.add_1_r in IH.
      cbn [updl]. rewrite <- (IH (upd x q b)) by (auto; lia). f_equal.
      rewrite get_bit_testbit, testbit_be, enc_upd by (try apply enc_lt; lia).
      apply enc_ext. intros p Hp. unfold upd. rewrite dec_enc.
      destruct (Nat.ltb_spec p n); [|lia]. cbn.
      destruct (p =? q); auto.
      rewrite Ec, !app_length. cbn [length].
      replace (length cpre + S (length cl) - 1 - (K - 1 - length pre)) with (length cpre) by lia.
      rewrite app_nth2 by lia. rewrite Nat.sub_diag. cbn.
      destruct (Nat.ltb_spec (K - 1 - length pre) (length cpre + S (length cl))); [reflexivity|lia]. }
  specialize (G qs [] c [] (dec n i)). cbn in G. rewrite enc_dec in G by auto. apply G; auto.
Qed.

Lemma full_to_sub_panics n qs i : ~ in_range n qs -> full_to_sub n qs i = Panic PUnderflow.
Proof.
  intros R. unfold full_to_sub.
  assert (G : forall l s a, (exists q, In q l /\ n <= q) -> s + length l <= length qs ->
     foldM (full_to_sub_step n (length qs) i) (combine (seq s (length l)) l) a = Panic PUnderflow).
  { induction l as [|q l IH]; intros s a [p [H1 H2]] B; [destruct H1|].
    cbn [length seq combine foldM]. cbn in B.
    destruct (Nat.lt_ge_cases q n) as [Hq|Hq].
    - (unfold full_to_sub_step at 1 || unfold sub_to_full_step at 1); chk.
      apply IH; [|lia]. exists p. destruct H1 as [->|H1]; [lia|auto].
    - destruct (Nat.eq_dec n 0) as [->|N]; [reflexivity|].
      unfold full_to_sub_step at 1. rewrite chk_sub_ok by lia. cbn [bind]. unfold chk_sub at 1.
      destruct (Nat.leb_spec q (n - 1)); [lia|]. reflexivity. }
  apply G; [|lia].
  assert (D : forall l, (exists q, In q l /\ n <= q) \/ in_range n l).
  { clear. induction l as [|q l [[p [H1 H2]]|IH]].
    - right. intros q [].
    - left. exists p. cbn; auto.
    - destruct (Nat.lt_ge_cases q n).
      + right. intros p [<-|H']; auto.
      + left. exists q. cbn; auto. }
  destruct (D qs); tauto.
Qed.
