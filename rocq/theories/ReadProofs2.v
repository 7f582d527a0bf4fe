(** Reading times_mod, square_mod and exp_mod. *)
From Coq Require Import Arith Bool List Lia.
Import ListNotations.
From Verif Require Import Base ProgramModel ArithModel TextModel ReadSpec ReadProofs.

Lemma doc_add_mod_low n a b m : a < m -> b < m -> m < 2 ^ n -> let low := map (fun i => nth i (bits (S n) a) false) (seq 0 n) in
  doc Nadd_mod [low; bits (S n) b; bits n m] = Some [low; bits (S n) ((a + b) mod m); bits n m].
Proof. intros Ha Hb Hm low. unfold low. rewrite bits_low. now apply doc_add_mod. Qed.
Lemma mod_sub x m : m <= x -> x < 2 * m -> x mod m = x - m.
Proof. intros H1 H2. replace x with (x - m + 1 * m) at 1 by lia. rewrite Nat.mod_add by lia. apply Nat.mod_small. lia. Qed.
Lemma upd_nth_false (ts : list bool) j : nth j ts false = false -> upd_nth j false ts = ts.
Proof. intros H. rewrite <- H. apply upd_same. Qed.
Lemma upd_nth_val (ts : list bool) j b : j < length ts -> nth j (upd_nth j b ts) false = b.
Proof. intros H. rewrite nth_upd_nth by exact H. now rewrite Nat.eqb_refl. Qed.

Lemma first_read n k x b m p ts j : x < 2 * m -> p < m -> m < 2 ^ n -> j < k -> length ts = k -> nth j ts false = false ->
  text_read doc [bits (S n) x; bits k b; bits n m; bits (S n) p; ts; bits n 0] (times_first_text n j)
  = Some [bits (S n) (2 * (x mod m)); bits k b; bits n m; bits (S n) (if Nat.testbit b j then (x mod m + p) mod m else p); upd_nth j (x <? m) ts; bits n 0].
Proof.
  intros Hx Hp Hm Hj Ht H0. assert (P : 2 ^ S n = 2 * 2 ^ n) by apply Nat.pow_succ_r'. unfold times_first_text.
  does (doc_sub n m x).
  assert (Y : x mod m < m) by (apply Nat.mod_upper_bound; lia).
  assert (G : forall ts', text_read doc [bits (S n) (x mod m); bits k b; bits n m; bits (S n) p; ts'; bits n 0]
      [Tl (Some None) Nadd_mod [part 1 [j]; part 0 (seq 0 n); whole 3; whole 2]; Tl None Nrshift [whole 0]]
    = Some [bits (S n) (2 * (x mod m)); bits k b; bits n m; bits (S n) (if Nat.testbit b j then (x mod m + p) mod m else p); ts'; bits n 0]).
  { intros ts'. destruct (Nat.testbit b j) eqn:B.
    - does (doc_add_mod_low n (x mod m) p m) as (rewrite nth_bits by lia; exact B).
      does (doc_rshift n (x mod m)). reflexivity.
    - skips as (rewrite nth_bits by lia; exact B).
      does (doc_rshift n (x mod m)). reflexivity. }
  destruct (Nat.ltb_spec x m) as [E|E].
  - does doc_x as (apply top_neg; lia). rewrite H0. cbn [negb].
    does (doc_add n m (x + 2 ^ S n - m)) as (apply upd_nth_val; lia).
    rewrite sub_add by lia. rewrite <- (Nat.mod_small x m E) at 1. apply G.
  - rewrite sub_ge by lia. skips as (apply top_low; lia). skips as (exact H0).
    rewrite <- (mod_sub x m E Hx) at 1. rewrite G, upd_nth_false by exact H0. reflexivity.
Qed.
Lemma second_read n k x m ts j : x < 2 * m -> m < 2 ^ n -> j < k -> length ts = k -> nth j ts false = (x <? m) ->
  text_read doc [bits (S n) (2 * (x mod m)); bits n m; ts; bits n 0] (times_second_text n j)
  = Some [bits (S n) x; bits n m; upd_nth j false ts; bits n 0].
Proof.
  intros Hx Hm Hj Ht H0. assert (P : 2 ^ S n = 2 * 2 ^ n) by apply Nat.pow_succ_r'. unfold times_second_text.
  assert (Y : x mod m < m) by (apply Nat.mod_upper_bound; lia).
  does (doc_lshift n (x mod m)).
  destruct (Nat.ltb_spec x m) as [E|E].
  - rewrite (Nat.mod_small x m E).
    does (doc_sub n m x) as (exact H0).
    does doc_x as (apply top_neg; lia). rewrite H0. cbn [negb].
    does (doc_add n m (x + 2 ^ S n - m)). rewrite sub_add by lia. reflexivity.
  - rewrite (mod_sub x m E Hx). skips as (exact H0). skips as (apply top_low; lia).
    does (doc_add n m (x - m)). rewrite Nat.sub_add by lia. rewrite upd_nth_false by exact H0. reflexivity.
Qed.

(** The multiplicand before round j, and the marks kept of the first j rounds. *)
Fixpoint xs (a m j : nat) : nat := match j with 0 => a | S j' => 2 * (xs a m j' mod m) end.
Definition marks (a m j k : nat) : list bool := map (fun i => (i <? j) && (xs a m i <? m)) (seq 0 k).
Lemma xs_lt a m j : a < m -> xs a m j < 2 * m.
Proof. intros H. destruct j; cbn [xs]; [lia|]. assert (xs a m j mod m < m) by (apply Nat.mod_upper_bound; lia). lia. Qed.
Lemma xs_mod a m j : 0 < m -> xs a m j mod m = (a * 2 ^ j) mod m.
Proof.
  intros H. induction j as [|j IH]; cbn [xs]; [now rewrite Nat.pow_0_r, Nat.mul_1_r|].
  rewrite Nat.mul_mod_idemp_r by lia. rewrite <- Nat.mul_mod_idemp_r, IH, Nat.mul_mod_idemp_r by lia. f_equal. rewrite Nat.pow_succ_r'. lia.
Qed.
Lemma marks_length a m j k : length (marks a m j k) = k.
Proof. unfold marks. now rewrite map_length, seq_length. Qed.
Lemma nth_marks a m j k i : i < k -> nth i (marks a m j k) false = (i <? j) && (xs a m i <? m).
Proof.
  intros H. unfold marks. rewrite (nth_indep _ false ((fun i => (i <? j) && (xs a m i <? m)) 0)) by (rewrite map_length, seq_length; lia).
  rewrite (map_nth (fun i => (i <? j) && (xs a m i <? m))). now rewrite seq_nth by lia.
Qed.
Lemma marks_0 a m k : marks a m 0 k = bits k 0.
Proof. unfold marks, bits. apply map_ext. intros i. now rewrite Nat.bits_0. Qed.
Lemma list_nth_eq {A} (d : A) : forall l l', length l = length l' -> (forall i, i < length l -> nth i l d = nth i l' d) -> l = l'.
Proof. intros l l' H1 H2. apply (nth_ext l l' d d H1 H2). Qed.
Lemma marks_up a m j k : j < k -> upd_nth j (xs a m j <? m) (marks a m j k) = marks a m (S j) k.
Proof.
  intros H. apply (list_nth_eq false); [now rewrite upd_nth_length, !marks_length|]. rewrite upd_nth_length, marks_length. intros i Hi.
  rewrite nth_upd_nth, !nth_marks by (rewrite ?marks_length; lia). destruct (Nat.eqb_spec i j) as [->|E].
  - rewrite (ltb_l j (S j)) by lia. reflexivity.
  - destruct (Nat.ltb_spec i j), (Nat.ltb_spec i (S j)); try lia; reflexivity.
Qed.
Lemma marks_down a m j k : j < k -> upd_nth j false (marks a m (S j) k) = marks a m j k.
Proof.
  intros H. apply (list_nth_eq false); [now rewrite upd_nth_length, !marks_length|]. rewrite upd_nth_length, marks_length. intros i Hi.
  rewrite nth_upd_nth, !nth_marks by (rewrite ?marks_length; lia). destruct (Nat.eqb_spec i j) as [->|E].
  - rewrite Nat.ltb_irrefl. reflexivity.
  - destruct (Nat.ltb_spec i j), (Nat.ltb_spec i (S j)); try lia; reflexivity.
Qed.
Lemma texts_app sem tss1 : forall st tss2, texts_read sem st (tss1 ++ tss2) = match texts_read sem st tss1 with Some st' => texts_read sem st' tss2 | None => None end.
Proof. induction tss1 as [|ts tss IH]; intros st tss2; cbn [texts_read app]; [reflexivity|]. destruct (text_read sem st ts); auto. Qed.
Lemma low_bit b j : b mod 2 ^ S j = b mod 2 ^ j + Nat.b2n (Nat.testbit b j) * 2 ^ j.
Proof.
  rewrite Nat.testbit_spec' . rewrite Nat.pow_succ_r', (Nat.mul_comm 2), Nat.mod_mul_r by (try apply Nat.pow_nonzero; lia). lia.
Qed.
Lemma firsts_read n k a b m p : a < m -> p < m -> m < 2 ^ n -> forall j, j <= k ->
  texts_read doc [bits (S n) a; bits k b; bits n m; bits (S n) p; bits k 0; bits n 0] (map (times_first_text n) (seq 0 j))
  = Some [bits (S n) (xs a m j); bits k b; bits n m; bits (S n) ((p + (b mod 2 ^ j) * a) mod m); marks a m j k; bits n 0].
Proof.
  intros Ha Hp Hm. induction j as [|j IH]; intros Hj.
  - cbn [seq map texts_read xs]. rewrite Nat.pow_0_r, Nat.mod_1_r, Nat.mul_0_l, Nat.add_0_r, (Nat.mod_small p m Hp), marks_0. reflexivity.
  - rewrite seq_S, map_app, texts_app, IH by lia. cbn [map texts_read plus]. rewrite (first_read n k); try assumption; try lia.
    + rewrite marks_up by lia. do 4 f_equal. f_equal. f_equal. rewrite low_bit, xs_mod by lia. destruct (Nat.testbit b j); cbn [Nat.b2n].
      * rewrite <- Nat.add_mod by lia. f_equal. lia.
      * f_equal. lia.
    + now apply xs_lt.
    + apply Nat.mod_upper_bound. lia.
    + apply marks_length.
    + rewrite nth_marks by lia. now rewrite Nat.ltb_irrefl.
Qed.
Lemma seconds_read n k a m : a < m -> m < 2 ^ n -> forall j, j <= k ->
  texts_read doc [bits (S n) (xs a m j); bits n m; marks a m j k; bits n 0] (map (times_second_text n) (rev (seq 0 j)))
  = Some [bits (S n) a; bits n m; bits k 0; bits n 0].
Proof.
  intros Ha Hm. induction j as [|j IH]; intros Hj.
  - cbn [seq rev map texts_read xs]. now rewrite marks_0.
  - rewrite seq_S, rev_app_distr. cbn [rev app map texts_read plus xs]. rewrite (second_read n k); try assumption; try lia.
    + rewrite marks_down by lia. apply IH. lia.
    + now apply xs_lt.
    + apply marks_length.
    + rewrite nth_marks by lia. now rewrite (ltb_l j (S j)) by lia.
Qed.
Theorem read_times n k a b m p : a < m -> p < m -> m < 2 ^ n -> b < 2 ^ k ->
  times_read (bits (S n) a) (bits k b) (bits n m) (bits (S n) p) = Some [bits (S n) a; bits k b; bits n m; bits (S n) ((p + b * a) mod m)].
Proof.
  intros Ha Hp Hm Hb. unfold times_read. rewrite !bits_length, <- !bits_zero, (firsts_read n k), (seconds_read n k) by (assumption || lia).
  rewrite !zero_bits, (Nat.mod_small b) by exact Hb. reflexivity.
Qed.

Lemma doc_copy_low n a : let low := map (fun i => nth i (bits (S n) a) false) (seq 0 n) in
  doc Ncopy [low; bits n 0] = Some [low; bits n a].
Proof. intros low. unfold low. rewrite bits_low. apply doc_copy. Qed.
Lemma doc_copy_inv_low n a : let low := map (fun i => nth i (bits (S n) a) false) (seq 0 n) in
  doc Ncopy_inv [low; bits n a] = Some [low; bits n 0].
Proof. intros low. unfold low. rewrite bits_low. apply doc_copy_inv. Qed.
Theorem read_square n a m s : a < m -> s < m -> m < 2 ^ n ->
  square_read (bits (S n) a) (bits n m) (bits (S n) s) = Some [bits (S n) a; bits n m; bits (S n) ((s + a * a) mod m)].
Proof.
  intros Ha Hs Hm. unfold square_read. rewrite bits_length, <- bits_zero. unfold square_text.
  does (doc_copy_low n a). does (doc_times n n a a m s). does (doc_copy_inv_low n a). cbn [text_read]. now rewrite zero_bits.
Qed.
