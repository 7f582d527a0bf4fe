(** Bits and numbers; what one line of a text reads and writes. *)
From Coq Require Import Arith Bool List Lia.
Import ListNotations.
From Verif Require Import Base ProgramModel ArithModel TextModel ReadSpec.

Lemma bits_length n v : length (bits n v) = n.
Proof. unfold bits. now rewrite map_length, seq_length. Qed.
Lemma nth_bits n v i : i < n -> nth i (bits n v) false = Nat.testbit v i.
Proof.
  intros H. unfold bits. rewrite (nth_indep _ false (Nat.testbit v 0)) by (rewrite map_length, seq_length; lia).
  rewrite map_nth. now rewrite seq_nth by lia.
Qed.
Lemma bits_S n v : bits (S n) v = Nat.odd v :: bits n (Nat.div2 v).
Proof.
  unfold bits. cbn [seq map]. f_equal. rewrite <- seq_shift, map_map. apply map_ext. intros i. now rewrite Nat.div2_spec, Nat.shiftr_spec, Nat.add_1_r by apply Nat.le_0_l.
Qed.
Lemma num_lt l : num l < 2 ^ length l.
Proof. induction l as [|b l IH]; cbn [num length]; [cbn; lia|]. rewrite Nat.pow_succ_r'. destruct b; cbn [Nat.b2n]; lia. Qed.
Lemma bits_num l : bits (length l) (num l) = l.
Proof.
  induction l as [|b l IH]; [reflexivity|]. cbn [num length]. rewrite bits_S. f_equal.
  - destruct b; cbn [Nat.b2n]; [rewrite Nat.odd_add_mul_2|rewrite Nat.add_0_l, Nat.odd_mul]; reflexivity.
  - replace (Nat.div2 (Nat.b2n b + 2 * num l)) with (num l); [exact IH|].
    destruct b; cbn [Nat.b2n]; rewrite ?Nat.add_0_l; [symmetry; apply Nat.div2_succ_double|symmetry; apply Nat.div2_double].
Qed.
Lemma num_bits n : forall v, v < 2 ^ n -> num (bits n v) = v.
Proof.
  induction n as [|n IH]; intros v H; [cbn in H |- *; lia|]. rewrite Nat.pow_succ_r' in H. rewrite bits_S. cbn [num].
  rewrite (Nat.div2_odd v) at 3. rewrite IH; [lia|]. rewrite Nat.div2_div. apply Nat.div_lt_upper_bound; lia.
Qed.
Lemma bits_mod n v : bits n (v mod 2 ^ n) = bits n v.
Proof. unfold bits. apply map_ext_in. intros i Hi. apply in_seq in Hi. apply Nat.mod_pow2_bits_low. lia. Qed.
Lemma bits_eq n v w : v mod 2 ^ n = w mod 2 ^ n -> bits n v = bits n w.
Proof. intros H. rewrite <- (bits_mod n v), H. apply bits_mod. Qed.
Lemma bits_wrap n v : bits n (v + 2 ^ n) = bits n v.
Proof. apply bits_eq. rewrite <- (Nat.mul_1_l (2 ^ n)) at 1. apply Nat.mod_add. apply Nat.pow_nonzero. lia. Qed.
Lemma bits_zero n : bits n 0 = repeat false n.
Proof. induction n as [|n IH]; [reflexivity|]. rewrite bits_S. cbn [repeat]. f_equal. exact IH. Qed.
Lemma zero_bits n : zero (bits n 0) = true.
Proof. rewrite bits_zero. unfold zero. apply forallb_forall. intros b H. apply repeat_spec in H. now subst. Qed.
Lemma num_zero n : num (bits n 0) = 0.
Proof. apply num_bits. apply Nat.neq_0_lt_0. apply Nat.pow_nonzero. lia. Qed.
Lemma pow2_pos n : 0 < 2 ^ n.
Proof. apply Nat.neq_0_lt_0. apply Nat.pow_nonzero. lia. Qed.
(** The top bit of n + 1. *)
Lemma top_low n v : v < 2 ^ n -> nth n (bits (S n) v) false = false.
Proof.
  intros H. rewrite nth_bits by lia. destruct (Nat.eq_dec v 0) as [->|E]; [apply Nat.bits_0|].
  apply Nat.bits_above_log2. apply Nat.log2_lt_pow2; lia.
Qed.
Lemma top_high n v : 2 ^ n <= v -> v < 2 ^ S n -> nth n (bits (S n) v) false = true.
Proof.
  intros H1 H2. rewrite nth_bits by lia. apply Nat.testbit_true. rewrite Nat.pow_succ_r' in H2. pose proof (pow2_pos n).
  replace (v / 2 ^ n) with 1; [reflexivity|]. apply Nat.div_unique with (v - 2 ^ n); lia.
Qed.
(** The lower bits of n + 1. *)
Lemma bits_low n v : map (fun i => nth i (bits (S n) v) false) (seq 0 n) = bits n v.
Proof. unfold bits at 2. apply map_ext_in. intros i H. apply in_seq in H. apply nth_bits. lia. Qed.
Lemma bits_tail n v : map (fun i => nth i (bits (S n) v) false) (seq 1 n) = bits n (Nat.div2 v).
Proof.
  rewrite bits_S, <- seq_shift, map_map. cbn [nth]. unfold bits at 2. apply map_ext_in. intros i H. apply in_seq in H. rewrite nth_bits by lia. reflexivity.
Qed.
(** Rotating: twice, and half. *)
Lemma bits_snoc n v : bits (S n) v = bits n v ++ [Nat.testbit v n].
Proof. unfold bits. now rewrite seq_S, map_app. Qed.
Lemma rot_double n v : v < 2 ^ n -> last (bits (S n) v) false :: removelast (bits (S n) v) = bits (S n) (2 * v).
Proof.
  intros H. rewrite bits_snoc, last_last, removelast_last, bits_S. rewrite Nat.div2_double. f_equal.
  - rewrite <- (nth_bits (S n)) by lia. rewrite top_low by exact H. now rewrite Nat.odd_mul.
Qed.
Lemma rot_half n v : v < 2 ^ n -> tl (bits (S n) (2 * v)) ++ [hd false (bits (S n) (2 * v))] = bits (S n) v.
Proof.
  intros H. rewrite (bits_S n (2 * v)). cbn [tl hd]. rewrite Nat.div2_double, bits_snoc. f_equal. f_equal.
  rewrite <- (nth_bits (S n)) by lia. rewrite top_low by exact H. now rewrite Nat.odd_mul.
Qed.

(** Writing back. *)
Lemma upd_same {A} (d : A) : forall l i, upd_nth i (nth i l d) l = l.
Proof. induction l as [|a l IH]; intros [|i]; cbn; f_equal; auto. Qed.
Lemma store_whole st k v : length v = length (nth k st []) -> store st (whole k) v = upd_nth k v st.
Proof. intros H. cbn. now rewrite <- H, firstn_all. Qed.
Lemma store_back_gen is : forall r, fold_left (fun r p => upd_nth (fst p) (snd p) r) (combine is (map (fun i => nth i r false) is)) r = r.
Proof.
  intros r. assert (G : forall r', r' = r -> fold_left (fun r p => upd_nth (fst p) (snd p) r) (combine is (map (fun i => nth i r false) is)) r' = r); [|now apply G].
  induction is as [|i is IH]; intros r' E; cbn [map combine fold_left fst snd]; [exact E|]. apply IH. subst. apply upd_same.
Qed.
Lemma store_part_back st k is : store st (part k is) (map (fun i => nth i (nth k st []) false) is) = st.
Proof. cbn [store part]. cbn [fetch1 snd fst]. unfold store1. cbn [fst snd]. rewrite firstn_all, store_back_gen. apply upd_same. Qed.
Lemma store_whole_back st k : store st (whole k) (nth k st []) = st.
Proof. rewrite store_whole by reflexivity. apply upd_same. Qed.
Lemma store_bit st k i b : store st (part k [i]) [b] = upd_nth k (upd_nth i b (nth k st [])) st.
Proof. reflexivity. Qed.

(** What is documented, on numbers. *)
Lemma eqb_l a b : a = b -> (a =? b) = true. Proof. apply Nat.eqb_eq. Qed.
Lemma ltb_l a b : a < b -> (a <? b) = true. Proof. apply Nat.ltb_lt. Qed.
Ltac known := repeat first [rewrite bits_length | rewrite num_zero | rewrite zero_bits | rewrite num_bits by (first [assumption | lia | rewrite ?Nat.pow_succ_r' in *; lia])
  | rewrite (eqb_l _ _) by lia | rewrite (ltb_l _ _) by lia | rewrite andb_true_r | rewrite andb_true_l]; cbn [andb].
Lemma doc_add n a b : a < 2 ^ n -> b < 2 ^ S n -> doc Nadd [bits n 0; bits n a; bits (S n) b] = Some [bits n 0; bits n a; bits (S n) (b + a)].
Proof. intros Ha Hb. cbn [doc]. known. reflexivity. Qed.
Lemma doc_sub n a b : a < 2 ^ n -> b < 2 ^ S n -> doc Nadd_inv [bits n 0; bits n a; bits (S n) b] = Some [bits n 0; bits n a; bits (S n) (b + 2 ^ S n - a)].
Proof. intros Ha Hb. cbn [doc]. known. reflexivity. Qed.
Lemma doc_add_mod n a b m : a < m -> b < m -> m < 2 ^ n -> doc Nadd_mod [bits n a; bits (S n) b; bits n m] = Some [bits n a; bits (S n) ((a + b) mod m); bits n m].
Proof. intros Ha Hb Hm. cbn [doc]. known. reflexivity. Qed.
Lemma doc_times n k a b m p : a < m -> p < m -> m < 2 ^ n -> b < 2 ^ k ->
  doc Ntimes [bits (S n) a; bits k b; bits n m; bits (S n) p] = Some [bits (S n) a; bits k b; bits n m; bits (S n) ((p + b * a) mod m)].
Proof. intros Ha Hb Hm Hk. cbn [doc]. known. reflexivity. Qed.
Lemma doc_times_inv n k a b m p : a < m -> p < m -> m < 2 ^ n -> b < 2 ^ k ->
  doc Ntimes_inv [bits (S n) a; bits k b; bits n m; bits (S n) ((p + b * a) mod m)] = Some [bits (S n) a; bits k b; bits n m; bits (S n) p].
Proof.
  intros Ha Hb Hm Hk. assert (Q : (p + b * a) mod m < m) by (apply Nat.mod_upper_bound; lia). cbn [doc]. known. f_equal. do 4 f_equal.
  assert (R : (b * a) mod m < m) by (apply Nat.mod_upper_bound; lia).
  rewrite Nat.add_mod_idemp_l by lia.
  replace (p + b * a + (m - (b * a) mod m)) with (p + (b * a / m + 1) * m).
  - rewrite Nat.mod_add by lia. now rewrite Nat.mod_small by lia.
  - pose proof (Nat.div_mod (b * a) m ltac:(lia)) as D. rewrite (Nat.mul_comm m) in D. lia.
Qed.
Lemma doc_square n a m s : a < m -> s < m -> m < 2 ^ n -> doc Nsquare [bits (S n) a; bits n m; bits (S n) s] = Some [bits (S n) a; bits n m; bits (S n) ((s + a * a) mod m)].
Proof. intros Ha Hb Hm. cbn [doc]. known. reflexivity. Qed.
Lemma doc_square_inv n a m s : a < m -> s < m -> m < 2 ^ n ->
  doc Nsquare_inv [bits (S n) a; bits n m; bits (S n) ((s + a * a) mod m)] = Some [bits (S n) a; bits n m; bits (S n) s].
Proof.
  intros Ha Hb Hm. assert (Q : (s + a * a) mod m < m) by (apply Nat.mod_upper_bound; lia). cbn [doc]. known. f_equal. do 3 f_equal.
  assert (R : (a * a) mod m < m) by (apply Nat.mod_upper_bound; lia).
  rewrite Nat.add_mod_idemp_l by lia.
  replace (s + a * a + (m - (a * a) mod m)) with (s + (a * a / m + 1) * m).
  - rewrite Nat.mod_add by lia. now rewrite Nat.mod_small by lia.
  - pose proof (Nat.div_mod (a * a) m ltac:(lia)) as D. rewrite (Nat.mul_comm m) in D. lia.
Qed.
Lemma xor_zero_r n v : map (fun p => xorb (fst p) (snd p)) (combine (bits n v) (bits n 0)) = bits n v.
Proof. revert v. induction n as [|n IH]; intros v; [reflexivity|]. rewrite !bits_S. cbn [combine map fst snd]. rewrite xorb_false_r. f_equal. apply IH. Qed.
Lemma xor_zero_l n v : map (fun p => xorb (fst p) (snd p)) (combine (bits n 0) (bits n v)) = bits n v.
Proof. revert v. induction n as [|n IH]; intros v; [reflexivity|]. rewrite !bits_S. cbn [combine map fst snd]. rewrite xorb_false_l. f_equal. apply IH. Qed.
Lemma xor_self n v : map (fun p => xorb (fst p) (snd p)) (combine (bits n v) (bits n v)) = bits n 0.
Proof. revert v. induction n as [|n IH]; intros v; [reflexivity|]. rewrite !bits_S. cbn [combine map fst snd]. rewrite xorb_nilpotent. f_equal. apply IH. Qed.
Lemma doc_copy n v : doc Ncopy [bits n v; bits n 0] = Some [bits n v; bits n v].
Proof. cbn [doc]. known. now rewrite xor_zero_r. Qed.
Lemma doc_copy_zero n v : doc Ncopy [bits n 0; bits n v] = Some [bits n 0; bits n v].
Proof. cbn [doc]. known. now rewrite xor_zero_l. Qed.
Lemma doc_copy_inv n v : doc Ncopy_inv [bits n v; bits n v] = Some [bits n v; bits n 0].
Proof. cbn [doc]. known. now rewrite xor_self. Qed.
Lemma doc_rshift n v : v < 2 ^ n -> doc Nrshift [bits (S n) v] = Some [bits (S n) (2 * v)].
Proof. intros H. rewrite <- (rot_double n v H). rewrite bits_S. reflexivity. Qed.
Lemma doc_lshift n v : v < 2 ^ n -> doc Nlshift [bits (S n) (2 * v)] = Some [bits (S n) v].
Proof. intros H. rewrite <- (rot_half n v H). rewrite (bits_S n (2 * v)). reflexivity. Qed.
Lemma doc_x b : doc Nx [[b]] = Some [[negb b]].
Proof. reflexivity. Qed.
Lemma chosen_bit b : chosen None [b] = b.
Proof. cbn. apply andb_true_r. Qed.
Lemma chosen_not b : chosen (Some 0) [b] = negb b.
Proof. cbn. now destruct b. Qed.

(** Subtracting: below zero the top bit is set. *)
Lemma sub_ge n a b : a <= b -> bits (S n) (b + 2 ^ S n - a) = bits (S n) (b - a).
Proof. intros H. replace (b + 2 ^ S n - a) with (b - a + 2 ^ S n) by lia. apply bits_wrap. Qed.
Lemma sub_add n a b : a < 2 ^ n -> bits (S n) (b + 2 ^ S n - a + a) = bits (S n) b.
Proof. intros H. rewrite Nat.pow_succ_r'. replace (b + 2 * 2 ^ n - a + a) with (b + 2 ^ S n) by (rewrite Nat.pow_succ_r'; lia). apply bits_wrap. Qed.
Lemma top_neg n a b : b < a -> a < 2 ^ n -> nth n (bits (S n) (b + 2 ^ S n - a)) false = true.
Proof. intros H1 H2. apply top_high; rewrite Nat.pow_succ_r'; lia. Qed.

(** One line. *)
Lemma text_cons sem st t ts st' : line_read sem st t = Some st' -> text_read sem st (t :: ts) = text_read sem st' ts.
Proof. intros H. cbn. now rewrite H. Qed.
Lemma line_plain sem st f args vs : sem f (map (fetch st) args) = Some vs -> line_read sem st (Tl None f args) = Some (stores st args vs).
Proof. intros H. unfold line_read. cbn [t_ctl t_name t_args]. now rewrite H. Qed.
Lemma line_yes sem st f mask c args vs : chosen mask (fetch st c) = true -> sem f (map (fetch st) args) = Some vs ->
  line_read sem st (Tl (Some mask) f (c :: args)) = Some (stores st (c :: args) (fetch st c :: vs)).
Proof. intros H1 H2. unfold line_read. cbn [t_ctl t_name t_args map]. now rewrite H1, H2. Qed.
Definition single {A} (g : list A) : Prop := match g with [_] => True | _ => False end.
Lemma stores_back gs : forall st, Forall single gs -> stores st gs (map (fetch st) gs) = st.
Proof.
  induction gs as [|g gs IH]; intros st H; [reflexivity|]. inversion H as [|? ? H1 H2]; subst. destruct g as [|a [|]]; try contradiction.
  cbn [map stores store]. assert (E : store1 st a (firstn (length (fetch1 st a)) (fetch st [a])) = st).
  { unfold fetch. cbn [flat_map]. rewrite app_nil_r, firstn_all. destruct a as [k [is|]]; unfold store1, fetch1; cbn [fst snd]; rewrite ?store_back_gen; apply upd_same. }
  rewrite E. apply IH. exact H2.
Qed.
Lemma line_no sem st f mask c args : chosen mask (fetch st c) = false -> Forall single (c :: args) ->
  line_read sem st (Tl (Some mask) f (c :: args)) = Some st.
Proof. intros H1 H2. unfold line_read. cbn [t_ctl t_name t_args]. cbn [map]. rewrite H1. cbn [option_map]. f_equal. apply (stores_back (c :: args)). exact H2. Qed.
Ltac seen := cbn [map fetch flat_map fetch1 fst snd nth whole part app]; rewrite ?app_nil_r.
Ltac put := cbn [stores store store1 fetch1 fetch flat_map fst snd whole part nth upd_nth map length combine firstn skipn fold_left app];
  rewrite ?app_nil_r, ?firstn_all, ?store_back_gen, ?upd_same;
  repeat match goal with |- context [firstn ?k (bits ?n ?v)] => rewrite (firstn_all2 (bits n v)) by (rewrite ?bits_length; lia) end.
Ltac rest := try assumption; try lia.
Tactic Notation "does" constr(L) := erewrite text_cons; [|apply line_plain; seen; apply L; rest]; put.
Tactic Notation "does" constr(L) "as" tactic(c) :=
  erewrite text_cons; [|apply line_yes; [seen; rewrite ?chosen_bit, ?chosen_not; c|seen; apply L; rest]]; put.
Tactic Notation "skips" "as" tactic(c) := erewrite text_cons; [|apply line_no; [seen; rewrite ?chosen_bit, ?chosen_not; c|repeat constructor]].

Theorem read_add_mod n a b m : a < m -> b < m -> m < 2 ^ n ->
  add_mod_read (bits n a) (bits (S n) b) (bits n m) = Some [bits n a; bits (S n) ((a + b) mod m); bits n m].
Proof.
  intros Ha Hb Hm. assert (P : 2 ^ S n = 2 * 2 ^ n) by apply Nat.pow_succ_r'.
  unfold add_mod_read. rewrite bits_length, <- bits_zero. unfold add_mod_text.
  assert (D : forall x, doc Nx [[x]] = Some [[negb x]]) by reflexivity.
  does (doc_add n a b).
  rewrite (Nat.add_comm b a).
  does (doc_sub n m (a + b)).
  assert (G : forall z t, t = negb (m <=? a + b) -> z = (a + b) mod m ->
    text_read doc [bits n a; bits (S n) z; bits n m; [t]; bits n 0]
      [Tl None Nadd_inv [whole 4; whole 0; whole 1]; Tl (Some (Some 0)) Nx [part 1 [n]; whole 3]; Tl None Nadd [whole 4; whole 0; whole 1]]
    = Some [bits n a; bits (S n) ((a + b) mod m); bits n m; [false]; bits n 0]).
  { intros z t -> ->. assert (Z : (a + b) mod m < m) by (apply Nat.mod_upper_bound; lia).
    does (doc_sub n a ((a + b) mod m)).
    destruct (Nat.leb_spec m (a + b)) as [E|E]; cbn [negb].
    - assert (V : (a + b) mod m = a + b - m).
      { replace (a + b) with (a + b - m + 1 * m) at 1 by lia. rewrite Nat.mod_add by lia. apply Nat.mod_small. lia. }
      skips as (rewrite top_neg by lia; reflexivity).
      does (doc_add n a ((a + b) mod m + 2 ^ S n - a)). rewrite sub_add by lia. reflexivity.
    - assert (V : (a + b) mod m = a + b) by (apply Nat.mod_small; lia).
      rewrite sub_ge by lia.
      does doc_x as (rewrite top_low by lia; reflexivity).
      does (doc_add n a ((a + b) mod m - a)). rewrite Nat.sub_add by lia. reflexivity. }
  destruct (Nat.leb_spec m (a + b)) as [E|E].
  - rewrite sub_ge by lia.
    skips as (rewrite top_low by lia; reflexivity).
    skips as reflexivity.
    rewrite G; [cbn [zero forallb]; rewrite zero_bits; reflexivity|reflexivity|].
    replace (a + b) with (a + b - m + 1 * m) at 2 by lia. rewrite Nat.mod_add by lia. symmetry. apply Nat.mod_small. lia.
  - does doc_x as (apply top_neg; lia).
    does (doc_add n m (a + b + 2 ^ S n - m)) as reflexivity.
    rewrite sub_add by lia.
    rewrite G; [cbn [zero forallb]; rewrite zero_bits; reflexivity|reflexivity|symmetry; apply Nat.mod_small; lia].
Qed.
