From Verif Require Import Base BitsSpec BitsProofs OpsModel OpsSpec ConjSpec OpsProofs StateOpsModel StateOpsProofs ConjProofs UnitaryProofs OpsFinal MatProofs KronSpec.
Local Open Scope nat_scope.

Lemma nth_flat_map_const {A B} (f : A -> list B) (w : nat) (x0 : A) (d : B) : 0 < w -> forall l i, (forall x, In x l -> length (f x) = w) -> i < length l * w ->
  nth i (flat_map f l) d = nth (i mod w) (f (nth (i / w) l x0)) d.
Proof.
  intros W. induction l as [|a l IH]; intros i H Hi; cbn [length] in Hi; [lia|]. cbn [flat_map].
  destruct (Nat.lt_ge_cases i w) as [C|C].
  - rewrite app_nth1 by (rewrite H by (left; reflexivity); exact C). rewrite Nat.mod_small, Nat.div_small by exact C. reflexivity.
  - rewrite app_nth2 by (rewrite H by (left; reflexivity); exact C). rewrite (H a) by (left; reflexivity).
    rewrite (IH (i - w)); [|intros x Hx; apply H; right; exact Hx|lia].
    replace i with ((i - w) + 1 * w) at 3 4 by lia. rewrite Nat.mod_add, Nat.div_add by lia. rewrite Nat.add_1_r. reflexivity.
Qed.
Lemma length_flat_map_const {A B} (f : A -> list B) w l : (forall x, In x l -> length (f x) = w) -> length (flat_map f l) = length l * w.
Proof. induction l as [|a l IH]; intros H; cbn; [reflexivity|]. rewrite app_length, H, IH; [reflexivity|intros x Hx; apply H; right; exact Hx|left; reflexivity]. Qed.

Section Mat.
Context {P : Type} (N : num P) (L : num_laws N).
Notation cell := (cell N). Notation kron := (kron N). Notation ident := (ident N).

Lemma shape_ident k : shape (ident k) k k.
Proof. split; [unfold KronSpec.ident; rewrite map_length; apply seq_length|]. intros row H. apply in_map_iff in H. destruct H as (i & <- & _). rewrite map_length. apply seq_length. Qed.
Lemma nth_map_seq {A} (f : nat -> A) k i d : i < k -> nth i (map f (seq 0 k)) d = f i.
Proof. intros H. rewrite nth_indep with (d' := f 0) by (rewrite map_length, seq_length; exact H). rewrite map_nth, seq_nth by exact H. reflexivity. Qed.
Lemma cell_ident k i j : i < k -> j < k -> cell (ident k) i j = if i =? j then n1 N else n0 N.
Proof. intros Hi Hj. unfold KronSpec.cell, KronSpec.ident. rewrite nth_map_seq by exact Hi. apply nth_map_seq. exact Hj. Qed.
Lemma shape_kron A B ra ca rb cb : shape A ra ca -> shape B rb cb -> shape (kron A B) (ra * rb) (ca * cb).
Proof.
  intros [LA HA] [LB HB]. split.
  - unfold KronSpec.kron. rewrite (length_flat_map_const _ rb); [rewrite LA; reflexivity|]. intros x _. rewrite map_length. exact LB.
  - intros row H. apply in_flat_map in H. destruct H as (a & Ha & H). apply in_map_iff in H. destruct H as (b & <- & Hb).
    rewrite (length_flat_map_const _ cb); [rewrite (HA a Ha); reflexivity|]. intros x _. rewrite map_length. apply HB, Hb.
Qed.
Lemma cell_kron A B ra ca rb cb i j : shape A ra ca -> shape B rb cb -> i < ra * rb -> j < ca * cb ->
  cell (kron A B) i j = nmul N (cell A (i / rb) (j / cb)) (cell B (i mod rb) (j mod cb)).
Proof.
  intros [LA HA] [LB HB] Hi Hj. assert (Rb : 0 < rb) by (destruct rb; lia). assert (Cb : 0 < cb) by (destruct cb; lia).
  assert (I1 : i / rb < ra) by (apply Nat.div_lt_upper_bound; lia). assert (I2 : i mod rb < rb) by (apply Nat.mod_upper_bound; lia).
  assert (J1 : j / cb < ca) by (apply Nat.div_lt_upper_bound; lia). assert (J2 : j mod cb < cb) by (apply Nat.mod_upper_bound; lia).
  unfold KronSpec.cell, KronSpec.kron.
  rewrite (nth_flat_map_const _ rb []); [|exact Rb|intros x _; rewrite map_length; exact LB|rewrite LA; exact Hi].
  rewrite nth_indep with (d' := flat_map (fun x => map (nmul N x) []) (nth (i / rb) A [])) by (rewrite map_length, LB; exact I2).
  rewrite (map_nth (fun rb0 => flat_map (fun x => map (nmul N x) rb0) (nth (i / rb) A []))).
  assert (W : length (nth (i mod rb) B []) = cb) by (apply HB, nth_In; lia). assert (V : length (nth (i / rb) A []) = ca) by (apply HA, nth_In; lia).
  rewrite (nth_flat_map_const _ cb (n0 N)); [|exact Cb|intros x _; rewrite map_length; exact W|rewrite V; exact Hj].
  rewrite nth_indep with (d' := nmul N (nth (j / cb) (nth (i / rb) A []) (n0 N)) (n0 N)) by (rewrite map_length, W; exact J2).
  rewrite (map_nth (nmul N _)). reflexivity.
Qed.
Lemma matrix_eq A B r c : shape A r c -> shape B r c -> (forall i j, i < r -> j < c -> cell A i j = cell B i j) -> A = B.
Proof.
  intros [LA HA] [LB HB] H. apply (nth_ext _ _ [] []); [congruence|]. intros i Hi.
  apply (nth_ext _ _ (n0 N) (n0 N)); [rewrite HA, HB by (apply nth_In; congruence); reflexivity|]. intros j Hj. apply H; [congruence|]. rewrite HA in Hj by (apply nth_In; exact Hi). exact Hj.
Qed.
Lemma mat_vec_cell A r c v : shape A r c -> length v = c -> mat_vec N A v = map (fun i => big N (fun j => nmul N (cell A i j) (nth j v (n0 N))) (seq 0 c)) (seq 0 r).
Proof.
  intros [LA HA] Lv. assert (R : forall row v, length row = c -> length v = c -> big N (fun '(x, y) => nmul N x y) (combine row v) = big N (fun j => nmul N (nth j row (n0 N)) (nth j v (n0 N))) (seq 0 c)).
  { clear. induction c as [|c IH]; intros [|x row] [|y v] H1 H2; try discriminate; [reflexivity|]. cbn [combine seq big nth]. rewrite IH by (injection H1; injection H2; auto). f_equal.
    rewrite <- seq_shift, big_map. reflexivity. }
  apply (nth_ext _ _ (n0 N) (n0 N)); [unfold mat_vec; rewrite !map_length, seq_length; exact LA|]. intros i Hi. unfold mat_vec in *. rewrite map_length in Hi.
  rewrite nth_map_seq by lia. set (f := fun row => _). rewrite nth_indep with (d' := f []) by (rewrite map_length; exact Hi). rewrite map_nth. unfold f. apply R; [apply HA, nth_In, Hi|exact Lv].
Qed.
Lemma shape_square k (data : list P) : length data = k * k -> shape (square_of k data) k k.
Proof.
  intros H. split; [unfold square_of; rewrite map_length; apply seq_length|]. intros row Hr. apply in_map_iff in Hr. destruct Hr as (i & <- & Hi). apply in_seq in Hi.
  rewrite firstn_length, skipn_length. assert (i * k + k <= k * k) by nia. lia.
Qed.
Lemma nth_firstn {A} (l : list A) k j d : j < k -> nth j (firstn k l) d = nth j l d.
Proof. revert l j. induction k as [|k IH]; intros l j H; [lia|]. destruct l as [|a l]; [destruct j; reflexivity|]. destruct j as [|j]; [reflexivity|]. cbn. apply IH. lia. Qed.
Lemma nth_skipn' {A} (l : list A) k j d : nth j (skipn k l) d = nth (k + j) l d.
Proof. revert l. induction k as [|k IH]; intros l; [reflexivity|]. destruct l as [|a l]; [destruct j; reflexivity|]. cbn. apply IH. Qed.
Lemma cell_square k data i j : i < k -> j < k -> cell (square_of k data) i j = nth (i * k + j) data (n0 N).
Proof. intros Hi Hj. unfold KronSpec.cell, square_of. rewrite nth_map_seq by exact Hi. rewrite nth_firstn by exact Hj. apply nth_skipn'. Qed.

(** The amplitude of [j] is the sum over the indices of the entry times the amplitude. *)
Lemma act_full n op v j : NoDup (op_indices op) -> in_range n (op_indices op) -> j < 2 ^ n -> length v = 2 ^ n ->
  act N (op_indices op) (op_mat N op) (st_of N n v) (dec n j) = big N (fun i => nmul N (full_entry N n op i j) (nth i v (n0 N))) (seq 0 (2 ^ n)).
Proof.
  intros ND R Hj Lv.
  transitivity (big N (fun i => big N (fun c => nmul N (nmul N (op_mat N op (map (dec n j) (op_indices op)) c) (if enc n (updl (dec n j) (op_indices op) c) =? i then n1 N else n0 N)) (nth i v (n0 N))) (bools (length (op_indices op)))) (seq 0 (2 ^ n))).
  - rewrite (big_exchange N L). unfold act. apply big_ext. intros c Hc. unfold st_of. set (y := updl _ _ _).
    rewrite (big_single N L _ _ (enc n y)).
    + rewrite Nat.eqb_refl, (l_mul_1r L). reflexivity.
    + apply seq_NoDup.
    + apply in_seq. split; [lia|]. apply enc_lt.
    + intros i _ Hne. destruct (Nat.eqb_spec (enc n y) i) as [X|]; [congruence|]. rewrite (l_mul_0r L), (l_mul_0 L). reflexivity.
  - apply big_ext. intros i Hi. apply in_seq in Hi. rewrite <- (big_mul_r N L). f_equal. rewrite <- (act_basis N L n op i j ND R) by lia. reflexivity.
Qed.

(** *** Consecutive qubits *)
Lemma be_dec n i b k a : n = b + k + a -> be (map (dec n i) (seq b k)) = (i / 2 ^ a) mod 2 ^ k.
Proof.
  intros ->. apply Nat.bits_inj. intros q. rewrite testbit_be, map_length, seq_length.
  destruct (Nat.ltb_spec q k) as [C|C].
  - rewrite Nat.mod_pow2_bits_low by exact C. rewrite Nat.div_pow2_bits. cbn [andb]. rewrite nth_indep with (d' := dec (b + k + a) i 0) by (rewrite map_length, seq_length; lia).
    rewrite map_nth, seq_nth by lia. unfold dec. replace (b + (k - 1 - q) <? b + k + a) with true by (symmetry; apply Nat.ltb_lt; lia). cbn [andb]. f_equal. lia.
  - rewrite Nat.mod_pow2_bits_high by exact C. reflexivity.
Qed.
Lemma high_eq n b k a i j : n = b + k + a -> i < 2 ^ n -> j < 2 ^ n -> (i / 2 ^ (k + a) =? j / 2 ^ (k + a)) = forallb (fun q => eqb (dec n i q) (dec n j q)) (seq 0 b).
Proof.
  intros -> Hi Hj. apply eq_true_iff_eq. rewrite Nat.eqb_eq, forallb_forall. split.
  - intros E q Hq. apply in_seq in Hq. apply eqb_true_iff. unfold dec. f_equal. replace (b + k + a - 1 - q) with ((b - 1 - q) + (k + a)) by lia. rewrite <- !Nat.div_pow2_bits, E. reflexivity.
  - intros H. apply Nat.bits_inj. intros q. rewrite !Nat.div_pow2_bits. destruct (Nat.lt_ge_cases q b) as [C|C].
    + assert (X := H (b - 1 - q)). rewrite in_seq in X. specialize (X ltac:(lia)). apply eqb_prop in X. unfold dec in X.
      replace (b - 1 - q <? b + k + a) with true in X by (symmetry; apply Nat.ltb_lt; lia). cbn [andb] in X. replace (b + k + a - 1 - (b - 1 - q)) with (q + (k + a)) in X by lia. exact X.
    + rewrite !(testbit_high _ (b + k + a)) by (assumption || lia). reflexivity.
Qed.
Lemma low_eq n b k a i j : n = b + k + a -> (i mod 2 ^ a =? j mod 2 ^ a) = forallb (fun q => eqb (dec n i q) (dec n j q)) (seq (b + k) a).
Proof.
  intros ->. apply eq_true_iff_eq. rewrite Nat.eqb_eq, forallb_forall. split.
  - intros E q Hq. apply in_seq in Hq. apply eqb_true_iff. unfold dec. f_equal. rewrite <- (Nat.mod_pow2_bits_low i a), <- (Nat.mod_pow2_bits_low j a), E by lia. reflexivity.
  - intros H. apply Nat.bits_inj. intros q. destruct (Nat.lt_ge_cases q a) as [C|C].
    + rewrite !Nat.mod_pow2_bits_low by exact C. assert (X := H (b + k + a - 1 - q)). rewrite in_seq in X. specialize (X ltac:(lia)). apply eqb_prop in X. unfold dec in X.
      replace (b + k + a - 1 - q <? b + k + a) with true in X by (symmetry; apply Nat.ltb_lt; lia). cbn [andb] in X. replace (b + k + a - 1 - (b + k + a - 1 - q)) with q in X by lia. exact X.
    + rewrite !Nat.mod_pow2_bits_high by exact C. reflexivity.
Qed.
Lemma forallb_split n b k a (f : nat -> bool) : n = b + k + a ->
  forallb (fun q => existsb (Nat.eqb q) (seq b k) || f q) (seq 0 n) = forallb f (seq 0 b) && forallb f (seq (b + k) a).
Proof.
  intros ->. rewrite !seq_app, !forallb_app. cbn [Nat.add].
  assert (E1 : forallb (fun q => existsb (Nat.eqb q) (seq b k) || f q) (seq 0 b) = forallb f (seq 0 b)).
  { apply eq_true_iff_eq. rewrite !forallb_forall. split; intros H q Hq; specialize (H q Hq).
    - apply orb_true_iff in H. destruct H as [H|H]; [|exact H]. apply existsb_eqb in H. apply in_seq in H, Hq. lia.
    - rewrite H. apply orb_true_r. }
  assert (E2 : forallb (fun q => existsb (Nat.eqb q) (seq b k) || f q) (seq (b + k) a) = forallb f (seq (b + k) a)).
  { apply eq_true_iff_eq. rewrite !forallb_forall. split; intros H q Hq; specialize (H q Hq).
    - apply orb_true_iff in H. destruct H as [H|H]; [|exact H]. apply existsb_eqb in H. apply in_seq in H, Hq. lia.
    - rewrite H. apply orb_true_r. }
  assert (E3 : forallb (fun q => existsb (Nat.eqb q) (seq b k) || f q) (seq b k) = true).
  { apply forallb_forall. intros q Hq. rewrite (proj2 (existsb_eqb q (seq b k)) Hq). reflexivity. }
  rewrite E1, E2, E3, andb_true_r. reflexivity.
Qed.
Definition padded b a (T : list (list P)) : list (list P) := kron (ident (2 ^ b)) (kron T (ident (2 ^ a))).
Lemma shape_padded b k a T : shape T (2 ^ k) (2 ^ k) -> shape (padded b a T) (2 ^ (b + k + a)) (2 ^ (b + k + a)).
Proof.
  intros H. replace (2 ^ (b + k + a)) with (2 ^ b * (2 ^ k * 2 ^ a)) by (rewrite !Nat.pow_add_r; lia).
  apply shape_kron; [apply shape_ident|]. apply shape_kron; [exact H|apply shape_ident].
Qed.
Lemma entry_padded b k a op T i j : op_indices op = seq b k -> shape T (2 ^ k) (2 ^ k) ->
  (forall r c, length r = k -> length c = k -> cell T (be r) (be c) = op_mat N op r c) ->
  i < 2 ^ (b + k + a) -> j < 2 ^ (b + k + a) -> full_entry N (b + k + a) op i j = cell (padded b a T) j i.
Proof.
  intros Eo HT HC Hi Hj. unfold padded.
  assert (E : 2 ^ (b + k + a) = 2 ^ b * (2 ^ k * 2 ^ a)) by (rewrite !Nat.pow_add_r; lia).
  assert (PK : forall p, 2 ^ p <> 0) by (intros p; apply Nat.pow_nonzero; lia). pose proof (PK a) as Pa. pose proof (PK k) as Pk. pose proof (PK b) as Pb.
  rewrite (cell_kron _ _ (2 ^ b) (2 ^ b) (2 ^ k * 2 ^ a) (2 ^ k * 2 ^ a)); [|apply shape_ident|apply shape_kron; [exact HT|apply shape_ident]|lia|lia].
  assert (M : forall x, x mod (2 ^ k * 2 ^ a) < 2 ^ k * 2 ^ a) by (intros x; apply Nat.mod_upper_bound; nia).
  rewrite (cell_kron _ _ (2 ^ k) (2 ^ k) (2 ^ a) (2 ^ a)); [|exact HT|apply shape_ident|apply M|apply M].
  assert (D : forall x, x < 2 ^ (b + k + a) -> x / (2 ^ k * 2 ^ a) < 2 ^ b) by (intros x Hx; apply Nat.div_lt_upper_bound; nia).
  assert (M2 : forall x, (x mod (2 ^ k * 2 ^ a)) mod 2 ^ a = x mod 2 ^ a).
  { intros x. rewrite (Nat.mul_comm (2 ^ k)). rewrite Nat.mod_mul_r by assumption.
    rewrite (Nat.mul_comm (2 ^ a)), Nat.mod_add by assumption. apply Nat.mod_mod. assumption. }
  assert (M3 : forall x, (x mod (2 ^ k * 2 ^ a)) / 2 ^ a = (x / 2 ^ a) mod 2 ^ k).
  { intros x. rewrite (Nat.mul_comm (2 ^ k)). rewrite Nat.mod_mul_r by assumption. rewrite (Nat.mul_comm (2 ^ a)), Nat.div_add by assumption.
    rewrite (Nat.div_small (x mod 2 ^ a)) by (apply Nat.mod_upper_bound; assumption). reflexivity. }
  rewrite !M2, !M3. rewrite !cell_ident by (apply D; assumption) || (apply Nat.mod_upper_bound; assumption).
  unfold full_entry. rewrite Eo. rewrite (forallb_split (b + k + a) b k a) by reflexivity.
  rewrite <- (high_eq _ b k a) by (reflexivity || assumption). rewrite <- (low_eq _ b k a) by reflexivity.
  rewrite <- HC by (rewrite map_length; apply seq_length). rewrite !(be_dec _ _ b k a) by reflexivity.
  rewrite (Nat.eqb_sym (j / _)), (Nat.eqb_sym (j mod _)). rewrite <- Nat.pow_add_r.
  destruct (_ =? _); cbn [andb]; [|symmetry; apply (l_mul_0 L)]. rewrite (l_mul_1 L). destruct (_ =? _); [symmetry; apply (l_mul_1r L)|symmetry; apply (l_mul_0r L)].
Qed.
Lemma seq_ok b k a (op : mop P) : op_indices op = seq b k -> NoDup (op_indices op) /\ in_range (b + k + a) (op_indices op).
Proof. intros ->. split; [apply seq_NoDup|]. intros q Hq. apply in_seq in Hq. lia. Qed.
Theorem apply_padded b k a op T v : wf_op op -> op_indices op = seq b k -> shape T (2 ^ k) (2 ^ k) ->
  (forall r c, length r = k -> length c = k -> cell T (be r) (be c) = op_mat N op r c) -> length v = 2 ^ (b + k + a) ->
  apply_op N (b + k + a) op v (repeat (n0 N) (2 ^ (b + k + a))) 0 0 = Ok (mat_vec N (padded b a T) v).
Proof.
  intros W Eo HT HC Lv. destruct (seq_ok b k a op Eo) as [ND R]. rewrite apply_op_ok; [|exact L|exact W|exact R|rewrite repeat_length; lia]. f_equal. rewrite repeat_length.
  rewrite (mat_vec_cell _ (2 ^ (b + k + a)) (2 ^ (b + k + a))); [|apply shape_padded; exact HT|exact Lv]. apply map_ext_in. intros j Hj. apply in_seq in Hj.
  rewrite nth_repeat, (l_add_0 L). cbn [Nat.add].
  transitivity (act N (op_indices op) (op_mat N op) (st_of N (b + k + a) v) (dec (b + k + a) j)).
  { change (row_value N (b + k + a) op v 0 j) with (act N (op_indices op) (op_mat N op) (fun y => amp_off N 0 v (enc (b + k + a) y)) (dec (b + k + a) j)).
    apply act_ext_psi. intros y. unfold amp_off, st_of. cbn [Nat.ltb Nat.leb]. rewrite Nat.sub_0_r. reflexivity. }
  rewrite act_full by (assumption || lia). apply big_ext. intros i Hi. apply in_seq in Hi. f_equal. apply (entry_padded b k a); try assumption; lia.
Qed.
Theorem table_padded b k a op T : wf_op op -> op_indices op = seq b k -> shape T (2 ^ k) (2 ^ k) ->
  (forall r c, length r = k -> length c = k -> cell T (be r) (be c) = op_mat N op r c) ->
  make_op_matrix N (b + k + a) op = Ok (flip N (2 ^ (b + k + a)) (padded b a T)).
Proof.
  intros W Eo HT HC. destruct (seq_ok b k a op Eo) as [ND R]. rewrite (make_op_matrix_ok N L) by assumption. f_equal. unfold flip. apply map_ext_in. intros i Hi. apply in_seq in Hi.
  apply map_ext_in. intros j Hj. apply in_seq in Hj. apply (entry_padded b k a); try assumption; lia.
Qed.
(** Dense operators, controlled ones, swaps. *)
Lemma dense_cells ind data : length data = 2 ^ (2 * length ind) -> shape (square_of (2 ^ length ind) data) (2 ^ length ind) (2 ^ length ind) /\
  forall r c, length r = length ind -> length c = length ind -> cell (square_of (2 ^ length ind) data) (be r) (be c) = op_mat N (Matrix ind data) r c.
Proof.
  intros H. split; [apply shape_square; rewrite H, <- Nat.pow_add_r; f_equal; lia|]. intros r c Hr Hc. pose proof (be_lt r). pose proof (be_lt c). rewrite cell_square by congruence. reflexivity.
Qed.
Lemma shape_dsum A B r s : shape A r r -> shape B s s -> shape (dsum N A B) (r + s) (r + s).
Proof.
  intros [LA HA] [LB HB]. split; [unfold dsum; rewrite app_length, !map_length; congruence|]. intros row H. apply in_app_or in H. destruct H as [H|H]; apply in_map_iff in H; destruct H as (x & <- & H);
    rewrite app_length, repeat_length; [rewrite (HA x H)|rewrite (HB x H)]; congruence.
Qed.
Lemma cell_dsum A B r s i j : shape A r r -> shape B s s -> i < r + s -> j < r + s ->
  cell (dsum N A B) i j = if i <? r then (if j <? r then cell A i j else n0 N) else if j <? r then n0 N else cell B (i - r) (j - r).
Proof.
  intros [LA HA] [LB HB] Hi Hj. unfold KronSpec.cell, dsum. destruct (Nat.ltb_spec i r) as [C|C].
  - rewrite app_nth1 by (rewrite map_length; lia). set (f := fun r => r ++ _). rewrite nth_indep with (d' := f []) by (rewrite map_length; lia). rewrite map_nth. unfold f.
    assert (E : length (nth i A []) = r) by (apply HA, nth_In; lia). destruct (Nat.ltb_spec j r) as [D|D]; [apply app_nth1; rewrite E; exact D|]. rewrite app_nth2 by (rewrite E; exact D). apply nth_repeat.
  - rewrite app_nth2 by (rewrite map_length; lia). rewrite map_length, LA. set (f := fun r0 => repeat _ _ ++ _). rewrite nth_indep with (d' := f []) by (rewrite map_length; lia). rewrite map_nth. unfold f.
    destruct (Nat.ltb_spec j r) as [D|D]; [rewrite app_nth1 by (rewrite repeat_length; exact D); apply nth_repeat|]. rewrite app_nth2 by (rewrite repeat_length; exact D). rewrite repeat_length. reflexivity.
Qed.
Lemma control_cells q k T op : shape T (2 ^ k) (2 ^ k) -> length (op_indices op) = k ->
  (forall r c, length r = k -> length c = k -> cell T (be r) (be c) = op_mat N op r c) ->
  shape (dsum N (ident (2 ^ k)) T) (2 ^ S k) (2 ^ S k) /\
  forall r c, length r = S k -> length c = S k -> cell (dsum N (ident (2 ^ k)) T) (be r) (be c) = op_mat N (Control 1 (q :: op_indices op) op) r c.
Proof.
  intros HT Lk HC. replace (2 ^ S k) with (2 ^ k + 2 ^ k) by (cbn; lia). split; [apply shape_dsum; [apply shape_ident|exact HT]|].
  intros [|x r] [|y c] Hr Hc; try discriminate. injection Hr as Hr. injection Hc as Hc. pose proof (be_lt r) as Br. pose proof (be_lt c) as Bc. rewrite Hr in Br. rewrite Hc in Bc.
  rewrite !be_cons, Hr, Hc. assert (X : forall t : bool, b2n t * 2 ^ k <= 2 ^ k) by (intros []; cbn [b2n]; lia). pose proof (X x). pose proof (X y).
  rewrite (cell_dsum _ _ (2 ^ k) (2 ^ k)) by (apply shape_ident || exact HT || lia).
  cbn [op_mat firstn skipn forallb]. rewrite !andb_true_r. unfold delta, lb_eq.
  destruct x, y; cbn [b2n]; rewrite ?Nat.mul_1_l, ?Nat.mul_0_l; cbn [Nat.add];
    repeat (match goal with |- context [?u <? ?w] => destruct (Nat.ltb_spec u w); try lia end).
  - rewrite !(Nat.add_comm (2 ^ k)), !Nat.add_sub. apply HC; assumption.
  - reflexivity.
  - destruct (list_eq_dec bool_dec (false :: r) (true :: c)); [discriminate|reflexivity].
  - rewrite cell_ident by assumption. destruct (Nat.eqb_spec (be r) (be c)) as [E|E].
    + apply be_inj in E; [|congruence]. subst c. destruct (list_eq_dec _ _ _); [reflexivity|congruence].
    + destruct (list_eq_dec _ _ _) as [F|F]; [injection F as F; subst c; congruence|reflexivity].
Qed.
Lemma mod_mul_mod x m k : m <> 0 -> k <> 0 -> (x mod (k * m)) mod m = x mod m.
Proof. intros Hm Hk. rewrite (Nat.mul_comm k), Nat.mod_mul_r, (Nat.mul_comm m), Nat.mod_add by assumption. apply Nat.mod_mod. exact Hm. Qed.
Lemma mod_mul_div x m k : m <> 0 -> k <> 0 -> (x mod (k * m)) / m = (x / m) mod k.
Proof. intros Hm Hk. rewrite (Nat.mul_comm k), Nat.mod_mul_r, (Nat.mul_comm m), Nat.div_add by assumption. rewrite (Nat.div_small (x mod m)) by (apply Nat.mod_upper_bound; exact Hm). reflexivity. Qed.
Lemma kron_assoc A B C ra ca rb cb rc cc : shape A ra ca -> shape B rb cb -> shape C rc cc -> kron A (kron B C) = kron (kron A B) C.
Proof.
  intros HA HB HC. assert (HL := shape_kron _ _ _ _ _ _ HA (shape_kron _ _ _ _ _ _ HB HC)). assert (HR := shape_kron _ _ _ _ _ _ (shape_kron _ _ _ _ _ _ HA HB) HC).
  rewrite <- !Nat.mul_assoc in HR. apply (matrix_eq _ _ (ra * (rb * rc)) (ca * (cb * cc))); [exact HL|exact HR|]. intros i j Hi Hj.
  assert (ra <> 0 /\ rb <> 0 /\ rc <> 0) as (Z1 & Z2 & Z3) by (repeat split; intros ->; lia). assert (ca <> 0 /\ cb <> 0 /\ cc <> 0) as (Y1 & Y2 & Y3) by (repeat split; intros ->; lia).
  rewrite (cell_kron _ _ ra ca (rb * rc) (cb * cc)) by (assumption || (apply shape_kron; assumption)).
  rewrite (cell_kron _ _ rb cb rc cc) by (assumption || (apply Nat.mod_upper_bound; nia)).
  rewrite (cell_kron _ _ (ra * rb) (ca * cb) rc cc) by (assumption || (apply shape_kron; assumption) || lia).
  rewrite (cell_kron _ _ ra ca rb cb) by (assumption || (apply Nat.div_lt_upper_bound; lia)).
  rewrite !mod_mul_mod, !mod_mul_div, !Nat.div_div by assumption. rewrite (Nat.mul_comm rb), (Nat.mul_comm cb). apply (l_mul_assoc L).
Qed.
Lemma kron_ident m k : kron (ident m) (ident k) = ident (m * k).
Proof.
  apply (matrix_eq _ _ (m * k) (m * k)); [apply shape_kron; apply shape_ident|apply shape_ident|]. intros i j Hi Hj. assert (m <> 0 /\ k <> 0) as [Z1 Z2] by (split; intros ->; lia).
  rewrite (cell_kron _ _ m m k k) by (assumption || apply shape_ident). rewrite !cell_ident by (assumption || (apply Nat.mod_upper_bound; assumption) || (apply Nat.div_lt_upper_bound; lia)).
  pose proof (Nat.div_mod i k Z2) as Ei. pose proof (Nat.div_mod j k Z2) as Ej.
  destruct (Nat.eqb_spec (i / k) (j / k)) as [E|E]; destruct (Nat.eqb_spec (i mod k) (j mod k)) as [F|F]; rewrite ?(l_mul_1 L), ?(l_mul_0 L);
    destruct (Nat.eqb_spec i j) as [G|G]; try reflexivity; subst; try congruence.
Qed.
Lemma kron_one_l A r c : shape A r c -> kron (ident 1) A = A.
Proof.
  intros H. apply (matrix_eq _ _ r c); [rewrite <- (Nat.mul_1_l r), <- (Nat.mul_1_l c); apply shape_kron; [apply shape_ident|exact H]|exact H|]. intros i j Hi Hj.
  rewrite (cell_kron _ _ 1 1 r c) by (assumption || apply shape_ident || lia). rewrite !Nat.div_small, !Nat.mod_small, cell_ident by (assumption || lia). apply (l_mul_1 L).
Qed.
Lemma kron_one_r A r c : shape A r c -> kron A (ident 1) = A.
Proof.
  intros H. apply (matrix_eq _ _ r c); [rewrite <- (Nat.mul_1_r r), <- (Nat.mul_1_r c); apply shape_kron; [exact H|apply shape_ident]|exact H|]. intros i j Hi Hj.
  rewrite (cell_kron _ _ r c 1 1) by (assumption || apply shape_ident || lia). rewrite !Nat.div_1_r, !Nat.mod_1_r, cell_ident by lia. apply (l_mul_1r L).
Qed.
Lemma helper_padded b T a k : shape T (2 ^ k) (2 ^ k) -> Nat.iter a (fun A => kron A (ident 2)) (Nat.iter b (kron (ident 2)) T) = padded b a T.
Proof.
  intros H. assert (B : Nat.iter b (kron (ident 2)) T = kron (ident (2 ^ b)) T /\ shape (kron (ident (2 ^ b)) T) (2 ^ b * 2 ^ k) (2 ^ b * 2 ^ k)).
  { split; [|apply shape_kron; [apply shape_ident|exact H]]. induction b as [|b IH]; [symmetry; apply (kron_one_l _ _ _ H)|]. cbn [Nat.iter nat_rect]. change (nat_rect _ _ _ b) with (Nat.iter b (kron (ident 2)) T). rewrite IH.
    rewrite (kron_assoc _ _ _ 2 2 (2 ^ b) (2 ^ b) (2 ^ k) (2 ^ k)) by (assumption || apply shape_ident). rewrite kron_ident. reflexivity. }
  destruct B as [-> HB]. unfold padded. rewrite (kron_assoc _ _ _ (2 ^ b) (2 ^ b) (2 ^ k) (2 ^ k) (2 ^ a) (2 ^ a)) by (assumption || apply shape_ident).
  set (X := kron (ident (2 ^ b)) T) in *. clearbody X. induction a as [|a IH]; [symmetry; apply (kron_one_r _ _ _ HB)|]. cbn [Nat.iter nat_rect]. change (nat_rect _ _ _ a) with (Nat.iter a (fun A => kron A (ident 2)) X). rewrite IH.
  rewrite <- (kron_assoc _ _ _ (2 ^ b * 2 ^ k) (2 ^ b * 2 ^ k) (2 ^ a) (2 ^ a) 2 2) by (assumption || apply shape_ident). rewrite kron_ident, Nat.mul_comm. reflexivity.
Qed.
Lemma flip_flip k A : shape A k k -> flip N k (flip N k A) = A.
Proof.
  intros H. assert (Sf : forall B, shape (flip N k B) k k) by (intros B; split; [unfold flip; rewrite map_length; apply seq_length|intros row X; apply in_map_iff in X; destruct X as (i & <- & _); rewrite map_length; apply seq_length]).
  assert (Cf : forall B i j, i < k -> j < k -> cell (flip N k B) i j = cell B j i) by (intros B i j Hi Hj; unfold KronSpec.cell, flip; rewrite nth_map_seq by exact Hi; rewrite nth_map_seq by exact Hj; reflexivity).
  apply (matrix_eq _ _ k k); [apply Sf|exact H|]. intros i j Hi Hj. rewrite !Cf by assumption. reflexivity.
Qed.
End Mat.
