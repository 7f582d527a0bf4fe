(** Proofs about sorting, transpose_sparse, constructors and endianness (C15, C18, C19). *)
From Coq Require Import Permutation Sorted.
From Verif Require Import Base BitsModel BitsSpec BitsProofs BitsProofs2 OpsModel OpsSpec OpsProofs OpsProofs2
  StateOpsModel.
Local Open Scope res_scope.

(** *** stable sort *)
Section Sort.
Context {A : Type} (key : A -> nat).
Local Notation le_key := (fun a b => key a <= key b).

Lemma insert_perm a l : Permutation (a :: l) (insert_by key a l).
Proof.
  induction l as [|b l IH]; cbn; [auto|]. destruct (key a <=? key b); [auto|].
  rewrite perm_swap. constructor. exact IH.
Qed.
Lemma sort_perm l : Permutation l (sort_by_key key l).
Proof.
  induction l as [|a l IH]; cbn; [auto|]. rewrite <- insert_perm. constructor. exact IH.
Qed.

Lemma insert_sorted a l : StronglySorted le_key l -> StronglySorted le_key (insert_by key a l).
Proof.
  induction 1 as [|b l S IH F]; cbn.
  - constructor; constructor.
  - destruct (Nat.leb_spec (key a) (key b)).
    + constructor; [constructor; auto|]. constructor; [auto|].
      eapply Forall_impl; [|exact F]. cbn. intros. lia.
    + constructor; auto. eapply Permutation_Forall; [apply insert_perm|]. constructor; [lia|auto].
Qed.
Lemma sort_sorted l : StronglySorted le_key (sort_by_key key l).
Proof. induction l as [|a l IH]; cbn; [constructor|]. apply insert_sorted. exact IH. Qed.

Lemma sort_id l : StronglySorted le_key l -> sort_by_key key l = l.
Proof.
  induction 1 as [|b l S IH F]; cbn; [reflexivity|]. unfold sort_by_key in IH. rewrite IH. destruct l as [|c l]; cbn; [reflexivity|].
  inversion F; subst. destruct (Nat.leb_spec (key b) (key c)); [reflexivity|lia].
Qed.

Lemma sorted_unique l1 : forall l2, Permutation l1 l2 -> StronglySorted le_key l1 -> StronglySorted le_key l2 ->
  NoDup (map key l1) -> l1 = l2.
Proof.
  induction l1 as [|a l1 IH]; intros l2 HP S1 S2 ND.
  - apply Permutation_nil in HP. auto.
  - destruct l2 as [|b l2]; [symmetry in HP; apply Permutation_nil in HP; discriminate|].
    inversion S1 as [|? ? S1' F1]; subst. inversion S2 as [|? ? S2' F2]; subst.
    inversion ND as [|? ? N1 N2]; subst.
    assert (a = b).
    { assert (I1 : In b (a :: l1)) by (apply (Permutation_in _ (Permutation_sym HP)); cbn; auto).
      assert (I2 : In a (b :: l2)) by (apply (Permutation_in _ HP); cbn; auto).
      destruct I1 as [->|I1]; auto. destruct I2 as [->|I2]; auto.
      rewrite Forall_forall in F1, F2. specialize (F1 _ I1). specialize (F2 _ I2).
      exfalso. apply N1. replace (key a) with (key b) by lia. apply in_map. exact I1. }
    subst b. f_equal. apply IH; auto. eapply Permutation_cons_inv. exact HP.
Qed.
End Sort.

(** *** transpose_sparse *)
(** Spec: the entries of column [c], in row order. *)
Definition col_entries {T} (m : list (list (nat * T))) (c : nat) : list (nat * T) :=
  concat (map (fun '(r, row) => map (fun e => (r, snd e)) (filter (fun e => fst e =? c) row)) (enumerate m)).

Definition cols_in_range {T} (m : list (list (nat * T))) : Prop :=
  forall row, In row m -> forall e, In e row -> fst e < length m.

(** no (row, column) position is stored twice *)
Definition no_repeats {T} (m : list (list (nat * T))) : Prop :=
  forall row, In row m -> NoDup (map fst row).

Definition col_of {T} (l : list (nat * (nat * T))) (c : nat) : list (nat * T) :=
  map snd (filter (fun e => fst e =? c) l).

Lemma pushes_ok {T} (l : list (nat * (nat * T))) : forall cm,
  (forall e, In e l -> fst e < length cm) ->
  exists cm', foldM push_entry l cm = Ok cm' /\ length cm' = length cm /\
    forall c, c < length cm -> nth c cm' [] = nth c cm [] ++ col_of l c.
Proof.
  induction l as [|[col rv] l IH]; intros cm H; cbn [foldM].
  - exists cm. repeat split; auto. intros. cbn. rewrite app_nil_r. reflexivity.
  - assert (Hc : col < length cm) by (apply (H (col, rv)); cbn; auto).
    cbn [push_entry]. rewrite (idx_ok cm []) by auto. cbn [bind].
    destruct (IH (upd_nth col (nth col cm [] ++ [rv]) cm)) as [cm' (E & Hl & Hn)].
    { intros e He. rewrite upd_nth_length. apply H. cbn. auto. }
    rewrite upd_nth_length in *. exists cm'. repeat split; auto. intros c Hc'.
    rewrite Hn by auto. rewrite nth_upd_nth by auto. unfold col_of. cbn [filter fst].
    destruct (Nat.eqb_spec c col) as [->|Hne].
    + rewrite Nat.eqb_refl. cbn. rewrite <- app_assoc. reflexivity.
    + destruct (Nat.eqb_spec col c); [congruence|]. reflexivity.
Qed.

Lemma col_of_perm {T} (l1 l2 : list (nat * (nat * T))) c :
  Permutation l1 l2 -> Permutation (col_of l1 c) (col_of l2 c).
Proof.
  intros H. unfold col_of. apply Permutation_map. induction H; cbn; auto.
  - destruct (fst x =? c); auto.
  - destruct (fst y =? c), (fst x =? c); auto. apply perm_swap.
  - eapply perm_trans; eauto.
Qed.

Lemma col_of_flat {T} (m : list (list (nat * T))) c : col_of (flat_entries m) c = col_entries m c.
Proof.
  unfold col_of, flat_entries, col_entries. induction (enumerate m) as [|[r row] l IH]; cbn; [reflexivity|].
  rewrite filter_app, map_app, IH. f_equal. clear.
  induction row as [|[c' v] row IH]; cbn; [reflexivity|]. destruct (c' =? c); cbn; congruence.
Qed.

Lemma flat_range {T} (m : list (list (nat * T))) : cols_in_range m ->
  forall e, In e (flat_entries m) -> fst e < length m.
Proof.
  intros H e He. unfold flat_entries in He. apply in_concat in He. destruct He as [l [Hl He]].
  apply in_map_iff in Hl. destruct Hl as [[r row] [<- Hr]]. apply In_enumerate in Hr.
  apply nth_error_In in Hr. apply in_map_iff in He. destruct He as [[c v] [<- Hc]]. cbn.
  apply (H row Hr (c, v) Hc).
Qed.

Lemma col_entries_sorted {T} (m : list (list (nat * T))) c :
  StronglySorted (fun a b => fst a <= fst b) (col_entries m c).
Proof.
  unfold col_entries, enumerate. generalize 0 as s. induction m as [|row m IH]; intros s; cbn; [constructor|].
  assert (B : forall e, In e (concat (map (fun '(r, row) => map (fun e : nat * T => (r, snd e))
      (filter (fun e => fst e =? c) row)) (combine (seq (S s) (length m)) m))) -> S s <= fst e).
  { intros e He. apply in_concat in He. destruct He as [l [Hl He]]. apply in_map_iff in Hl.
    destruct Hl as [[r row'] [<- Hr]]. apply in_combine_l, in_seq in Hr. apply in_map_iff in He.
    destruct He as [e' [<- _]]. cbn. lia. }
  specialize (IH (S s)). revert B IH. generalize (concat (map (fun '(r, row) => map (fun e : nat * T => (r, snd e))
      (filter (fun e => fst e =? c) row)) (combine (seq (S s) (length m)) m))) as tl. intros tl B IH.
  induction (filter (fun e => fst e =? c) row) as [|e l IHl]; cbn; auto.
  constructor; auto. apply Forall_forall. intros x Hx. apply in_app_iff in Hx. cbn.
  destruct Hx as [Hx|Hx].
  - apply in_map_iff in Hx. destruct Hx as [e' [<- _]]. cbn. lia.
  - apply B in Hx. lia.
Qed.

Lemma col_entries_nodup {T} (m : list (list (nat * T))) c :
  no_repeats m -> NoDup (map fst (col_entries m c)).
Proof.
  unfold col_entries, enumerate. generalize 0 as s. induction m as [|row m IH]; intros s H; cbn; [constructor|].
  rewrite map_app. apply NoDup_app_iff. repeat split.
  - assert (NR := H row (or_introl eq_refl)). clear - NR.
    induction row as [|[c' v] row IH]; cbn; [constructor|]. inversion NR; subst.
    destruct (Nat.eqb_spec c' c) as [->|]; cbn; auto. constructor; auto.
    intros I. rewrite map_map in I. cbn in I. apply in_map_iff in I. destruct I as [[c'' v'] [_ I]].
    apply filter_In in I. destruct I as [I E]. cbn in E. apply Nat.eqb_eq in E. subst.
    apply H1. apply in_map_iff. exists (c, v'). auto.
  - apply IH. intros r Hr. apply H. cbn; auto.
  - intros x Hx Hx2. rewrite map_map in Hx. cbn in Hx. apply in_map_iff in Hx. destruct Hx as [? [<- _]].
    apply in_map_iff in Hx2. destruct Hx2 as [e [E He]]. apply in_concat in He. destruct He as [l [Hl He]].
    apply in_map_iff in Hl. destruct Hl as [[r row'] [<- Hr]]. apply in_combine_l, in_seq in Hr.
    apply in_map_iff in He. destruct He as [e' [<- _]]. cbn in E. lia.
Qed.

Lemma transpose_sched_ok {T} (m : list (list (nat * T))) sched :
  cols_in_range m -> Permutation sched (flat_entries m) ->
  exists m', transpose_sparse_sched (length m) sched = Ok m' /\ length m' = length m /\
    forall c, c < length m -> nth c m' [] = sort_by_key fst (col_of sched c).
Proof.
  intros R HP. unfold transpose_sparse_sched.
  destruct (pushes_ok sched (repeat [] (length m))) as [cm (E & Hl & Hn)].
  { intros e He. rewrite repeat_length. apply flat_range; auto. apply (Permutation_in _ HP). exact He. }
  rewrite E. cbn [bind]. rewrite repeat_length in *. eexists. split; [reflexivity|].
  rewrite map_length. split; auto. intros c Hc.
  change (@nil (nat * T)) with (sort_by_key (@fst nat T) []) at 1. rewrite map_nth.
  rewrite Hn by auto. rewrite nth_repeat. reflexivity.
Qed.

Lemma transpose_sched_spec {T} (m : list (list (nat * T))) sched :
  cols_in_range m -> Permutation sched (flat_entries m) ->
  exists m', transpose_sparse_sched (length m) sched = Ok m' /\ length m' = length m /\
    forall c, c < length m ->
      Permutation (nth c m' []) (col_entries m c) /\
      StronglySorted (fun a b => fst a <= fst b) (nth c m' []).
Proof.
  intros R HP. destruct (transpose_sched_ok m sched R HP) as [m' (E & Hl & Hn)].
  exists m'. repeat split; auto; rewrite Hn by auto.
  - rewrite <- sort_perm, <- col_of_flat. apply col_of_perm. exact HP.
  - apply sort_sorted.
Qed.

Lemma transpose_seq_spec {T} (m : list (list (nat * T))) : cols_in_range m ->
  transpose_sparse m = Ok (map (col_entries m) (seq 0 (length m))).
Proof.
  intros R. destruct (transpose_sched_ok m (flat_entries m) R (Permutation_refl _)) as [m' (E & Hl & Hn)].
  unfold transpose_sparse. rewrite E. f_equal. apply (list_eq_nth []).
  - rewrite map_length, seq_length. exact Hl.
  - intros c Hc. rewrite nth_map_seq by lia. rewrite Hn by lia. rewrite col_of_flat.
    apply sort_id. apply col_entries_sorted.
Qed.

Lemma transpose_deterministic {T} (m : list (list (nat * T))) sched :
  cols_in_range m -> no_repeats m -> Permutation sched (flat_entries m) ->
  transpose_sparse_sched (length m) sched = transpose_sparse m.
Proof.
  intros R ND HP. rewrite transpose_seq_spec by auto.
  destruct (transpose_sched_ok m sched R HP) as [m' (E & Hl & Hn)]. rewrite E. f_equal.
  apply (list_eq_nth []).
  - rewrite map_length, seq_length. exact Hl.
  - intros c Hc. rewrite nth_map_seq by lia. rewrite Hn by lia.
    symmetry. apply sorted_unique with (key := fst).
    + rewrite <- sort_perm, <- col_of_flat. apply col_of_perm. symmetry. exact HP.
    + apply col_entries_sorted.
    + apply sort_sorted.
    + apply col_entries_nodup. exact ND.
Qed.

Lemma In_col_entries {T} (m : list (list (nat * T))) c r v :
  In (r, v) (col_entries m c) <-> exists row, nth_error m r = Some row /\ In (c, v) row.
Proof.
  unfold col_entries. rewrite in_concat. split.
  - intros [l [Hl I]]. apply in_map_iff in Hl. destruct Hl as [[r' row] [<- Hr]].
    apply In_enumerate in Hr. apply in_map_iff in I. destruct I as [[c' v'] [E I]].
    apply filter_In in I. destruct I as [I E2]. cbn in *. apply Nat.eqb_eq in E2. subst.
    inversion E; subst. eauto.
  - intros [row [H1 H2]]. eexists. split.
    + apply in_map_iff. exists (r, row). split; [reflexivity|]. apply In_enumerate. exact H1.
    + apply in_map_iff. exists (c, v). split; [reflexivity|]. apply filter_In. split; auto. cbn. apply Nat.eqb_refl.
Qed.

(** *** constructors *)
Lemma make_matrix_op_ok {P} ind (dat : list P) op :
  make_matrix_op ind dat = Ok op <->
  (ind <> [] /\ length dat = 4 ^ length ind /\ op = Matrix ind dat).
Proof.
  unfold make_matrix_op. replace (4 ^ length ind) with (2 ^ (2 * length ind)) by (rewrite Nat.pow_mul_r; reflexivity).
  destruct ind as [|i ind]; cbn [length Nat.eqb].
  - split; [discriminate|]. intros (H & _). congruence.
  - destruct (Nat.eqb_spec (length dat) (2 ^ (2 * S (length ind)))); cbn [negb].
    + split; [intros H; inversion H; repeat split; auto; discriminate|].
      intros (_ & _ & ->). reflexivity.
    + split; [discriminate|]. intros (_ & H & _). contradiction.
Qed.
Lemma make_matrix_op_never_panics {P} ind (dat : list P) p : make_matrix_op ind dat <> Panic p.
Proof. unfold make_matrix_op. destruct (_ =? _); [discriminate|]. destruct (negb _); discriminate. Qed.

Lemma make_swap_op_ok {P} a b (op : mop P) :
  make_swap_op a b = Ok op <->
  (a <> [] /\ b <> [] /\ length a = length b /\ op = Swap (length a) (a ++ b)).
Proof.
  unfold make_swap_op. destruct a as [|x a], b as [|y b]; cbn [length Nat.eqb orb].
  1-3: split; [discriminate|]; intros (H1 & H2 & _); congruence.
  destruct (Nat.eqb_spec (length a) (length b)) as [E|E]; cbn [negb].
  - split; [intros H; inversion H; repeat split; try discriminate; cbn; auto|].
    intros (_ & _ & _ & ->). reflexivity.
  - split; [discriminate|]. intros (_ & _ & H & _). cbn in H. lia.
Qed.

Lemma make_control_op_ok {P} c (op op' : mop P) :
  make_control_op c op = Ok op' <->
  (c <> [] /\ op' = match op with
     | Control k ind inner => Control (length c + k) (c ++ ind) inner
     | _ => Control (length c) (c ++ op_indices op) op end).
Proof.
  unfold make_control_op. destruct c as [|x c]; cbn [length Nat.eqb].
  - split; [discriminate|]. intros [H _]. congruence.
  - destruct op; (split; [intros H; inversion H; split; [discriminate|reflexivity]|intros [_ ->]; reflexivity]).
Qed.

Lemma make_control_op_wf {P} c (op op' : mop P) : wf_op op -> make_control_op c op = Ok op' ->
  wf_op op' /\ op_indices op' = c ++ op_indices op.
Proof.
  intros W H. apply make_control_op_ok in H. destruct H as [_ ->].
  destruct op; cbn in *; repeat split; try (rewrite !app_length; lia); try tauto.
Qed.

(** *** endianness *)
Definition flipped (n i : nat) : nat := be (rev (bits_be n i)).

Lemma flip_bits_flipped n i : 1 <= n <= 64 -> flip_bits n i = Ok (flipped n i).
Proof. intros H. apply flip_bits_be. exact H. Qed.

Lemma flipped_lt n i : flipped n i < 2 ^ n.
Proof.
  unfold flipped. assert (B := be_lt (rev (bits_be n i))). rewrite rev_length, length_bits_be in B. exact B.
Qed.
Lemma flipped_invol n i : i < 2 ^ n -> flipped n (flipped n i) = i.
Proof.
  intros H. unfold flipped.
  assert (E : bits_be n (be (rev (bits_be n i))) = rev (bits_be n i)).
  { assert (L : length (rev (bits_be n i)) = n) by (rewrite rev_length, length_bits_be; reflexivity).
    rewrite <- L at 1. apply bits_be_be. }
  rewrite E, rev_involutive. apply be_bits_be. exact H.
Qed.
Lemma flipped_be r : flipped (length r) (be r) = be (rev r).
Proof. unfold flipped. rewrite bits_be_be. reflexivity. Qed.

Lemma enumerate_map_nth {A} (l : list A) d : enumerate l = map (fun i => (i, nth i l d)) (seq 0 (length l)).
Proof.
  unfold enumerate. rewrite <- (seq_nth_map l d) at 2.
  induction (seq 0 (length l)) as [|a s IH]; cbn; [reflexivity|]. f_equal. exact IH.
Qed.

Lemma seq_sorted_key {A} (key : A -> nat) (g : nat -> A) m : forall s, (forall i, key (g i) = i) ->
  StronglySorted (fun a b => key a <= key b) (map g (seq s m)).
Proof.
  induction m as [|m IH]; intros s H; cbn; constructor; auto.
  apply Forall_forall. intros x Hx. apply in_map_iff in Hx. destruct Hx as [j [<- Hj]].
  apply in_seq in Hj. rewrite !H. lia.
Qed.

Lemma flip_rows_ok {P} n (dat : list (list (nat * P))) : 1 <= n <= 64 -> length dat = 2 ^ n ->
  flip_rows n dat =
  Ok (map (fun j => map (fun e => (flipped n (fst e), snd e)) (nth (flipped n j) dat [])) (seq 0 (2 ^ n))).
Proof.
  intros Hn Hd. unfold flip_rows.
  rewrite mapM_ok with (g := map (fun e : nat * P => (flipped n (fst e), snd e))).
  2:{ intros row _. apply mapM_ok. intros [i c] _. rewrite flip_bits_flipped by auto. reflexivity. }
  cbn [bind]. set (dat' := map _ dat).
  rewrite mapM_ok with (g := fun e => (flipped n (fst e), snd e)).
  2:{ intros [i row] _. rewrite flip_bits_flipped by auto. reflexivity. }
  cbn [bind]. f_equal. rewrite (enumerate_map_nth dat' []), map_map. cbn [fst snd].
  assert (Ld : length dat' = 2 ^ n) by (unfold dat'; rewrite map_length; auto). rewrite Ld.
  set (g := fun j => (j, nth (flipped n j) dat' [])).
  assert (E : sort_by_key fst (map (fun i => (flipped n i, nth i dat' [])) (seq 0 (2 ^ n))) = map g (seq 0 (2 ^ n))).
  { symmetry. apply sorted_unique with (key := fst).
    - rewrite <- sort_perm. apply NoDup_Permutation.
      + apply FinFun.Injective_map_NoDup; [|apply seq_NoDup]. intros a b H. inversion H; auto.
      + apply (NoDup_map_inv fst). rewrite map_map. cbn [fst].
        assert (ND : forall l, (forall i, In i l -> i < 2 ^ n) -> NoDup l -> NoDup (map (flipped n) l)).
        { induction l as [|a l IH]; intros Hr ND; cbn; [constructor|]. inversion ND; subst. constructor.
          - intros I. apply in_map_iff in I. destruct I as [b [Eb Ib]].
            apply (f_equal (flipped n)) in Eb. rewrite !flipped_invol in Eb by (apply Hr; cbn; auto). subst. contradiction.
          - apply IH; auto. intros i Hi. apply Hr. cbn; auto. }
        apply ND; [|apply seq_NoDup]. intros i Hi. apply in_seq in Hi. lia.
      + intros [j row]. rewrite !in_map_iff. unfold g. split; intros [i [Ei Hi]]; inversion Ei; subst; apply in_seq in Hi.
        * exists (flipped n j). rewrite flipped_invol by lia. split; [reflexivity|].
          apply in_seq. assert (B := flipped_lt n j). lia.
        * exists (flipped n i). rewrite flipped_invol by lia. split; [reflexivity|].
          apply in_seq. assert (B := flipped_lt n i). lia.
    - apply seq_sorted_key. reflexivity.
    - apply sort_sorted.
    - rewrite map_map. cbn. rewrite map_id. apply seq_NoDup. }
  rewrite E, map_map. apply map_ext. intros j. cbn [g snd]. unfold dat'.
  change (@nil (nat * P)) with (map (fun e : nat * P => (flipped n (fst e), snd e)) []) at 1.
  apply map_nth.
Qed.

Lemma existsb_empty {P} (dat : list (list P)) :
  existsb (fun v => match v with [] => true | _ => false end) dat = false <-> Forall (fun r => r <> []) dat.
Proof.
  induction dat as [|r dat IH]; cbn; [split; auto|]. destruct r as [|a r]; cbn.
  - split; [discriminate|]. intros H. inversion H. contradiction.
  - rewrite IH. split; [intros; constructor; [discriminate|auto]|intros H; inversion H; auto].
Qed.

(** the table a little-endian matrix is stored as *)
Definition le_table {P} (n : nat) (dat : list (list (nat * P))) : list (list (nat * P)) :=
  map (fun j => map (fun e => (flipped n (fst e), snd e)) (nth (flipped n j) dat [])) (seq 0 (2 ^ n)).

Lemma make_sparse_op_ok {P} ind (dat : list (list (nat * P))) order op : length ind <= 64 ->
  make_sparse_matrix_op ind dat order = Ok op <->
  (ind <> [] /\ length dat = 2 ^ length ind /\ Forall (fun r => r <> []) dat /\
   op = Sparse ind (match order with BigEndian => dat | LittleEndian => le_table (length ind) dat end)).
Proof.
  intros H64. unfold make_sparse_matrix_op. destruct ind as [|i ind]; cbn [length Nat.eqb].
  { split; [discriminate|]. intros (H & _). congruence. }
  cbn [length] in H64. destruct (Nat.eqb_spec (length dat) (2 ^ S (length ind))) as [E|E]; cbn [negb].
  2:{ split; [discriminate|]. intros (_ & H & _). contradiction. }
  destruct (existsb _ dat) eqn:X.
  { split; [discriminate|]. intros (_ & _ & H & _). apply existsb_empty in H. congruence. }
  apply existsb_empty in X. destruct order; cbn [bind].
  - split; [intros H; inversion H; repeat split; auto; discriminate|]. intros (_ & _ & _ & ->). reflexivity.
  - rewrite flip_rows_ok by (auto; lia). cbn [bind]. fold (le_table (S (length ind)) dat).
    split; [intros H; inversion H; repeat split; auto; discriminate|]. intros (_ & _ & _ & ->). reflexivity.
Qed.

Lemma make_sparse_op_never_panics {P} ind (dat : list (list (nat * P))) order p : length ind <= 64 ->
  make_sparse_matrix_op ind dat order <> Panic p.
Proof.
  intros H. unfold make_sparse_matrix_op. destruct (Nat.eqb_spec (length ind) 0); [discriminate|].
  destruct (Nat.eqb_spec (length dat) (2 ^ length ind)); [|discriminate]. cbn [negb].
  destruct (existsb _ _); [discriminate|].
  destruct order; [discriminate|]. rewrite flip_rows_ok by (auto; lia). discriminate.
Qed.

Section LE.
Context {P : Type} (N : num P) (L : num_laws N).

Lemma le_table_nth n (dat : list (list (nat * P))) j : j < 2 ^ n ->
  nth j (le_table n dat) [] = map (fun e => (flipped n (fst e), snd e)) (nth (flipped n j) dat []).
Proof. intros H. unfold le_table. rewrite nth_map_seq by auto. reflexivity. Qed.

Lemma op_mat_le ind ind' (dat : list (list (nat * P))) r c : length ind' = length ind ->
  length dat = 2 ^ length ind -> (forall row, In row dat -> forall e, In e row -> fst e < 2 ^ length ind) ->
  length r = length ind -> length c = length ind ->
  op_mat N (Sparse ind (le_table (length ind) dat)) r c = op_mat N (Sparse ind' dat) (rev r) (rev c).
Proof.
  intros Hi Hd R Hr Hc. cbn [op_mat].
  rewrite le_table_nth by (rewrite <- Hr; apply be_lt).
  rewrite (big_map N). rewrite <- Hr at 1. rewrite flipped_be. apply (big_ext N).
  intros e He. cbn [fst snd].
  assert (Re : fst e < 2 ^ length ind).
  { apply (R (nth (be (rev r)) dat [])); auto. apply nth_In. rewrite Hd, <- Hr, <- (rev_length r). apply be_lt. }
  destruct (Nat.eqb_spec (flipped (length ind) (fst e)) (be c)) as [E|E].
  - apply (f_equal (flipped (length ind))) in E. rewrite flipped_invol in E by auto.
    rewrite <- Hc in E at 1. rewrite flipped_be in E. rewrite E, Nat.eqb_refl. reflexivity.
  - destruct (Nat.eqb_spec (fst e) (be (rev c))) as [E2|E2]; [|reflexivity].
    exfalso. apply E. rewrite E2, <- flipped_be, Hc, flipped_invol; [reflexivity|]. rewrite <- Hc. apply be_lt.
Qed.

Lemma updl_rev x qs c : NoDup qs -> length c = length qs -> updl x (rev qs) (rev c) = updl x qs c.
Proof.
  intros ND H. apply updl_unique.
  - apply NoDup_rev. exact ND.
  - rewrite map_rev, updl_map by auto. reflexivity.
  - intros q Hq. rewrite <- in_rev in Hq. apply updl_notin. exact Hq.
Qed.

Lemma bools_rev k : Permutation (bools k) (map (@rev bool) (bools k)).
Proof.
  apply NoDup_Permutation.
  - apply NoDup_bools.
  - apply FinFun.Injective_map_NoDup; [|apply NoDup_bools].
    intros a b H. apply (f_equal (@rev bool)) in H. rewrite !rev_involutive in H. exact H.
  - intros c. rewrite in_map_iff, In_bools. split.
    + intros H. exists (rev c). rewrite rev_involutive. split; auto. apply In_bools. rewrite rev_length. exact H.
    + intros [d [<- H]]. apply In_bools in H. rewrite rev_length. exact H.
Qed.

Lemma act_rev qs M psi x : NoDup qs ->
  act N (rev qs) M psi x = act N qs (fun r c => M (rev r) (rev c)) psi x.
Proof.
  intros ND. unfold act. rewrite rev_length, (big_perm N L _ _ _ (bools_rev (length qs))), (big_map N).
  apply (big_ext N). intros c Hc. apply In_bools in Hc. rewrite map_rev, updl_rev by auto. reflexivity.
Qed.

(** The little-endian operator acts like the big-endian one on reversed indices. *)
Lemma act_le ind (dat : list (list (nat * P))) psi x : NoDup ind ->
  length dat = 2 ^ length ind -> (forall row, In row dat -> forall e, In e row -> fst e < 2 ^ length ind) ->
  act N ind (op_mat N (Sparse ind (le_table (length ind) dat))) psi x =
  act N (rev ind) (op_mat N (Sparse (rev ind) dat)) psi x.
Proof.
  intros ND Hd R. rewrite act_rev by auto. apply act_ext. intros r c Hr Hc.
  apply op_mat_le; auto. apply rev_length.
Qed.

Lemma le_table_wf ind (dat : list (list (nat * P))) : length dat = 2 ^ length ind ->
  wf_op (Sparse ind (le_table (length ind) dat)).
Proof.
  intros Hd. cbn. split.
  - unfold le_table. rewrite map_length, seq_length. reflexivity.
  - intros row Hr e He. apply in_map_iff in Hr. destruct Hr as [j [<- Hj]].
    apply in_map_iff in He. destruct He as [e' [<- _]]. apply flipped_lt.
Qed.

Lemma from_function_ok n (f : nat -> list (nat * P)) order : 1 <= n <= 64 ->
  make_sparse_matrix_from_function n f order =
  Ok (match order with
      | BigEndian => map f (seq 0 (2 ^ n))
      | LittleEndian => le_table n (map f (seq 0 (2 ^ n)))
      end).
Proof.
  intros Hn. unfold make_sparse_matrix_from_function. destruct order.
  - apply mapM_ok with (g := f). reflexivity.
  - unfold le_table. apply mapM_ok. intros i Hi. rewrite flip_bits_flipped by auto. cbn [bind].
    rewrite nth_map_seq by apply flipped_lt. apply mapM_ok. intros [c v] _. rewrite flip_bits_flipped by auto.
    reflexivity.
Qed.

Lemma from_function_agrees ind (f : nat -> list (nat * P)) : 1 <= length ind <= 64 ->
  Forall (fun r => r <> []) (map f (seq 0 (2 ^ length ind))) ->
  (d <- make_sparse_matrix_from_function (length ind) f LittleEndian ;; make_sparse_matrix_op ind d BigEndian) =
  (d <- make_sparse_matrix_from_function (length ind) f BigEndian ;; make_sparse_matrix_op ind d LittleEndian).
Proof.
  intros H F. rewrite !from_function_ok by auto. cbn [bind].
  assert (NE : ind <> []) by (intros ->; cbn in H; lia).
  transitivity (Ok (Sparse ind (le_table (length ind) (map f (seq 0 (2 ^ length ind)))))).
  - apply make_sparse_op_ok; [lia|]. repeat split; auto.
    + unfold le_table. rewrite map_length, seq_length. reflexivity.
    + apply Forall_forall. intros row Hr. apply in_map_iff in Hr. destruct Hr as [j [<- Hj]].
      intros E. apply map_eq_nil in E. rewrite Forall_forall in F.
      apply (F (nth (flipped (length ind) j) (map f (seq 0 (2 ^ length ind))) [])); auto.
      apply nth_In. rewrite map_length, seq_length. apply flipped_lt.
  - symmetry. apply make_sparse_op_ok; [lia|]. repeat split; auto. rewrite map_length, seq_length. reflexivity.
Qed.

End LE.
