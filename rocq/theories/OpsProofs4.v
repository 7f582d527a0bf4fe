(** [apply_ops] with several operators, rows without entries included. *)
From Verif Require Import Base BitsModel BitsSpec BitsProofs OpsModel OpsSpec OpsProofs OpsProofs2 OpsProofs3.
Local Open Scope res_scope.

(** Specification: the iterator over row [r] of [op] is empty.  A zero that is stored in a sparse
    row counts as an entry. *)
Section Spec.
Context {P : Type} (N : num P).
Fixpoint blank_row (op : mop P) (r : list bool) : Prop :=
  match op with
  | Matrix ind data => forall c, length c = length ind -> op_mat N (Matrix ind data) r c = n0 N
  | Sparse _ rows => nth (be r) rows [] = []
  | Swap _ _ => False
  | Control nc _ op' => forallb (fun b => b) (firstn nc r) = true /\ blank_row op' (skipn nc r)
  end.
(** The row bits each operator reads: the first operator the last ones. *)
Fixpoint rows_read (ops : list (mop P)) (r : list bool) : list (mop P * list bool) :=
  match ops with
  | [] => []
  | op :: ops' => let k := length (op_indices op) in (op, skipn (length r - k) r) :: rows_read ops' (firstn (length r - k) r)
  end.
Definition meets_blank (ops : list (mop P)) (r : list bool) : Prop := Exists (fun e => blank_row (fst e) (snd e)) (rows_read ops r).
End Spec.

Section Proofs.
Context {P : Type} (N : num P) (L : num_laws N).

Lemma blank_items (op : mop P) : wf_op op -> forall r, length r = length (op_indices op) -> (op_items N op (be r) = [] <-> blank_row N op r).
Proof.
  induction op as [ind data|ind rows|n ind|nc ind op IH]; cbn [op_indices op_items blank_row]; intros W r Hr.
  - unfold dense_items. cbn [op_mat]. split.
    + intros E c Hc. destruct (nis0 N (nth (be r * 2 ^ length ind + be c) data (n0 N))) eqn:Z; [apply (l_is0 L); exact Z|].
      assert (I : In (be c, nth (be r * 2 ^ length ind + be c) data (n0 N))
        (filter (fun e => negb (nis0 N (snd e))) (map (fun c => (c, nth (be r * 2 ^ length ind + c) data (n0 N))) (seq 0 (2 ^ length ind))))).
      { apply filter_In. split; [|cbn [snd]; rewrite Z; reflexivity]. apply in_map_iff. exists (be c). split; [reflexivity|]. apply in_seq. assert (B := be_lt c). rewrite Hc in B. lia. }
      rewrite E in I. destruct I.
    + intros Z. set (l := filter _ _). destruct l as [|e l'] eqn:E; [reflexivity|]. exfalso. assert (I : In e l) by (rewrite E; left; reflexivity).
      unfold l in I. apply filter_In in I. destruct I as (I & J). apply in_map_iff in I. destruct I as (c & <- & Hc). apply in_seq in Hc. cbn [snd] in J.
      assert (Z' := Z (bits_be (length ind) c) (length_bits_be _ _)). rewrite be_bits_be in Z' by lia. rewrite Z' in J. rewrite (proj2 (l_is0 L (n0 N)) eq_refl) in J. discriminate.
  - reflexivity.
  - split; [discriminate|contradiction].
  - destruct W as [W1 W2]. cbn zeta. rewrite W1 in *.
    destruct (ctrl_row nc (length (op_indices op)) r Hr) as [C1 C2]. rewrite C1.
    destruct (forallb _ _) eqn:Ef.
    + rewrite C2 by auto. rewrite <- IH by (auto; rewrite skipn_length; lia). split.
      * intros E. split; [reflexivity|]. apply map_eq_nil in E. exact E.
      * intros (_ & ->). reflexivity.
    + split; [discriminate|intros (E & _); discriminate].
Qed.

Lemma blank_all ops : Forall wf_op ops -> forall r, length r = length (ops_indices ops) ->
  (meets_blank N ops r <-> Exists (fun o => o = []) (ops_items N ops r)).
Proof.
  induction 1 as [|op ops W Ws IH]; intros r Hr; [split; intros X; inversion X|].
  rewrite ops_indices_cons, app_length in Hr. unfold meets_blank. cbn [ops_items rows_read].
  rewrite !Exists_cons. cbn [fst snd]. rewrite blank_items by (auto; rewrite skipn_length; lia).
  fold (meets_blank N ops (firstn (length r - length (op_indices op)) r)). rewrite IH by (rewrite firstn_length; lia). tauto.
Qed.

(** The first item of the product already needs an entry of every operator. *)
Lemma multi_item_empty : forall outs ns acc, length ns = length outs -> Exists (fun o => o = []) outs ->
  foldM (fun '(acc_col, acc_val) '((cur_pos, n_pos), out) =>
    '(col, val) <- idx out cur_pos ;; Ok (Nat.lor (Nat.shiftl acc_col n_pos) col, nmul N acc_val val))
    (combine (combine (map (fun _ => 0) ns) ns) outs) acc = Panic PIndex.
Proof.
  induction outs as [|o outs IH]; intros [|k ns] [a v] H X; try discriminate; inversion X as [? ? E|? ? E]; subst.
  - reflexivity.
  - cbn [map combine foldM]. destruct o as [|[c w] o]; [reflexivity|]. cbn [idx nth_error bind]. apply IH; [cbn in H; lia|exact E].
Qed.
Lemma multi_empty ns (outs : list (list (nat * P))) : length ns = length outs -> Exists (fun o => o = []) outs ->
  collect (multi_fuel outs) (multi_iter N ns outs) (it_init (multi_iter N ns outs)) = Panic PIndex.
Proof.
  intros H X. unfold multi_fuel. cbn [collect multi_iter it_init it_next]. unfold multi_next, multi_item. rewrite multi_item_empty by assumption. reflexivity.
Qed.

Lemma exists_or ops r : Forall wf_op ops -> length r = length (ops_indices ops) ->
  meets_blank N ops r \/ Forall (fun o => o <> []) (ops_items N ops r).
Proof.
  intros W Hr. rewrite blank_all by assumption. clear. induction (ops_items N ops r) as [|o l IH]; [right; constructor|].
  destruct o; [left; left; reflexivity|]. destruct IH as [IH|IH]; [left; right; exact IH|right; constructor; [discriminate|exact IH]].
Qed.

Lemma apply_ops_row2 n ops input ioff row : Forall wf_op ops -> in_range n (ops_indices ops) -> row < 2 ^ n ->
  let r := map (dec n row) (ops_indices ops) in
  let run := (matrow <- full_to_sub n (ops_indices ops) row ;; sum_for_ops_cols N matrow ops (row_term N n input row ioff (ops_indices ops))) in
  (meets_blank N ops r -> run = Panic PIndex) /\ (~ meets_blank N ops r -> run = Ok (ops_row_value N n ops input ioff row)).
Proof.
  intros W I Hrow r run. unfold run. rewrite full_to_sub_ok by auto. cbn [bind]. unfold sum_for_ops_cols. fold r.
  assert (Lr : length r = length (ops_indices ops)) by apply map_length.
  rewrite mapM_ok with (g := fun o => length (op_indices o)).
  2:{ intros o Ho. apply wf_num_indices. rewrite Forall_forall in W. auto. }
  cbn [bind]. rewrite (ops_outputs_ok N) by auto. cbn [bind]. split.
  - intros B. apply blank_all in B; auto. rewrite multi_empty; [reflexivity|rewrite map_length, length_ops_items; reflexivity|exact B].
  - intros B. destruct (exists_or ops r W Lr) as [Y|NE]; [contradiction|].
    rewrite (multi_collect N) by (try (rewrite map_length, length_ops_items; reflexivity); exact NE). cbn [bind].
    rewrite mapM_ok with (g := fun e => nmul N (snd e)
      (amp_off N ioff input (enc n (updl (dec n row) (ops_indices ops) (bits_be (length (ops_indices ops)) (fst e)))))).
    + cbn [bind]. f_equal. rewrite (nsum_big N L), !(big_map N).
      assert (B' := big_product N L ops W r [] (n1 N) (fun c => amp_off N ioff input (enc n (updl (dec n row) (ops_indices ops) c))) Lr).
      change (be []) with 0 in B'. cbn [length Nat.add app] in B'. cbn zeta in B'.
      unfold combo. unfold combo_from in B'. rewrite B'. unfold ops_row_value. fold r. apply (big_ext N). intros c _. rewrite (l_mul_1 L). reflexivity.
    + intros [i v] He'. cbn [fst snd]. unfold row_term. apply in_map_iff in He'. destruct He' as [es [E Hes]].
      assert (Hi : i < 2 ^ length (ops_indices ops)).
      { assert (B' := combo_range N ops W r [] (n1 N) es Lr Hes). change (be []) with 0 in B'. unfold combo in E. unfold combo_from in B'. rewrite E in B'. exact B'. }
      rewrite <- (be_bits_be _ _ Hi) at 1.
      rewrite sub_to_full_ok by (auto; apply length_bits_be). cbn [bind].
      set (cb := enc n _). unfold amp_off. destruct (Nat.ltb_spec cb ioff).
      * rewrite (l_mul_0r L). reflexivity.
      * destruct (Nat.leb_spec (length input) (cb - ioff)).
        -- rewrite nth_default by lia. rewrite (l_mul_0r L). reflexivity.
        -- rewrite (idx_ok input (n0 N)) by lia. reflexivity.
Qed.

Lemma mapM_panic {A B} (f : A -> res B) p : forall l, (forall a, In a l -> f a = Panic p \/ exists b, f a = Ok b) -> (exists a, In a l /\ f a = Panic p) -> mapM f l = Panic p.
Proof.
  induction l as [|a l IH]; intros H (x & I & E); [destruct I|]. cbn [mapM]. destruct (H a (or_introl eq_refl)) as [->|(b & Eb)]; [reflexivity|]. rewrite Eb. cbn [bind].
  rewrite IH; [reflexivity|intros y Hy; apply H; right; exact Hy|]. destruct I as [->|I]; [congruence|]. exists x. auto.
Qed.
Lemma in_enumerate {A} (l : list A) d i a : In (i, a) (enumerate l) <-> i < length l /\ a = nth i l d.
Proof.
  unfold enumerate. split.
  - intros H. assert (G : forall (l : list A) k, In (i, a) (combine (seq k (length l)) l) -> k <= i /\ i - k < length l /\ a = nth (i - k) l d).
    { clear. induction l as [|b l IH]; intros k H; [destruct H|]. cbn in H. destruct H as [E|H]; [injection E as -> ->; rewrite Nat.sub_diag; cbn; repeat split; lia|].
      destruct (IH (S k) H) as (H1 & H2 & H3). split; [lia|]. replace (i - k) with (S (i - S k)) by lia. cbn. split; [lia|exact H3]. }
    destruct (G l 0 H) as (_ & H1 & H2). rewrite Nat.sub_0_r in *. auto.
  - intros (H & ->). assert (G : forall (l : list A) k j, j < length l -> In (k + j, nth j l d) (combine (seq k (length l)) l)).
    { clear. induction l as [|b l IH]; intros k j H; cbn in H; [lia|]. destruct j as [|j]; cbn; [left; f_equal; lia|]. right. replace (k + S j) with (S k + j) by lia. apply IH. lia. }
    apply (G l 0 i H).
Qed.

Lemma apply_ops_exact n ops input output ioff ooff : 2 <= length ops -> Forall wf_op ops -> in_range n (ops_indices ops) -> ooff + length output <= 2 ^ n ->
  let bits i := map (dec n (ooff + i)) (ops_indices ops) in
  ((exists i, i < length output /\ meets_blank N ops (bits i)) -> apply_ops N n ops input output ioff ooff = Panic PIndex) /\
  ((forall i, i < length output -> ~ meets_blank N ops (bits i)) -> apply_ops N n ops input output ioff ooff =
     Ok (map (fun j => nadd N (nth j output (n0 N)) (ops_row_value N n ops input ioff (ooff + j))) (seq 0 (length output)))).
Proof.
  intros H2 W I B bits.
  assert (E : apply_ops N n ops input output ioff ooff =
    (mis <- mapM mat_indices ops ;;
     mapM (fun '(outputrow, outputloc) =>
        matrow <- full_to_sub n (concat mis) (ooff + outputrow) ;;
        v <- sum_for_ops_cols N matrow ops (row_term N n input (ooff + outputrow) ioff (concat mis)) ;;
        Ok (nadd N outputloc v)) (enumerate output))).
  { destruct ops as [|a [|b ops]]; cbn in H2; try lia. reflexivity. }
  rewrite E. rewrite mapM_ok with (g := op_indices).
  2:{ intros o Ho. apply (wf_mat_indices). rewrite Forall_forall in W. auto. }
  cbn [bind]. change (concat (map op_indices ops)) with (ops_indices ops).
  assert (Row : forall i, i < length output -> forall v,
    (meets_blank N ops (bits i) -> (matrow <- full_to_sub n (ops_indices ops) (ooff + i) ;;
        x <- sum_for_ops_cols N matrow ops (row_term N n input (ooff + i) ioff (ops_indices ops)) ;; Ok (nadd N v x)) = Panic PIndex) /\
    (~ meets_blank N ops (bits i) -> (matrow <- full_to_sub n (ops_indices ops) (ooff + i) ;;
        x <- sum_for_ops_cols N matrow ops (row_term N n input (ooff + i) ioff (ops_indices ops)) ;; Ok (nadd N v x)) = Ok (nadd N v (ops_row_value N n ops input ioff (ooff + i))))).
  { intros i Hi v. destruct (apply_ops_row2 n ops input ioff (ooff + i) W I ltac:(lia)) as (R1 & R2). cbn zeta in R1, R2. fold (bits i) in R1, R2.
    rewrite full_to_sub_ok in * by (auto; lia). cbn [bind] in *. split; intros X; [rewrite R1|rewrite R2]; auto. }
  split.
  - intros (i & Hi & X). apply mapM_panic.
    + intros [j v] Hj. apply (in_enumerate output (n0 N)) in Hj. destruct Hj as (Hj & ->). destruct (Row j Hj (nth j output (n0 N))) as (R1 & R2).
      destruct (exists_or ops (bits j) W (map_length _ _)) as [Y|Y]; [left; apply R1; exact Y|]. right. eexists. apply R2. intros Z. apply blank_all in Z; [|exact W|apply map_length].
      clear -Y Z. induction Z as [o l ->|o l Z IH]; inversion Y; subst; auto.
    + exists (i, nth i output (n0 N)). split; [apply (in_enumerate output (n0 N)); auto|]. apply Row; auto.
  - intros X. apply mapM_enumerate with (g := fun i a => nadd N a (ops_row_value N n ops input ioff (ooff + i))).
    intros i Hi. apply Row; auto.
Qed.

(** On whole states every row is met. *)
Lemma read_any : forall (ops : list (mop P)) op s, In op ops -> length s = length (op_indices op) -> exists r, length r = length (ops_indices ops) /\ In (op, s) (rows_read ops r).
Proof.
  induction ops as [|o ops IH]; intros op s I Hs; [destruct I|]. destruct I as [->|I].
  - exists (repeat false (length (ops_indices ops)) ++ s). rewrite ops_indices_cons, !app_length, repeat_length. split; [lia|]. cbn [rows_read]. left. f_equal.
    rewrite app_length, repeat_length. replace (_ + _ - _) with (length (repeat false (length (ops_indices ops)))) by (rewrite repeat_length; lia).
    rewrite skipn_app, skipn_all, Nat.sub_diag. reflexivity.
  - destruct (IH op s I Hs) as (r & Lr & Hr). exists (r ++ repeat false (length (op_indices o))). rewrite ops_indices_cons, !app_length, repeat_length. split; [lia|].
    cbn [rows_read]. right. rewrite app_length, repeat_length. replace (_ + _ - _) with (length r) by lia. rewrite firstn_app, firstn_all, Nat.sub_diag, app_nil_r. exact Hr.
Qed.
Lemma apply_ops_blank n ops input output : 2 <= length ops -> Forall wf_op ops -> NoDup (ops_indices ops) -> in_range n (ops_indices ops) ->
  length output = 2 ^ n -> (exists op r, In op ops /\ length r = length (op_indices op) /\ blank_row N op r) -> apply_ops N n ops input output 0 0 = Panic PIndex.
Proof.
  intros H2 W ND I Ho (op & s & Iop & Hs & Bs). destruct (read_any ops op s Iop Hs) as (r & Lr & Hr).
  apply apply_ops_exact; auto; [lia|]. exists (enc n (updl (fun _ => false) (ops_indices ops) r)). split; [rewrite Ho; apply enc_lt|].
  cbn [Nat.add]. assert (E : map (dec n (enc n (updl (fun _ => false) (ops_indices ops) r))) (ops_indices ops) = r).
  { transitivity (map (updl (fun _ => false) (ops_indices ops) r) (ops_indices ops)); [|apply updl_map; auto]. apply map_ext_in. intros q Hq. rewrite dec_enc. rewrite (proj2 (Nat.ltb_lt q n)) by (apply I; exact Hq). reflexivity. }
  rewrite E. unfold meets_blank. apply Exists_exists. exists (op, s). auto.
Qed.
Lemma read_all : forall (ops : list (mop P)) r op s, length r = length (ops_indices ops) -> In (op, s) (rows_read ops r) -> In op ops /\ length s = length (op_indices op).
Proof.
  induction ops as [|o ops IH]; intros r op s Hr I; [destruct I|]. rewrite ops_indices_cons, app_length in Hr. cbn [rows_read] in I. destruct I as [E|I].
  - injection E as <- <-. split; [left; reflexivity|]. rewrite skipn_length. lia.
  - apply IH in I; [|rewrite firstn_length; lia]. destruct I as (I & Hs). split; [right; exact I|exact Hs].
Qed.
Lemma apply_ops_cases n ops input output : 2 <= length ops -> Forall wf_op ops -> NoDup (ops_indices ops) -> in_range n (ops_indices ops) ->
  length input = 2 ^ n -> length output = 2 ^ n ->
  let blank := exists op r, In op ops /\ length r = length (op_indices op) /\ blank_row N op r in
  (blank /\ apply_ops N n ops input output 0 0 = Panic PIndex) \/
  (~ blank /\ exists out', apply_ops N n ops input output 0 0 = Ok out' /\ length out' = 2 ^ n /\
    forall x, st_of N n out' x =
      nadd N (st_of N n output x) (act N (ops_indices ops) (ops_actual N ops) (st_of N n input) x)).
Proof.
  intros H2 W ND I Hi Ho blank.
  assert (Dec : forall k, (exists i, i < k /\ meets_blank N ops (map (dec n (0 + i)) (ops_indices ops))) \/ (forall i, i < k -> ~ meets_blank N ops (map (dec n (0 + i)) (ops_indices ops)))).
  { induction k as [|k IH]; [right; lia|]. destruct IH as [(i & A & B)|IH]; [left; exists i; split; [lia|exact B]|].
    destruct (exists_or ops (map (dec n (0 + k)) (ops_indices ops)) W (map_length _ _)) as [Y|Y]; [left; exists k; split; [lia|exact Y]|].
    right. intros i Hik. destruct (Nat.eq_dec i k) as [->|Ne]; [|apply IH; lia]. intros Z. apply blank_all in Z; [|exact W|apply map_length].
    clear -Y Z. induction Z as [o l ->|o l Z IH]; inversion Y; subst; auto. }
  destruct (apply_ops_exact n ops input output 0 0 H2 W I ltac:(lia)) as (E1 & E2). cbn zeta in E1, E2.
  destruct (Dec (length output)) as [X|X].
  - left. split; [|apply E1; exact X]. destruct X as (i & _ & B). unfold meets_blank in B. apply Exists_exists in B. destruct B as ((op & s) & Ip & B).
    apply read_all in Ip; [|apply map_length]. exists op, s. tauto.
  - right. split.
    + intros B. assert (Y := apply_ops_blank n ops input output H2 W ND I Ho B). rewrite (E2 X) in Y. discriminate.
    + rewrite (E2 X). eexists. split; [reflexivity|]. split; [rewrite map_length, seq_length; exact Ho|].
      intros x. unfold st_of at 1. assert (B := enc_lt n x). rewrite nth_map_seq by lia. cbn [Nat.add]. rewrite (ops_row_value_act N) by auto. reflexivity.
Qed.
End Proofs.
