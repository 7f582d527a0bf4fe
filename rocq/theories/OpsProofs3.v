(** What [apply_ops] with several operators computes, and how it differs from the tensor product. *)
From Verif Require Import Base BitsModel BitsSpec BitsProofs OpsModel OpsSpec OpsProofs OpsProofs2.
Local Open Scope res_scope.

(** Specification: the tensor product of the operators' matrices on the concatenated indices,
    and the matrix [apply_ops] really uses, where the first operator reads the LAST row bits. *)
Section Spec.
Context {P : Type} (N : num P).
Fixpoint ops_tensor (ops : list (mop P)) (r c : list bool) : P :=
  match ops with
  | [] => n1 N
  | op :: ops' =>
      let k := length (op_indices op) in
      nmul N (op_mat N op (firstn k r) (firstn k c)) (ops_tensor ops' (skipn k r) (skipn k c))
  end.
Fixpoint ops_actual (ops : list (mop P)) (r c : list bool) : P :=
  match ops with
  | [] => n1 N
  | op :: ops' =>
      let k := length (op_indices op) in
      nmul N (op_mat N op (skipn (length r - k) r) (firstn k c))
        (ops_actual ops' (firstn (length r - k) r) (skipn k c))
  end.
(** every row of the matrix has an entry the iterator yields *)
Fixpoint rows_nonempty (op : mop P) : Prop :=
  match op with
  | Matrix ind data =>
      forall r, length r = length ind -> exists c, length c = length ind /\ op_mat N (Matrix ind data) r c <> n0 N
  | Sparse _ rows => forall row, In row rows -> row <> []
  | Swap _ _ => True
  | Control _ _ op' => rows_nonempty op'
  end.
Definition ops_indices (ops : list (mop P)) : list nat := concat (map op_indices ops).
End Spec.

Section Proofs.
Context {P : Type} (N : num P) (L : num_laws N).
Local Notation big := (big N).

Fixpoint ops_items (ops : list (mop P)) (r : list bool) : list (list (nat * P)) :=
  match ops with
  | [] => []
  | op :: ops' =>
      let k := length (op_indices op) in
      op_items N op (be (skipn (length r - k) r)) :: ops_items ops' (firstn (length r - k) r)
  end.

Lemma wf_num_indices (op : mop P) : wf_op op -> num_indices op = Ok (length (op_indices op)).
Proof.
  destruct op as [ind data|ind rows|n ind|nc ind op]; cbn; auto.
  intros W. rewrite W. replace (n * 2) with (n + n) by lia. rewrite Nat.eqb_refl. reflexivity.
Qed.

Lemma be_split k r : k <= length r ->
  Nat.land (be r) (Nat.ones k) = be (skipn (length r - k) r) /\
  Nat.shiftr (be r) k = be (firstn (length r - k) r).
Proof.
  intros H. rewrite Nat.land_ones, Nat.shiftr_div_pow2.
  assert (E : be r = be (firstn (length r - k) r) * 2 ^ k + be (skipn (length r - k) r)).
  { rewrite <- (firstn_skipn (length r - k) r) at 1. rewrite be_app_gen, skipn_length.
    replace (length r - (length r - k)) with k by lia. reflexivity. }
  assert (B := be_lt (skipn (length r - k) r)). rewrite skipn_length in B.
  replace (length r - (length r - k)) with k in B by lia. assert (p := pow2_pos k).
  split.
  - symmetry. apply (Nat.mod_unique _ _ (be (firstn (length r - k) r))); lia.
  - symmetry. apply (Nat.div_unique _ _ _ (be (skipn (length r - k) r))); lia.
Qed.

Lemma ops_indices_cons (op : mop P) ops : ops_indices (op :: ops) = op_indices op ++ ops_indices ops.
Proof. reflexivity. Qed.

Lemma ops_outputs_ok ops : Forall wf_op ops -> forall r, length r = length (ops_indices ops) ->
  ops_outputs N ops (be r) = Ok (ops_items ops r).
Proof.
  induction 1 as [|op ops W Ws IH]; intros r Hr; [reflexivity|].
  cbn [ops_outputs ops_items]. rewrite ops_indices_cons, app_length in Hr.
  rewrite wf_num_indices by auto. cbn [bind].
  destruct (be_split (length (op_indices op)) r) as [E1 E2]; [lia|]. rewrite E1, E2.
  rewrite (op_collect_items N).
  - cbn [bind]. rewrite IH by (rewrite firstn_length; lia). reflexivity.
  - exact W.
  - replace (length (op_indices op)) with (length (skipn (length r - length (op_indices op)) r)) at 2
      by (rewrite skipn_length; lia). apply be_lt.
Qed.

Lemma op_items_nonempty (op : mop P) : wf_op op -> rows_nonempty N op ->
  forall r, length r = length (op_indices op) -> op_items N op (be r) <> [].
Proof.
  induction op as [ind data|ind rows|n ind|nc ind op IH]; cbn [rows_nonempty op_indices op_items]; intros W R r Hr.
  - destruct (R r Hr) as [c [Hc Hne]]. cbn [op_mat] in Hne. unfold dense_items. intros E.
    assert (I : In (be c, nth (be r * 2 ^ length ind + be c) data (n0 N))
      (filter (fun e => negb (nis0 N (snd e)))
         (map (fun c => (c, nth (be r * 2 ^ length ind + c) data (n0 N))) (seq 0 (2 ^ length ind))))).
    { apply filter_In. split.
      - apply in_map_iff. exists (be c). split; [reflexivity|]. apply in_seq.
        assert (B := be_lt c). rewrite Hc in B. lia.
      - cbn [snd]. destruct (nis0 N _) eqn:Z; [|reflexivity]. apply (l_is0 L) in Z. contradiction. }
    rewrite E in I. destruct I.
  - destruct W as [W1 W2]. apply R. apply nth_In. rewrite W1, <- Hr. apply be_lt.
  - discriminate.
  - destruct W as [W1 W2]. cbn zeta. rewrite W1 in *.
    destruct (ctrl_row nc (length (op_indices op)) r Hr) as [C1 C2]. rewrite C1.
    destruct (forallb _ _).
    + rewrite C2 by auto. intros E. apply map_eq_nil in E. revert E. apply IH; auto.
      rewrite skipn_length. lia.
    + discriminate.
Qed.

Lemma ops_items_nonempty ops : Forall wf_op ops -> Forall (rows_nonempty N) ops ->
  forall r, length r = length (ops_indices ops) -> Forall (fun o => o <> []) (ops_items ops r).
Proof.
  induction 1 as [|op ops W Ws IH]; intros R r Hr; [constructor|]. inversion R; subst.
  rewrite ops_indices_cons, app_length in Hr. cbn [ops_items]. constructor.
  - apply op_items_nonempty; auto. rewrite skipn_length. lia.
  - apply IH; auto. rewrite firstn_length. lia.
Qed.

Lemma length_ops_items ops : forall r, length (ops_items ops r) = length ops.
Proof. induction ops as [|op ops IH]; intros r; cbn; [reflexivity|]. f_equal. apply IH. Qed.

Lemma lor_be_app pre k col : col < 2 ^ k ->
  Nat.lor (Nat.shiftl (be pre) k) col = be (pre ++ bits_be k col).
Proof.
  intros H. rewrite be_app_gen, length_bits_be, be_bits_be by auto.
  rewrite Nat.shiftl_mul_pow2. apply Nat.bits_inj. intros i.
  rewrite Nat.lor_spec.
  destruct (Nat.lt_ge_cases i k).
  - rewrite Nat.mul_pow2_bits_low by auto. cbn [orb].
    rewrite <- (Nat.mod_pow2_bits_low (be pre * 2 ^ k + col) k i) by auto.
    rewrite Nat.add_comm, Nat.mod_add, Nat.mod_small by (auto; apply Nat.pow_nonzero; lia). reflexivity.
  - rewrite (testbit_high col k i) by auto. rewrite orb_false_r, Nat.mul_pow2_bits_high by auto.
    replace i with ((i - k) + k) at 2 by lia. rewrite <- Nat.div_pow2_bits, Nat.div_add_l, Nat.div_small, Nat.add_0_r
      by (auto; apply Nat.pow_nonzero; lia). reflexivity.
Qed.

Definition combo_from (acc : nat * P) (ns : list nat) (es : list (nat * P)) : nat * P :=
  fold_left (fun '(c, v) '(n, (col, val)) => (Nat.lor (Nat.shiftl c n) col, nmul N v val)) (combine ns es) acc.

Lemma big_product ops : Forall wf_op ops -> forall r pre v (g : list bool -> P),
  length r = length (ops_indices ops) ->
  big (fun es => let e := combo_from (be pre, v) (map (fun o => length (op_indices o)) ops) es in
                 nmul N (snd e) (g (bits_be (length pre + length (ops_indices ops)) (fst e))))
    (product (ops_items ops r)) =
  big (fun c => nmul N (nmul N v (ops_actual N ops r c)) (g (pre ++ c))) (bools (length (ops_indices ops))).
Proof.
  induction 1 as [|op ops W Ws IH]; intros r pre v g Hr.
  - cbn. rewrite !(add_0r N L), (l_mul_1r L), Nat.add_0_r, bits_be_be, app_nil_r. reflexivity.
  - cbn [ops_items product map]. rewrite ops_indices_cons, app_length in *.
    set (k := length (op_indices op)) in *.
    rewrite (big_flat_map N L).
    assert (Lk : length (skipn (length r - k) r) = k) by (rewrite skipn_length; lia).
    assert (Lf : length (firstn (length r - k) r) = length (ops_indices ops)) by (rewrite firstn_length; lia).
    set (G := fun c1 => big (fun c2 => nmul N (ops_actual N ops (firstn (length r - k) r) c2)
        (g (pre ++ c1 ++ c2))) (bools (length (ops_indices ops)))).
    transitivity (big (fun e => nmul N v (nmul N (snd e) (G (bits_be k (fst e)))))
        (op_items N op (be (skipn (length r - k) r)))).
    + apply (big_ext N). intros [col val] He.
      assert (Hc : col < 2 ^ k).
      { apply (op_items_range N op W) in He; auto. fold k. assert (B := be_lt (skipn (length r - k) r)). rewrite Lk in B. exact B. }
      rewrite (big_map N). cbn [combo_from combine fold_left fst snd].
      rewrite lor_be_app by auto.
      specialize (IH (firstn (length r - k) r) (pre ++ bits_be k col) (nmul N v val) g Lf).
      unfold combo_from in IH. rewrite app_length, length_bits_be, <- Nat.add_assoc in IH. cbn zeta in IH.
      rewrite IH. unfold G. rewrite !(big_mul_l N L). apply (big_ext N). intros c2 _.
      rewrite <- app_assoc, !(l_mul_assoc L). reflexivity.
    + rewrite <- (big_mul_l N L). unfold k. rewrite (op_items_sum N L op W) by auto. fold k.
      rewrite (big_mul_l N L), (big_bools_app N L). apply (big_ext N). intros c1 Hc1.
      apply In_bools in Hc1. unfold G. rewrite !(big_mul_l N L). apply (big_ext N). intros c2 Hc2.
      cbn [ops_actual]. fold k.
      assert (F1 : firstn k (c1 ++ c2) = c1).
      { rewrite firstn_app, Hc1, Nat.sub_diag, firstn_all2 by lia. apply app_nil_r. }
      assert (F2 : skipn k (c1 ++ c2) = c2).
      { rewrite skipn_app, Hc1, Nat.sub_diag, skipn_all2 by lia. reflexivity. }
      rewrite F1, F2, !(l_mul_assoc L). reflexivity.
Qed.

Definition ops_row_value (n : nat) (ops : list (mop P)) (input : list P) (ioff row : nat) : P :=
  big (fun c => nmul N (ops_actual N ops (map (dec n row) (ops_indices ops)) c)
                       (amp_off N ioff input (enc n (updl (dec n row) (ops_indices ops) c))))
    (bools (length (ops_indices ops))).

Lemma combo_range ops : Forall wf_op ops -> forall r pre v es,
  length r = length (ops_indices ops) -> In es (product (ops_items ops r)) ->
  fst (combo_from (be pre, v) (map (fun o => length (op_indices o)) ops) es) <
  2 ^ (length pre + length (ops_indices ops)).
Proof.
  induction 1 as [|op ops W Ws IH]; intros r pre v es Hr I; cbn [ops_items product map] in *.
  - destruct I as [<-|[]]. cbn. rewrite Nat.add_0_r. apply be_lt.
  - rewrite ops_indices_cons, app_length in *. set (k := length (op_indices op)) in *.
    apply in_flat_map in I. destruct I as [[col val] [I1 I2]]. apply in_map_iff in I2.
    destruct I2 as [es' [<- I2]]. cbn [combo_from combine fold_left].
    assert (Lk : length (skipn (length r - k) r) = k) by (rewrite skipn_length; lia).
    assert (Hc : col < 2 ^ k).
    { apply (op_items_range N op W) in I1; auto. fold k. assert (B := be_lt (skipn (length r - k) r)). rewrite Lk in B. exact B. }
    rewrite lor_be_app by auto.
    specialize (IH (firstn (length r - k) r) (pre ++ bits_be k col) (nmul N v val) es').
    rewrite app_length, length_bits_be, <- Nat.add_assoc in IH. apply IH; auto. rewrite firstn_length. lia.
Qed.

Lemma apply_ops_row n ops input ioff row :
  Forall wf_op ops -> Forall (rows_nonempty N) ops -> in_range n (ops_indices ops) -> row < 2 ^ n ->
  (matrow <- full_to_sub n (ops_indices ops) row ;;
   sum_for_ops_cols N matrow ops (row_term N n input row ioff (ops_indices ops))) =
  Ok (ops_row_value n ops input ioff row).
Proof.
  intros W R I Hrow. rewrite full_to_sub_ok by auto. cbn [bind]. unfold sum_for_ops_cols.
  set (r := map (dec n row) (ops_indices ops)).
  assert (Lr : length r = length (ops_indices ops)) by apply map_length.
  rewrite mapM_ok with (g := fun o => length (op_indices o)).
  2:{ intros o Ho. apply wf_num_indices. rewrite Forall_forall in W. auto. }
  cbn [bind]. rewrite ops_outputs_ok by auto. cbn [bind].
  rewrite (multi_collect N) by
    (try (rewrite map_length, length_ops_items; reflexivity); apply ops_items_nonempty; auto).
  cbn [bind].
  rewrite mapM_ok with (g := fun e => nmul N (snd e)
    (amp_off N ioff input (enc n (updl (dec n row) (ops_indices ops) (bits_be (length (ops_indices ops)) (fst e)))))).
  - cbn [bind]. f_equal. rewrite (nsum_big N L), !(big_map N).
    assert (B := big_product ops W r [] (n1 N)
      (fun c => amp_off N ioff input (enc n (updl (dec n row) (ops_indices ops) c))) Lr).
    change (be []) with 0 in B. cbn [length Nat.add app] in B. cbn zeta in B.
    unfold combo. unfold combo_from in B. rewrite B. unfold ops_row_value. fold r. apply (big_ext N). intros c _.
    rewrite (l_mul_1 L). reflexivity.
  - intros [i v] He. cbn [fst snd]. unfold row_term. apply in_map_iff in He. destruct He as [es [E Hes]].
    assert (Hi : i < 2 ^ length (ops_indices ops)).
    { assert (B := combo_range ops W r [] (n1 N) es Lr Hes). change (be []) with 0 in B.
      unfold combo in E. unfold combo_from in B. rewrite E in B. exact B. }
    rewrite <- (be_bits_be _ _ Hi) at 1.
    rewrite sub_to_full_ok by (auto; apply length_bits_be). cbn [bind].
    set (cb := enc n _). unfold amp_off. destruct (Nat.ltb_spec cb ioff).
    + rewrite (l_mul_0r L). reflexivity.
    + destruct (Nat.leb_spec (length input) (cb - ioff)).
      * rewrite nth_default by lia. rewrite (l_mul_0r L). reflexivity.
      * rewrite (idx_ok input (n0 N)) by lia. reflexivity.
Qed.

Lemma apply_ops_ok n ops input output ioff ooff : 2 <= length ops ->
  Forall wf_op ops -> Forall (rows_nonempty N) ops -> in_range n (ops_indices ops) ->
  ooff + length output <= 2 ^ n ->
  apply_ops N n ops input output ioff ooff =
  Ok (map (fun j => nadd N (nth j output (n0 N)) (ops_row_value n ops input ioff (ooff + j)))
        (seq 0 (length output))).
Proof.
  intros H2 W R I B.
  assert (E : apply_ops N n ops input output ioff ooff =
    (mis <- mapM mat_indices ops ;;
     mapM (fun '(outputrow, outputloc) =>
        matrow <- full_to_sub n (concat mis) (ooff + outputrow) ;;
        v <- sum_for_ops_cols N matrow ops (row_term N n input (ooff + outputrow) ioff (concat mis)) ;;
        Ok (nadd N outputloc v)) (enumerate output))).
  { destruct ops as [|a [|b ops]]; cbn in H2; try lia. reflexivity. }
  rewrite E. rewrite mapM_ok with (g := op_indices).
  2:{ intros o Ho. apply (wf_mat_indices). rewrite Forall_forall in W. auto. }
  cbn [bind]. change (concat (map op_indices ops)) with (ops_indices ops).
  apply mapM_enumerate with (g := fun i a => nadd N a (ops_row_value n ops input ioff (ooff + i))).
  intros i Hi. assert (A := apply_ops_row n ops input ioff (ooff + i) W R I ltac:(lia)).
  apply bind_ok in A. destruct A as [m [E1 E2]]. rewrite E1. cbn [bind]. rewrite E2. reflexivity.
Qed.

Lemma ops_row_value_act n ops input x : length input = 2 ^ n -> in_range n (ops_indices ops) ->
  ops_row_value n ops input 0 (enc n x) = act N (ops_indices ops) (ops_actual N ops) (st_of N n input) x.
Proof.
  intros Hl R. unfold ops_row_value, act.
  assert (E : map (dec n (enc n x)) (ops_indices ops) = map x (ops_indices ops)).
  { apply map_ext_in. intros q Hq. rewrite dec_enc. destruct (Nat.ltb_spec q n); [reflexivity|].
    apply R in Hq. lia. }
  rewrite E. apply (big_ext N). intros c Hc. f_equal. unfold amp_off, st_of.
  change (enc n (updl (dec n (enc n x)) (ops_indices ops) c) <? 0) with false. cbn iota. rewrite Nat.sub_0_r.
  f_equal. apply enc_ext. apply updl_ext_n. intros q Hq. rewrite dec_enc.
  destruct (Nat.ltb_spec q n); [reflexivity|lia].
Qed.

Lemma apply_ops_act n ops input output : 2 <= length ops ->
  Forall wf_op ops -> Forall (rows_nonempty N) ops -> in_range n (ops_indices ops) ->
  length input = 2 ^ n -> length output = 2 ^ n ->
  exists out', apply_ops N n ops input output 0 0 = Ok out' /\ length out' = 2 ^ n /\
    forall x, st_of N n out' x =
      nadd N (st_of N n output x) (act N (ops_indices ops) (ops_actual N ops) (st_of N n input) x).
Proof.
  intros H2 W R I Hi Ho. rewrite apply_ops_ok by (auto; lia). eexists. split; [reflexivity|].
  split. { rewrite map_length, seq_length. exact Ho. }
  intros x. unfold st_of at 1. assert (B := enc_lt n x).
  rewrite nth_map_seq by lia. cbn [Nat.add]. rewrite ops_row_value_act by auto. reflexivity.
Qed.

Lemma apply_ops_nil n input output : length input = length output ->
  apply_ops N n [] input output 0 0 = Ok input.
Proof.
  intros H. unfold apply_ops. cbn [Nat.max Nat.add]. rewrite H, Nat.min_id.
  rewrite !chk_sub_ok by lia. cbn [bind]. rewrite Nat.sub_diag, Nat.sub_0_r. unfold slice.
  rewrite H, Nat.leb_refl. cbn [Nat.leb andb bind skipn]. rewrite Nat.sub_0_r, firstn_all, <- H, firstn_all, H, skipn_all.
  cbn [firstn app]. rewrite app_nil_r. f_equal.
  clear -H. revert output H. induction input as [|a input IH]; intros [|b output]; cbn; intros; try lia; auto.
  f_equal. auto.
Qed.

Lemma apply_ops_single n op input output ioff ooff :
  apply_ops N n [op] input output ioff ooff = apply_op N n op input output ioff ooff.
Proof. reflexivity. Qed.

End Proofs.
