(** Words: several operators at once, function and sparse operators, inverting. *)
From Coq Require Import Reals NArith ZArith.
From Coquelicot Require Import Complex.
From Verif Require Import Base BitsModel BitsSpec BitsProofs BitsProofs2 OpsModel OpsSpec OpsProofs OpsProofs2 OpsProofs3 StateOpsModel WordModel WordSpec WordProofs WordModel2.
Local Open Scope nat_scope.

Lemma collect_same {P} S (next wnext : S -> res (option (nat * P) * S)) init (I : S -> Prop) :
  (forall s, I s -> wnext s = next s) -> (forall s o s', I s -> next s = Ok (o, s') -> I s') ->
  forall fuel s, I s -> collect fuel (mkIter wnext init) s = collect fuel (mkIter next init) s.
Proof.
  intros H1 H2. induction fuel as [|fuel IH]; intros s Hs; [reflexivity|]. cbn [collect it_next]. rewrite H1 by exact Hs.
  destruct (next s) as [[o s']| |] eqn:E; cbn [bind]; try reflexivity. destruct o; [|reflexivity]. rewrite IH by (eapply H2; eauto). reflexivity.
Qed.
Lemma lor_lt k a b : a < 2 ^ k -> b < 2 ^ k -> Nat.lor a b < 2 ^ k.
Proof.
  intros Ha Hb. apply bits_lt. intros i Hi. rewrite Nat.lor_spec, (testbit_high a k i Ha Hi), (testbit_high b k i Hb Hi). reflexivity.
Qed.

Section Build.
Variable m : build.
Section Ops.
Context {P : Type} (N : num P).

Lemma sum_cons k ns : list_sum (k :: ns) = k + list_sum ns.
Proof. reflexivity. Qed.

Lemma wmulti_item_ok ns outs poss : length ns = length outs ->
  Forall2 (fun k o => forall e : nat * P, In e o -> fst e < 2 ^ k) ns outs -> Forall (fun k => k <= 63) ns -> list_sum ns <= 64 ->
  wmulti_item m N ns outs poss = multi_item N ns outs poss.
Proof.
  intros _ F Small Sum. unfold wmulti_item, multi_item.
  assert (G : forall d acc v, acc < 2 ^ d -> d + list_sum ns <= 64 ->
    foldM (fun '(acc_col, acc_val) '((cur_pos, n_pos), out) => ('(col, val) <- idx out cur_pos ;; s <- wshl m acc_col n_pos ;; Ok (Nat.lor s col, nmul N acc_val val))%res) (combine (combine poss ns) outs) (acc, v) =
    foldM (fun '(acc_col, acc_val) '((cur_pos, n_pos), out) => ('(col, val) <- idx out cur_pos ;; Ok (Nat.lor (Nat.shiftl acc_col n_pos) col, nmul N acc_val val))%res) (combine (combine poss ns) outs) (acc, v)).
  2:{ apply (G 0 0 (n1 N)); [cbn; lia|exact Sum]. }
  clear Sum. revert poss Small. induction F as [|k o ns outs H F IH]; intros poss Small d acc v Ha Sum.
  - rewrite combine_nil. reflexivity.
  - destruct poss as [|p poss]; [reflexivity|]. cbn [combine foldM]. inversion Small as [|? ? Hk Small']. subst.
    rewrite sum_cons in Sum.
    destruct (idx o p) as [[col val]| |] eqn:E; cbn [bind]; try reflexivity.
    assert (B : Nat.shiftl acc k < 2 ^ (d + k)).
    { rewrite Nat.shiftl_mul_pow2, Nat.pow_add_r. apply Nat.mul_lt_mono_pos_r; [apply pow2_pos|exact Ha]. }
    rewrite wshl_ok; [|exact Hk|apply (fits_lt (d + k)); [lia|exact B]]. cbn [bind]. apply (IH poss Small' (d + k)); [|lia].
    apply lor_lt; [exact B|]. apply (pow_mono_lt _ k); [|lia]. apply (H (col, val)). 
    unfold idx in E. destruct (nth_error o p) eqn:En; [|discriminate]. inversion E. subst. eapply nth_error_In. exact En.
Qed.

Lemma wodometer_ok : forall ps ls, Forall (fun p => p < 2 ^ 63) ps -> wodometer m ps ls = Ok (odometer ps ls).
Proof.
  induction ps as [|p ps IH]; intros ls F; [destruct ls; reflexivity|]. destruct ls as [|l ls]; [reflexivity|]. cbn [wodometer odometer].
  inversion F as [|? ? Hp F']. subst. rewrite (wadd_ok m (S 63)); [|lia|rewrite Nat.pow_succ_r'; generalize dependent (2 ^ 63); intros; lia]. cbn [bind].
  destruct (p + 1 =? l); [|reflexivity]. rewrite IH by exact F'. cbn [bind]. destruct (odometer ps ls). reflexivity.
Qed.
Lemma odometer_lt : forall ps ls, Forall2 lt ps ls -> Forall2 lt (fst (odometer ps ls)) ls.
Proof.
  induction 1 as [|p l ps ls H F IH]; [constructor|]. cbn [odometer]. destruct (Nat.eqb_spec (p + 1) l) as [E|E].
  - destruct (odometer ps ls) as [ps' b]. cbn [fst] in *. constructor; [lia|exact IH].
  - cbn [fst]. constructor; [lia|exact F].
Qed.
Lemma item_lt ns : forall outs poss r, length ns = length outs -> length poss = length outs -> multi_item N ns outs poss = Ok r -> Forall2 lt poss (map (@length (nat * P)) outs).
Proof.
  unfold multi_item. generalize (0, n1 N). induction ns as [|k ns IH]; intros [a v] [|o outs] [|p poss] r L1 L2; cbn [length] in *; try discriminate; [constructor|].
  cbn [combine foldM]. destruct (idx o p) as [[col val]| |] eqn:E; cbn [bind]; try discriminate. intros H. cbn [map]. constructor.
  - unfold idx in E. destruct (nth_error o p) eqn:En; [|discriminate]. apply nth_error_Some. congruence.
  - eapply IH; [lia|lia|exact H].
Qed.
Lemma Forall2_rev {A B} (R : A -> B -> Prop) l l' : Forall2 R l l' -> Forall2 R (rev l) (rev l').
Proof. induction 1; cbn [rev]; [constructor|]. apply Forall2_app; [assumption|]. constructor; [assumption|constructor]. Qed.
Lemma Forall2_len {A B} (R : A -> B -> Prop) l l' : Forall2 R l l' -> length l = length l'.
Proof. induction 1; cbn; lia. Qed.

Lemma wmulti_collect ns (outs : list (list (nat * P))) fuel : 
  Forall2 (fun k o => forall e : nat * P, In e o -> fst e < 2 ^ k) ns outs -> Forall (fun k => k <= 63) ns -> list_sum ns <= 64 ->
  Forall (fun o => length o < 2 ^ 63) outs ->
  collect fuel (wmulti_iter m N ns outs) (it_init (wmulti_iter m N ns outs)) = collect fuel (multi_iter N ns outs) (it_init (multi_iter N ns outs)).
Proof.
  intros F Small Sum Len. assert (L := Forall2_len _ _ _ F).
  unfold wmulti_iter, multi_iter. cbn [it_init].
  apply collect_same with (I := fun s => length (fst s) = length outs /\ Forall (fun p => p < 2 ^ 63) (fst s)).
  - intros [poss ov] [Hl Hp]. unfold wmulti_next, multi_next. cbn [fst] in *. destruct ov; [reflexivity|]. rewrite wmulti_item_ok by assumption.
    destruct (multi_item N ns outs poss) as [r| |] eqn:E; cbn [bind]; try reflexivity. 
    rewrite wodometer_ok by (apply Forall_rev; exact Hp). reflexivity.
  - intros [poss ov] o s' [Hl Hp]. unfold multi_next. cbn [fst] in *. destruct ov; [intros E; inversion E; subst; split; assumption|].
    destruct (multi_item N ns outs poss) as [r| |] eqn:E; cbn [bind]; try discriminate.
    assert (G := item_lt ns outs poss r L Hl E). apply Forall2_rev in G. assert (O := odometer_lt _ _ G).
    destruct (odometer (rev poss) (rev (map (@length _) outs))) as [rp b]. cbn [fst] in O. intros Eq. inversion Eq. subst. cbn [fst]. split.
    + rewrite rev_length, (Forall2_len _ _ _ O), rev_length, map_length. reflexivity.
    + apply Forall_rev. clear -O Len. apply Forall_forall. intros p Hp. apply In_nth_error in Hp. destruct Hp as [i Hi].
      assert (X : exists l, In l (rev (map (@length (nat * P)) outs)) /\ p < l).
      { clear Len. revert i Hi. induction O as [|a b rp ls H O IH]; intros [|i] Hi; cbn in Hi; try discriminate.
        - inversion Hi. subst. exists b. split; [left; reflexivity|exact H].
        - destruct (IH i Hi) as (l & I1 & I2). exists l. split; [right; exact I1|exact I2]. }
      destruct X as (l & I1 & I2). apply in_rev, in_map_iff in I1. destruct I1 as (o' & <- & Io). rewrite Forall_forall in Len. specialize (Len o' Io). lia.
  - cbn [fst]. rewrite map_length. split; [exact L|]. apply Forall_forall. intros p Hp. apply in_map_iff in Hp. destruct Hp as (? & <- & _). apply pow2_pos.
Qed.

Lemma op_items_small (op : mop P) : wf_op op -> small_op op -> forall row, row < 2 ^ length (op_indices op) -> length (op_items N op row) < 2 ^ 63.
Proof.
  induction op as [ind data|ind rows|h ind|nc' ind op IH]; intros W S row Hr; cbn [op_items op_indices] in *.
  - assert (E := dense_items_length N (length ind) row data). assert (D := dense_small ind data W S).
    eapply Nat.le_lt_trans; [exact E|]. apply Nat.pow_lt_mono_r; lia.
  - destruct W as [W1 W2]. apply S. apply nth_In. rewrite W1. exact Hr.
  - apply (Nat.lt_le_trans _ (2 ^ 1)); [cbn; lia|apply Nat.pow_le_mono_r; lia].
  - destruct W as [W1 W2]. cbn zeta. destruct (_ <=? row) eqn:E.
    + rewrite map_length. apply IH; [exact W2|exact S|]. rewrite W1 in *. replace (nc' + length (op_indices op) - nc') with (length (op_indices op)) in * by lia. apply sub_row. exact Hr.
    + apply (Nat.lt_le_trans _ (2 ^ 1)); [cbn; lia|apply Nat.pow_le_mono_r; lia].
Qed.

Lemma wops_outputs_ok ops : Forall wf_op ops -> Forall small_op ops -> Forall (fun op : mop P => length (op_indices op) <= 63) ops ->
  forall r, length r = length (ops_indices ops) -> wops_outputs m N ops (be r) = ops_outputs N ops (be r).
Proof.
  induction ops as [|op ops IH]; intros W S K r Hr; [reflexivity|].
  inversion W as [|? ? W1 W2]. inversion S as [|? ? S1 S2]. inversion K as [|? ? K1 K2]. subst. cbn [wops_outputs ops_outputs].
  rewrite ops_indices_cons, app_length in Hr.
  rewrite wnum_indices_ok by assumption. rewrite wf_num_indices by exact W1. cbn [bind].
  rewrite wshl_1 by exact K1. cbn [bind]. assert (p := pow2_pos (length (op_indices op))). rewrite wsub_ok by lia. cbn [bind].
  replace (2 ^ length (op_indices op) - 1) with (Nat.ones (length (op_indices op))) by (rewrite Nat.ones_equiv; lia).
  destruct (be_split (length (op_indices op)) r) as [E1 E2]; [lia|]. rewrite E1.
  rewrite wop_collect; [|exact W1|exact S1|exact K1|].
  2:{ replace (length (op_indices op)) with (length (skipn (length r - length (op_indices op)) r)) at 2 by (rewrite skipn_length; lia). apply be_lt. }
  destruct (op_collect N op _ _); cbn [bind]; try reflexivity. rewrite wshr_ok by exact K1. cbn [bind]. rewrite E2.
  rewrite IH; [reflexivity|assumption|assumption|assumption|]. rewrite firstn_length. lia.
Qed.
Lemma ops_items_facts ops : Forall wf_op ops -> Forall small_op ops -> forall r, length r = length (ops_indices ops) ->
  Forall2 (fun k o => forall e : nat * P, In e o -> fst e < 2 ^ k) (map (fun o => length (op_indices o)) ops) (ops_items N ops r) /\
  Forall (fun o => length o < 2 ^ 63) (ops_items N ops r).
Proof.
  induction ops as [|op ops IH]; intros W S r Hr; [split; constructor|].
  inversion W as [|? ? W1 W2]. inversion S as [|? ? S1 S2]. subst. rewrite ops_indices_cons, app_length in Hr. cbn [map ops_items].
  destruct (IH W2 S2 (firstn (length r - length (op_indices op)) r)) as (A & B); [rewrite firstn_length; lia|].
  assert (Br : be (skipn (length r - length (op_indices op)) r) < 2 ^ length (op_indices op)).
  { replace (length (op_indices op)) with (length (skipn (length r - length (op_indices op)) r)) at 2 by (rewrite skipn_length; lia). apply be_lt. }
  split; constructor; try assumption.
  - intros e He. eapply op_items_range; [exact W1|exact Br|exact He].
  - apply op_items_small; assumption.
Qed.
Lemma sum_indices (ops : list (mop P)) : list_sum (map (fun o => length (op_indices o)) ops) = length (ops_indices ops).
Proof. induction ops as [|op ops IH]; [reflexivity|]. cbn [map]. rewrite sum_cons, ops_indices_cons, app_length, IH. reflexivity. Qed.

Lemma wsum_for_ops_ok ops r f g : Forall wf_op ops -> Forall small_op ops -> Forall (fun op : mop P => length (op_indices op) <= 63) ops ->
  length (ops_indices ops) <= 64 -> length r = length (ops_indices ops) -> (forall e, f e = g e) ->
  wsum_for_ops_cols m N (be r) ops f = sum_for_ops_cols N (be r) ops g.
Proof.
  intros W S K Sum Hr Fg. unfold wsum_for_ops_cols, sum_for_ops_cols.
  rewrite !mapM_ok with (g := fun o => length (op_indices o)).
  2:{ intros o Ho. rewrite Forall_forall in W. apply wf_num_indices. auto. }
  2:{ intros o Ho. rewrite Forall_forall in W, K. rewrite wnum_indices_ok by auto. apply wf_num_indices. auto. }
  cbn [bind]. rewrite wops_outputs_ok by assumption. rewrite (ops_outputs_ok N) by assumption. cbn [bind].
  destruct (ops_items_facts ops W S r Hr) as (A & B).
  rewrite wmulti_collect; [|exact A| |rewrite sum_indices; exact Sum|exact B].
  2:{ apply Forall_forall. intros k Hk. apply in_map_iff in Hk. destruct Hk as (o & <- & Ho). rewrite Forall_forall in K. auto. }
  destruct (collect _ _ _) as [items| |]; cbn [bind]; try reflexivity. f_equal. apply mapM_ext. intros e _. apply Fg.
Qed.

Lemma wapply_ops_ok n ops input output ioff ooff : n <= 64 -> Forall wf_op ops -> Forall small_op ops -> Forall (fun op : mop P => length (op_indices op) <= 63) ops ->
  length (ops_indices ops) <= 64 -> in_range n (ops_indices ops) -> ooff + length output <= 2 ^ n ->
  (ops = [] -> n <= 63 /\ ioff + length input <= 2 ^ n /\ ioff <= ooff + length output /\ ooff <= ioff + length input) ->
  wapply_ops m N n ops input output ioff ooff = apply_ops N n ops input output ioff ooff.
Proof.
  intros Hn W S K Sum R Ho E0. destruct ops as [|op [|op2 ops]].
  - destruct (E0 eq_refl) as (Hn' & Hi & H1 & H2). unfold wapply_ops, apply_ops. cbn zeta.
    rewrite (wadd_ok m (Datatypes.S n)) by (rewrite ?Nat.pow_succ_r'; assert (p := pow2_pos n); lia). cbn [bind].
    rewrite (wadd_ok m (Datatypes.S n)) by (rewrite ?Nat.pow_succ_r'; assert (p := pow2_pos n); lia). cbn [bind].
    rewrite !wsub_chk by lia. repeat (destruct (chk_sub _ _); cbn [bind]; try reflexivity). 
  - cbn [wapply_ops apply_ops]. unfold ops_indices in *. cbn [map concat] in *. rewrite app_nil_r in *.
    inversion W. inversion S. inversion K. subst. apply wapply_op_ok; assumption.
  - set (l := op :: op2 :: ops) in *. unfold wapply_ops, apply_ops. cbn zeta.
    change (match l with [] => _ | [_] => _ | _ :: _ :: _ => ?X end) with X.
    rewrite !mapM_ok with (g := op_indices).
    2:{ intros o Hin. rewrite Forall_forall in W. apply wf_mat_indices. auto. }
    2:{ intros o Hin. rewrite Forall_forall in W, K. rewrite wmat_indices_ok by auto. apply wf_mat_indices. auto. }
    cbn [bind]. change (concat (map op_indices l)) with (ops_indices l).
    apply mapM_ext. intros [i o] Hin. apply enumerate_lt in Hin. rewrite (wadd_ok m n) by lia. cbn [bind].
    rewrite wfull_to_sub_ok by (try assumption; lia). rewrite full_to_sub_ok by exact R. cbn [bind].
    rewrite wsum_for_ops_ok with (g := row_term N n input (ooff + i) ioff (ops_indices l)); try assumption; [reflexivity|apply map_length|].
    intros e. apply wrow_term_ok; assumption.
Qed.

(** *** Function operators *)
Lemma wfunction_same row i o f : 1 <= i -> 1 <= o -> i + o <= 64 -> row < 2 ^ (i + o) -> (exists it, function_iter row i o f = Ok it) ->
  exists wit it, wfunction_iter m row i o f = Ok wit /\ @function_iter P row i o f = Ok it /\ forall k, collect k wit (it_init wit) = collect k it (it_init it).
Proof.
  intros Hi Ho Hs Hr _. unfold wfunction_iter, function_iter. rewrite wshr_ok by lia. cbn [bind]. rewrite wflip_bits_ok by lia.
  destruct (flip_bits_ok i (Nat.shiftr row o) ltac:(lia)) as (r1 & E1 & _). rewrite E1. cbn [bind]. destruct (f r1) as [fx th].
  rewrite wshl_1 by lia. cbn [bind]. assert (p := pow2_pos o). rewrite wsub_ok by lia. cbn [bind]. rewrite wflip_bits_ok by lia.
  destruct (flip_bits_ok o fx ltac:(lia)) as (r2 & E2 & _). rewrite E2. cbn [bind].
  eexists. eexists. split; [reflexivity|]. split; [reflexivity|]. cbn [it_init].
  replace (2 ^ o - 1) with (Nat.ones o) by (rewrite Nat.ones_equiv; lia).
  intros k. apply collect_same with (I := fun _ => True); [|tauto|exact I]. intros [c|] _; [reflexivity|].
  rewrite wshl_ok; [reflexivity|lia|]. apply (fits_lt (i + o)); [lia|]. rewrite Nat.shiftl_mul_pow2, Nat.shiftr_div_pow2.
  eapply Nat.le_lt_trans; [|exact Hr]. rewrite Nat.mul_comm. apply Nat.mul_div_le. lia.
Qed.

(** *** Sparse operators *)
Lemma wflip_rows_ok n dat : 1 <= n <= 64 -> wflip_rows m n dat = @flip_rows P n dat.
Proof.
  intros Hn. unfold wflip_rows, flip_rows. 
  rewrite (mapM_ext _ (mapM (fun '(indx, c) => (f <- flip_bits n indx ;; Ok (f, c))%res))).
  2:{ intros row _. apply mapM_ext. intros [i c] _. rewrite wflip_bits_ok by exact Hn. reflexivity. }
  destruct (mapM _ dat) as [d| |]; cbn [bind]; try reflexivity.
  rewrite (mapM_ext _ (fun '(indx, row) => (k <- flip_bits n indx ;; Ok (k, row))%res)); [reflexivity|].
  intros [i c] _. rewrite wflip_bits_ok by exact Hn. reflexivity.
Qed.
Lemma wmake_sparse_ok qs dat o : length qs <= 63 -> wmake_sparse_matrix_op m qs dat o = @make_sparse_matrix_op P qs dat o.
Proof.
  intros Hn. unfold wmake_sparse_matrix_op, make_sparse_matrix_op. cbn zeta. rewrite wshl_1 by exact Hn. cbn [bind].
  destruct (length qs =? 0) eqn:E; [reflexivity|]. apply Nat.eqb_neq in E. destruct (negb _); [reflexivity|]. destruct (existsb _ dat); [reflexivity|].
  destruct o; [reflexivity|]. rewrite wflip_rows_ok by lia. reflexivity.
Qed.
Lemma wmake_sparse_fn_ok n f o : n <= 63 -> (o = LittleEndian -> 1 <= n) -> wmake_sparse_matrix_from_function m n f o = @make_sparse_matrix_from_function P n f o.
Proof.
  intros Hn H1. unfold wmake_sparse_matrix_from_function, make_sparse_matrix_from_function. rewrite wshl_1 by exact Hn. cbn [bind].
  apply mapM_ext. intros i _. destruct o; [reflexivity|]. specialize (H1 eq_refl). rewrite wflip_bits_ok by lia. destruct (flip_bits n i); cbn [bind]; try reflexivity.
  apply mapM_ext. intros [c v] _. rewrite wflip_bits_ok by lia. reflexivity.
Qed.
(** *** Inverting *)
Lemma wtranspose_dense_ok n mat : 2 * n <= 63 -> wtranspose_dense m n mat = @transpose_dense P n mat.
Proof.
  intros Hn. unfold wtranspose_dense, transpose_dense. rewrite wshl_1 by lia. cbn [bind]. apply foldM_ext. intros a row Hrow. apply in_seq in Hrow.
  apply foldM_ext. intros a' col Hcol. apply in_seq in Hcol. rewrite !wget_flat_index_ok by lia. reflexivity.
Qed.
Lemma wtranspose_op_ok op : wf_op op -> small_op op -> wtranspose_op m op = @transpose_op P op.
Proof.
  induction op as [ind data|ind rows|h ind|nc' ind op IH]; intros W S; cbn [wtranspose_op transpose_op]; try reflexivity.
  - rewrite wtranspose_dense_ok by (apply (dense_small ind data W S)). reflexivity.
  - rewrite IH by (try apply W; exact S). reflexivity.
Qed.
Lemma winvert_op_ok cj op : wf_op op -> small_op op -> winvert_op m cj op = @invert_op P cj op.
Proof. intros W S. unfold winvert_op, invert_op. rewrite wtranspose_op_ok by assumption. reflexivity. Qed.

(** *** The matrix of an operator *)
Lemma i32_count_ok n : n <= 30 -> i32_count m n = Ok (2 ^ n).
Proof. intros H. unfold i32_count. rewrite (proj2 (Nat.ltb_lt n 32)) by lia. cbn [bind]. destruct (Nat.eqb_spec n 31); [lia|reflexivity]. Qed.
Lemma wmake_op_matrix_ok n op : n <= 30 -> wf_op op -> small_op op -> length (op_indices op) <= 63 -> in_range n (op_indices op) ->
  wmake_op_matrix m N n op = make_op_matrix N n op.
Proof.
  intros Hn W S K R. unfold wmake_op_matrix, make_op_matrix. rewrite i32_count_ok by exact Hn. cbn [bind]. cbn zeta. rewrite wshl_1 by lia. cbn [bind].
  apply mapM_ext. intros i Hi. apply in_seq in Hi. rewrite (@idx_ok _ _ i (n0 N)) by (rewrite repeat_length; lia). cbn [bind].
  apply wapply_op_ok; try assumption; [lia|]. rewrite repeat_length. lia.
Qed.
Lemma mapM_bad {A B} (f : A -> res B) l a : In a l -> (forall b, In b l -> exists r, f b = Panic r \/ exists v, f b = Ok v) -> (exists r, f a = Panic r) -> exists r, mapM f l = Panic r.
Proof.
  induction l as [|b l IH]; intros Hin H Ha; [destruct Hin|]. cbn [mapM].
  destruct (H b) as (r & [E|(v & E)]); [left; reflexivity| |]; rewrite E; cbn [bind]; [eexists; reflexivity|].
  destruct Hin as [->|Hin]; [destruct Ha as (r' & Ha); rewrite Ha in E; discriminate|].
  destruct IH as (r' & E'); [exact Hin|intros c Hc; apply H; right; exact Hc|exact Ha|]. rewrite E'. cbn [bind]. eexists. reflexivity.
Qed.
Lemma wmake_op_matrix_panics (L : num_laws N) n op : 31 <= n <= 63 -> wf_op op -> small_op op -> length (op_indices op) <= 63 -> in_range n (op_indices op) ->
  exists r, wmake_op_matrix m N n op = Panic r.
Proof.
  intros Hn W S K R. unfold wmake_op_matrix.
  destruct (i32_count m n) as [z|e|r] eqn:E; cbn [bind].
  - cbn zeta. rewrite wshl_1 by lia. cbn [bind].
    assert (Hz : z < 2 ^ n).
    { assert (p := pow2_pos n). unfold i32_count in E. destruct (Nat.ltb_spec n 32) as [H|H]; cbn [bind] in E.
      - destruct (Nat.eqb_spec n 31); [|lia]. inversion E. exact p.
      - destruct m; cbn [bind] in E; [discriminate|]. assert (A : n mod 32 < 32) by (apply Nat.mod_upper_bound; discriminate). revert E A. generalize (n mod 32). intros k E A.
        destruct (k =? 31); [replace z with 0 by congruence; exact p|]. replace z with (2 ^ k) by congruence. apply Nat.pow_lt_mono_r; lia. }
    apply mapM_bad with (a := z).
    + apply in_seq. lia.
    + intros b Hb. destruct (idx (repeat (n0 N) z) b) as [v|e|r] eqn:Eb; cbn [bind].
      * rewrite wapply_op_ok; try assumption; [|lia|rewrite repeat_length; lia].
        rewrite (apply_op_ok N L) by (try assumption; rewrite ?repeat_length; lia). exists PIndex. right. eexists. reflexivity.
      * unfold idx in Eb. destruct (nth_error _ b); discriminate.
      * eexists. left. reflexivity.
    + unfold idx. rewrite (proj2 (nth_error_None (repeat (n0 N) z) z)) by (rewrite repeat_length; lia). cbn [bind]. eexists. reflexivity.
  - exfalso. unfold i32_count in E. destruct (n <? 32); cbn [bind] in E; [discriminate|]. destruct m; cbn [bind] in E; discriminate.
  - eexists. reflexivity.
Qed.
End Ops.
End Build.
