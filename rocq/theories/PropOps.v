(** Properties C06-C14: operators applied to state vectors. *)
From Coq Require Import ZArith Permutation.
From Verif Require Import Base BitsModel BitsSpec BitsProofs OpsModel OpsSpec OpsProofs OpsProofs2 OpsProofs3 OpsProofs4
  StateOpsModel ScheduleModel Instances OpsFinal.

(** *** C06 *)
Theorem C06_dense_iterator : forall P (N : num P) ind (data : list P) row,
  length data = 2 ^ (2 * length ind) -> row < 2 ^ length ind ->
  op_collect N (Matrix ind data) (length ind) row =
  Ok (filter (fun e => negb (nis0 N (snd e)))
        (map (fun c => (c, nth (row * 2 ^ length ind + c) data (n0 N))) (seq 0 (2 ^ length ind)))).
Proof. exact @final_dense_items. Qed.
Print Assumptions C06_dense_iterator.

Theorem C06_sparse_iterator : forall P (N : num P) ind (rows : list (list (nat * P))) row,
  wf_op (Sparse ind rows) -> row < 2 ^ length ind ->
  op_collect N (Sparse ind rows) (length ind) row = Ok (nth row rows []).
Proof. exact @final_sparse_items. Qed.
Print Assumptions C06_sparse_iterator.

Theorem C06_swap_iterator : forall P (N : num P) n ind row,
  length ind = n + n -> row < 2 ^ length ind ->
  op_collect N (Swap n ind) (length ind) row = Ok [(row mod 2 ^ n * 2 ^ n + row / 2 ^ n, n1 N)].
Proof. exact @final_swap_items. Qed.
Print Assumptions C06_swap_iterator.

(** The last 2^k rows (all controls 1) carry the inner operator's items, shifted; all other
    rows a single diagonal 1.  The inner operator may be a control again. *)
Theorem C06_control_iterator : forall P (N : num P) nc ind (op : mop P) row,
  wf_op (Control nc ind op) -> row < 2 ^ length ind ->
  op_collect N (Control nc ind op) (length ind) row =
  let k := length (op_indices op) in
  let block := 2 ^ (nc + k) - 2 ^ k in
  if row <? block then Ok [(row, n1 N)]
  else bind (op_collect N op k (row - block))
         (fun items => Ok (map (fun e => (fst e + block, snd e)) items)).
Proof. exact @final_control_items. Qed.
Print Assumptions C06_control_iterator.

Theorem C06_function_iterator : forall P row input_n output_n (f : nat -> nat * P),
  1 <= input_n <= 64 -> 1 <= output_n <= 64 -> row < 2 ^ (input_n + output_n) ->
  exists it, function_iter row input_n output_n f = Ok it /\
    collect 3 it (it_init it) =
    let x := row / 2 ^ output_n in let y := row mod 2 ^ output_n in
    let '(fx, theta) := f (be (rev (bits_be input_n x))) in
    Ok [(x * 2 ^ output_n + Nat.lxor y (be (rev (bits_be output_n fx))), theta)].
Proof. exact @final_function_items. Qed.
Print Assumptions C06_function_iterator.

Example C06_example :
  op_collect ZN (Matrix [0;1] [1;0;2;0; 0;0;0;0; 0;3;0;4; 5;6;7;8]%Z) 2 2 = Ok [(1, 3%Z); (3, 4%Z)] /\
  op_collect ZN (Swap 2 [0;1;2;3]) 4 7 = Ok [(13, 1%Z)] /\
  op_collect ZN (Control 1 [2;0] (Matrix [0] [0;1;1;0]%Z)) 2 3 = Ok [(2, 1%Z)] /\
  op_collect ZN (Control 1 [2;0] (Matrix [0] [0;1;1;0]%Z)) 2 1 = Ok [(1, 1%Z)] /\
  op_collect ZN (Control 1 [3;2;0] (Control 1 [2;0] (Matrix [0] [0;1;1;0]%Z))) 3 7 = Ok [(6, 1%Z)].
Proof. vm_compute. auto 10. Qed.

(** *** C07 *)
Theorem C07_apply_op : forall P (N : num P), num_laws N -> forall n op input output,
  wf_op op -> in_range n (op_indices op) -> length input = 2 ^ n -> length output = 2 ^ n ->
  exists out', apply_op N n op input output 0 0 = Ok out' /\ length out' = 2 ^ n /\
    forall x, st_of N n out' x =
      nadd N (st_of N n output x) (act N (op_indices op) (op_mat N op) (st_of N n input) x).
Proof. exact @apply_op_act. Qed.
Print Assumptions C07_apply_op.

(** With offsets: row [ooff + j] of the product is added to output cell [j]; input amplitudes
    outside the given chunk count as 0. *)
Theorem C07_apply_op_offsets : forall P (N : num P), num_laws N -> forall n op input output ioff ooff,
  wf_op op -> in_range n (op_indices op) -> ooff + length output <= 2 ^ n ->
  apply_op N n op input output ioff ooff =
  Ok (map (fun j => nadd N (nth j output (n0 N))
        (act N (op_indices op) (op_mat N op) (fun y => amp_off N ioff input (enc n y)) (dec n (ooff + j))))
      (seq 0 (length output))).
Proof. exact @apply_op_ok. Qed.
Print Assumptions C07_apply_op_offsets.

Example C07_example :
  let op := Matrix [2] [1;2;3;4]%Z in
  wf_op op /\ in_range 3 (op_indices op) /\
  apply_op ZN 3 op [1;2;3;4;5;6;7;8]%Z [100;0;0;0;0;0;0;0]%Z 0 0 = Ok [105;11;11;25;17;39;23;53]%Z.
Proof. repeat split. - intros q [<-|[]]. lia. Qed.

(** *** C08 *)
Theorem C08_overwrite_ignores_buffer : forall P (N : num P) n op input out1 out2 ioff ooff,
  num_laws N -> length out1 = length out2 ->
  apply_op_overwrite N n op input out1 ioff ooff = apply_op_overwrite N n op input out2 ioff ooff.
Proof. exact (fun P N n op input out1 out2 ioff ooff L => apply_op_overwrite_stale N L n op input out1 out2 ioff ooff). Qed.
Print Assumptions C08_overwrite_ignores_buffer.

Theorem C08_overwrite_is_apply_on_zero : forall P (N : num P), num_laws N -> forall n op input output ioff ooff,
  apply_op_overwrite N n op input output ioff ooff =
  apply_op N n op input (repeat (n0 N) (length output)) ioff ooff.
Proof. exact @apply_op_overwrite_zero. Qed.
Print Assumptions C08_overwrite_is_apply_on_zero.

Example C08_example :
  apply_op_overwrite ZN 1 (Matrix [0] [0;1;1;0]%Z) [3;4]%Z [100;200]%Z 0 0 = Ok [4;3]%Z.
Proof. reflexivity. Qed.

(** *** C09 *)
Theorem C09_swap : forall P (N : num P), num_laws N -> forall n a b v w,
  a <> [] -> length a = length b -> NoDup (a ++ b) -> in_range n (a ++ b) ->
  length v = 2 ^ n -> length w = 2 ^ n ->
  exists op out, make_swap_op a b = Ok op /\ apply_op_overwrite N n op v w 0 0 = Ok out /\ length out = 2 ^ n /\
    forall x y, (forall i, i < length a -> y (nth i a 0) = x (nth i b 0) /\ y (nth i b 0) = x (nth i a 0)) ->
      (forall q, ~ In q (a ++ b) -> y q = x q) ->
      st_of N n out x = st_of N n v y.
Proof. exact @final_swap. Qed.
Print Assumptions C09_swap.

Example C09_example :
  apply_op_overwrite ZN 3 (Swap 1 [0;2]) [1;2;3;4;5;6;7;8]%Z (repeat 0%Z 8) 0 0 = Ok [1;5;3;7;2;6;4;8]%Z /\
  NoDup ([0] ++ [2]) /\ in_range 3 ([0] ++ [2]).
Proof. repeat split. - repeat constructor; cbn; intuition lia. - intros q Hq. cbn in Hq. lia. Qed.

(** *** C10 *)
Theorem C10_control : forall P (N : num P), num_laws N -> forall n cs (op : mop P) v w,
  cs <> [] -> wf_op op -> in_range n (cs ++ op_indices op) ->
  (forall c, In c cs -> ~ In c (op_indices op)) -> length v = 2 ^ n -> length w = 2 ^ n ->
  exists cop out inner, make_control_op cs op = Ok cop /\
    apply_op_overwrite N n cop v w 0 0 = Ok out /\ apply_op_overwrite N n op v w 0 0 = Ok inner /\
    forall x, st_of N n out x = if forallb x cs then st_of N n inner x else st_of N n v x.
Proof. exact @final_control. Qed.
Print Assumptions C10_control.

Theorem C10_control_of_control : forall P cs1 cs2 (op op2 op12 : mop P), cs1 <> [] ->
  make_control_op cs2 op = Ok op2 -> make_control_op cs1 op2 = Ok op12 ->
  make_control_op (cs1 ++ cs2) op = Ok op12.
Proof. exact @final_control_nested. Qed.
Print Assumptions C10_control_of_control.

(** Literally nested control operators (not collapsed) have the matrix of the collapsed one. *)
Theorem C10_nested_matrix : forall P (N : num P) nc1 nc2 ind1 ind2 ind3 op r c,
  op_mat N (Control nc1 ind1 (Control nc2 ind2 op)) r c = op_mat N (Control (nc1 + nc2) ind3 op) r c.
Proof. exact @op_mat_control_control. Qed.
Print Assumptions C10_nested_matrix.

Example C10_example :
  make_control_op [0] (Matrix [2] [0;1;1;0]%Z) = Ok (Control 1 [0;2] (Matrix [2] [0;1;1;0]%Z)) /\
  apply_op_overwrite ZN 3 (Control 1 [0;2] (Matrix [2] [0;1;1;0]%Z)) [1;2;3;4;5;6;7;8]%Z (repeat 0%Z 8) 0 0
    = Ok [1;2;3;4;6;5;8;7]%Z.
Proof. vm_compute. auto. Qed.

(** *** C11 *)
Theorem C11_input_chunks : forall P (N : num P), num_laws N -> forall n op chunks output ioff ooff,
  wf_op op -> in_range n (op_indices op) -> ooff + length output <= 2 ^ n ->
  apply_chunks N n op chunks output ioff ooff = apply_op N n op (concat chunks) output ioff ooff.
Proof. exact @apply_chunks_ok. Qed.
Print Assumptions C11_input_chunks.

Theorem C11_output_chunks : forall P (N : num P), num_laws N -> forall n op input pre mid post ioff ooff,
  wf_op op -> in_range n (op_indices op) -> ooff + length (pre ++ mid ++ post) <= 2 ^ n ->
  exists pre' mid' post',
    apply_op N n op input (pre ++ mid ++ post) ioff ooff = Ok (pre' ++ mid' ++ post') /\
    length pre' = length pre /\ length mid' = length mid /\
    apply_op N n op input mid ioff (ooff + length pre) = Ok mid'.
Proof. exact @apply_op_output_chunk. Qed.
Print Assumptions C11_output_chunks.

Example C11_example :
  let op := Matrix [0] [1;2;3;4]%Z in
  apply_chunks ZN 2 op [[1;2;3]; [4]]%Z [0;0;0;0]%Z 0 0 = Ok [7;10;15;22]%Z /\
  apply_op ZN 2 op [1;2;3;4]%Z [0;0;0;0]%Z 0 0 = Ok [7;10;15;22]%Z /\
  apply_op ZN 2 op [1;2;3;4]%Z [0;0]%Z 0 1 = Ok [10;15]%Z.
Proof. vm_compute. auto. Qed.

(** *** C12: false for two or more operators *)
Theorem C12_tensor_refuted :
  Forall wf_op witness_ops /\ NoDup (ops_indices witness_ops) /\ in_range 2 (ops_indices witness_ops) /\
  exists input output x out,
    length input = 2 ^ 2 /\ length output = 2 ^ 2 /\
    apply_ops ZN 2 witness_ops input output 0 0 = Ok out /\
    st_of ZN 2 out x <> Z.add (st_of ZN 2 output x)
      (act ZN (ops_indices witness_ops) (ops_tensor ZN witness_ops) (st_of ZN 2 input) x).
Proof. exact witness_ops_wrong. Qed.
Print Assumptions C12_tensor_refuted.

(** no operators: the input is copied over the output, not added to it *)
Theorem C12_empty_refuted : exists (input output : list Z) out,
  length input = 2 ^ 1 /\ length output = 2 ^ 1 /\
  apply_ops ZN 1 [] input output 0 0 = Ok out /\
  st_of ZN 1 out (dec 1 0) <> Z.add (st_of ZN 1 output (dec 1 0)) (st_of ZN 1 input (dec 1 0)).
Proof. exact witness_ops_empty. Qed.
Print Assumptions C12_empty_refuted.

(** an operator with an all-zero row panics *)
Theorem C12_zero_row_refuted : exists (ops : list (mop Z)) input output,
  Forall wf_op ops /\ NoDup (ops_indices ops) /\ in_range 2 (ops_indices ops) /\
  length input = 2 ^ 2 /\ length output = 2 ^ 2 /\ apply_ops ZN 2 ops input output 0 0 = Panic PIndex.
Proof. exact witness_ops_panic. Qed.
Print Assumptions C12_zero_row_refuted.

(** What holds with no operators, for all windows that overlap or touch: where they overlap the
    input replaces the output, elsewhere the output is kept. *)
Lemma nth_error_firstn_lt {A} (l : list A) n i : i < n -> nth_error (firstn n l) i = nth_error l i.
Proof. revert l i. induction n as [|n IH]; intros [|a l] [|i] H; try lia; try reflexivity. cbn. apply IH. lia. Qed.
Lemma nth_error_skipn' {A} (l : list A) n i : nth_error (skipn n l) i = nth_error l (n + i).
Proof. revert l. induction n as [|n IH]; intros [|a l]; try reflexivity. - destruct i; reflexivity. - cbn. apply IH. Qed.
Theorem C12_no_ops : forall P (N : num P) n input output io oo, Nat.max io oo <= Nat.min (io + length input) (oo + length output) ->
  exists out, apply_ops N n [] input output io oo = Ok out /\ length out = length output /\
  forall i, nth_error out i = if (io <=? oo + i) && (oo + i <? io + length input) && (i <? length output) then nth_error input (oo + i - io) else nth_error output i.
Proof.
  intros P N n input output io oo H. unfold apply_ops. set (lo := Nat.max io oo) in *. set (up := Nat.min _ _) in *.
  rewrite !chk_sub_ok by lia. cbn [bind]. unfold slice.
  rewrite (proj2 (Nat.leb_le (lo - io) (up - io))), (proj2 (Nat.leb_le (up - io) (length input))) by lia.
  rewrite (proj2 (Nat.leb_le (lo - oo) (up - oo))), (proj2 (Nat.leb_le (up - oo) (length output))) by lia. cbn [andb bind].
  set (src := firstn _ (skipn _ input)). set (dst := firstn _ (skipn _ output)).
  assert (Ls : length src = up - lo) by (unfold src; rewrite firstn_length, skipn_length; lia).
  assert (Ld : length dst = up - lo) by (unfold dst; rewrite firstn_length, skipn_length; lia).
  assert (Ec : map fst (combine src dst) = src).
  { clearbody src dst. clear - Ls Ld. rewrite <- Ls in Ld. clear Ls. revert dst Ld. induction src as [|a l IH]; intros [|b d] H; try discriminate; [reflexivity|]. cbn. f_equal. apply IH. cbn in H. congruence. }
  rewrite Ec. eexists. split; [reflexivity|]. split; [rewrite !app_length, firstn_length, skipn_length; lia|]. intros i.
  assert (Lf : length (firstn (lo - oo) output) = lo - oo) by (rewrite firstn_length; lia).
  destruct (Nat.lt_ge_cases i (lo - oo)) as [H1|H1].
  - rewrite nth_error_app1 by lia. rewrite (proj2 (Nat.leb_gt io (oo + i))) by lia. cbn [andb].
    rewrite <- (firstn_skipn (lo - oo) output) at 2. rewrite nth_error_app1 by lia. reflexivity.
  - rewrite nth_error_app2, Lf by lia. destruct (Nat.lt_ge_cases i (up - oo)) as [H2|H2].
    + rewrite nth_error_app1 by lia. rewrite (proj2 (Nat.leb_le io (oo + i))), (proj2 (Nat.ltb_lt (oo + i) _)), (proj2 (Nat.ltb_lt i _)) by lia. cbn [andb].
      unfold src. rewrite nth_error_firstn_lt by lia. rewrite nth_error_skipn'. f_equal. lia.
    + rewrite nth_error_app2, Ls by lia. rewrite nth_error_skipn'. replace (up - oo + (i - (lo - oo) - (up - lo))) with i by lia.
      destruct ((io <=? oo + i) && (oo + i <? io + length input) && (i <? length output)) eqn:E; [|reflexivity].
      apply andb_prop in E. destruct E as (E & E3). apply andb_prop in E. destruct E as (E1 & E2). apply Nat.leb_le in E1. apply Nat.ltb_lt in E2, E3. lia.
Qed.
Print Assumptions C12_no_ops.
(** Windows with a gap between them: panic. *)
Theorem C12_no_ops_gap : forall P (N : num P) n (input output : list P) io oo, Nat.min (io + length input) (oo + length output) < Nat.max io oo ->
  exists p, apply_ops N n [] input output io oo = Panic p.
Proof.
  intros P N n input output io oo H. unfold apply_ops. set (lo := Nat.max io oo) in *. set (up := Nat.min _ _) in *. unfold chk_sub.
  assert (io <= lo /\ oo <= lo) as (A & B) by lia. rewrite (proj2 (Nat.leb_le io lo)), (proj2 (Nat.leb_le oo lo)) by lia.
  destruct (Nat.leb_spec io up); cbn [bind]; [|eexists; reflexivity]. destruct (Nat.leb_spec oo up); cbn [bind]; [|eexists; reflexivity].
  unfold slice. rewrite (proj2 (Nat.leb_gt (lo - io) (up - io))) by lia. eexists; reflexivity.
Qed.
Print Assumptions C12_no_ops_gap.
Example C12_no_ops_example : apply_ops ZN 2 [] [1;2;3]%Z [10;20;30]%Z 0 1 = Ok [2;3;30]%Z /\ apply_ops ZN 2 [] [1]%Z [10;20]%Z 0 2 = Panic PUnderflow.
Proof. split; reflexivity. Qed.

(** What holds: one operator is right; for two or more the matrix used is [ops_actual], in which
    operator 0 reads the last row bits but the first column bits. *)
Theorem C12_single_op : forall P (N : num P), num_laws N -> forall n op input output,
  wf_op op -> in_range n (op_indices op) -> length input = 2 ^ n -> length output = 2 ^ n ->
  exists out', apply_ops N n [op] input output 0 0 = Ok out' /\ length out' = 2 ^ n /\
    forall x, st_of N n out' x =
      nadd N (st_of N n output x) (act N (op_indices op) (op_mat N op) (st_of N n input) x).
Proof. exact @apply_op_act. Qed.
Print Assumptions C12_single_op.

Theorem C12_actual_matrix : forall P (N : num P), num_laws N -> forall n ops input output,
  2 <= length ops -> Forall wf_op ops -> NoDup (ops_indices ops) -> in_range n (ops_indices ops) ->
  length input = 2 ^ n -> length output = 2 ^ n ->
  let blank := exists op r, In op ops /\ length r = length (op_indices op) /\ blank_row N op r in
  (blank /\ apply_ops N n ops input output 0 0 = Panic PIndex) \/
  (~ blank /\ exists out', apply_ops N n ops input output 0 0 = Ok out' /\ length out' = 2 ^ n /\
    forall x, st_of N n out' x =
      nadd N (st_of N n output x) (act N (ops_indices ops) (ops_actual N ops) (st_of N n input) x)).
Proof. exact @apply_ops_cases. Qed.
Print Assumptions C12_actual_matrix.

(** The same on windows of the state, with indices shared between operators allowed: what counts
    is whether a row the output window covers is blank for one of the operators. *)
Theorem C12_actual_windows : forall P (N : num P), num_laws N -> forall n ops input output ioff ooff,
  2 <= length ops -> Forall wf_op ops -> in_range n (ops_indices ops) -> ooff + length output <= 2 ^ n ->
  let bits i := map (dec n (ooff + i)) (ops_indices ops) in
  ((exists i, i < length output /\ meets_blank N ops (bits i)) -> apply_ops N n ops input output ioff ooff = Panic PIndex) /\
  ((forall i, i < length output -> ~ meets_blank N ops (bits i)) -> apply_ops N n ops input output ioff ooff =
     Ok (map (fun j => nadd N (nth j output (n0 N)) (ops_row_value N n ops input ioff (ooff + j))) (seq 0 (length output)))).
Proof. exact @apply_ops_exact. Qed.
Print Assumptions C12_actual_windows.

Example C12_example : apply_ops ZN 2 witness_ops [1;10;100;1000]%Z [0;0;0;0]%Z 0 0 = Ok [100;1;2000;20]%Z.
Proof. reflexivity. Qed.

Example C12_not_blank_example : ~ exists op r, In op witness_ops /\ length r = length (op_indices op) /\ blank_row ZN op r.
Proof.
  intros (op & r & I & Hr & B). cbn in I. destruct I as [<-|[<-|[]]]; cbn in Hr; destruct r as [|b [|? ?]]; try discriminate; clear Hr.
  - specialize (B [negb b] eq_refl). destruct b; discriminate.
  - specialize (B [b] eq_refl). destruct b; discriminate.
Qed.
(** A projector beside a sign flip: the blank second row panics on the whole state, and a window that
    avoids it does not. *)
Definition half_ops : list (mop Z) := [Matrix [0] [1;0;0;0]%Z; Matrix [1] [1;0;0;-1]%Z].
Example C12_blank_example : blank_row ZN (Matrix [0] [1;0;0;0]%Z) [true] /\
  apply_ops ZN 2 half_ops [1;2;3;4]%Z [0;0;0;0]%Z 0 0 = Panic PIndex /\
  apply_ops ZN 2 half_ops [1;2;3;4]%Z [0]%Z 0 0 = Ok [1]%Z.
Proof.
  split; [|split; reflexivity]. intros [|b [|? ?]] H; try discriminate. destruct b; reflexivity.
Qed.

(** *** C13 *)
Theorem C13_multi_iterator : forall P (N : num P) ns (outs : list (list (nat * P))),
  Forall2 (fun n o => o <> [] /\ Forall (fun e => fst e < 2 ^ n) o) ns outs ->
  collect (multi_fuel outs) (multi_iter N ns outs) (it_init (multi_iter N ns outs)) =
  Ok (map (combined N ns) (product outs)).
Proof. exact @final_multi. Qed.
Print Assumptions C13_multi_iterator.

(** [product] is what the name says. *)
Theorem C13_product : forall A (ls : list (list A)) es,
  In es (product ls) <-> Forall2 (fun e l => In e l) es ls.
Proof. exact @In_product. Qed.
Print Assumptions C13_product.
Theorem C13_product_length : forall A (ls : list (list A)),
  length (product ls) = fold_right (fun o m => length o * m) 1 ls.
Proof. exact @product_length. Qed.
Print Assumptions C13_product_length.

Example C13_example :
  let outs := [[(0, 2%Z); (1, 3%Z)]; [(2, 5%Z); (3, 7%Z)]] in
  collect (multi_fuel outs) (multi_iter ZN [1;2] outs) (it_init (multi_iter ZN [1;2] outs)) =
  Ok [(2, 10%Z); (3, 14%Z); (6, 15%Z); (7, 21%Z)].
Proof. reflexivity. Qed.

(** *** C14 *)
Theorem C14_rows_any_order : forall P (N : num P), num_laws N -> forall n op input output ioff ooff sched,
  wf_op op -> in_range n (op_indices op) -> ooff + length output <= 2 ^ n ->
  Permutation sched (seq 0 (length output)) ->
  apply_op_par N n op input output ioff ooff sched = apply_op N n op input output ioff ooff.
Proof. exact @apply_op_par_ok. Qed.
Print Assumptions C14_rows_any_order.

Theorem C14_overwrite_rows_any_order : forall P (N : num P), num_laws N ->
  forall n op input output ioff ooff sched,
  wf_op op -> in_range n (op_indices op) -> ooff + length output <= 2 ^ n ->
  Permutation sched (seq 0 (length output)) ->
  apply_op_overwrite_par N n op input output ioff ooff sched =
  apply_op_overwrite N n op input output ioff ooff.
Proof. exact @apply_op_overwrite_par_ok. Qed.
Print Assumptions C14_overwrite_rows_any_order.

Theorem C14_sum_any_tree : forall P (N : num P), num_laws N -> forall t, par_sum N t = nsum N (leaves t).
Proof. exact @par_sum_ok. Qed.
Print Assumptions C14_sum_any_tree.

Example C14_example :
  apply_op_par ZN 2 (Matrix [0] [1;2;3;4]%Z) [1;2;3;4]%Z [0;0;0;0]%Z 0 0 [2;0;3;1] = Ok [7;10;15;22]%Z /\
  par_sum ZN (Node (Node Empty (Leaf 3%Z)) (Leaf 4%Z)) = 7%Z.
Proof. vm_compute. auto. Qed.
