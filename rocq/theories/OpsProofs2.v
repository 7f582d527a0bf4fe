(** Consequences of the [apply_op] characterisation: swap, control, chunks, schedules, apply_ops. *)
From Coq Require Import FunctionalExtensionality Permutation.
From Verif Require Import Base BitsModel BitsSpec BitsProofs OpsModel OpsSpec OpsProofs
  StateOpsModel ScheduleModel.
Local Open Scope res_scope.

Section Proofs.
Context {P : Type} (N : num P) (L : num_laws N).
Local Notation big := (big N).

(** *** overwrite *)
Lemma apply_op_overwrite_zero n op input output ioff ooff :
  apply_op_overwrite N n op input output ioff ooff =
  apply_op N n op input (repeat (n0 N) (length output)) ioff ooff.
Proof.
  unfold apply_op_overwrite, apply_op. destruct (mat_indices op) as [mi|e|p]; cbn [bind]; auto.
  unfold enumerate. rewrite repeat_length. generalize O as s.
  induction output as [|a output IH]; intros s; [reflexivity|].
  cbn [length seq combine repeat mapM].
  destruct (apply_op_row_indices N n op input s ioff ooff mi) as [v|e|p]; cbn [bind]; auto.
  rewrite IH, (l_add_0 L). reflexivity.
Qed.

Lemma apply_op_overwrite_stale n op input out1 out2 ioff ooff : length out1 = length out2 ->
  apply_op_overwrite N n op input out1 ioff ooff = apply_op_overwrite N n op input out2 ioff ooff.
Proof. intros H. rewrite !apply_op_overwrite_zero, H. reflexivity. Qed.

(** *** act: pointwise facts *)
Lemma act_ext qs M1 M2 psi x :
  (forall r c, length r = length qs -> length c = length qs -> M1 r c = M2 r c) ->
  act N qs M1 psi x = act N qs M2 psi x.
Proof.
  intros H. unfold act. apply big_ext. intros c Hc. apply In_bools in Hc.
  rewrite H; auto. apply map_length.
Qed.

Lemma act_swap n ind psi x : length ind = n + n ->
  act N ind (op_mat N (Swap n ind)) psi x =
  psi (updl x ind (map x (skipn n ind) ++ map x (firstn n ind))).
Proof.
  intros H. unfold act. cbn [op_mat].
  rewrite (big_single N L _ _ (map x (skipn n ind) ++ map x (firstn n ind))).
  - rewrite <- skipn_map, <- firstn_map, delta_same, (l_mul_1 L). reflexivity.
  - apply NoDup_bools.
  - apply In_bools. rewrite app_length, !map_length, skipn_length, firstn_length. lia.
  - intros c _ Hne. rewrite <- skipn_map, <- firstn_map in Hne. rewrite delta_diff by auto. apply (l_mul_0 L).
Qed.

(** swap semantics stated on qubits *)
Lemma act_swap_qubits a b psi x y : length a = length b -> NoDup (a ++ b) ->
  (forall i, i < length a -> y (nth i a 0) = x (nth i b 0) /\ y (nth i b 0) = x (nth i a 0)) ->
  (forall q, ~ In q (a ++ b) -> y q = x q) ->
  act N (a ++ b) (op_mat N (Swap (length a) (a ++ b))) psi x = psi y.
Proof.
  intros Hl ND H1 H2. rewrite act_swap by (rewrite app_length; lia). f_equal.
  assert (E1 : skipn (length a) (a ++ b) = b) by (rewrite skipn_app, skipn_all, Nat.sub_diag; reflexivity).
  assert (E2 : firstn (length a) (a ++ b) = a) by (rewrite firstn_app, firstn_all, Nat.sub_diag; cbn; apply app_nil_r).
  rewrite E1, E2. extensionality q.
  destruct (in_dec Nat.eq_dec q (a ++ b)) as [I|I].
  2:{ rewrite updl_notin by auto. symmetry. auto. }
  assert (M := updl_map x (a ++ b) (map x b ++ map x a) ND).
  rewrite !app_length, !map_length in M. specialize (M ltac:(lia)).
  rewrite map_app in M. apply in_app_iff in I.
  assert (A : map (updl x (a ++ b) (map x b ++ map x a)) a = map x b /\
              map (updl x (a ++ b) (map x b ++ map x a)) b = map x a).
  {
    assert (G : forall (u v w z : list bool), length u = length w -> u ++ v = w ++ z -> u = w /\ v = z).
    { clear. induction u as [|c u IH]; intros v [|d w] z H E; cbn in *; try lia; auto.
      inversion E; subst. destruct (IH v w z); auto. subst. auto. }
    apply G; [rewrite !map_length; lia|exact M]. }
  destruct A as [A1 A2].
  assert (Gn : forall (f : nat -> bool) l i, i < length l -> nth i (map f l) false = f (nth i l 0)).
  { intros f l i Hi. rewrite nth_indep with (d' := f 0) by (rewrite map_length; auto). apply map_nth. }
  destruct I as [I|I]; apply (In_nth _ _ 0) in I; destruct I as [i [Hi <-]].
  - apply (f_equal (fun l => nth i l false)) in A1. rewrite !Gn in A1 by lia. rewrite A1.
    symmetry. apply H1. auto.
  - apply (f_equal (fun l => nth i l false)) in A2. rewrite !Gn in A2 by lia. rewrite A2.
    symmetry. apply H1. lia.
Qed.

(** control semantics *)
Lemma act_control cs qs (op : mop P) psi x : length qs = length (op_indices op) ->
  (forall c, In c cs -> ~ In c qs) ->
  act N (cs ++ qs) (op_mat N (Control (length cs) (cs ++ qs) op)) psi x =
  if forallb x cs then act N qs (op_mat N op) psi x else psi x.
Proof.
  intros Hl Hd. unfold act. cbn [op_mat]. rewrite map_app.
  assert (F1 : firstn (length cs) (map x cs ++ map x qs) = map x cs).
  { rewrite firstn_app, map_length, Nat.sub_diag, firstn_all2 by (rewrite map_length; lia).
    cbn. apply app_nil_r. }
  assert (F2 : skipn (length cs) (map x cs ++ map x qs) = map x qs).
  { rewrite skipn_app, map_length, Nat.sub_diag, skipn_all2 by (rewrite map_length; lia). reflexivity. }
  assert (FB : forallb (fun b => b) (map x cs) = forallb x cs).
  { clear. induction cs; cbn; congruence. }
  destruct (forallb x cs) eqn:E.
  - rewrite app_length, (big_bools_app N L).
    rewrite (big_single N L _ (bools (length cs)) (map x cs)).
    + apply (big_ext N). intros d Hd'. apply In_bools in Hd'.
      assert (G1 : firstn (length cs) (map x cs ++ d) = map x cs).
      { rewrite firstn_app, map_length, Nat.sub_diag, firstn_all2 by (rewrite map_length; lia).
        cbn. apply app_nil_r. }
      assert (G2 : skipn (length cs) (map x cs ++ d) = d).
      { rewrite skipn_app, map_length, Nat.sub_diag, skipn_all2 by (rewrite map_length; lia). reflexivity. }
      rewrite F1, F2, G1, G2, FB. f_equal. f_equal.
      rewrite updl_app by apply map_length. rewrite updl_self. reflexivity.
    + apply NoDup_bools.
    + apply In_bools. apply map_length.
    + intros c Hc Hne. apply In_bools in Hc. apply (big_zero N L). intros d Hd'. rewrite F1, FB.
      assert (G1 : firstn (length cs) (c ++ d) = c).
      { rewrite firstn_app, Hc, Nat.sub_diag, firstn_all2 by lia. cbn. apply app_nil_r. }
      rewrite G1. destruct (forallb (fun b => b) c) eqn:Ec; [|apply (l_mul_0 L)].
      exfalso. apply Hne. apply forallb_true_repeat in Ec. 
      apply forallb_true_repeat in FB. rewrite map_length in FB. rewrite Hc in Ec. congruence.
  - rewrite (big_single N L _ _ (map x cs ++ map x qs)).
    + rewrite F1, FB, delta_same, (l_mul_1 L), <- map_app, updl_self. reflexivity.
    + apply NoDup_bools.
    + apply In_bools. rewrite !app_length, !map_length. reflexivity.
    + intros c _ Hne. rewrite F1, FB. rewrite delta_diff by congruence. apply (l_mul_0 L).
Qed.

(** two layers of control are one *)
Lemma op_mat_control_control nc1 nc2 ind1 ind2 ind3 op r c :
  op_mat N (Control nc1 ind1 (Control nc2 ind2 op)) r c =
  op_mat N (Control (nc1 + nc2) ind3 op) r c.
Proof.
  cbn [op_mat].
  assert (S : forall l : list bool, skipn nc2 (skipn nc1 l) = skipn (nc1 + nc2) l).
  { clear. induction nc1 as [|n IH]; intros l; [reflexivity|]. destruct l; cbn; [apply skipn_nil|]. apply IH. }
  assert (F : forall l : list bool, forallb (fun b => b) (firstn (nc1 + nc2) l) =
     forallb (fun b => b) (firstn nc1 l) && forallb (fun b => b) (firstn nc2 (skipn nc1 l))).
  { intros l. rewrite <- forallb_app. f_equal. clear. revert l.
    induction nc1 as [|n IH]; intros l; [reflexivity|].
    destruct l; cbn; [rewrite firstn_nil; reflexivity|]. f_equal. apply IH. }
  rewrite !F, !S.
  destruct (forallb (fun b => b) (firstn nc1 r)) eqn:E1; cbn [andb]; [|reflexivity].
  destruct (forallb (fun b => b) (firstn nc1 c)) eqn:E2; cbn [andb].
  - destruct (forallb (fun b => b) (firstn nc2 (skipn nc1 r))) eqn:E3; cbn [andb]; [reflexivity|].
    (* delta on the tails equals delta on the whole *)
    unfold delta. replace (lb_eq (skipn nc1 r) (skipn nc1 c)) with (lb_eq r c); [reflexivity|].
    destruct (lb_eq (skipn nc1 r) (skipn nc1 c)) eqn:E4.
    + apply lb_eq_true in E4. apply lb_eq_true. rewrite <- (firstn_skipn nc1 r), <- (firstn_skipn nc1 c), E4.
      f_equal. apply forallb_true_repeat in E1, E2. rewrite E1, E2. f_equal.
      rewrite !firstn_length. apply (f_equal (@length bool)) in E4. rewrite !skipn_length in E4.
      destruct (skipn nc1 r) eqn:Es.
      * cbn in E3. destruct nc2; discriminate.
      * assert (length (skipn nc1 r) = Datatypes.S (length l)) by (rewrite Es; reflexivity).
        rewrite skipn_length in H. lia.
    + destruct (lb_eq r c) eqn:E5; [|reflexivity]. apply lb_eq_true in E5. subst.
      rewrite lb_eq_refl in E4. discriminate.
  - destruct (forallb (fun b => b) (firstn nc2 (skipn nc1 r))) eqn:E3; [reflexivity|].
    unfold delta. destruct (lb_eq r c) eqn:E5; [|reflexivity]. apply lb_eq_true in E5. subst. congruence.
Qed.

(** *** linearity of act *)
Lemma act_add qs M psi phi x :
  act N qs M (fun y => nadd N (psi y) (phi y)) x = nadd N (act N qs M psi x) (act N qs M phi x).
Proof.
  unfold act. rewrite <- (big_add N L). apply (big_ext N). intros c _. apply (l_distr_l L).
Qed.

(** *** chunks *)
Lemma nth_app_off (a b : list P) i :
  nadd N (nth i a (n0 N)) (if i <? length a then n0 N else nth (i - length a) b (n0 N)) =
  nth i (a ++ b) (n0 N).
Proof.
  destruct (Nat.ltb_spec i (length a)).
  - rewrite app_nth1 by auto. apply (add_0r N L).
  - rewrite app_nth2, (nth_overflow a) by lia. apply (l_add_0 L).
Qed.

Lemma amp_off_app off a b i :
  amp_off N off (a ++ b) i = nadd N (amp_off N off a i) (amp_off N (off + length a) b i).
Proof.
  unfold amp_off. destruct (Nat.ltb_spec i off), (Nat.ltb_spec i (off + length a)); try lia.
  - symmetry. apply (l_add_0 L).
  - rewrite app_nth1 by lia. symmetry. apply (add_0r N L).
  - rewrite app_nth2, (nth_overflow a) by lia. rewrite (l_add_0 L). f_equal. lia.
Qed.

Lemma row_value_app n op a b ioff row :
  row_value N n op (a ++ b) ioff row =
  nadd N (row_value N n op a ioff row) (row_value N n op b (ioff + length a) row).
Proof.
  unfold row_value. rewrite <- (big_add N L). apply (big_ext N). intros c _.
  rewrite amp_off_app. apply (l_distr_l L).
Qed.

Lemma row_value_nil n op ioff row : row_value N n op [] ioff row = n0 N.
Proof.
  unfold row_value. apply (big_zero N L). intros c _. unfold amp_off.
  destruct (_ <? ioff); [apply (l_mul_0r L)|]. destruct (_ - _); apply (l_mul_0r L).
Qed.

(** feeding the input chunk by chunk *)
Fixpoint apply_chunks (n : nat) (op : mop P) (chunks : list (list P)) (output : list P)
  (ioff ooff : nat) : res (list P) :=
  match chunks with
  | [] => Ok output
  | c :: cs => output' <- apply_op N n op c output ioff ooff ;;
               apply_chunks n op cs output' (ioff + length c) ooff
  end.

Lemma apply_chunks_ok n op chunks : forall output ioff ooff,
  wf_op op -> in_range n (op_indices op) -> ooff + length output <= 2 ^ n ->
  apply_chunks n op chunks output ioff ooff = apply_op N n op (concat chunks) output ioff ooff.
Proof.
  induction chunks as [|c cs IH]; intros output ioff ooff W R B; cbn [apply_chunks concat].
  - rewrite apply_op_ok by auto. f_equal. rewrite <- (seq_nth_map output (n0 N)) at 1.
    apply map_ext_in. intros j _. rewrite row_value_nil. symmetry. apply (add_0r N L).
  - rewrite (apply_op_ok N L n op c) by auto. cbn [bind].
    rewrite IH; auto; rewrite ?map_length, ?seq_length; auto.
    rewrite !(apply_op_ok N L) by (rewrite ?map_length, ?seq_length; auto).
    rewrite map_length, seq_length. f_equal. apply map_ext_in. intros j Hj. apply in_seq in Hj.
    rewrite nth_map_seq by lia. rewrite row_value_app, (l_add_assoc L). reflexivity.
Qed.

(** computing an output chunk *)
Lemma apply_op_output_chunk n op input pre mid post ioff ooff :
  wf_op op -> in_range n (op_indices op) -> ooff + length (pre ++ mid ++ post) <= 2 ^ n ->
  exists pre' mid' post',
    apply_op N n op input (pre ++ mid ++ post) ioff ooff = Ok (pre' ++ mid' ++ post') /\
    length pre' = length pre /\ length mid' = length mid /\
    apply_op N n op input mid ioff (ooff + length pre) = Ok mid'.
Proof.
  intros W R B. rewrite !app_length in B.
  rewrite (apply_op_ok N L n op input (pre ++ mid ++ post)) by (rewrite ?app_length; auto).
  rewrite (apply_op_ok N L n op input mid) by (auto; lia).
  set (g := fun j => nadd N (nth j (pre ++ mid ++ post) (n0 N)) (row_value N n op input ioff (ooff + j))).
  exists (map g (seq 0 (length pre))), (map g (seq (length pre) (length mid))),
    (map g (seq (length pre + length mid) (length post))).
  rewrite !map_length, !seq_length. repeat split.
  - rewrite !app_length, !seq_app, !map_app, Nat.add_0_l. reflexivity.
  - replace (seq (length pre) (length mid)) with (map (fun i => length pre + i) (seq 0 (length mid)))
      by (rewrite <- seq_shift_add, Nat.add_0_r; reflexivity).
    rewrite map_map. f_equal. apply map_ext_in. intros j Hj.
    apply in_seq in Hj. unfold g. rewrite app_nth2, app_nth1 by lia.
    replace (length pre + j - length pre) with j by lia. rewrite Nat.add_assoc. reflexivity.
Qed.

(** *** schedules *)
Lemma par_for_each_perm {A} (f : nat -> A -> res A) (g : nat -> A -> A) (d : A) sched v :
  Permutation sched (seq 0 (length v)) ->
  (forall i, i < length v -> f i (nth i v d) = Ok (g i (nth i v d))) ->
  par_for_each f sched v = Ok (map (fun i => g i (nth i v d)) (seq 0 (length v))).
Proof.
  intros HP Hf. unfold par_for_each.
  assert (G : forall s done w, NoDup (done ++ s) -> (forall i, In i (done ++ s) -> i < length v) ->
     length w = length v ->
     (forall i, i < length v -> nth i w d = if in_dec Nat.eq_dec i done then g i (nth i v d) else nth i v d) ->
     exists w', foldM (fun v i => a <- idx v i ;; a' <- f i a ;; Ok (upd_nth i a' v)) s w = Ok w' /\
       length w' = length v /\
       forall i, i < length v -> nth i w' d = if in_dec Nat.eq_dec i (done ++ s) then g i (nth i v d) else nth i v d).
  { induction s as [|i s IH]; intros done w ND HR Hw H; cbn [foldM].
    - exists w. rewrite app_nil_r. auto.
    - assert (Hi : i < length v) by (apply HR, in_app_iff; cbn; auto).
      rewrite (idx_ok w d) by lia. cbn [bind]. rewrite H by auto.
      destruct (in_dec Nat.eq_dec i done) as [I|I].
      { exfalso. apply NoDup_remove_2 in ND. apply ND. apply in_app_iff; auto. }
      rewrite Hf by auto. cbn [bind].
      destruct (IH (done ++ [i]) (upd_nth i (g i (nth i v d)) w)) as [w' (E & Hl & Hn)].
      + rewrite <- app_assoc. exact ND.
      + intros j Hj. apply HR. rewrite <- app_assoc in Hj. exact Hj.
      + rewrite upd_nth_length. exact Hw.
      + intros j Hj. rewrite nth_upd_nth by lia. rewrite H by auto.
        destruct (Nat.eqb_spec j i) as [->|Hne].
        * destruct (in_dec Nat.eq_dec i (done ++ [i])) as [I2|I2]; [reflexivity|].
          exfalso. apply I2, in_app_iff. cbn; auto.
        * destruct (in_dec Nat.eq_dec j done) as [I2|I2], (in_dec Nat.eq_dec j (done ++ [i])) as [I3|I3]; auto.
          -- exfalso. apply I3, in_app_iff; auto.
          -- apply in_app_iff in I3. cbn in I3. intuition congruence.
      + exists w'. rewrite <- app_assoc in Hn. auto. }
  assert (ND : NoDup sched) by (apply Permutation_NoDup with (seq 0 (length v)); [symmetry; auto|apply seq_NoDup]).
  destruct (G sched [] v) as [w' (E & Hl & Hn)]; auto.
  { intros i Hi. apply (Permutation_in _ HP) in Hi. apply in_seq in Hi. lia. }
  rewrite E. f_equal. apply (list_eq_nth d).
  - rewrite map_length, seq_length. exact Hl.
  - intros i Hi. rewrite Hl in Hi. rewrite nth_map_seq, Hn by lia. cbn [app].
    destruct (in_dec Nat.eq_dec i sched) as [I|I]; [reflexivity|].
    exfalso. apply I. apply (Permutation_in _ (Permutation_sym HP)). apply in_seq. lia.
Qed.

Lemma apply_op_par_ok n op input output ioff ooff sched :
  wf_op op -> in_range n (op_indices op) -> ooff + length output <= 2 ^ n ->
  Permutation sched (seq 0 (length output)) ->
  apply_op_par N n op input output ioff ooff sched = apply_op N n op input output ioff ooff.
Proof.
  intros W R B HP. rewrite apply_op_ok by auto. unfold apply_op_par. rewrite wf_mat_indices by auto.
  cbn [bind].
  apply par_for_each_perm with (g := fun i a => nadd N a (row_value N n op input ioff (ooff + i))); auto.
  intros i Hi. rewrite apply_row_ok by (auto; lia). reflexivity.
Qed.

Lemma apply_op_overwrite_par_ok n op input output ioff ooff sched :
  wf_op op -> in_range n (op_indices op) -> ooff + length output <= 2 ^ n ->
  Permutation sched (seq 0 (length output)) ->
  apply_op_overwrite_par N n op input output ioff ooff sched = apply_op_overwrite N n op input output ioff ooff.
Proof.
  intros W R B HP. rewrite apply_op_overwrite_ok by auto. unfold apply_op_overwrite_par.
  rewrite wf_mat_indices by auto. cbn [bind].
  apply par_for_each_perm with (g := fun i a => row_value N n op input ioff (ooff + i)) (d := n0 N); auto.
  intros i Hi. apply apply_row_ok; auto; lia.
Qed.

Lemma par_sum_ok t : par_sum N t = nsum N (leaves t).
Proof.
  rewrite (nsum_big N L). induction t as [|a|l IHl r IHr]; cbn; auto.
  - symmetry. apply (add_0r N L).
  - rewrite (big_app N L), IHl, IHr. reflexivity.
Qed.

Lemma nsum_perm l1 l2 : Permutation l1 l2 -> nsum N l1 = nsum N l2.
Proof. intros H. rewrite !(nsum_big N L). apply (big_perm N L). exact H. Qed.

(** *** MultiOpIterator *)
Definition combo (iter_ns : list nat) (es : list (nat * P)) : nat * P :=
  fold_left (fun '(c, v) '(n, (col, val)) => (Nat.lor (Nat.shiftl c n) col, nmul N v val))
    (combine iter_ns es) (0, n1 N).

(** all choices of one element per list, the last list varying fastest *)
Fixpoint product {A} (ls : list (list A)) : list (list A) :=
  match ls with
  | [] => [[]]
  | l :: ls' => flat_map (fun a => map (cons a) (product ls')) l
  end.

(** mixed-radix positions *)
Fixpoint picks {A} (outs : list (list A)) (poss : list nat) : list A :=
  match outs, poss with
  | o :: outs', p :: poss' =>
      match nth_error o p with Some a => a :: picks outs' poss' | None => [] end
  | _, _ => []
  end.

Definition valid_pos {A} (outs : list (list A)) (poss : list nat) : Prop :=
  Forall2 (fun o p => p < length o) outs poss.

(** successor of a position, most significant first *)
Fixpoint succ_pos (lens poss : list nat) : option (list nat) :=
  match lens, poss with
  | l :: lens', p :: poss' =>
      match succ_pos lens' poss' with
      | Some ps => Some (p :: ps)
      | None => if p + 1 =? l then None else Some (p + 1 :: map (fun _ => 0) poss')
      end
  | _, _ => None
  end.

Lemma odometer_app rp rl p l : length rp = length rl ->
  odometer (rp ++ [p]) (rl ++ [l]) =
  let '(q, b) := odometer rp rl in
  if b then (q ++ [p], true)
  else if p + 1 =? l then (q ++ [0], false) else (q ++ [p + 1], true).
Proof.
  revert rl. induction rp as [|x rp IH]; intros [|y rl] H; cbn in H; try lia.
  - cbn. destruct (p + 1 =? l); reflexivity.
  - cbn [app odometer]. destruct (x + 1 =? y) eqn:E.
    + rewrite IH by lia. destruct (odometer rp rl) as [q b]. destruct b; auto.
      destruct (p + 1 =? l); reflexivity.
    + reflexivity.
Qed.

Lemma odometer_succ lens poss : length lens = length poss ->
  odometer (rev poss) (rev lens) =
  match succ_pos lens poss with
  | Some ps => (rev ps, true)
  | None => (rev (map (fun _ => 0) poss), false)
  end.
Proof.
  revert poss. induction lens as [|l lens IH]; intros [|p poss] H; cbn in H; try lia; [reflexivity|].
  cbn [rev succ_pos map]. rewrite odometer_app by (rewrite !rev_length; lia). rewrite IH by lia.
  destruct (succ_pos lens poss) as [ps|]; cbn [rev]; [reflexivity|].
  destruct (p + 1 =? l); reflexivity.
Qed.

(** list of remaining choices from a position *)
Fixpoint from_pos {A} (outs : list (list A)) (poss : list nat) : list (list A) :=
  match outs, poss with
  | o :: outs', p :: poss' =>
      match skipn p o with
      | [] => []
      | a :: rest => map (cons a) (from_pos outs' poss') ++ flat_map (fun a => map (cons a) (product outs')) rest
      end
  | _, _ => [[]]
  end.

Lemma from_pos_zero {A} (outs : list (list A)) :
  Forall (fun o => o <> []) outs -> from_pos outs (map (fun _ => 0) outs) = product outs.
Proof.
  induction outs as [|o outs IH]; intros H; cbn; [reflexivity|]. inversion H; subst.
  destruct o as [|a o]; [contradiction|]. cbn. rewrite IH by auto. reflexivity.
Qed.

Lemma skipn_nth_error {A} (l : list A) p a : nth_error l p = Some a -> skipn p l = a :: skipn (S p) l.
Proof. revert l. induction p as [|p IH]; intros [|x l] H; try discriminate; cbn in *; [congruence|]. auto. Qed.

Lemma from_pos_succ {A} (outs : list (list A)) : Forall (fun o => o <> []) outs ->
  forall poss, valid_pos outs poss ->
  match succ_pos (map (@length A) outs) poss with
  | Some ps => valid_pos outs ps /\ from_pos outs poss = picks outs poss :: from_pos outs ps
  | None => from_pos outs poss = [picks outs poss]
  end.
Proof.
  induction outs as [|o outs IH]; intros NE poss V; inversion V; subst; cbn [succ_pos map].
  - reflexivity.
  - inversion NE; subst. rename l' into poss', y into p. rename H1 into Hp.
    destruct (nth_error o p) as [a|] eqn:E; [|apply nth_error_None in E; lia].
    assert (Z : map (fun _ => 0) poss' = map (fun _ => 0) outs).
    { clear - H3. induction H3; cbn; congruence. }
    specialize (IH H4 poss' H3). cbn [from_pos picks]. rewrite E, (skipn_nth_error _ _ _ E).
    destruct (succ_pos (map (@length A) outs) poss') as [ps|].
    + destruct IH as [IH1 IH2]. split; [constructor; auto|].
      cbn [from_pos]. rewrite (skipn_nth_error _ _ _ E). rewrite IH2. reflexivity.
    + rewrite IH. destruct (Nat.eqb_spec (p + 1) (length o)) as [E2|E2].
      * rewrite skipn_all2 by lia. reflexivity.
      * split.
        -- constructor; [lia|]. rewrite Z. clear - H4.
           induction outs as [|o outs IH]; cbn; constructor; inversion H4; subst.
           ++ destruct o; [contradiction|cbn; lia].
           ++ apply IH; auto.
        -- cbn [from_pos map app]. rewrite Nat.add_1_r.
           destruct (skipn (S p) o) as [|b rest] eqn:E3.
           ++ apply (f_equal (@length A)) in E3. rewrite skipn_length in E3. cbn in E3. lia.
           ++ cbn [flat_map]. rewrite Z, from_pos_zero by auto. reflexivity.
Qed.

Lemma multi_item_ok iter_ns outs poss : length iter_ns = length outs -> valid_pos outs poss ->
  multi_item N iter_ns outs poss = Ok (combo iter_ns (picks outs poss)).
Proof.
  unfold multi_item, combo. generalize (0, n1 N) as acc. intros acc H V. revert iter_ns acc H.
  induction V as [|o p outs poss Hp V IH]; intros [|n iter_ns] acc H; cbn in H; try lia; [reflexivity|].
  cbn [combine foldM picks].
  destruct (nth_error o p) as [[col val]|] eqn:E; [|apply nth_error_None in E; lia].
  destruct acc as [c v]. unfold idx at 1. rewrite E. cbn [bind combine fold_left]. apply IH. lia.
Qed.

Lemma multi_yields iter_ns outs : length iter_ns = length outs -> Forall (fun o => o <> []) outs ->
  yields (multi_iter N iter_ns outs) (it_init (multi_iter N iter_ns outs))
    (map (combo iter_ns) (product outs)).
Proof.
  intros Hl NE.
  assert (G : forall m poss, length (from_pos outs poss) <= m -> valid_pos outs poss ->
    yields (multi_iter N iter_ns outs) (poss, false) (map (combo iter_ns) (from_pos outs poss))).
  { induction m as [|m IH]; intros poss B V; assert (S := from_pos_succ outs NE poss V);
    assert (Lv : length (map (@length _) outs) = length poss) by
      (rewrite map_length; clear - V; induction V; cbn; congruence);
    assert (O := odometer_succ _ _ Lv);
    destruct (succ_pos (map (@length _) outs) poss) as [ps|].
    - exfalso. destruct S as [_ S]. rewrite S in B. cbn in B. lia.
    - exfalso. rewrite S in B. cbn in B. lia.
    - destruct S as [S1 S2]. rewrite S2 in *. cbn [map].
      apply Y_cons with ((ps, false) : it_S (multi_iter N iter_ns outs)).
      + cbn [it_next multi_iter]. unfold multi_next. rewrite multi_item_ok by auto. cbn [bind].
        rewrite O, rev_involutive. reflexivity.
      + apply IH; auto. cbn in B. lia.
    - rewrite S. cbn [map]. eapply Y_cons.
      + cbn [it_next multi_iter]. unfold multi_next. rewrite multi_item_ok by auto. cbn [bind].
        rewrite O. reflexivity.
      + eapply Y_nil. reflexivity. }
  cbn [it_init multi_iter]. rewrite <- from_pos_zero by auto.
  replace (map (fun _ => 0) iter_ns) with (map (fun _ : list (nat * P) => 0) outs).
  - apply G with (m := length (from_pos outs (map (fun _ => 0) outs))); auto.
    clear - NE. induction NE as [|o outs H NE IH]; constructor; auto. destruct o; [contradiction|cbn; lia].
  - clear - Hl. revert outs Hl. induction iter_ns; intros [|]; cbn; intros; try lia; auto. f_equal. auto.
Qed.

Lemma product_length {A} (ls : list (list A)) :
  length (product ls) = fold_right (fun o m => length o * m) 1 ls.
Proof.
  induction ls as [|l ls IH]; [reflexivity|]. cbn [product fold_right]. rewrite <- IH.
  clear IH. induction l as [|a l IH]; [reflexivity|]. cbn [flat_map length Nat.mul].
  rewrite app_length, map_length, IH. reflexivity.
Qed.

Lemma multi_collect iter_ns outs : length iter_ns = length outs -> Forall (fun o => o <> []) outs ->
  collect (multi_fuel outs) (multi_iter N iter_ns outs) (it_init (multi_iter N iter_ns outs)) =
  Ok (map (combo iter_ns) (product outs)).
Proof.
  intros H NE. apply collect_yields; [apply multi_yields; auto|].
  rewrite map_length, product_length. unfold multi_fuel. lia.
Qed.

(** with an empty row the iterator panics *)
Lemma multi_empty_panics n0' ns o outs : o = [] ->
  collect (multi_fuel (o :: outs)) (multi_iter N (n0' :: ns) (o :: outs))
    (it_init (multi_iter N (n0' :: ns) (o :: outs))) = Panic PIndex.
Proof. intros ->. reflexivity. Qed.

End Proofs.
