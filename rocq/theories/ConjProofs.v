(** invert_op is the adjoint (C16); unitary ops preserve inner products (C17). *)
From Coq Require Import Permutation FunctionalExtensionality.
From Verif Require Import Base BitsModel BitsSpec BitsProofs OpsModel OpsSpec OpsProofs OpsProofs2
  StateOpsModel StateOpsProofs ConjSpec.
Local Open Scope res_scope.

(** *** transpose_dense *)
Section Dense.
Context {A : Type} (d : A) (n : nat).
Let K := 2 ^ n.

Definition ent (m : list A) (i j : nat) : A := nth (i * K + j) m d.

Lemma flat_lt i j : i < K -> j < K -> i * K + j < K * K.
Proof. intros. nia. Qed.
Lemma flat_inj i j i' j' : j < K -> j' < K -> i * K + j = i' * K + j' -> i = i' /\ j = j'.
Proof.
  intros H1 H2 E.
  assert (i = i'). { apply (f_equal (fun x => x / K)) in E. rewrite !Nat.div_add_l, !Nat.div_small in E by lia. lia. }
  subst. lia.
Qed.

Lemma vec_swap_ent m i j : length m = K * K -> i < K -> j < K ->
  exists m', vec_swap m (get_flat_index n i j) (get_flat_index n j i) = Ok m' /\ length m' = K * K /\
    forall a b, a < K -> b < K ->
      ent m' a b = if ((a =? i) && (b =? j)) || ((a =? j) && (b =? i)) then ent m b a else ent m a b.
Proof.
  intros Hl Hi Hj. unfold vec_swap, get_flat_index. fold K.
  assert (B1 := flat_lt i j Hi Hj). assert (B2 := flat_lt j i Hj Hi).
  rewrite (idx_ok m d) by lia. cbn [bind]. rewrite (idx_ok m d) by lia. cbn [bind].
  eexists. split; [reflexivity|]. rewrite !upd_nth_length. split; auto. intros a b Ha Hb.
  unfold ent. rewrite nth_upd_nth by (rewrite upd_nth_length; lia). rewrite nth_upd_nth by lia.
  destruct (Nat.eqb_spec (a * K + b) (j * K + i)) as [E|E].
  - apply flat_inj in E; auto. destruct E; subst. rewrite !Nat.eqb_refl. cbn. rewrite orb_true_r. reflexivity.
  - destruct (Nat.eqb_spec (a * K + b) (i * K + j)) as [E2|E2].
    + apply flat_inj in E2; auto. destruct E2; subst. rewrite !Nat.eqb_refl. reflexivity.
    + destruct (Nat.eqb_spec a i), (Nat.eqb_spec b j), (Nat.eqb_spec a j), (Nat.eqb_spec b i); subst; cbn; congruence.
Qed.

Lemma transpose_row m i : length m = K * K -> i < K -> forall c, c <= i ->
  exists m', foldM (fun mat col => vec_swap mat (get_flat_index n i col) (get_flat_index n col i)) (seq 0 c) m = Ok m' /\
    length m' = K * K /\
    forall a b, a < K -> b < K ->
      ent m' a b = if ((a =? i) && (b <? c)) || ((b =? i) && (a <? c)) then ent m b a else ent m a b.
Proof.
  intros Hl Hi. induction c as [|c IH]; intros Hc.
  - exists m. repeat split; auto. intros. unfold Nat.ltb. cbn. rewrite !andb_false_r. reflexivity.
  - destruct IH as [m1 (E & Hl1 & H1)]; [lia|].
    rewrite seq_S, foldM_app, E. cbn [Nat.add bind foldM].
    destruct (vec_swap_ent m1 i c) as [m2 (E2 & Hl2 & H2)]; auto; try lia.
    rewrite E2. cbn [bind]. exists m2. repeat split; auto. intros a b Ha Hb.
    rewrite H2 by auto. rewrite !H1 by auto.
    destruct (Nat.eqb_spec a i), (Nat.eqb_spec b c), (Nat.eqb_spec a c), (Nat.eqb_spec b i),
      (Nat.ltb_spec b c), (Nat.ltb_spec a c), (Nat.ltb_spec b (S c)), (Nat.ltb_spec a (S c)); subst; cbn; try lia; auto.
Qed.

Lemma transpose_rows m R : length m = K * K -> R <= K ->
  exists m', foldM (fun mat row => foldM (fun mat col =>
      vec_swap mat (get_flat_index n row col) (get_flat_index n col row)) (seq 0 row) mat) (seq 0 R) m = Ok m' /\
    length m' = K * K /\
    forall a b, a < K -> b < K -> ent m' a b = if (a <? R) && (b <? R) then ent m b a else ent m a b.
Proof.
  intros Hl. induction R as [|R IH]; intros HR.
  - exists m. repeat split; auto.
  - destruct IH as [m1 (E & Hl1 & H1)]; [lia|].
    rewrite seq_S, foldM_app, E. cbn [Nat.add bind foldM].
    destruct (transpose_row m1 R Hl1 ltac:(lia) R ltac:(lia)) as [m2 (E2 & Hl2 & H2)].
    rewrite E2. cbn [bind]. exists m2. repeat split; auto. intros a b Ha Hb.
    rewrite H2 by auto. rewrite !H1 by auto.
    destruct (Nat.eqb_spec a R), (Nat.eqb_spec b R), (Nat.ltb_spec a R), (Nat.ltb_spec b R),
      (Nat.ltb_spec a (S R)), (Nat.ltb_spec b (S R)); subst; cbn; try lia; auto.
Qed.

Lemma transpose_dense_ok m : length m = 2 ^ (2 * n) ->
  exists m', transpose_dense n m = Ok m' /\ length m' = 2 ^ (2 * n) /\
    forall a b, a < 2 ^ n -> b < 2 ^ n -> nth (a * 2 ^ n + b) m' d = nth (b * 2 ^ n + a) m d.
Proof.
  assert (EK : 2 ^ (2 * n) = K * K) by (unfold K; rewrite <- Nat.pow_add_r; f_equal; lia).
  rewrite EK. intros Hl. destruct (transpose_rows m K Hl (Nat.le_refl _)) as [m' (E & Hl' & H)].
  exists m'. repeat split; auto. intros a b Ha Hb.
  specialize (H a b Ha Hb). unfold ent, K in H. rewrite H.
  destruct (Nat.ltb_spec a (2 ^ n)), (Nat.ltb_spec b (2 ^ n)); try lia. reflexivity.
Qed.
End Dense.

Section Conj.
Context {P : Type} (N : num P) (L : num_laws N) (cj : P -> P) (J : conj_laws N cj).
Local Notation big := (big N).

Lemma cj_big {A} (f : A -> P) l : cj (big f l) = big (fun a => cj (f a)) l.
Proof. induction l as [|a l IH]; cbn; [apply (c_0 J)|]. rewrite (c_add J), IH. reflexivity. Qed.

Lemma cj_delta a b : cj (delta N a b) = delta N a b.
Proof. unfold delta. destruct (lb_eq a b); [apply (c_1 J)|apply (c_0 J)]. Qed.
Lemma delta_sym a b : delta N a b = delta N b a.
Proof.
  destruct (list_eq_dec bool_dec a b) as [->|H]; [reflexivity|]. rewrite !(delta_diff N); auto.
Qed.

Lemma conj_op_mat (op : mop P) r c : op_mat N (conj_op cj op) r c = cj (op_mat N op r c).
Proof.
  revert r c. induction op as [ind data|ind rows|n ind|nc ind op IH]; intros r c; cbn [conj_op op_mat].
  - rewrite <- (c_0 J) at 1. apply map_nth.
  - rewrite cj_big. 
    replace (nth (be r) (map (map (fun '(i, v) => (i, cj v))) rows) []) with
      (map (fun '(i, v) => (i, cj v)) (nth (be r) rows [])).
    2:{ rewrite <- (map_nth (map (fun '(i, v) => (i, cj v)))). reflexivity. }
    rewrite (big_map N). apply (big_ext N). intros [i v] _. cbn [fst snd].
    destruct (i =? be c); [reflexivity|]. symmetry. apply (c_0 J).
  - symmetry. apply cj_delta.
  - destruct (forallb _ _); [|symmetry; apply cj_delta].
    destruct (forallb _ _); [apply IH|]. symmetry. apply (c_0 J).
Qed.

Lemma conj_op_wf (op : mop P) : wf_op op -> wf_op (conj_op cj op) /\ op_indices (conj_op cj op) = op_indices op.
Proof.
  induction op as [ind data|ind rows|n ind|nc ind op IH]; cbn [conj_op wf_op op_indices].
  - rewrite map_length. auto.
  - intros [W1 W2]. rewrite map_length. repeat split; auto. intros row Hr e He.
    apply in_map_iff in Hr. destruct Hr as [row' [<- Hr]]. apply in_map_iff in He.
    destruct He as [[i v] [<- He]]. cbn. apply (W2 row' Hr (i, v) He).
  - auto.
  - intros [W1 W2]. destruct (IH W2) as [I1 I2]. rewrite I2. auto.
Qed.

(** entries of the transposed sparse matrix *)
Lemma col_entries_big (m : list (list (nat * P))) c (g : nat -> P -> P) :
  big (fun e => g (fst e) (snd e)) (col_entries m c) =
  big (fun i => big (fun e => if fst e =? c then g i (snd e) else n0 N) (nth i m [])) (seq 0 (length m)).
Proof.
  unfold col_entries. rewrite (enumerate_map_nth m []), map_map.
  induction (seq 0 (length m)) as [|i s IH]; cbn; [reflexivity|].
  rewrite (big_app N L), IH. f_equal. rewrite (big_map N). cbn [fst snd].
  induction (nth i m []) as [|e l IHl]; cbn; [reflexivity|].
  destruct (fst e =? c); cbn.
  - f_equal. exact IHl.
  - rewrite IHl. symmetry. apply (l_add_0 L).
Qed.

Lemma transpose_sparse_mat ind (m : list (list (nat * P))) : wf_op (Sparse ind m) ->
  exists m', transpose_sparse m = Ok m' /\ wf_op (Sparse ind m') /\
    forall r c, length r = length ind -> length c = length ind ->
      op_mat N (Sparse ind m') r c = op_mat N (Sparse ind m) c r.
Proof.
  intros [W1 W2]. assert (R : cols_in_range m) by (intros row Hr e He; rewrite W1; eapply W2; eauto).
  rewrite transpose_seq_spec by auto. eexists. split; [reflexivity|]. split.
  - cbn. rewrite map_length, seq_length. split; auto. intros row Hr e He.
    apply in_map_iff in Hr. destruct Hr as [c [<- Hc]]. destruct e as [r v]. apply In_col_entries in He.
    destruct He as [row [E _]]. cbn. rewrite <- W1. apply nth_error_Some. congruence.
  - intros r c Hr Hc. cbn [op_mat]. rewrite W1.
    assert (Br := be_lt r). rewrite Hr in Br. assert (Bc := be_lt c). rewrite Hc in Bc.
    rewrite nth_map_seq by auto.
    rewrite (col_entries_big m (be r) (fun i v => if i =? be c then v else n0 N)).
    rewrite (big_single N L _ _ (be c)).
    + apply (big_ext N). intros e _. rewrite Nat.eqb_refl. reflexivity.
    + apply seq_NoDup.
    + apply in_seq. lia.
    + intros i _ Hne. apply (big_zero N L). intros e _. destruct (Nat.eqb_spec i (be c)); [contradiction|].
      destruct (fst e =? be r); reflexivity.
Qed.

Lemma app_eq_len {A} (u v w z : list A) : length u = length w -> u ++ v = w ++ z -> u = w /\ v = z.
Proof.
  revert w. induction u as [|c u IH]; intros [|d w] H E; cbn in *; try lia; auto.
  inversion E; subst. destruct (IH w); auto. subst. auto.
Qed.

Lemma transpose_op_ok (op : mop P) : wf_op op ->
  exists op', transpose_op op = Ok op' /\ wf_op op' /\ op_indices op' = op_indices op /\
    forall r c, length r = length (op_indices op) -> length c = length (op_indices op) ->
      op_mat N op' r c = op_mat N op c r.
Proof.
  induction op as [ind data|ind rows|n ind|nc ind op IH]; intros W; cbn [transpose_op op_indices].
  - destruct (transpose_dense_ok (n0 N) (length ind) data W) as [m' (E & Hl & H)].
    rewrite E. cbn [bind]. eexists. repeat split; auto. intros r c Hr Hc. cbn [op_mat].
    apply H; [rewrite <- Hr|rewrite <- Hc]; apply be_lt.
  - destruct (transpose_sparse_mat ind rows W) as [m' (E & W' & H)].
    rewrite E. cbn [bind]. eexists. repeat split; try apply W'; auto.
  - eexists. repeat split; auto. intros r c Hr Hc. cbn in W. cbn [op_mat].
    assert (E : forall a b : list bool, length a = n + n -> length b = n + n ->
        a = skipn n b ++ firstn n b -> b = skipn n a ++ firstn n a).
    { intros a b Ha Hb ->. assert (Hs : length (skipn n b) = n) by (rewrite skipn_length; lia).
      rewrite skipn_app, firstn_app, Hs, Nat.sub_diag, (skipn_all2 (skipn n b)), (firstn_all2 (skipn n b)) by lia. cbn [firstn skipn].
      rewrite app_nil_r. cbn [app]. symmetry. apply firstn_skipn. }
    destruct (list_eq_dec bool_dec c (skipn n r ++ firstn n r)) as [Ec|Ec].
    + rewrite <- Ec, delta_same. apply E in Ec; try lia. rewrite <- Ec, delta_same. reflexivity.
    + rewrite !(delta_diff N); auto. intros F. apply Ec. apply E in F; auto; lia.
  - destruct W as [W1 W2]. destruct (IH W2) as [op' (E & W' & I & H)]. rewrite E. cbn [bind].
    eexists. split; [reflexivity|]. cbn [wf_op op_indices]. rewrite I. repeat split; auto.
    intros r c Hr Hc. cbn [op_mat].
    destruct (forallb (fun b => b) (firstn nc r)) eqn:F1, (forallb (fun b => b) (firstn nc c)) eqn:F2.
    + apply H; rewrite skipn_length; lia.
    + rewrite (delta_diff N); auto. intros ->. congruence.
    + apply (delta_diff N). intros ->. congruence.
    + apply delta_sym.
Qed.

Lemma invert_op_ok (op : mop P) : wf_op op ->
  exists op', invert_op cj op = Ok op' /\ wf_op op' /\ op_indices op' = op_indices op /\
    forall r c, length r = length (op_indices op) -> length c = length (op_indices op) ->
      op_mat N op' r c = cj (op_mat N op c r).
Proof.
  intros W. destruct (transpose_op_ok op W) as [t (E & W' & I & H)].
  unfold invert_op. rewrite E. cbn [bind]. exists (conj_op cj t).
  destruct (conj_op_wf t W') as [W'' I']. repeat split; auto; [congruence|].
  intros r c Hr Hc. rewrite conj_op_mat, H by auto. reflexivity.
Qed.

Lemma invert_twice (op : mop P) : wf_op op ->
  exists op', (o <- invert_op cj op ;; invert_op cj o) = Ok op' /\ wf_op op' /\ op_indices op' = op_indices op /\
    forall r c, length r = length (op_indices op) -> length c = length (op_indices op) ->
      op_mat N op' r c = op_mat N op r c.
Proof.
  intros W. destruct (invert_op_ok op W) as [o1 (E1 & W1 & I1 & H1)].
  destruct (invert_op_ok o1 W1) as [o2 (E2 & W2 & I2 & H2)].
  rewrite E1. cbn [bind]. exists o2. rewrite I1 in *. repeat split; auto.
  intros r c Hr Hc. rewrite H2, H1, (c_invol J) by auto. reflexivity.
Qed.

(** *** action of products, adjoints *)
Lemma act_act qs A B psi x : NoDup qs ->
  act N qs A (act N qs B psi) x = act N qs (mmul N (length qs) A B) psi x.
Proof.
  intros ND. unfold act, mmul.
  transitivity (big (fun c => big (fun d => nmul N (nmul N (A (map x qs) c) (B c d)) (psi (updl x qs d)))
     (bools (length qs))) (bools (length qs))).
  - apply (big_ext N). intros c Hc. apply In_bools in Hc. rewrite (big_mul_l N L). apply (big_ext N).
    intros d Hd. apply In_bools in Hd. rewrite updl_map by auto. rewrite updl_updl_same by auto.
    apply (l_mul_assoc L).
  - rewrite (big_exchange N L). apply (big_ext N). intros d _. rewrite (big_mul_r N L). reflexivity.
Qed.

Lemma act_delta qs psi x : act N qs (delta N) psi x = psi x.
Proof.
  unfold act. rewrite (big_single N L _ _ (map x qs)).
  - rewrite delta_same, (l_mul_1 L), updl_self. reflexivity.
  - apply NoDup_bools.
  - apply In_bools. apply map_length.
  - intros c _ H. rewrite delta_diff by auto. apply (l_mul_0 L).
Qed.

Lemma big_list_prod {A B} (f : A -> B -> P) l1 l2 :
  big (fun p => f (fst p) (snd p)) (list_prod l1 l2) = big (fun a => big (f a) l2) l1.
Proof.
  induction l1 as [|a l1 IH]; cbn; [reflexivity|]. rewrite (big_app N L), IH, (big_map N). reflexivity.
Qed.

Lemma invol_perm {A} (s : A -> A) (l : list A) : NoDup l -> (forall a, In a l -> In (s a) l) ->
  (forall a, In a l -> s (s a) = a) -> Permutation l (map s l).
Proof.
  intros ND H1 H2. apply NoDup_Permutation; auto.
  - assert (G : forall l', (forall a, In a l' -> In a l) -> NoDup l' -> NoDup (map s l')).
    { induction l' as [|a l' IH]; intros Hs ND'; cbn; [constructor|]. inversion ND'; subst. constructor.
      - intros I. apply in_map_iff in I. destruct I as [b [E Ib]]. apply (f_equal s) in E.
        rewrite !H2 in E by (apply Hs; cbn; auto). subst. contradiction.
      - apply IH; auto. intros b Hb. apply Hs. cbn; auto. }
    apply G; auto.
  - intros a. rewrite in_map_iff. split.
    + intros I. exists (s a). split; auto.
    + intros [b [<- I]]. auto.
Qed.

Lemma NoDup_list_prod {A B} (l1 : list A) (l2 : list B) : NoDup l1 -> NoDup l2 -> NoDup (list_prod l1 l2).
Proof.
  intros H1 H2. induction H1 as [|a l1 Ha H1 IH]; cbn; [constructor|]. apply NoDup_app_iff. repeat split; auto.
  - apply FinFun.Injective_map_NoDup; auto. intros x y E. inversion E; auto.
  - intros [x y] I1 I2. apply in_map_iff in I1. destruct I1 as [z [E _]]. inversion E; subst.
    apply in_prod_iff in I2. tauto.
Qed.

(** exchange of the summation over (x, c): y = x[qs:=c], d = x|qs *)
Lemma bsum_exchange n qs (F : bs -> list bool -> P) : NoDup qs -> in_range n qs ->
  bsum N n (fun x => big (fun c => F x c) (bools (length qs))) =
  bsum N n (fun y => big (fun d => F (updl y qs d) (map y qs)) (bools (length qs))).
Proof.
  intros ND R. unfold bsum.
  transitivity (big (fun p => F (dec n (fst p)) (snd p)) (list_prod (seq 0 (2 ^ n)) (bools (length qs)))).
  { symmetry. apply (big_list_prod (fun i c => F (dec n i) c)). }
  transitivity (big (fun p => F (updl (dec n (fst p)) qs (snd p)) (map (dec n (fst p)) qs))
     (list_prod (seq 0 (2 ^ n)) (bools (length qs)))).
  2:{ apply (big_list_prod (fun i d => F (updl (dec n i) qs d) (map (dec n i) qs))). }
  set (s := fun p : nat * list bool => (enc n (updl (dec n (fst p)) qs (snd p)), map (dec n (fst p)) qs)).
  assert (D : forall i c, dec n (enc n (updl (dec n i) qs c)) = updl (dec n i) qs c).
  { intros i c. extensionality q. rewrite dec_enc. destruct (Nat.ltb_spec q n); [reflexivity|].
    symmetry. rewrite updl_notin by (intros I; apply R in I; lia). unfold dec.
    destruct (Nat.ltb_spec q n); [lia|reflexivity]. }
  rewrite (big_perm N L _ _ (map s (list_prod (seq 0 (2 ^ n)) (bools (length qs))))).
  - rewrite (big_map N). apply (big_ext N). intros [i c] _. unfold s. cbn [fst snd]. rewrite D. reflexivity.
  - apply invol_perm.
    + apply NoDup_list_prod; [apply seq_NoDup|apply NoDup_bools].
    + intros [i c] I. apply in_prod_iff in I. unfold s. cbn [fst snd]. apply in_prod_iff. split.
      * apply in_seq. assert (B := enc_lt n (updl (dec n i) qs c)). lia.
      * apply In_bools. apply map_length.
    + intros [i c] I. apply in_prod_iff in I. destruct I as [I1 I2]. apply in_seq in I1. apply In_bools in I2.
      unfold s. cbn [fst snd]. rewrite D, updl_map by auto. rewrite updl_updl_same by (rewrite ?map_length; auto).
      rewrite updl_self, enc_dec by lia. reflexivity.
Qed.

Lemma ip_adj n qs M phi psi : NoDup qs -> in_range n qs ->
  ip N cj n phi (act N qs M psi) = ip N cj n (act N qs (adj cj M) phi) psi.
Proof.
  intros ND R. unfold ip.
  transitivity (bsum N n (fun x => big (fun c =>
     nmul N (cj (phi x)) (nmul N (M (map x qs) c) (psi (updl x qs c)))) (bools (length qs)))).
  { unfold bsum. apply (big_ext N). intros i _. unfold act. apply (big_mul_l N L). }
  rewrite bsum_exchange by auto. unfold bsum. apply (big_ext N). intros i Hi. unfold act.
  rewrite cj_big, (big_mul_r N L). apply (big_ext N). intros d Hd. apply In_bools in Hd.
  rewrite updl_map by auto. rewrite updl_updl_same by (rewrite ?map_length; auto). rewrite updl_self.
  rewrite (c_mul J). unfold adj. rewrite (c_invol J), (l_mul_assoc L). f_equal. apply (c_mulc J).
Qed.

Lemma ip_ext n phi phi' psi psi' : (forall x, phi x = phi' x) -> (forall x, psi x = psi' x) ->
  ip N cj n phi psi = ip N cj n phi' psi'.
Proof. intros H1 H2. unfold ip, bsum. apply (big_ext N). intros. rewrite H1, H2. reflexivity. Qed.

Lemma unitary_act_inv qs M psi x : NoDup qs -> unitary_mat N cj (length qs) M ->
  act N qs (adj cj M) (act N qs M psi) x = psi x.
Proof.
  intros ND U. rewrite act_act by auto. transitivity (act N qs (delta N) psi x); [|apply act_delta]. apply act_ext.
  intros r c Hr Hc. apply U; auto.
Qed.

Lemma unitary_ip n qs M phi psi : NoDup qs -> in_range n qs -> unitary_mat N cj (length qs) M ->
  ip N cj n (act N qs M phi) (act N qs M psi) = ip N cj n phi psi.
Proof.
  intros ND R U. rewrite ip_adj by auto. apply ip_ext; auto. intros x. apply unitary_act_inv; auto.
Qed.

End Conj.
