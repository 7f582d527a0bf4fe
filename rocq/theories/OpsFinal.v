(** Final forms of C06-C19 used by the property files. *)
From Coq Require Import ZArith Permutation Sorted FunctionalExtensionality.
From Verif Require Import Base BitsModel BitsSpec BitsProofs BitsProofs2 OpsModel OpsSpec OpsProofs OpsProofs2 OpsProofs3
  StateOpsModel ScheduleModel StateOpsProofs ConjSpec ConjProofs Instances UnitaryProofs.
Local Open Scope res_scope.

Section Final.
Context {P : Type} (N : num P) (L : num_laws N).

Lemma final_dense_items ind (data : list P) row :
  length data = 2 ^ (2 * length ind) -> row < 2 ^ length ind ->
  op_collect N (Matrix ind data) (length ind) row =
  Ok (filter (fun e => negb (nis0 N (snd e)))
        (map (fun c => (c, nth (row * 2 ^ length ind + c) data (n0 N))) (seq 0 (2 ^ length ind)))).
Proof. intros W Hr. apply (op_collect_items N (Matrix ind data) row W Hr). Qed.

Lemma final_sparse_items ind (rows : list (list (nat * P))) row : wf_op (Sparse ind rows) ->
  row < 2 ^ length ind -> op_collect N (Sparse ind rows) (length ind) row = Ok (nth row rows []).
Proof. intros W Hr. apply (op_collect_items N (Sparse ind rows) row W Hr). Qed.

Lemma final_swap_items n ind row : length ind = n + n -> row < 2 ^ length ind ->
  op_collect N (Swap n ind) (length ind) row = Ok [(row mod 2 ^ n * 2 ^ n + row / 2 ^ n, n1 N)].
Proof. intros W Hr. apply (op_collect_items N (Swap n ind) row W Hr). Qed.

Lemma final_control_items nc ind (op : mop P) row : wf_op (Control nc ind op) -> row < 2 ^ length ind ->
  op_collect N (Control nc ind op) (length ind) row =
  let k := length (op_indices op) in
  let block := 2 ^ (nc + k) - 2 ^ k in
  if row <? block then Ok [(row, n1 N)]
  else items <- op_collect N op k (row - block) ;; Ok (map (fun e => (fst e + block, snd e)) items).
Proof.
  intros W Hr. assert (W' := W). destruct W' as [W1 W2].
  transitivity (Ok (op_items N (Control nc ind op) row)).
  - apply (op_collect_items N (Control nc ind op) row W Hr).
  - cbn zeta. cbn [op_items]. cbn zeta. rewrite W1 in *. set (k := length (op_indices op)) in *.
    assert (p := pow2_pos k). assert (2 ^ k <= 2 ^ (nc + k)) by (apply Nat.pow_le_mono_r; lia).
    destruct (Nat.ltb_spec row (2 ^ (nc + k) - 2 ^ k)), (Nat.leb_spec (2 ^ (nc + k) - 2 ^ k) row); try lia; auto.
    unfold k. rewrite (op_collect_items N) by (auto; fold k; lia). reflexivity.
Qed.

Lemma final_function_items row input_n output_n f :
  1 <= input_n <= 64 -> 1 <= output_n <= 64 -> row < 2 ^ (input_n + output_n) ->
  exists it, function_iter row input_n output_n f = Ok it /\
    collect 3 it (it_init it) =
    let x := row / 2 ^ output_n in let y := row mod 2 ^ output_n in
    let '(fx, theta) := f (be (rev (bits_be input_n x))) in
    Ok [(x * 2 ^ output_n + Nat.lxor y (be (rev (bits_be output_n fx))), theta : P)].
Proof.
  intros H1 H2 Hr. unfold function_iter. rewrite flip_bits_be by auto. cbn [bind].
  rewrite Nat.shiftr_div_pow2. destruct (f _) as [fx theta] eqn:Ef. rewrite flip_bits_be by auto.
  cbn [bind]. eexists. split; [reflexivity|]. cbn [collect it_next it_init bind].
  cbn zeta. rewrite Nat.land_ones. do 3 f_equal.
  assert (By : row mod 2 ^ output_n < 2 ^ output_n) by (apply Nat.mod_upper_bound, Nat.pow_nonzero; lia).
  assert (Bf : be (rev (bits_be output_n fx)) < 2 ^ output_n).
  { assert (B := be_lt (rev (bits_be output_n fx))). rewrite rev_length, length_bits_be in B. exact B. }
  assert (Bx : Nat.lxor (row mod 2 ^ output_n) (be (rev (bits_be output_n fx))) < 2 ^ output_n).
  { apply bits_lt. intros j Hj. rewrite Nat.lxor_spec, !(testbit_high _ output_n) by auto. reflexivity. }
  set (x := row / 2 ^ output_n). set (z := Nat.lxor _ _) in *.
  assert (E := lor_be_app (bits_be input_n x) output_n z Bx).
  rewrite be_app_gen, length_bits_be, be_bits_be in E.
  - rewrite be_bits_be in E by exact Bx. exact E.
  - unfold x. apply Nat.div_lt_upper_bound; [apply Nat.pow_nonzero; lia|]. rewrite <- Nat.pow_add_r, Nat.add_comm. exact Hr.
Qed.

(** swap, control on vectors *)
Lemma final_swap n a b v w : a <> [] -> length a = length b -> NoDup (a ++ b) -> in_range n (a ++ b) ->
  length v = 2 ^ n -> length w = 2 ^ n ->
  exists op out, make_swap_op a b = Ok op /\ apply_op_overwrite N n op v w 0 0 = Ok out /\ length out = 2 ^ n /\
    forall x y, (forall i, i < length a -> y (nth i a 0) = x (nth i b 0) /\ y (nth i b 0) = x (nth i a 0)) ->
      (forall q, ~ In q (a ++ b) -> y q = x q) ->
      st_of N n out x = st_of N n v y.
Proof.
  intros Ha Hl ND R Hv Hw. exists (Swap (length a) (a ++ b)).
  assert (W : wf_op (@Swap P (length a) (a ++ b))) by (cbn; rewrite app_length; lia).
  destruct (apply_op_overwrite_act N L n (Swap (length a) (a ++ b)) v w W R Hv Hw) as [out (E & Lo & H)].
  exists out. repeat split; auto.
  - apply make_swap_op_ok. repeat split; auto. intros ->. destruct a; [auto|discriminate].
  - intros x y H1 H2. rewrite H. apply (act_swap_qubits N L); auto.
Qed.

Lemma final_control n cs (op : mop P) v w : cs <> [] -> wf_op op -> in_range n (cs ++ op_indices op) ->
  (forall c, In c cs -> ~ In c (op_indices op)) -> length v = 2 ^ n -> length w = 2 ^ n ->
  exists cop out inner, make_control_op cs op = Ok cop /\
    apply_op_overwrite N n cop v w 0 0 = Ok out /\ apply_op_overwrite N n op v w 0 0 = Ok inner /\
    forall x, st_of N n out x = if forallb x cs then st_of N n inner x else st_of N n v x.
Proof.
  intros Hc W R D Hv Hw.
  destruct (make_control_op cs op) as [cop|e|p] eqn:E.
  2,3: unfold make_control_op in E; destruct cs; [congruence|]; cbn in E; destruct op; discriminate.
  destruct (make_control_op_wf cs op cop W E) as [Wc Ic].
  assert (Rc : in_range n (op_indices cop)) by (rewrite Ic; exact R).
  assert (Ro : in_range n (op_indices op)) by (intros q Hq; apply R; apply in_app_iff; auto).
  destruct (apply_op_overwrite_act N L n cop v w Wc Rc Hv Hw) as [out (E1 & L1 & H1)].
  destruct (apply_op_overwrite_act N L n op v w W Ro Hv Hw) as [inner (E2 & L2 & H2)].
  exists cop, out, inner. repeat split; auto. intros x. rewrite H1, H2, Ic.
  transitivity (act N (cs ++ op_indices op) (op_mat N (Control (length cs) (cs ++ op_indices op) op)) (st_of N n v) x).
  - apply make_control_op_ok in E. destruct E as [_ ->].
    destruct op as [ind data|ind rows|m ind|nc ind op]; auto.
    apply act_ext. intros r c _ _. symmetry. cbn [op_indices]. apply (op_mat_control_control N).
  - apply (act_control N L); auto.
Qed.

Lemma final_control_nested cs1 cs2 (op : mop P) op2 op12 : cs1 <> [] ->
  make_control_op cs2 op = Ok op2 -> make_control_op cs1 op2 = Ok op12 ->
  make_control_op (cs1 ++ cs2) op = Ok op12.
Proof.
  intros H1 E2 E1. apply make_control_op_ok in E1, E2. destruct E1 as [_ ->], E2 as [Hc2 ->].
  apply make_control_op_ok. split; [destruct cs1; [congruence|discriminate]|].
  destruct op; rewrite app_length, <- ?app_assoc, ?Nat.add_assoc; reflexivity.
Qed.

(** output buffer contents do not matter *)
Lemma final_invert_full n (op : mop P) (cj : P -> P) (J : conj_laws N cj) : wf_op op -> NoDup (op_indices op) ->
  in_range n (op_indices op) ->
  exists op', invert_op cj op = Ok op' /\ op_indices op' = op_indices op /\ wf_op op' /\
    forall phi psi, length phi = 2 ^ n -> length psi = 2 ^ n ->
    exists a b, apply_op N n op psi (repeat (n0 N) (2 ^ n)) 0 0 = Ok a /\
      apply_op N n op' phi (repeat (n0 N) (2 ^ n)) 0 0 = Ok b /\
      (** <phi | op psi> = <op' phi | psi> *)
      nsum N (map (fun '(u, v) => nmul N (cj u) v) (combine phi a)) =
      nsum N (map (fun '(u, v) => nmul N (cj u) v) (combine b psi)).
Proof.
  intros W ND R. destruct (invert_op_ok N L cj J op W) as [op' (E & W' & I & H)].
  exists op'. repeat split; auto. intros phi psi Hphi Hpsi.
  destruct (apply_op_zeros N L n op psi W R Hpsi) as [a (Ea & La & Ha)].
  destruct (apply_op_zeros N L n op' phi W' ltac:(rewrite I; exact R) Hphi) as [b (Eb & Lb & Hb)].
  exists a, b. repeat split; auto.
  assert (IP : forall u v, length u = 2 ^ n -> length v = 2 ^ n ->
     nsum N (map (fun '(u, v) => nmul N (cj u) v) (combine u v)) = ip N cj n (st_of N n u) (st_of N n v)).
  { intros u v Hu Hv. rewrite (nsum_big N L). unfold ip, bsum.
    transitivity (big N (fun i => nmul N (cj (nth i u (n0 N))) (nth i v (n0 N))) (seq 0 (2 ^ n))).
    - rewrite (big_map N). transitivity (big N (fun p : P * P => nmul N (cj (fst p)) (snd p)) (combine u v)).
      { apply (big_ext N). intros [? ?] _. reflexivity. }
      rewrite <- (seq_nth_map u (n0 N)) at 1. rewrite <- (seq_nth_map v (n0 N)) at 1. rewrite Hu, Hv.
      induction (seq 0 (2 ^ n)) as [|i s IH]; cbn; [reflexivity|]. f_equal. exact IH.
    - apply (big_ext N). intros i Hi. apply in_seq in Hi. unfold st_of. rewrite enc_dec by lia. reflexivity. }
  rewrite !IP by auto.
  rewrite (ip_ext N cj n _ (st_of N n phi) _ (act N (op_indices op) (op_mat N op) (st_of N n psi)) (fun _ => eq_refl) Ha).
  rewrite (ip_adj N L cj J) by auto. symmetry. apply ip_ext; auto. intros x. rewrite Hb, I. apply act_ext. exact H.
Qed.

End Final.

(** *** MultiOpIterator in arithmetic terms *)
(** the column is the concatenation of the columns, the value their product *)
Definition combined {P} (N : num P) (ns : list nat) (es : list (nat * P)) : nat * P :=
  (fold_left (fun c ne => c * 2 ^ fst ne + fst (snd ne)) (combine ns es) 0,
   fold_left (fun v ne => nmul N v (snd (snd ne))) (combine ns es) (n1 N)).

Lemma lor_shift c n col : col < 2 ^ n -> Nat.lor (Nat.shiftl c n) col = c * 2 ^ n + col.
Proof.
  intros H. assert (Hc : c < 2 ^ c) by (apply Nat.pow_gt_lin_r; lia).
  assert (E := lor_be_app (bits_be c c) n col H).
  rewrite be_app_gen, length_bits_be, !be_bits_be in E by auto. exact E.
Qed.

Lemma combo_combined {P} (N : num P) ns es : Forall2 (fun n e => fst e < 2 ^ n) ns es ->
  combo N ns es = combined N ns es.
Proof.
  intros H. assert (G : forall v c,
    fold_left (fun '(c, v) '(n, (col, val)) => (Nat.lor (Nat.shiftl c n) col, nmul N v val)) (combine ns es) (c, v) =
    (fold_left (fun c ne => c * 2 ^ fst ne + fst (snd ne)) (combine ns es) c,
     fold_left (fun v ne => nmul N v (snd (snd ne))) (combine ns es) v)).
  { induction H as [|n [col val] ns es Hc H IH]; intros v c; [reflexivity|].
    cbn [combine fold_left fst snd]. rewrite lor_shift by exact Hc. apply IH. }
  apply G.
Qed.

Lemma In_product {A} (ls : list (list A)) : forall es, In es (product ls) <-> Forall2 (fun e l => In e l) es ls.
Proof.
  induction ls as [|l ls IH]; intros es; cbn [product].
  - split; [intros [<-|[]]; constructor|]. intros H. inversion H. cbn. auto.
  - rewrite in_flat_map. split.
    + intros [a [Ha I]]. apply in_map_iff in I. destruct I as [es' [<- I]]. constructor; auto. apply IH. exact I.
    + intros H. inversion H; subst. exists x. split; auto. apply in_map. apply IH. auto.
Qed.

Lemma final_multi {P} (N : num P) ns (outs : list (list (nat * P))) :
  Forall2 (fun n o => o <> [] /\ Forall (fun e => fst e < 2 ^ n) o) ns outs ->
  collect (multi_fuel outs) (multi_iter N ns outs) (it_init (multi_iter N ns outs)) =
  Ok (map (combined N ns) (product outs)).
Proof.
  intros H.
  assert (Hl : length ns = length outs) by (clear - H; induction H; cbn; congruence).
  assert (NE : Forall (fun o => o <> []) outs) by (clear - H; induction H; constructor; tauto).
  rewrite (multi_collect N) by auto. f_equal. apply map_ext_in. intros es He. apply combo_combined.
  apply In_product in He. clear - H He. revert es He. induction H as [|n o ns outs [H1 H2] H IH]; intros es He.
  - inversion He. constructor.
  - inversion He; subst. constructor; auto. rewrite Forall_forall in H2. auto.
Qed.

(** apply_ops is not the tensor product: X on qubit 0 and diag(1,2) on qubit 1. *)
Definition witness_ops : list (mop Z) := [Matrix [0] [0;1;1;0]%Z; Matrix [1] [1;0;0;2]%Z].
Lemma witness_ops_wrong :
  Forall wf_op witness_ops /\ NoDup (ops_indices witness_ops) /\ in_range 2 (ops_indices witness_ops) /\
  exists input output x out,
    length input = 2 ^ 2 /\ length output = 2 ^ 2 /\
    apply_ops ZN 2 witness_ops input output 0 0 = Ok out /\
    st_of ZN 2 out x <> Z.add (st_of ZN 2 output x)
      (act ZN (ops_indices witness_ops) (ops_tensor ZN witness_ops) (st_of ZN 2 input) x).
Proof.
  repeat split.
  - repeat constructor.
  - repeat constructor; cbn; intuition lia.
  - intros q Hq. cbn in Hq. lia.
  - exists [1;10;100;1000]%Z, [0;0;0;0]%Z, (dec 2 1). eexists. repeat split.
    vm_compute. discriminate.
Qed.

(** apply_ops [] overwrites instead of adding. *)
Lemma witness_ops_empty : exists (input output : list Z) out, length input = 2 ^ 1 /\ length output = 2 ^ 1 /\
  apply_ops ZN 1 [] input output 0 0 = Ok out /\
  st_of ZN 1 out (dec 1 0) <> Z.add (st_of ZN 1 output (dec 1 0)) (st_of ZN 1 input (dec 1 0)).
Proof. exists [1;2]%Z, [5;7]%Z. eexists. repeat split. vm_compute. discriminate. Qed.

(** an operator with a zero row makes it panic *)
Lemma witness_ops_panic : exists (ops : list (mop Z)) input output,
  Forall wf_op ops /\ NoDup (ops_indices ops) /\ in_range 2 (ops_indices ops) /\
  length input = 2 ^ 2 /\ length output = 2 ^ 2 /\ apply_ops ZN 2 ops input output 0 0 = Panic PIndex.
Proof.
  exists [Matrix [0] [0;0;0;1]%Z; Matrix [1] [1;0;0;1]%Z], [1;0;0;0]%Z, [0;0;0;0]%Z.
  repeat split; try (repeat constructor; cbn; intuition lia).
  intros q Hq. cbn in Hq. lia.
Qed.
