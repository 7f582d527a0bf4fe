From Coq Require Import FunctionalExtensionality Permutation.
From Verif Require Import Base BitsModel BitsSpec BitsProofs OpsModel OpsSpec.
Local Open Scope res_scope.

Section Proofs.
Context {P : Type} (N : num P) (L : num_laws N).
Declare Scope P_scope.
Local Notation "0" := (n0 N) : P_scope. Local Notation "1" := (n1 N) : P_scope.
Local Infix "+" := (nadd N) : P_scope. Local Infix "*" := (nmul N) : P_scope.
Local Open Scope P_scope.
Local Notation big := (big N).

Lemma add_0r a : a + 0 = a.
Proof. rewrite (l_add_comm L). apply (l_add_0 L). Qed.

Lemma add_swap a b c d : (a + b) + (c + d) = (a + c) + (b + d).
Proof.
  rewrite <- !(l_add_assoc L). f_equal. rewrite !(l_add_assoc L). f_equal. apply (l_add_comm L).
Qed.

(** *** Sums *)
Lemma nsum_big l : nsum N l = big (fun a => a) l.
Proof.
  unfold nsum. assert (G : forall l a, fold_left (nadd N) l a = a + big (fun a => a) l).
  { clear l. induction l as [|b l IH]; intros a; cbn; [symmetry; apply add_0r|].
    rewrite IH, (l_add_assoc L). reflexivity. }
  rewrite G. apply (l_add_0 L).
Qed.

Lemma big_map {A B} (f : B -> P) (g : A -> B) l : big f (map g l) = big (fun a => f (g a)) l.
Proof. induction l as [|a l IH]; cbn; [reflexivity|]. f_equal. exact IH. Qed.

Lemma big_ext {A} (f g : A -> P) l : (forall a, In a l -> f a = g a) -> big f l = big g l.
Proof. induction l as [|a l IH]; cbn; intros H; [reflexivity|]. f_equal; auto. Qed.

Lemma big_app {A} (f : A -> P) l1 l2 : big f (l1 ++ l2) = big f l1 + big f l2.
Proof.
  induction l1 as [|a l IH]; cbn; [symmetry; apply (l_add_0 L)|].
  rewrite IH. apply (l_add_assoc L).
Qed.

Lemma big_zero {A} (f : A -> P) l : (forall a, In a l -> f a = 0) -> big f l = 0.
Proof.
  induction l as [|a l IH]; cbn; intros H; [reflexivity|].
  rewrite H, IH by auto. apply (l_add_0 L).
Qed.

Lemma big_add {A} (f g : A -> P) l : big (fun a => f a + g a) l = big f l + big g l.
Proof.
  induction l as [|a l IH]; cbn; [symmetry; apply (l_add_0 L)|].
  rewrite IH. apply add_swap.
Qed.

Lemma big_mul_l {A} (f : A -> P) c l : c * big f l = big (fun a => c * f a) l.
Proof.
  induction l as [|a l IH]; cbn; [apply (l_mul_0r L)|].
  rewrite (l_distr_l L), IH. reflexivity.
Qed.

Lemma big_mul_r {A} (f : A -> P) c l : big f l * c = big (fun a => f a * c) l.
Proof.
  induction l as [|a l IH]; cbn; [apply (l_mul_0 L)|].
  rewrite (l_distr_r L), IH. reflexivity.
Qed.

Lemma big_perm {A} (f : A -> P) l1 l2 : Permutation l1 l2 -> big f l1 = big f l2.
Proof.
  induction 1; cbn; auto; try congruence.
  rewrite !(l_add_assoc L). f_equal. apply (l_add_comm L).
Qed.

Lemma big_exchange {A B} (f : A -> B -> P) l1 l2 :
  big (fun a => big (f a) l2) l1 = big (fun b => big (fun a => f a b) l1) l2.
Proof.
  induction l1 as [|a l IH]; cbn.
  - symmetry. apply big_zero. auto.
  - rewrite IH, <- big_add. reflexivity.
Qed.

Lemma big_filter {A} (p : A -> bool) (f : A -> P) l :
  (forall a, In a l -> p a = false -> f a = 0) -> big f (filter p l) = big f l.
Proof.
  induction l as [|a l IH]; cbn; intros H; [reflexivity|].
  destruct (p a) eqn:E; cbn; rewrite IH by auto; [reflexivity|].
  rewrite (H a) by auto. symmetry. apply (l_add_0 L).
Qed.

(** sum with a single nonzero term *)
Lemma big_single {A} (f : A -> P) l a :
  NoDup l -> In a l -> (forall b, In b l -> b <> a -> f b = 0) -> big f l = f a.
Proof.
  induction l as [|b l IH]; intros ND I H; [destruct I|].
  inversion ND as [|? ? N1 N2]; subst. cbn. destruct I as [->|I].
  - rewrite big_zero; [apply add_0r|]. intros c Hc. apply H; cbn; auto. intros ->. contradiction.
  - rewrite (H b); cbn; auto.
    + rewrite (l_add_0 L). apply IH; auto. intros; apply H; cbn; auto.
    + intros ->. contradiction.
Qed.

Lemma lb_eq_true a b : lb_eq a b = true <-> a = b.
Proof. unfold lb_eq. destruct (list_eq_dec bool_dec a b); split; congruence. Qed.
Lemma lb_eq_refl a : lb_eq a a = true.
Proof. apply lb_eq_true. reflexivity. Qed.

Lemma delta_same a : delta N a a = 1.
Proof. unfold delta. rewrite lb_eq_refl. reflexivity. Qed.
Lemma delta_diff a b : a <> b -> delta N a b = 0.
Proof. intros H. unfold delta. destruct (lb_eq a b) eqn:E; [|reflexivity].
  apply lb_eq_true in E. contradiction. Qed.

(** *** Items: the exact sequence each iterator must yield (C06) *)
Local Close Scope P_scope.

Definition dense_items (k row : nat) (data : list P) : list (nat * P) :=
  filter (fun e => negb (nis0 N (snd e)))
    (map (fun c => (c, nth (Nat.add (Nat.mul row (2 ^ k)) c) data (n0 N))) (seq O (2 ^ k))).

Definition swap_col (half row : nat) : nat :=
  Nat.add (Nat.mul (Nat.modulo row (2 ^ half)) (2 ^ half)) (Nat.div row (2 ^ half)).

Fixpoint op_items (op : mop P) (row : nat) : list (nat * P) :=
  match op with
  | Matrix ind data => dense_items (length ind) row data
  | Sparse ind rows => nth row rows []
  | Swap n ind => [(swap_col n row, n1 N)]
  | Control nc ind op' =>
      let no := length (op_indices op') in
      let th := Nat.sub (2 ^ length ind) (2 ^ no) in
      if th <=? row then map (fun e => (Nat.add (fst e) th, snd e)) (op_items op' (Nat.sub row th))
      else [(row, n1 N)]
  end.

(** An iterator [it] started in [s] produces exactly [l]. *)
Inductive yields (it : @iter P) : it_S it -> list (nat * P) -> Prop :=
| Y_nil s s' : it_next it s = Ok (None, s') -> yields it s []
| Y_cons s s' e l : it_next it s = Ok (Some e, s') -> yields it s' l -> yields it s (e :: l).

Lemma collect_yields it s l : yields it s l ->
  forall fuel, length l < fuel -> collect fuel it s = Ok l.
Proof.
  induction 1 as [s s' E|s s' e l E Y IH]; intros [|fuel] Hf; cbn in Hf; try lia; cbn [collect];
    rewrite E; cbn; [reflexivity|].
  rewrite IH by lia. reflexivity.
Qed.

Lemma mat_yields n (data : list P) : length data = 2 ^ n ->
  yields (mkIter (mat_next N n data) None) None
    (filter (fun e => negb (nis0 N (snd e))) (map (fun c => (c, nth c data (n0 N))) (seq O (2 ^ n)))).
Proof.
  intros Hl. set (it := mkIter (mat_next N n data) None).
  set (F := fun pos m => filter (fun e : nat * P => negb (nis0 N (snd e)))
        (map (fun c => (c, nth c data (n0 N))) (seq pos m))).
  assert (S1 : forall m pos, Nat.add pos m = 2 ^ n ->
      mat_scan N data (seq pos m) = Ok (match F pos m with [] => None | e :: _ => Some e end)).
  { induction m as [|m IH]; intros pos E; cbn; [reflexivity|].
    rewrite (idx_ok data (n0 N)) by lia. cbn. destruct (nis0 N (nth pos data (n0 N))); cbn.
    - apply IH. lia.
    - reflexivity. }
  assert (S2 : forall m pos e l, Nat.add pos m = 2 ^ n -> F pos m = e :: l ->
       exists m', Nat.add (Nat.add (fst e) 1) m' = 2 ^ n /\ m' < m /\ l = F (Nat.add (fst e) 1) m').
  { induction m as [|m IH]; intros pos e l E; cbn; [discriminate|].
    destruct (nis0 N (nth pos data (n0 N))); cbn.
    - intros H. destruct (IH (S pos) e l) as [m' (H1 & H2 & H3)]; auto; try lia.
      exists m'. repeat split; auto.
    - intros H. inversion H; subst. cbn. exists m. repeat split; try lia.
      rewrite Nat.add_1_r. reflexivity. }
  assert (G : forall b m, m <= b -> forall pos last, match last with Some c => Nat.add c 1 | None => O end = pos ->
     Nat.add pos m = 2 ^ n -> yields it last (F pos m)).
  { induction b as [|b IH]; intros m B pos last E1 E2.
    - assert (m = O) by lia. subst m. cbn. apply Y_nil with (None : it_S it).
      cbn. unfold mat_next. rewrite E1. replace (Nat.sub (2 ^ n) pos) with O by lia. reflexivity.
    - destruct (F pos m) as [|e l] eqn:EF.
      + apply Y_nil with (None : it_S it). cbn. unfold mat_next. rewrite E1.
        replace (Nat.sub (2 ^ n) pos) with m by lia. rewrite S1, EF by auto. reflexivity.
      + destruct (S2 m pos e l E2 EF) as [m' (H1 & H2 & H3)].
        apply Y_cons with (Some (fst e) : it_S it).
        * cbn. unfold mat_next. rewrite E1. replace (Nat.sub (2 ^ n) pos) with m by lia.
          rewrite S1, EF by auto. reflexivity.
        * rewrite H3. apply IH; auto. lia. }
  apply (G (2 ^ n) (2 ^ n) (Nat.le_refl _) O None); reflexivity.
Qed.

Lemma slice_row k row (data : list P) : length data = 2 ^ (2 * k) -> row < 2 ^ k ->
  exists d, slice data (get_flat_index k row O) (get_flat_index k row (2 ^ k)) = Ok d /\
    length d = 2 ^ k /\ forall c, c < 2 ^ k -> nth c d (n0 N) = nth (Nat.add (Nat.mul row (2 ^ k)) c) data (n0 N).
Proof.
  intros Hd Hr. unfold slice, get_flat_index. rewrite Nat.add_0_r.
  assert (E : 2 ^ (2 * k) = Nat.mul (2 ^ k) (2 ^ k)) by (rewrite <- Nat.pow_add_r; f_equal; lia).
  rewrite E in Hd.
  assert (B : Nat.add (Nat.mul row (2 ^ k)) (2 ^ k) <= length data).
  { rewrite Hd. transitivity (Nat.mul (S row) (2 ^ k)); [cbn; lia|]. apply Nat.mul_le_mono_r. lia. }
  destruct (Nat.leb_spec (Nat.mul row (2 ^ k)) (Nat.add (Nat.mul row (2 ^ k)) (2 ^ k))); [|lia].
  destruct (Nat.leb_spec (Nat.add (Nat.mul row (2 ^ k)) (2 ^ k)) (length data)); [|lia].
  cbn [andb]. eexists. split; [reflexivity|].
  replace (Nat.sub (Nat.add (Nat.mul row (2 ^ k)) (2 ^ k)) (Nat.mul row (2 ^ k))) with (2 ^ k) by lia.
  split.
  - rewrite firstn_length, skipn_length. lia.
  - intros c Hc. revert Hc. generalize (2 ^ k) at 1 2 as m. generalize (Nat.mul row (2 ^ k)) as s.
    clear. intros s m H. 
    rewrite <- (firstn_skipn s data) at 2.
    destruct (Nat.le_gt_cases s (length data)) as [B|B].
    + rewrite app_nth2 by (rewrite firstn_length; lia). rewrite firstn_length.
      replace (Nat.sub (Nat.add s c) (Nat.min s (length data))) with c by lia.
      rewrite <- (firstn_skipn m (skipn s data)) at 2.
      destruct (Nat.lt_ge_cases c (length (firstn m (skipn s data)))).
      * rewrite app_nth1 by lia. reflexivity.
      * rewrite nth_overflow by lia. rewrite app_nth2 by lia.
        rewrite firstn_length in *. rewrite nth_overflow; [reflexivity|].
        rewrite skipn_length. lia.
    + rewrite skipn_all2 by lia. rewrite firstn_nil, app_nil_r. 
      rewrite (nth_overflow (firstn s data)) by (rewrite firstn_length; lia).
      destruct c; reflexivity.
Qed.

Lemma mat_iter_items k row ind (data : list P) : length ind = k ->
  length data = 2 ^ (2 * k) -> row < 2 ^ k ->
  exists it, mat_iter N row k data = Ok it /\ yields it (it_init it) (op_items (Matrix ind data) row).
Proof.
  intros <- Hd Hr. destruct (slice_row (length ind) row data Hd Hr) as [d (E & Hl & H)].
  unfold mat_iter. rewrite E. cbn [bind]. eexists. split; [reflexivity|]. cbn [it_init op_items].
  unfold dense_items.
  replace (map (fun c => (c, nth (Nat.add (Nat.mul row (2 ^ length ind)) c) data (n0 N))) (seq O (2 ^ length ind)))
    with (map (fun c => (c, nth c d (n0 N))) (seq O (2 ^ length ind))).
  - apply mat_yields. exact Hl.
  - apply map_ext_in. intros c Hc. apply in_seq in Hc. rewrite H by lia. reflexivity.
Qed.

Lemma sparse_yields (d : list (nat * P)) : yields (mkIter (sparse_next d) None) None d.
Proof.
  set (it := mkIter (sparse_next d) None).
  assert (G : forall l pre last, d = pre ++ l ->
    match last with Some c => Nat.add c 1 | None => O end = length pre -> yields it last l).
  { induction l as [|e l IH]; intros pre last E1 E2.
    - apply Y_nil with None. cbn. unfold sparse_next. rewrite E2, E1, app_nil_r.
      rewrite Nat.leb_refl. reflexivity.
    - apply Y_cons with (Some (length pre)).
      + cbn. unfold sparse_next. rewrite E2, E1, app_length. cbn [length].
        destruct (Nat.leb_spec (Nat.add (length pre) (S (length l))) (length pre)); [lia|].
        unfold idx. rewrite nth_error_app2, Nat.sub_diag by lia. reflexivity.
      + apply IH with (pre ++ [e]).
        * rewrite <- app_assoc. exact E1.
        * rewrite app_length. reflexivity. }
  apply (G d [] None); reflexivity.
Qed.

Lemma swap_yields row nq : exists it, swap_iter N row nq = Ok it /\
  yields it (it_init it) [(swap_col (Nat.div nq 2) row, n1 N)].
Proof.
  unfold swap_iter. eexists. split; [reflexivity|]. cbn [it_init].
  replace (Nat.shiftr nq 1) with (Nat.div nq 2) by (rewrite Nat.shiftr_div_pow2; reflexivity).
  apply Y_cons with (Some (swap_col (Nat.div nq 2) row)).
  - cbn [it_next]. unfold swap_next, swap_col.
    rewrite Nat.land_ones, Nat.shiftr_div_pow2, Nat.shiftl_mul_pow2. reflexivity.
  - apply Y_nil with None. reflexivity.
Qed.

Lemma ctrl_yields_some th it l : forall s last, yields it s l ->
  yields (mkIter (ctrl_next_some th it) (it_init it, None)) (s, last)
    (map (fun e => (Nat.add (fst e) th, snd e)) l).
Proof.
  intros s last Y. revert last. induction Y as [s s' E|s s' e l E Y IH]; intros last.
  - apply Y_nil with (s', None). cbn. unfold ctrl_next_some. cbn [fst]. rewrite E. reflexivity.
  - cbn [map]. eapply Y_cons; [|apply IH].
    cbn. unfold ctrl_next_some. cbn [fst]. rewrite E. destruct e. reflexivity.
Qed.

Lemma ctrl_iter_items row nc no builder l :
  (2 ^ Nat.add nc no - 2 ^ no <= row -> exists it, builder (row - (2 ^ Nat.add nc no - 2 ^ no)) = Ok it /\
     yields it (it_init it) l) ->
  exists it, ctrl_iter N row nc no builder = Ok it /\
    yields it (it_init it)
      (if 2 ^ Nat.add nc no - 2 ^ no <=? row
       then map (fun e => (Nat.add (fst e) (2 ^ Nat.add nc no - 2 ^ no), snd e)) l
       else [(row, n1 N)]).
Proof.
  intros H. unfold ctrl_iter. rewrite chk_sub_ok by (apply Nat.pow_le_mono_r; lia). cbn [bind].
  destruct (Nat.leb_spec (2 ^ Nat.add nc no - 2 ^ no) row) as [B|B].
  - destruct (H B) as [it [E Y]]. rewrite E. cbn [bind]. eexists. split; [reflexivity|].
    cbn [it_init]. apply ctrl_yields_some. exact Y.
  - eexists. split; [reflexivity|]. cbn [it_init]. apply Y_cons with (Some row).
    + reflexivity.
    + apply Y_nil with None. cbn. unfold ctrl_next_none. rewrite Nat.ltb_irrefl. reflexivity.
Qed.

Lemma swap_arity n (ind : list nat) : length ind = Nat.add n n -> Nat.div (length ind) 2 = n.
Proof. intros ->. replace (Nat.add n n) with (Nat.mul n 2) by lia. apply Nat.div_mul. lia. Qed.

Lemma control_iter_items op : wf_op op -> forall row nc,
  row < 2 ^ (Nat.add nc (length (op_indices op))) ->
  exists it, control_iter N op row nc (length (op_indices op)) = Ok it /\
    yields it (it_init it)
      (let no := length (op_indices op) in
       let th := 2 ^ Nat.add nc no - 2 ^ no in
       if th <=? row then map (fun e => (Nat.add (fst e) th, snd e)) (op_items op (row - th))
       else [(row, n1 N)]).
Proof.
  induction op as [ind data|ind rows|n ind|nc' ind op IH]; intros W row nc Hr; cbn [control_iter op_indices] in *.
  - apply ctrl_iter_items. intros B. apply mat_iter_items; auto.
    rewrite Nat.pow_add_r in *. assert (0 < 2 ^ length ind) by apply pow2_pos. nia.
  - destruct W as [W1 W2]. apply ctrl_iter_items. intros B. unfold sparse_iter.
    rewrite (idx_ok rows []) by (rewrite Nat.pow_add_r in *; assert (0 < 2 ^ length ind) by apply pow2_pos; nia).
    cbn [bind]. eexists. split; [reflexivity|]. apply sparse_yields.
  - cbn in W. apply ctrl_iter_items. intros B. cbn [op_items].
    rewrite <- (swap_arity n ind W). apply swap_yields.
  - destruct W as [W1 W2]. rewrite chk_sub_ok by lia. cbn [bind].
    replace (length ind - nc') with (length (op_indices op)) by lia.
    specialize (IH W2 row (Nat.add nc nc')).
    rewrite W1 in *. rewrite Nat.add_assoc in Hr. destruct (IH Hr) as [it [E Y]].
    exists it. split; [exact E|]. cbn zeta in *.
    match goal with |- yields _ _ ?a => match type of Y with yields _ _ ?b => replace a with b; [exact Y|] end end.
    set (no := length (op_indices op)) in *. cbn [op_items].
    rewrite W1. fold no. rewrite Nat.add_assoc in *.
    assert (p1 : 0 < 2 ^ no) by apply pow2_pos.
    assert (p2 : 2 ^ no <= 2 ^ Nat.add nc' no) by (apply Nat.pow_le_mono_r; lia).
    assert (p3 : 2 ^ Nat.add nc' no <= 2 ^ Nat.add (Nat.add nc nc') no) by (apply Nat.pow_le_mono_r; lia).
    set (A := 2 ^ no) in *. set (B := 2 ^ Nat.add nc' no) in *. set (D := 2 ^ Nat.add (Nat.add nc nc') no) in *.
    destruct (Nat.leb_spec (D - A) row), (Nat.leb_spec (D - B) row); try lia.
    + destruct (Nat.leb_spec (B - A) (row - (D - B))); [|lia].
      rewrite map_map. cbn [fst snd]. replace (row - (D - B) - (B - A)) with (row - (D - A)) by lia.
      apply map_ext. intros e. f_equal. lia.
    + destruct (Nat.leb_spec (B - A) (row - (D - B))); [lia|]. cbn. repeat f_equal. lia.
    + reflexivity.
Qed.

Lemma op_iter_items op : wf_op op -> forall row,
  row < 2 ^ (length (op_indices op)) ->
  exists it, op_iter N op (length (op_indices op)) row = Ok it /\
    yields it (it_init it) (op_items op row).
Proof.
  destruct op as [ind data|ind rows|n ind|nc' ind op]; intros W row Hr; cbn [op_iter op_indices] in *.
  - apply mat_iter_items; auto.
  - destruct W as [W1 W2]. unfold sparse_iter. rewrite (idx_ok rows []) by lia.
    cbn [bind]. eexists. split; [reflexivity|]. apply sparse_yields.
  - cbn [op_items]. rewrite <- (swap_arity n ind W). apply swap_yields.
  - destruct W as [W1 W2]. rewrite chk_sub_ok by lia. cbn [bind].
    replace (length ind - nc') with (length (op_indices op)) by lia.
    cbn [op_items]. rewrite W1 in *. apply control_iter_items; auto.
Qed.

Lemma filter_length_le' {A} (f : A -> bool) l : length (filter f l) <= length l.
Proof. induction l as [|a l IH]; cbn; [lia|]. destruct (f a); cbn; lia. Qed.

Lemma dense_items_length k row data : length (dense_items k row data) <= 2 ^ k.
Proof.
  unfold dense_items. etransitivity; [apply filter_length_le'|].
  rewrite map_length, seq_length. lia.
Qed.

Lemma fold_max_ge (rows : list (list (nat * P))) r :
  In r rows -> length r <= fold_right (fun r m => Nat.max (length r) m) O rows.
Proof. induction rows as [|a rows IH]; intros []; cbn; subst; [lia|]. specialize (IH H). lia. Qed.

Lemma op_fuel_ge (op : mop P) : 2 <= op_fuel op.
Proof. induction op; cbn; lia. Qed.

Lemma op_items_length op : wf_op op -> forall row, S (length (op_items op row)) < S (op_fuel op).
Proof.
  induction op as [ind data|ind rows|n ind|nc' ind op IH]; intros W row; cbn [op_items op_fuel].
  - unfold wf_op in W. rewrite W. assert (E := dense_items_length (length ind) row data).
    assert (E2 : 2 ^ length ind <= 2 ^ (2 * length ind)) by (apply Nat.pow_le_mono_r; lia).
    revert E E2. generalize (2 ^ (2 * length ind)) (2 ^ length ind). intros. lia.
  - destruct (nth_in_or_default row rows []) as [I|I].
    + apply fold_max_ge in I. lia.
    + rewrite I. cbn. lia.
  - cbn. lia.
  - destruct W as [W1 W2]. cbn zeta. destruct (_ <=? row); cbn.
    + rewrite map_length. apply IH; auto.
    + assert (F := op_fuel_ge op). lia.
Qed.

(** Every iterator terminates and yields exactly the specified items. *)
Lemma op_collect_items op row : wf_op op -> row < 2 ^ length (op_indices op) ->
  op_collect N op (length (op_indices op)) row = Ok (op_items op row).
Proof.
  intros W Hr. destruct (op_iter_items op W row Hr) as [it [E Y]].
  unfold op_collect. rewrite E. cbn [bind]. apply collect_yields; auto.
  assert (H := op_items_length op W row). lia.
Qed.

(** *** Items describe the operator's matrix *)
Lemma swap_col_be n r1 r2 : length r1 = n -> length r2 = n ->
  swap_col n (be (r1 ++ r2)) = be (r2 ++ r1).
Proof.
  intros H1 H2. unfold swap_col. rewrite !be_app_gen, H1, H2.
  assert (B := be_lt r2). rewrite H2 in B. assert (p := pow2_pos n).
  rewrite Nat.div_add_l, Nat.div_small by lia.
  rewrite (Nat.add_comm (be r1 * 2 ^ n) (be r2)). rewrite Nat.mod_add, Nat.mod_small by lia. lia.
Qed.

Lemma be_all_true r : forallb (fun b => b) r = true -> S (be r) = 2 ^ length r.
Proof.
  induction r as [|b r IH]; cbn [forallb]; intros H; [reflexivity|].
  apply andb_true_iff in H. destruct H as [-> H]. rewrite be_cons. cbn [length Nat.pow b2n].
  specialize (IH H). lia.
Qed.
Lemma be_not_all_true r : forallb (fun b => b) r = false -> S (be r) < 2 ^ length r.
Proof.
  induction r as [|b r IH]; cbn [forallb]; intros H; [discriminate|].
  rewrite be_cons. cbn [length Nat.pow]. destruct b; cbn [andb b2n] in *.
  - specialize (IH H). lia.
  - assert (B := be_lt r). lia.
Qed.

Lemma ctrl_row nc no r : length r = Nat.add nc no ->
  (2 ^ Nat.add nc no - 2 ^ no <=? be r) = forallb (fun b => b) (firstn nc r) /\
  (forallb (fun b => b) (firstn nc r) = true -> be r - (2 ^ Nat.add nc no - 2 ^ no) = be (skipn nc r)).
Proof.
  intros H. assert (E : be r = be (firstn nc r) * 2 ^ no + be (skipn nc r)).
  { rewrite <- (firstn_skipn nc r) at 1. rewrite be_app_gen, skipn_length.
    replace (length r - nc) with no by lia. reflexivity. }
  assert (Hf : length (firstn nc r) = nc) by (rewrite firstn_length; lia).
  assert (Bs := be_lt (skipn nc r)). rewrite skipn_length in Bs.
  replace (length r - nc) with no in Bs by lia.
  rewrite Nat.pow_add_r. assert (p := pow2_pos no). assert (p' := pow2_pos nc).
  destruct (forallb (fun b => b) (firstn nc r)) eqn:F.
  - apply be_all_true in F. rewrite Hf in F.
    assert (E2 : 2 ^ nc * 2 ^ no - 2 ^ no = be (firstn nc r) * 2 ^ no).
    { rewrite <- F. cbn. lia. }
    rewrite E2, E. split; [|lia]. apply Nat.leb_le. lia.
  - apply be_not_all_true in F. rewrite Hf in F. split; [|discriminate].
    apply Nat.leb_gt. rewrite E. nia.
Qed.

Lemma bools_app a b : bools (Nat.add a b) = flat_map (fun c => map (app c) (bools b)) (bools a).
Proof.
  induction a as [|a IH]; cbn [Nat.add bools].
  - cbn. rewrite app_nil_r. symmetry. rewrite <- (map_id (bools b)) at 2. apply map_ext. reflexivity.
  - rewrite IH. rewrite flat_map_app. rewrite !flat_map_concat_map, !concat_map, !map_map. f_equal; f_equal;
    apply map_ext; intros c; rewrite map_map; apply map_ext; reflexivity.
Qed.

Lemma big_flat_map {A B} (f : B -> P) (g : A -> list B) l :
  big f (flat_map g l) = big (fun a => big f (g a)) l.
Proof. induction l as [|a l IH]; cbn; [reflexivity|]. rewrite big_app, IH. reflexivity. Qed.

(** sums over [bools (a+b)] *)
Lemma big_bools_app a b (f : list bool -> P) :
  big f (bools (Nat.add a b)) = big (fun c => big (fun d => f (c ++ d)) (bools b)) (bools a).
Proof. rewrite bools_app, big_flat_map. apply big_ext. intros c _. apply big_map. Qed.

Lemma op_items_range op : wf_op op -> forall row, row < 2 ^ length (op_indices op) ->
  forall e, In e (op_items op row) -> fst e < 2 ^ length (op_indices op).
Proof.
  induction op as [ind data|ind rows|n ind|nc' ind op IH]; intros W row Hr e He; cbn [op_items op_indices] in *.
  - unfold dense_items in He. apply filter_In in He. destruct He as [He _].
    apply in_map_iff in He. destruct He as [c [<- Hc]]. apply in_seq in Hc. cbn. lia.
  - destruct W as [W1 W2]. destruct (nth_in_or_default row rows []) as [I|I].
    + eapply W2; eauto.
    + rewrite I in He. destruct He.
  - destruct He as [<-|[]]. cbn in *. unfold swap_col. rewrite W in *. rewrite Nat.pow_add_r in *.
    assert (p := pow2_pos n).
    assert (row mod 2 ^ n < 2 ^ n) by (apply Nat.mod_upper_bound; lia).
    assert (row / 2 ^ n < 2 ^ n) by (apply Nat.div_lt_upper_bound; lia). nia.
  - destruct W as [W1 W2]. cbn zeta in He. rewrite W1 in *.
    assert (p := pow2_pos (length (op_indices op))).
    assert (2 ^ length (op_indices op) <= 2 ^ Nat.add nc' (length (op_indices op)))
      by (apply Nat.pow_le_mono_r; lia).
    destruct (Nat.leb_spec (2 ^ Nat.add nc' (length (op_indices op)) - 2 ^ length (op_indices op)) row).
    + apply in_map_iff in He. destruct He as [e' [<- He]]. cbn [fst]. apply IH in He; auto; lia.
    + destruct He as [<-|[]]. cbn. lia.
Qed.

Lemma bits_be_add_ctrl nc no i : i < 2 ^ no ->
  bits_be (Nat.add nc no) (Nat.add i (2 ^ Nat.add nc no - 2 ^ no)) = repeat true nc ++ bits_be no i.
Proof.
  intros Hi. apply be_inj.
  - rewrite app_length, repeat_length, !length_bits_be. reflexivity.
  - assert (p := pow2_pos no).
    assert (2 ^ no <= 2 ^ Nat.add nc no) by (apply Nat.pow_le_mono_r; lia).
    rewrite be_bits_be by lia. rewrite be_app_gen, length_bits_be, be_bits_be by auto.
    assert (F : S (be (repeat true nc)) = 2 ^ nc).
    { rewrite be_all_true; [rewrite repeat_length; reflexivity|].
      clear. induction nc; cbn; auto. }
    rewrite Nat.pow_add_r, <- F. cbn [Nat.mul]. lia.
Qed.

Lemma forallb_repeat_true n : forallb (fun b : bool => b) (repeat true n) = true.
Proof. induction n; cbn; auto. Qed.
Lemma forallb_true_repeat l : forallb (fun b : bool => b) l = true -> l = repeat true (length l).
Proof. induction l as [|b l IH]; cbn; intros H; [reflexivity|]. apply andb_true_iff in H.
  destruct H as [-> H]. rewrite <- IH by auto. reflexivity. Qed.

(** The items of a row sum like the row of the matrix. *)
Lemma op_items_sum op : wf_op op -> forall r (g : list bool -> P),
  length r = length (op_indices op) ->
  big (fun e => nmul N (snd e) (g (bits_be (length (op_indices op)) (fst e)))) (op_items op (be r)) =
  big (fun c => nmul N (op_mat N op r c) (g c)) (bools (length (op_indices op))).
Proof.
  induction op as [ind data|ind rows|n ind|nc ind op IH]; intros W r g Hr; cbn [op_items op_indices op_mat] in *.
  - unfold dense_items. rewrite big_filter.
    2:{ intros e _ He. apply negb_false_iff in He. apply (l_is0 L) in He. rewrite He. apply (l_mul_0 L). }
    rewrite big_map, <- map_be_bools, big_map. apply big_ext. intros c Hc. cbn [fst snd].
    apply In_bools in Hc. rewrite <- Hc at 2. rewrite bits_be_be. reflexivity.
  - destruct W as [W1 W2]. 
    assert (B : be r < length rows) by (rewrite W1, <- Hr; apply be_lt).
    specialize (W2 (nth (be r) rows []) (nth_In _ _ B)).
    generalize dependent (nth (be r) rows []). intros row W2.
    transitivity (big (fun c => big (fun e => nmul N (if fst e =? be c then snd e else n0 N) (g c)) row)
       (bools (length ind))).
    2:{ apply big_ext. intros c _. rewrite big_mul_r. reflexivity. }
    rewrite big_exchange. apply big_ext. intros e He.
    rewrite (big_single _ _ (bits_be (length ind) (fst e))).
    + rewrite be_bits_be by auto. rewrite Nat.eqb_refl. reflexivity.
    + apply NoDup_bools.
    + apply In_bools. apply length_bits_be.
    + intros c Hc Hne. apply In_bools in Hc. destruct (Nat.eqb_spec (fst e) (be c)) as [E|E].
      * exfalso. apply Hne. rewrite E, <- Hc, bits_be_be. reflexivity.
      * apply (l_mul_0 L).
  - cbn in W. cbn [OpsSpec.big]. rewrite add_0r. cbn [fst snd].
    assert (H1 : length (firstn n r) = n) by (rewrite firstn_length; lia).
    assert (H2 : length (skipn n r) = n) by (rewrite skipn_length; lia).
    rewrite (big_single _ _ (skipn n r ++ firstn n r)).
    + rewrite delta_same. f_equal. f_equal. rewrite <- (firstn_skipn n r) at 1.
      rewrite swap_col_be by auto.
      replace (length ind) with (length (skipn n r ++ firstn n r)) by (rewrite app_length; lia).
      apply bits_be_be.
    + apply NoDup_bools.
    + apply In_bools. rewrite app_length. lia.
    + intros c _ Hne. rewrite delta_diff by auto. apply (l_mul_0 L).
  - destruct W as [W1 W2]. cbn zeta. set (no := length (op_indices op)) in *.
    rewrite W1 in *. destruct (ctrl_row nc no r Hr) as [C1 C2]. rewrite C1.
    destruct (forallb (fun b => b) (firstn nc r)) eqn:F.
    + rewrite C2 by auto. rewrite big_map. cbn [fst snd].
      rewrite big_bools_app.
      rewrite (big_single _ (bools nc) (repeat true nc)).
      * transitivity (big (fun e => nmul N (snd e) (g (repeat true nc ++ bits_be no (fst e))))
           (op_items op (be (skipn nc r)))).
        -- apply big_ext. intros e He. apply op_items_range in He; auto.
           ++ rewrite bits_be_add_ctrl by auto. reflexivity.
           ++ fold no. replace no with (length (skipn nc r)) by (rewrite skipn_length; lia). apply be_lt.
        -- specialize (IH W2 (skipn nc r) (fun d => g (repeat true nc ++ d))). cbn beta in IH.
           rewrite IH by (rewrite skipn_length; lia). fold no.
           apply big_ext. intros d Hd.
           rewrite firstn_app, skipn_app, repeat_length, Nat.sub_diag.
           rewrite (firstn_all2 (repeat true nc)), (skipn_all2 (repeat true nc)) by (rewrite repeat_length; lia).
           cbn [firstn skipn app]. rewrite app_nil_r, forallb_repeat_true. reflexivity.
      * apply NoDup_bools.
      * apply In_bools. apply repeat_length.
      * intros c Hc Hne. apply In_bools in Hc. apply big_zero. intros d Hd.
        rewrite firstn_app, Hc, Nat.sub_diag, firstn_all2 by lia. cbn [firstn]. rewrite app_nil_r.
        destruct (forallb (fun b => b) c) eqn:Fc; [|apply (l_mul_0 L)].
        apply forallb_true_repeat in Fc. rewrite Hc in Fc. contradiction.
    + cbn [OpsSpec.big]. rewrite add_0r. cbn [fst snd]. rewrite (big_single _ _ r).
      * rewrite delta_same. rewrite <- Hr, bits_be_be. reflexivity.
      * apply NoDup_bools.
      * apply In_bools. exact Hr.
      * intros c _ Hne. rewrite delta_diff by auto. apply (l_mul_0 L).
Qed.

(** *** apply_op *)
Lemma wf_mat_indices (op : mop P) : wf_op op -> mat_indices op = Ok (op_indices op).
Proof.
  intros W. unfold mat_indices.
  assert (E : num_indices op = Ok (length (op_indices op))).
  { destruct op as [ind data|ind rows|n ind|nc ind op]; cbn in *; auto.
    rewrite W. replace (Nat.mul n 2) with (Nat.add n n) by lia. rewrite Nat.eqb_refl. reflexivity. }
  rewrite E. cbn [bind]. rewrite mapM_ok with (g := fun i => nth i (op_indices op) O).
  - rewrite seq_nth_map. reflexivity.
  - intros i Hi. apply in_seq in Hi. apply idx_ok. lia.
Qed.

Lemma nth_default {A} (l : list A) i d : length l <= i -> nth i l d = d.
Proof. apply nth_overflow. Qed.

(** The value of an output row, for any offsets. *)
Definition row_value (n : nat) (op : mop P) (input : list P) (ioff row : nat) : P :=
  big (fun c => nmul N (op_mat N op (map (dec n row) (op_indices op)) c)
                       (amp_off N ioff input (enc n (updl (dec n row) (op_indices op) c))))
    (bools (length (op_indices op))).

Lemma apply_row_ok n op input outrow ioff ooff :
  wf_op op -> in_range n (op_indices op) -> Nat.add ooff outrow < 2 ^ n ->
  apply_op_row_indices N n op input outrow ioff ooff (op_indices op) =
  Ok (row_value n op input ioff (Nat.add ooff outrow)).
Proof.
  intros W R Hrow. unfold apply_op_row_indices. cbn zeta. set (row := Nat.add ooff outrow) in *.
  rewrite full_to_sub_ok by auto. cbn [bind]. unfold sum_for_op_cols.
  set (r := map (dec n row) (op_indices op)).
  assert (Lr : length r = length (op_indices op)) by apply map_length.
  assert (Br : be r < 2 ^ length (op_indices op)) by (rewrite <- Lr; apply be_lt).
  rewrite op_collect_items by auto. cbn [bind].
  rewrite mapM_ok with (g := fun e => nmul N (snd e)
    (amp_off N ioff input (enc n (updl (dec n row) (op_indices op) (bits_be (length (op_indices op)) (fst e)))))).
  - cbn [bind]. f_equal. rewrite nsum_big, big_map.
    rewrite (op_items_sum op W r (fun c => amp_off N ioff input (enc n (updl (dec n row) (op_indices op) c)))) by auto.
    reflexivity.
  - intros [i v] He. cbn [fst snd]. unfold row_term.
    assert (Hi : i < 2 ^ length (op_indices op)) by (apply (op_items_range op W (be r) Br (i, v) He)).
    rewrite <- (be_bits_be _ _ Hi) at 1.
    rewrite sub_to_full_ok by (auto; apply length_bits_be). cbn [bind].
    set (cb := enc n _). unfold amp_off. destruct (Nat.ltb_spec cb ioff).
    + rewrite (l_mul_0r L). reflexivity.
    + destruct (Nat.leb_spec (length input) (cb - ioff)).
      * rewrite nth_default by lia. rewrite (l_mul_0r L). reflexivity.
      * rewrite (idx_ok input (n0 N)) by lia. reflexivity.
Qed.

Lemma mapM_enumerate {A B} (f : nat * A -> res B) (g : nat -> A -> B) (l : list A) d :
  (forall i, i < length l -> f (i, nth i l d) = Ok (g i (nth i l d))) ->
  mapM f (enumerate l) = Ok (map (fun i => g i (nth i l d)) (seq O (length l))).
Proof.
  intros H. rewrite mapM_ok with (g := fun e => g (fst e) (snd e)).
  - f_equal. unfold enumerate. rewrite <- (seq_nth_map l d) at 2.
    assert (G : forall s : list nat, map (fun e => g (fst e) (snd e)) (combine s (map (fun i => nth i l d) s))
       = map (fun i => g i (nth i l d)) s).
    { induction s as [|a s IH]; cbn; [reflexivity|]. f_equal. exact IH. }
    apply G.
  - intros [i a] Hi. apply In_enumerate in Hi. cbn [fst snd].
    assert (Hl : i < length l) by (apply nth_error_Some; congruence).
    assert (E : nth i l d = a) by (apply nth_error_nth; auto).
    rewrite <- E. apply H. exact Hl.
Qed.

(** apply_op with offsets: every output row gets the row value added. *)
Lemma apply_op_ok n op input output ioff ooff :
  wf_op op -> in_range n (op_indices op) -> Nat.add ooff (length output) <= 2 ^ n ->
  apply_op N n op input output ioff ooff =
  Ok (map (fun j => nadd N (nth j output (n0 N)) (row_value n op input ioff (Nat.add ooff j)))
        (seq O (length output))).
Proof.
  intros W R B. unfold apply_op. rewrite wf_mat_indices by auto. cbn [bind].
  apply mapM_enumerate with (g := fun i a => nadd N a (row_value n op input ioff (Nat.add ooff i))).
  intros i Hi. rewrite apply_row_ok by (auto; lia). reflexivity.
Qed.

Lemma apply_op_overwrite_ok n op input output ioff ooff :
  wf_op op -> in_range n (op_indices op) -> Nat.add ooff (length output) <= 2 ^ n ->
  apply_op_overwrite N n op input output ioff ooff =
  Ok (map (fun j => row_value n op input ioff (Nat.add ooff j)) (seq O (length output))).
Proof.
  intros W R B. unfold apply_op_overwrite. rewrite wf_mat_indices by auto. cbn [bind].
  apply mapM_enumerate with (g := fun i _ => row_value n op input ioff (Nat.add ooff i)) (d := n0 N).
  intros i Hi. apply apply_row_ok; auto; lia.
Qed.

(** Whole vectors: the row value is [act]. *)
Lemma row_value_act n op input x : length input = 2 ^ n -> in_range n (op_indices op) ->
  row_value n op input O (enc n x) = act N (op_indices op) (op_mat N op) (st_of N n input) x.
Proof.
  intros Hl R. unfold row_value, act. 
  assert (E : map (dec n (enc n x)) (op_indices op) = map x (op_indices op)).
  { apply map_ext_in. intros q Hq. rewrite dec_enc. destruct (Nat.ltb_spec q n); [reflexivity|].
    apply R in Hq. lia. }
  rewrite E. apply big_ext. intros c Hc. f_equal. unfold amp_off, st_of.
  change (enc n (updl (dec n (enc n x)) (op_indices op) c) <? O) with false. cbn iota. rewrite Nat.sub_0_r.
  f_equal. apply enc_ext. apply updl_ext_n. intros q Hq. rewrite dec_enc.
  destruct (Nat.ltb_spec q n); [reflexivity|lia].
Qed.

Lemma apply_op_act n op input output :
  wf_op op -> in_range n (op_indices op) -> length input = 2 ^ n -> length output = 2 ^ n ->
  exists out', apply_op N n op input output O O = Ok out' /\ length out' = 2 ^ n /\
    forall x, st_of N n out' x =
      nadd N (st_of N n output x) (act N (op_indices op) (op_mat N op) (st_of N n input) x).
Proof.
  intros W R Hi Ho. rewrite apply_op_ok by (auto; lia). eexists. split; [reflexivity|].
  split. { rewrite map_length, seq_length. exact Ho. }
  intros x. unfold st_of at 1. assert (B := enc_lt n x).
  rewrite nth_map_seq by lia. cbn [Nat.add]. rewrite row_value_act by auto. reflexivity.
Qed.

Lemma apply_op_overwrite_act n op input output :
  wf_op op -> in_range n (op_indices op) -> length input = 2 ^ n -> length output = 2 ^ n ->
  exists out', apply_op_overwrite N n op input output O O = Ok out' /\ length out' = 2 ^ n /\
    forall x, st_of N n out' x = act N (op_indices op) (op_mat N op) (st_of N n input) x.
Proof.
  intros W R Hi Ho. rewrite apply_op_overwrite_ok by (auto; lia). eexists. split; [reflexivity|].
  split. { rewrite map_length, seq_length. exact Ho. }
  intros x. unfold st_of at 1. assert (B := enc_lt n x).
  rewrite nth_map_seq by lia. cbn [Nat.add]. rewrite row_value_act by auto. reflexivity.
Qed.

End Proofs.
