(** Words: nothing leaves the range of a word. *)
From Coq Require Import Reals NArith ZArith.
From Coquelicot Require Import Complex.
From Verif Require Import Base BitsModel BitsSpec BitsProofs BitsProofs2 OpsModel OpsSpec OpsProofs StateOpsModel Instances MeasureModel BuilderModel SimModel WordModel WordSpec.
Local Open Scope nat_scope.

Lemma fits_lt k a : k <= 64 -> a < 2 ^ k -> in_word a = true.
Proof.
  intros Hk Ha. unfold in_word, word. apply N.ltb_lt.
  assert (H : (N.of_nat a < 2 ^ N.of_nat k)%N).
  { replace 2%N with (N.of_nat 2) by reflexivity. rewrite <- Nat2N.inj_pow. lia. }
  eapply N.lt_le_trans; [exact H|]. replace 18446744073709551616%N with (2 ^ 64)%N by reflexivity. apply N.pow_le_mono_r; lia.
Qed.
Lemma fits_le k a : k <= 63 -> a <= 2 ^ k -> in_word a = true.
Proof. intros Hk Ha. apply (fits_lt (S k)); [lia|]. rewrite Nat.pow_succ_r'. assert (p := pow2_pos k). lia. Qed.
Lemma wrap_fits a : in_word a = true -> wrap a = a.
Proof.
  unfold in_word, wrap. intros H. apply N.ltb_lt in H. rewrite N.mod_small by exact H. apply Nat2N.id.
Qed.
Lemma pow_mono_lt a b c : a < 2 ^ b -> b <= c -> a < 2 ^ c.
Proof. intros H1 H2. eapply Nat.lt_le_trans; [exact H1|]. apply Nat.pow_le_mono_r; lia. Qed.

Lemma foldM_ext {A B} (f g : A -> B -> res A) l : (forall a b, In b l -> f a b = g a b) -> forall a, foldM f l a = foldM g l a.
Proof.
  induction l as [|b l IH]; intros H a; [reflexivity|]. cbn [foldM]. rewrite (H a b) by (left; reflexivity).
  destruct (g a b); cbn [bind]; try reflexivity. apply IH. intros a' b' Hb. apply H. right. exact Hb.
Qed.

Section Build.
Variable m : build.

Lemma checked_ok a : in_word a = true -> checked m a = Ok a.
Proof. unfold checked. intros ->. reflexivity. Qed.
Lemma wadd_ok k a b : k <= 64 -> a + b < 2 ^ k -> wadd m a b = Ok (a + b).
Proof. intros Hk H. apply checked_ok. eapply fits_lt; eauto. Qed.
Lemma wmul_ok k a b : k <= 64 -> a * b < 2 ^ k -> wmul m a b = Ok (a * b).
Proof. intros Hk H. apply checked_ok. eapply fits_lt; eauto. Qed.
Lemma wsub_ok a b : b <= a -> wsub m a b = Ok (a - b).
Proof. intros H. unfold wsub. rewrite (proj2 (Nat.leb_le b a) H). reflexivity. Qed.
Lemma wsub_chk a b : b <= a -> wsub m a b = chk_sub a b.
Proof. intros H. rewrite wsub_ok, chk_sub_ok by exact H. reflexivity. Qed.
Lemma amount_ok k : k <= 63 -> amount m k = Ok k.
Proof. intros H. unfold amount. rewrite (proj2 (Nat.ltb_lt k 64)) by lia. reflexivity. Qed.
Lemma wshr_ok a k : k <= 63 -> wshr m a k = Ok (Nat.shiftr a k).
Proof. intros H. unfold wshr. rewrite amount_ok by exact H. reflexivity. Qed.
Lemma wshl_ok a k : k <= 63 -> in_word (Nat.shiftl a k) = true -> wshl m a k = Ok (Nat.shiftl a k).
Proof. intros H F. unfold wshl. rewrite amount_ok by exact H. cbn [bind]. rewrite wrap_fits by exact F. reflexivity. Qed.
Lemma wshl_bit a k : a <= 1 -> k <= 63 -> wshl m a k = Ok (Nat.shiftl a k).
Proof.
  intros Ha Hk. apply wshl_ok; [exact Hk|]. apply (fits_le k); [exact Hk|]. rewrite Nat.shiftl_mul_pow2.
  transitivity (1 * 2 ^ k); [apply Nat.mul_le_mono_r; exact Ha|lia].
Qed.
Lemma wshl_1 k : k <= 63 -> wshl m 1 k = Ok (2 ^ k).
Proof. intros H. rewrite wshl_bit by lia. rewrite Nat.shiftl_1_l. reflexivity. Qed.
Lemma land1_le a : Nat.land a 1 <= 1.
Proof. change 1 with (Nat.ones 1) at 1. rewrite Nat.land_ones. change (2 ^ 1) with 2. assert (H := Nat.mod_upper_bound a 2 ltac:(lia)). lia. Qed.

Lemma wset_bit_ok a k v : k <= 63 -> wset_bit m a k v = Ok (set_bit a k v).
Proof. intros H. unfold wset_bit. rewrite wshl_bit by lia. reflexivity. Qed.
Lemma wget_bit_ok a k : k <= 63 -> wget_bit m a k = Ok (get_bit a k).
Proof. intros H. unfold wget_bit. rewrite wshr_ok by lia. reflexivity. Qed.
Lemma wget_flat_index_ok k i j : k <= 63 -> 2 * k <= 63 -> i < 2 ^ k -> j <= 2 ^ k -> wget_flat_index m k i j = Ok (get_flat_index k i j).
Proof.
  intros Hk H2 Hi Hj. unfold wget_flat_index, get_flat_index. rewrite wshl_1 by exact Hk. cbn [bind].
  assert (E : 2 ^ (2 * k) = 2 ^ k * 2 ^ k) by (rewrite <- Nat.pow_add_r; f_equal; lia).
  assert (B : i * 2 ^ k + 2 ^ k <= 2 ^ (2 * k)). { rewrite E. transitivity (S i * 2 ^ k); [lia|]. apply Nat.mul_le_mono_r. lia. }
  assert (F : 2 ^ (2 * k) < 2 ^ S (2 * k)) by (apply Nat.pow_lt_mono_r; lia).
  rewrite (wmul_ok (S (2 * k))) by lia. cbn [bind]. apply (wadd_ok (S (2 * k))); lia.
Qed.

Lemma wfull_to_sub_ok n qs i : n <= 64 -> length qs <= 64 -> in_range n qs -> wfull_to_sub m n qs i = full_to_sub n qs i.
Proof.
  intros Hn Hl R. unfold wfull_to_sub, full_to_sub. cbn zeta. apply foldM_ext. intros acc [j q] Hin.
  apply In_enumerate in Hin. assert (Hj : j < length qs) by (apply nth_error_Some; congruence).
  assert (Hq : q < n) by (apply R; eapply nth_error_In; exact Hin). unfold full_to_sub_step.
  rewrite !wsub_ok, !chk_sub_ok by lia. cbn [bind]. rewrite wsub_ok, chk_sub_ok by lia. cbn [bind]. rewrite wget_bit_ok by lia. cbn [bind].
  rewrite wsub_ok, chk_sub_ok by lia. cbn [bind]. apply wset_bit_ok. lia.
Qed.
Lemma wsub_to_full_ok n qs c i : n <= 64 -> length qs <= 64 -> in_range n qs -> wsub_to_full m n qs c i = sub_to_full n qs c i.
Proof.
  intros Hn Hl R. unfold wsub_to_full, sub_to_full. cbn zeta. apply foldM_ext. intros acc [j q] Hin.
  apply In_enumerate in Hin. assert (Hj : j < length qs) by (apply nth_error_Some; congruence).
  assert (Hq : q < n) by (apply R; eapply nth_error_In; exact Hin). unfold sub_to_full_step.
  rewrite !wsub_ok, !chk_sub_ok by lia. cbn [bind]. rewrite wsub_ok, chk_sub_ok by lia. cbn [bind]. rewrite wget_bit_ok by lia. cbn [bind].
  rewrite wsub_ok, chk_sub_ok by lia. cbn [bind]. apply wset_bit_ok. lia.
Qed.
Lemma wflip_bits_ok n a : 1 <= n <= 64 -> wflip_bits m n a = flip_bits n a.
Proof.
  intros Hn. unfold wflip_bits, flip_bits, flip_bits64. rewrite wsub_ok, chk_sub_ok by lia. cbn [bind]. rewrite wshr_ok by lia.
  rewrite (proj2 (Nat.leb_gt 64 (64 - n))) by lia. cbn [bind]. f_equal. symmetry. rewrite N.shiftr_div_pow2, Nat.shiftr_div_pow2, N2Nat.inj_div, N2Nat.inj_pow, Nat2N.id. reflexivity.
Qed.
Lemma wextract_bits_ok a qs : length qs <= 64 -> (forall q, In q qs -> q <= 63) -> wextract_bits m a qs = Ok (extract_bits a qs).
Proof.
  intros Hl R. unfold wextract_bits, extract_bits. apply foldM_ok. intros acc [i q] Hin. apply In_enumerate in Hin.
  assert (Hi : i < length qs) by (apply nth_error_Some; congruence). assert (Hq := R q (nth_error_In _ _ Hin)).
  rewrite wshr_ok by exact Hq. cbn [bind]. rewrite wshl_bit by (try apply land1_le; lia). reflexivity.
Qed.
Lemma wentwine_bits_ok n s a b : n <= 64 -> wentwine_bits m n s a b = Ok (entwine_bits n s a b).
Proof.
  intros Hn. unfold wentwine_bits, entwine_bits. rewrite (foldM_ok _ entwine_step); [reflexivity|].
  intros [[[sel off] on] r] i Hin. apply in_seq in Hin. unfold wentwine_step, entwine_step.
  destruct (Nat.land sel 1 =? 0); rewrite !wshr_ok by lia; cbn [bind]; rewrite wshl_bit by (try apply land1_le; lia); reflexivity.
Qed.

(** *** Iterators *)
Section Ops.
Context {P : Type} (N : num P).

Lemma yields_same S (next wnext : S -> res (option (nat * P) * S)) init (I : S -> Prop) :
  (forall s, I s -> wnext s = next s) -> (forall s o s', I s -> next s = Ok (o, s') -> I s') ->
  forall s l, I s -> yields (mkIter next init) s l -> yields (mkIter wnext init) s l.
Proof.
  intros H1 H2 s l Hs0 Y. revert Hs0. induction Y as [s s' E|s s' e l E Y IH]; intros Hs; cbn [it_next it_S] in *.
  - apply Y_nil with s'. cbn [it_next]. rewrite H1 by exact Hs. exact E.
  - apply Y_cons with s'. { cbn [it_next]. rewrite H1 by exact Hs. exact E. } apply IH. eapply H2; eauto.
Qed.

Lemma yields_unique (it : @iter P) s l : yields it s l -> forall l', yields it s l' -> l = l'.
Proof.
  induction 1 as [s s' E|s s' e l E Y IH]; intros l' Y'; inversion Y' as [? ? E'|? ? ? ? E' Y'' E1]; subst; rewrite E in E'; try discriminate; [reflexivity|].
  inversion E'. subst. f_equal. apply IH. assumption.
Qed.

Lemma mat_scan_in (data : list P) cols c v : mat_scan N data cols = Ok (Some (c, v)) -> In c cols.
Proof.
  induction cols as [|a cols IH]; cbn [mat_scan]; intros H; [discriminate|].
  destruct (idx data a); cbn [bind] in H; try discriminate. destruct (nis0 N a0); [right; auto|left; congruence].
Qed.

Lemma wmat_iter_items row ind (data : list P) : length data = 2 ^ (2 * length ind) -> 2 * length ind <= 63 -> row < 2 ^ length ind ->
  exists it, wmat_iter m N row (length ind) data = Ok it /\ yields it (it_init it) (op_items N (Matrix ind data) row).
Proof.
  intros Hd Hk Hr. destruct (mat_iter_items N (length ind) row ind data eq_refl Hd Hr) as (it & E & Y).
  unfold mat_iter in E. unfold wmat_iter. assert (p := pow2_pos (length ind)).
  rewrite wget_flat_index_ok by lia. cbn [bind]. rewrite wshl_1 by lia. cbn [bind]. rewrite wget_flat_index_ok by lia. cbn [bind].
  destruct (slice data (get_flat_index (length ind) row 0) (get_flat_index (length ind) row (2 ^ length ind))) as [d| |]; cbn [bind] in *; try discriminate.
  inversion E. subst it. eexists. split; [reflexivity|]. cbn [it_init] in *.
  revert Y. apply yields_same with (I := fun s => match s with Some c => c < 2 ^ length ind | None => True end).
  - intros [c|] Hc; unfold wmat_next, mat_next.
    + rewrite (wadd_ok (S (length ind))) by (rewrite ?Nat.pow_succ_r'; lia). cbn [bind]. rewrite wshl_1 by lia. reflexivity.
    + cbn [bind]. rewrite wshl_1 by lia. reflexivity.
  - intros s o s' Hs. unfold mat_next. destruct (mat_scan N d _) as [[[c v]|]| |] eqn:Em; cbn [bind]; intros Eq; inversion Eq; cbn [option_map fst]; auto.
    apply mat_scan_in, in_seq in Em. lia.
  - exact I.
Qed.
Lemma wsparse_iter_items row ind rows : wf_op (@Sparse P ind rows) -> small_op (@Sparse P ind rows) -> row < 2 ^ length ind ->
  exists it, wsparse_iter m row rows = Ok it /\ yields it (it_init it) (op_items N (Sparse ind rows) row).
Proof.
  intros W Sm Hr. destruct W as [W1 W2]. unfold wsparse_iter. cbn [op_items]. rewrite (@idx_ok _ rows row []) by (rewrite W1; exact Hr).
  cbn [bind]. eexists. split; [reflexivity|]. cbn [it_init].
  assert (Sr : length (nth row rows []) < 2 ^ 63). { apply Sm. apply nth_In. rewrite W1. exact Hr. }
  set (d := nth row rows []) in *. generalize (sparse_yields d). apply yields_same with (I := fun s => match s with Some c => c < length d | None => True end).
  - intros [c|] Hc; unfold wsparse_next, sparse_next; [|reflexivity]. rewrite (wadd_ok (S 63)); [reflexivity|lia|]. rewrite Nat.pow_succ_r'. generalize dependent (2 ^ 63). intros. lia.
  - intros s o s' Hs. unfold sparse_next. destruct (length d <=? _) eqn:El; [intros Eq; inversion Eq; exact I|]. apply Nat.leb_gt in El.
    destruct (idx d _) as [v| |]; cbn [bind]; intros Eq; inversion Eq. exact El.
  - exact I.
Qed.
Lemma wswap_iter_items row ind h : length ind = h + h -> length ind <= 63 -> row < 2 ^ length ind ->
  exists it, wswap_iter m N row (length ind) = Ok it /\ yields it (it_init it) (op_items N (Swap h ind) row).
Proof.
  intros W Hk Hr. unfold wswap_iter. rewrite wshr_ok by lia. cbn [bind].
  eexists. split; [reflexivity|]. cbn [it_init op_items].
  replace (Nat.shiftr (length ind) 1) with h by (rewrite Nat.shiftr_div_pow2; change (2 ^ 1) with 2; rewrite (swap_arity h ind W); reflexivity).
  assert (R : swap_col h row < 2 ^ length ind).
  { rewrite W in *. unfold swap_col. rewrite Nat.pow_add_r in Hr |- *. assert (p := pow2_pos h).
    assert (A := Nat.mod_upper_bound row (2 ^ h) ltac:(lia)). assert (B : row / 2 ^ h < 2 ^ h) by (apply Nat.div_lt_upper_bound; lia).
    eapply Nat.lt_le_trans with (row mod 2 ^ h * 2 ^ h + 2 ^ h); [lia|]. transitivity (S (row mod 2 ^ h) * 2 ^ h); [lia|]. apply Nat.mul_le_mono_r. lia. }
  apply Y_cons with (Some (swap_col h row)).
  - cbn [it_next]. unfold wswap_next. rewrite amount_ok by lia. cbn [bind]. rewrite wshr_ok by lia. cbn [bind].
    rewrite Nat.land_ones, Nat.shiftr_div_pow2. unfold swap_col in *.
    rewrite wshl_ok; [|lia|]. 2:{ apply (fits_lt (length ind)); [lia|]. rewrite Nat.shiftl_mul_pow2. lia. }
    cbn [bind]. rewrite Nat.shiftl_mul_pow2. rewrite (wadd_ok (length ind)) by (try exact R; lia). reflexivity.
  - apply Y_nil with None. reflexivity.
Qed.

Lemma wctrl_yields_some th (it : @iter P) l k : k <= 64 -> (forall e, In e l -> fst e + th < 2 ^ k) -> forall s last, yields it s l ->
  yields (mkIter (wctrl_next_some m th it) (it_init it, None)) (s, last) (map (fun e => (fst e + th, snd e)) l).
Proof.
  intros Hk B s last Y. revert last B. induction Y as [s s' E|s s' e l E Y IH]; intros last B.
  - apply Y_nil with (s', None). cbn. unfold wctrl_next_some. cbn [fst]. rewrite E. reflexivity.
  - destruct e as [i v]. cbn [map]. eapply Y_cons; [|apply IH; intros e' He'; apply B; right; exact He'].
    cbn. unfold wctrl_next_some. cbn [fst]. rewrite E. cbn [bind fst snd].
    rewrite (wadd_ok k) by (try exact Hk; apply (B (i, v)); left; reflexivity). reflexivity.
Qed.

Lemma wctrl_iter_items row nc no builder l : nc + no <= 63 -> row < 2 ^ (nc + no) ->
  (2 ^ (nc + no) - 2 ^ no <= row -> exists it, builder (row - (2 ^ (nc + no) - 2 ^ no)) = Ok it /\ yields it (it_init it) l /\ forall e, In e l -> fst e < 2 ^ no) ->
  exists it, wctrl_iter m N row nc no builder = Ok it /\
    yields it (it_init it)
      (if 2 ^ (nc + no) - 2 ^ no <=? row then map (fun e => (fst e + (2 ^ (nc + no) - 2 ^ no), snd e)) l else [(row, n1 N)]).
Proof.
  intros Hk Hr H. unfold wctrl_iter. rewrite (wadd_ok 6) by (change (2 ^ 6) with 64; lia). cbn [bind]. rewrite !wshl_1 by lia. cbn [bind].
  assert (Hp : 2 ^ no <= 2 ^ (nc + no)) by (apply Nat.pow_le_mono_r; lia). rewrite wsub_ok by exact Hp. cbn [bind].
  destruct (2 ^ (nc + no) - 2 ^ no <=? row) eqn:Et.
  - apply Nat.leb_le in Et. destruct (H Et) as (it & E & Y & B). rewrite wsub_ok by exact Et. cbn [bind]. rewrite E. cbn [bind].
    eexists. split; [reflexivity|]. cbn [it_init]. apply (wctrl_yields_some _ _ _ (nc + no)); [lia| |exact Y].
    intros e He. specialize (B e He). lia.
  - eexists. split; [reflexivity|]. cbn [it_init]. apply Y_cons with (Some row); [reflexivity|].
    apply Y_nil with None. cbn [it_next]. unfold ctrl_next_none. rewrite Nat.ltb_irrefl. reflexivity.
Qed.

Lemma dense_small ind (data : list P) : wf_op (Matrix ind data) -> small_op (Matrix ind data) -> 2 * length ind <= 63.
Proof.
  cbn [wf_op small_op]. intros W S. rewrite W in S. apply Nat.pow_lt_mono_r_iff in S; lia.
Qed.
Lemma sub_row nc no row : row < 2 ^ (nc + no) -> row - (2 ^ (nc + no) - 2 ^ no) < 2 ^ no.
Proof.
  intros H. assert (p := pow2_pos no). assert (Hp : 2 ^ no <= 2 ^ (nc + no)) by (apply Nat.pow_le_mono_r; lia). lia.
Qed.

Lemma wcontrol_iter_items op : wf_op op -> small_op op -> forall row nc, nc + length (op_indices op) <= 63 ->
  row < 2 ^ (nc + length (op_indices op)) ->
  exists it, wcontrol_iter m N op row nc (length (op_indices op)) = Ok it /\
    yields it (it_init it)
      (let no := length (op_indices op) in
       let th := 2 ^ (nc + no) - 2 ^ no in
       if th <=? row then map (fun e => (fst e + th, snd e)) (op_items N op (row - th)) else [(row, n1 N)]).
Proof.
  induction op as [ind data|ind rows|h ind|nc' ind op IH]; intros W S row nc Hk Hr; cbn [wcontrol_iter op_indices] in *; cbn zeta.
  - apply wctrl_iter_items; auto. intros Ht. assert (D := dense_small ind data W S). assert (Hs := sub_row _ _ _ Hr).
    destruct (wmat_iter_items (row - (2 ^ (nc + length ind) - 2 ^ length ind)) ind data W D Hs) as (it & E & Y). exists it. split; [exact E|]. split; [exact Y|].
    intros e He. exact (op_items_range N (Matrix ind data) W _ Hs e He).
  - apply wctrl_iter_items; auto. intros Ht. assert (Hs := sub_row _ _ _ Hr).
    destruct (wsparse_iter_items _ ind rows W S Hs) as (it & E & Y). exists it. split; [exact E|]. split; [exact Y|].
    intros e He. exact (op_items_range N (Sparse ind rows) W _ Hs e He).
  - apply wctrl_iter_items; auto. intros Ht. assert (Hs := sub_row _ _ _ Hr).
    destruct (wswap_iter_items _ ind h W ltac:(lia) Hs) as (it & E & Y). exists it. split; [exact E|]. split; [exact Y|].
    intros e He. exact (op_items_range N (Swap h ind) W _ Hs e He).
  - destruct W as [W1 W2]. rewrite (wadd_ok 6) by (change (2 ^ 6) with 64; lia). cbn [bind]. rewrite wsub_ok by lia. cbn [bind].
    replace (length ind - nc') with (length (op_indices op)) by lia.
    assert (Hr' : row < 2 ^ (nc + nc' + length (op_indices op))) by (rewrite <- Nat.add_assoc, <- W1; exact Hr).
    destruct (IH W2 S row (nc + nc') ltac:(lia) Hr') as (it & E & Y). exists it. split; [exact E|].
    (* the same items as the unbounded iterator gives *)
    destruct (control_iter_items N (Control nc' ind op) (conj W1 W2) row nc Hr) as (it1 & E1 & Y1).
    destruct (control_iter_items N op W2 row (nc + nc') Hr') as (it2 & E2 & Y2).
    cbn [control_iter op_indices] in E1. rewrite chk_sub_ok in E1 by lia. cbn [bind] in E1. replace (length ind - nc') with (length (op_indices op)) in E1 by lia.
    rewrite E1 in E2. inversion E2. subst it2. clear E2.
    assert (Eq := yields_unique _ _ _ Y2 _ Y1). cbn zeta in Eq, Y. cbn [op_indices] in Eq. rewrite Eq in Y. exact Y.
Qed.

Lemma wop_iter_items op : wf_op op -> small_op op -> length (op_indices op) <= 63 -> forall row, row < 2 ^ length (op_indices op) ->
  exists it, wop_iter m N op (length (op_indices op)) row = Ok it /\ yields it (it_init it) (op_items N op row).
Proof.
  destruct op as [ind data|ind rows|h ind|nc' ind op]; intros W S Hk row Hr; cbn [wop_iter op_indices] in *.
  - apply wmat_iter_items; auto. apply (dense_small ind data W S).
  - apply wsparse_iter_items; auto.
  - apply wswap_iter_items; auto.
  - destruct W as [W1 W2]. rewrite wsub_ok by lia. cbn [bind]. replace (length ind - nc') with (length (op_indices op)) by lia.
    rewrite W1 in Hr. destruct (wcontrol_iter_items op W2 S row nc' ltac:(lia) Hr) as (it & E & Y). exists it. split; [exact E|].
    destruct (op_iter_items N (Control nc' ind op) (conj W1 W2) row ltac:(cbn [op_indices]; rewrite W1; exact Hr)) as (it1 & E1 & Y1).
    destruct (control_iter_items N op W2 row nc' Hr) as (it2 & E2 & Y2).
    cbn [op_iter op_indices] in E1. rewrite chk_sub_ok in E1 by lia. cbn [bind] in E1. replace (length ind - nc') with (length (op_indices op)) in E1 by lia.
    rewrite E1 in E2. inversion E2. subst it2. clear E2.
    assert (Eq := yields_unique _ _ _ Y2 _ Y1). cbn zeta in Eq, Y. rewrite Eq in Y. exact Y.
Qed.
Lemma wop_collect op row : wf_op op -> small_op op -> length (op_indices op) <= 63 -> row < 2 ^ length (op_indices op) ->
  (it <- wop_iter m N op (length (op_indices op)) row ;; collect (op_fuel op) it (it_init it))%res = op_collect N op (length (op_indices op)) row.
Proof.
  intros W S Hk Hr. rewrite op_collect_items by assumption. destruct (wop_iter_items op W S Hk row Hr) as (it & E & Y). rewrite E. cbn [bind].
  apply collect_yields; [exact Y|]. assert (H := op_items_length N op W row). lia.
Qed.

Lemma wnum_indices_ok (op : mop P) : wf_op op -> length (op_indices op) <= 63 -> wnum_indices m op = num_indices op.
Proof.
  destruct op as [ind data|ind rows|h ind|nc' ind op]; intros W Hk; try reflexivity. cbn [wnum_indices num_indices op_indices wf_op] in *.
  rewrite (wmul_ok 6) by (change (2 ^ 6) with 64; lia). cbn [bind]. replace (h * 2) with (length ind) by lia. rewrite Nat.eqb_refl. unfold wassert. destruct m; reflexivity.
Qed.
Lemma wmat_indices_ok (op : mop P) : wf_op op -> length (op_indices op) <= 63 -> wmat_indices m op = mat_indices op.
Proof. intros W Hk. unfold wmat_indices, mat_indices. rewrite wnum_indices_ok by assumption. reflexivity. Qed.

Lemma wrow_term_ok n input row ioff qs e : n <= 64 -> length qs <= 64 -> in_range n qs -> wrow_term m N n input row ioff qs e = row_term N n input row ioff qs e.
Proof.
  intros Hn Hl R. destruct e as [i v]. unfold wrow_term, row_term. rewrite wsub_to_full_ok by assumption.
  destruct (sub_to_full n qs i row) as [c| |]; cbn [bind]; try reflexivity. destruct (c <? ioff) eqn:Ec; [reflexivity|]. apply Nat.ltb_ge in Ec.
  rewrite wsub_ok by exact Ec. reflexivity.
Qed.
Lemma wrow_ok n op input outrow ioff ooff : n <= 64 -> wf_op op -> small_op op -> length (op_indices op) <= 63 -> in_range n (op_indices op) ->
  ooff + outrow < 2 ^ n ->
  wapply_op_row_indices m N n op input outrow ioff ooff (op_indices op) = apply_op_row_indices N n op input outrow ioff ooff (op_indices op).
Proof.
  intros Hn W S Hk R Hrow. unfold wapply_op_row_indices, apply_op_row_indices. cbn zeta. rewrite (wadd_ok n) by assumption. cbn [bind].
  rewrite wfull_to_sub_ok by (try assumption; lia). rewrite full_to_sub_ok by exact R. cbn [bind]. unfold wsum_for_op_cols, sum_for_op_cols.
  assert (B := be_lt (map (dec n (ooff + outrow)) (op_indices op))). rewrite map_length in B.
  rewrite <- (wop_collect op _ W S Hk B).
  destruct (wop_iter m N op (length (op_indices op)) _) as [it| |]; cbn [bind]; try reflexivity.
  destruct (collect _ _ _) as [items| |]; cbn [bind]; try reflexivity. f_equal. apply mapM_ext. intros e _. apply wrow_term_ok; try assumption; lia.
Qed.
Lemma enumerate_lt {A} (l : list A) i a : In (i, a) (enumerate l) -> i < length l.
Proof. intros H. apply In_enumerate in H. apply nth_error_Some. congruence. Qed.
Lemma wapply_op_ok n op input output ioff ooff : n <= 64 -> wf_op op -> small_op op -> length (op_indices op) <= 63 -> in_range n (op_indices op) ->
  ooff + length output <= 2 ^ n -> wapply_op m N n op input output ioff ooff = apply_op N n op input output ioff ooff.
Proof.
  intros Hn W S Hk R Ho. unfold wapply_op, apply_op. rewrite wmat_indices_ok, wf_mat_indices by assumption. cbn [bind].
  apply mapM_ext. intros [i o] Hin. apply enumerate_lt in Hin. rewrite wrow_ok by (try assumption; lia). reflexivity.
Qed.
Lemma wapply_op_overwrite_ok n op input output ioff ooff : n <= 64 -> wf_op op -> small_op op -> length (op_indices op) <= 63 -> in_range n (op_indices op) ->
  ooff + length output <= 2 ^ n -> wapply_op_overwrite m N n op input output ioff ooff = apply_op_overwrite N n op input output ioff ooff.
Proof.
  intros Hn W S Hk R Ho. unfold wapply_op_overwrite, apply_op_overwrite. rewrite wmat_indices_ok, wf_mat_indices by assumption. cbn [bind].
  apply mapM_ext. intros [i o] Hin. apply enumerate_lt in Hin. rewrite wrow_ok by (try assumption; lia). reflexivity.
Qed.

Lemma wmake_matrix_op_ok (qs : list nat) (d : list P) : 2 * length qs <= 63 -> wmake_matrix_op m qs d = make_matrix_op qs d.
Proof.
  intros H. unfold wmake_matrix_op, make_matrix_op. cbn zeta. destruct (length qs =? 0); [reflexivity|].
  rewrite (wmul_ok 6) by (change (2 ^ 6) with 64; lia). cbn [bind]. rewrite wshl_1 by exact H. reflexivity.
Qed.
Lemma wmake_control_op_ok c (op : mop P) : wf_op op -> length c + length (op_indices op) <= 63 -> wmake_control_op m c op = make_control_op c op.
Proof.
  intros W H. unfold wmake_control_op, make_control_op. destruct (length c =? 0); [reflexivity|]. destruct op; try reflexivity.
  cbn [op_indices wf_op] in *. rewrite (wadd_ok 6) by (change (2 ^ 6) with 64; lia). reflexivity.
Qed.
End Ops.
End Build.
