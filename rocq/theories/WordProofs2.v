(** Words: measurement and whole simulations. *)
From Coq Require Import Reals NArith ZArith.
From Coquelicot Require Import Complex.
From Verif Require Import Base BitsModel BitsSpec BitsProofs BitsProofs2 OpsModel OpsSpec OpsProofs StateOpsModel Instances MeasureModel MeasureSpec MeasureProofs MeasureProofs2
  BuilderModel SimModel DenSpec DenProofs SimSpec SimProofs WholeSpec WholeProofs WordModel WordSpec WordProofs.
Local Open Scope nat_scope.

Lemma in_range_NoDup_length n qs : in_range n qs -> NoDup qs -> length qs <= n.
Proof. intros R ND. rewrite <- (seq_length n 0). apply NoDup_incl_length; [exact ND|]. intros q Hq. apply in_seq. specialize (R q Hq). lia. Qed.

Section Build.
Variable m : build.

Lemma wscatter_ok n k qs : n <= 64 -> length qs <= 64 -> in_range n qs -> wscatter m n k qs = scatter n k qs.
Proof.
  intros Hn Hl R. unfold wscatter, scatter. apply foldM_ext. intros acc [i q] Hin. apply In_enumerate in Hin.
  assert (Hi : i < length qs) by (apply nth_error_Some; congruence). assert (Hq : q < n) by (apply R; eapply nth_error_In; exact Hin). unfold scatter_step.
  rewrite wshr_ok by lia. cbn [bind]. rewrite wsub_ok, chk_sub_ok by lia. cbn [bind]. rewrite wsub_ok, chk_sub_ok by lia. cbn [bind].
  rewrite wshl_bit by (try apply land1_le; lia). reflexivity.
Qed.
Definition left_over (n : nat) (qs : list nat) : list nat := filter (fun i => negb (existsb (Nat.eqb i) qs)) (seq 0 n).
Lemma left_over_range n qs : in_range n (left_over n qs).
Proof. intros q Hq. apply filter_In in Hq. destruct Hq as (Hq & _). apply in_seq in Hq. lia. Qed.
Lemma left_over_NoDup n qs : NoDup (left_over n qs).
Proof. apply NoDup_filter. apply seq_NoDup. Qed.

Lemma wmeasure_prob_fn_ok n k qs ioff f : n <= 63 -> in_range n qs -> NoDup qs -> wmeasure_prob_fn m n k qs ioff f = measure_prob_fn n k qs ioff f.
Proof.
  intros Hn R ND. assert (Hl := in_range_NoDup_length n qs R ND). unfold wmeasure_prob_fn, measure_prob_fn.
  rewrite wscatter_ok by (try assumption; lia). rewrite (scatter_ok n k qs R ND). cbn [bind]. fold (left_over n qs).
  assert (Rl := left_over_range n qs). assert (Nl := left_over_NoDup n qs). assert (Ll := in_range_NoDup_length _ _ Rl Nl).
  rewrite wshl_1 by lia. cbn [bind]. f_equal. apply mapM_ext. intros r _. unfold wprob_item, prob_item.
  rewrite wscatter_ok by (try assumption; lia). rewrite (scatter_ok n r _ Rl Nl). cbn [bind].
  set (a := enc n (updl zero_bs (left_over n qs) _)). set (t := enc n (updl zero_bs qs _)).
  assert (Ha : a < 2 ^ n) by apply enc_lt. assert (Ht : t < 2 ^ n) by apply enc_lt.
  rewrite (wadd_ok m (S n)) by (rewrite ?Nat.pow_succ_r'; lia). cbn [bind]. destruct (a + t <? ioff) eqn:E; [reflexivity|]. apply Nat.ltb_ge in E.
  rewrite wsub_ok by exact E. reflexivity.
Qed.
Lemma wmeasure_prob_ok n k qs v ioff : n <= 63 -> in_range n qs -> NoDup qs -> wmeasure_prob m n k qs v ioff = measure_prob n k qs v ioff.
Proof. intros. apply wmeasure_prob_fn_ok; assumption. Qed.
Lemma wmeasure_probs_ok n qs v ioff : n <= 63 -> in_range n qs -> NoDup qs -> wmeasure_probs m n qs v ioff = measure_probs n qs v ioff.
Proof.
  intros Hn R ND. assert (Hl := in_range_NoDup_length n qs R ND). unfold wmeasure_probs, measure_probs. rewrite wshl_1 by lia. cbn [bind].
  apply mapM_ext. intros k _. apply wmeasure_prob_ok; assumption.
Qed.
Lemma wsoft_scan_ok n ioff v : n <= 63 -> forall r i, i + length v + ioff <= 2 ^ n -> wsoft_scan m r i v ioff = Ok (soft_scan r i v ioff).
Proof.
  intros Hn. induction v as [|c v IH]; intros r i H; cbn [wsoft_scan soft_scan]; [reflexivity|]. cbn zeta. cbn [length] in H.
  destruct (Rle_dec _ 0); [apply (wadd_ok m n); lia|]. apply IH. lia.
Qed.
Lemma wsoft_measure_ok draw n qs v ioff : n <= 63 -> in_range n qs -> length qs <= 63 -> ioff + length v <= 2 ^ n ->
  wsoft_measure m draw n qs v ioff = soft_measure draw n qs v ioff.
Proof.
  intros Hn R Hl Hv. unfold wsoft_measure, soft_measure. rewrite wshl_1 by exact Hn. cbn [bind]. cbn zeta.
  rewrite (wsoft_scan_ok n) by (try assumption; lia). cbn [bind].
  rewrite (mapM_ext _ (fun indx => (n1 <- chk_sub n 1 ;; chk_sub n1 indx)%res) qs).
  2:{ intros q Hq. specialize (R q Hq). rewrite wsub_ok, chk_sub_ok by lia. cbn [bind]. rewrite wsub_ok, chk_sub_ok by lia. reflexivity. }
  rewrite (SimProofs.mapM_ok _ (fun q => n - 1 - q)).
  2:{ intros q Hq. specialize (R q Hq). rewrite chk_sub_ok by lia. cbn [bind]. rewrite chk_sub_ok by lia. reflexivity. }
  cbn [bind]. apply wextract_bits_ok; [rewrite map_length; lia|]. intros p Hp. apply in_map_iff in Hp. destruct Hp as (q & <- & Hq). lia.
Qed.

Lemma fold_add_le l : forall a, a <= fold_left Nat.add l a.
Proof. induction l as [|x l IH]; intros a; cbn [fold_left]; [lia|]. specialize (IH (a + x)). lia. Qed.
Lemma wsum_ok k l : k <= 64 -> sumn l < 2 ^ k -> wsum m l = Ok (sumn l).
Proof.
  intros Hk. unfold wsum, sumn.
  assert (G : forall a, fold_left Nat.add l a < 2 ^ k -> foldM (wadd m) l a = Ok (fold_left Nat.add l a)); [|apply G].
  induction l as [|x l IH]; intros a H; cbn [foldM fold_left] in *; [reflexivity|].
  assert (L := fold_add_le l (a + x)). rewrite (wadd_ok m k) by lia. cbn [bind]. apply IH. exact H.
Qed.

Lemma wmeasure_state_ok n qs k p v out ioff ooff : n <= 63 -> in_range n qs -> NoDup qs ->
  ioff <= ooff + length out -> ooff <= ioff + length v -> ioff + length v <= 2 ^ n -> ooff + length out <= 2 ^ n ->
  wmeasure_state m n qs (k, p) v out ioff ooff = measure_state n qs (k, p) v out ioff ooff.
Proof.
  intros Hn R ND H1 H2 H3 H4. assert (Hl := in_range_NoDup_length n qs R ND). unfold wmeasure_state, measure_state.
  destruct (Req_EM_T p 0); [reflexivity|]. cbn zeta. destruct (row_masks n qs k R ND) as (E1 & E2 & E3 & E4).
  rewrite (mapM_ext _ (fun index => (n1 <- chk_sub n 1 ;; p <- chk_sub n1 index ;; Ok (Nat.shiftl 1 p))%res) qs).
  2:{ intros q Hq. specialize (R q Hq). rewrite wsub_ok, chk_sub_ok by lia. cbn [bind]. rewrite wsub_ok, chk_sub_ok by lia. cbn [bind]. apply wshl_bit; lia. }
  rewrite E1. cbn [bind]. rewrite (wsum_ok n) by (try lia; rewrite E2; apply enc_lt). cbn [bind].
  rewrite (mapM_ext _ (fun '(i, index) => (n1 <- chk_sub n 1 ;; p <- chk_sub n1 index ;; Ok (Nat.shiftl (Nat.land (Nat.shiftr k i) 1) p))%res) (enumerate qs)).
  2:{ intros [i q] Hin. apply In_enumerate in Hin. assert (Hi : i < length qs) by (apply nth_error_Some; congruence).
      assert (Hq : q < n) by (apply R; eapply nth_error_In; exact Hin). rewrite wshr_ok by lia. cbn [bind].
      rewrite wsub_ok, chk_sub_ok by lia. cbn [bind]. rewrite wsub_ok, chk_sub_ok by lia. cbn [bind]. apply wshl_bit; [apply land1_le|lia]. }
  rewrite E3. cbn [bind]. rewrite (wsum_ok n) by (try lia; rewrite E4; apply enc_lt). cbn [bind].
  assert (p2 := pow2_pos n).
  assert (Fi : in_word (ioff + length v) = true) by (apply (fits_le n); lia). assert (Fo : in_word (ooff + length out) = true) by (apply (fits_le n); lia).
  unfold wadd at 1 2. rewrite !checked_ok by assumption. cbn [bind].
  set (lower := Nat.max ioff ooff). set (upper := Nat.min (ioff + length v) (ooff + length out)).
  repeat (rewrite wsub_ok, chk_sub_ok by lia; cbn [bind]).
  destruct (slice v _ _) as [inp| |] eqn:Ei; cbn [bind]; try reflexivity. destruct (slice out _ _) as [o| |] eqn:Eo; cbn [bind]; try reflexivity.
  rewrite (SimProofs.mapM_ok _ (fun '(i, (c, _)) => state_cell lower (sumn (map (fun q => Nat.shiftl 1 (n - 1 - q)) qs)) (sumn (map (fun '(i, q) => Nat.shiftl (b2n (Nat.testbit k i)) (n - 1 - q)) (enumerate qs))) (1 / sqrt p) i c)).
  - reflexivity.
  - intros [i [c o']] Hin. apply In_enumerate in Hin. assert (Hi : i < length (combine inp o)) by (apply nth_error_Some; congruence).
    rewrite combine_length in Hi. unfold slice in Ei. destruct ((lower - ioff <=? upper - ioff) && (upper - ioff <=? length v)) eqn:Eb; [|discriminate].
    apply andb_true_iff in Eb. destruct Eb as (Eb1 & Eb2). apply Nat.leb_le in Eb1, Eb2. inversion Ei. subst inp.
    rewrite firstn_length, skipn_length in Hi. unfold wstate_cell, state_cell. rewrite (wadd_ok m n) by lia. reflexivity.
Qed.

Lemma wmeasure_ok draw n qs v out off k : n <= 63 -> in_range n qs -> NoDup qs ->
  (let '(ioff, ooff) := match off with Some o => o | None => (0, 0) end in
   ioff <= ooff + length out /\ ooff <= ioff + length v /\ ioff + length v <= 2 ^ n /\ ooff + length out <= 2 ^ n) ->
  wmeasure m draw n qs v out off k = measure draw n qs v out off k.
Proof.
  intros Hn R ND. assert (Hl := in_range_NoDup_length n qs R ND). unfold wmeasure, measure.
  destruct (match off with Some o => o | None => (0, 0) end) as [ioff ooff]. intros (H1 & H2 & H3 & H4).
  assert (E : match k with Some (k, _) => Ok k | None => wsoft_measure m draw n qs v ioff end = match k with Some (k, _) => Ok k | None => soft_measure draw n qs v ioff end).
  { destruct k as [[? ?]|]; [reflexivity|]. apply wsoft_measure_ok; try assumption; lia. }
  rewrite E. destruct (match k with Some (k, _) => Ok k | None => soft_measure draw n qs v ioff end) as [j| |]; cbn [bind]; try reflexivity.
  assert (E' : match k with Some (_, Some p) => Ok p | _ => wmeasure_prob m n j qs v ioff end = match k with Some (_, Some p) => Ok p | _ => measure_prob n j qs v ioff end).
  { destruct k as [[? [?|]]|]; try reflexivity; apply wmeasure_prob_ok; assumption. }
  rewrite E'. destruct (match k with Some (_, Some p) => Ok p | _ => measure_prob n j qs v ioff end) as [p| |]; cbn [bind]; try reflexivity.
  rewrite wmeasure_state_ok by assumption. reflexivity.
Qed.

(** *** Simulation *)
Lemma one_small : 4 < 2 ^ 63.
Proof. change 4 with (2 ^ 2). apply Nat.pow_lt_mono_r; lia. Qed.
Lemma wunitary_op_ok u qs : wf_unitary u qs -> NoDup qs -> length qs <= 63 -> (match u with UMAT d => length d < 2 ^ 63 | _ => True end) ->
  (forall t, u <> UPhase t) ->
  exists op, wunitary_op m qs u = Ok op /\ unitary_op qs u = Ok op /\ wf_op op /\ small_op op /\ op_indices op = qs.
Proof.
  intros W ND Hl S NP. destruct (unitary_op_ok u qs W ND NP) as (op & E & Wo & I & _). exists op.
  assert (G : wunitary_op m qs u = unitary_op qs u /\ small_op op).
  { assert (o4 := one_small). destruct u; cbn [wf_unitary wunitary_op unitary_op] in *; try (exfalso; exact (NP _ eq_refl)).
    all: try (rewrite wmake_matrix_op_ok by (rewrite W; lia); split; [reflexivity|]; unfold make_matrix_op in E; rewrite W in E; cbn in E; inversion E; subst; exact o4).
    - destruct qs as [|c [|t [|? ?]]]; try discriminate. cbn [idx nth_error bind] in *.
      change (slice [c; t] 1 (length [c; t])) with (Ok [t]) in *. cbn [bind] in *. rewrite wmake_matrix_op_ok by (cbn; lia).
      cbn in E. inversion E. subst op. split; [reflexivity|exact o4].
    - split; [reflexivity|]. cbn zeta in E. destruct W as (_ & k & Hk). rewrite Hk in E. replace (k + k) with (k * 2) in E by lia. rewrite Nat.mod_mul in E by lia. cbn [Nat.eqb negb] in E.
      unfold make_swap_op in E. destruct (_ || _); [discriminate|]. destruct (negb _); [discriminate|]. inversion E. exact Logic.I.
    - destruct W as (Hne & Hd). rewrite Hd in S. apply Nat.pow_lt_mono_r_iff in S; [|lia]. rewrite wmake_matrix_op_ok by lia. split; [reflexivity|].
      unfold make_matrix_op in E. destruct (length qs =? 0); [discriminate|]. destruct (negb _); [discriminate|]. inversion E. cbn [small_op]. rewrite Hd. apply Nat.pow_lt_mono_r; lia. }
  destruct G as (G & Sm). rewrite G. auto.
Qed.

Lemma wsim_step_ok n draws v a ms e : n <= 63 -> wf_entry n e -> small_entry e -> length v = 2 ^ n -> length a = 2 ^ n ->
  wsim_step m n draws (v, a, ms) e = sim_step n draws (v, a, ms) e.
Proof.
  intros Hn (ND & R & W) S Lv La. destruct e as [qs [k o]]. cbn [fst snd co_obj] in *. assert (Hl := in_range_NoDup_length n qs R ND).
  unfold wsim_step, sim_step, small_entry in *. cbn [co_obj fst snd] in *. destruct o as [u|[]].
  - assert (D : (exists t, u = UPhase t) \/ (forall t, u <> UPhase t)) by (destruct u; try (right; discriminate); left; eexists; reflexivity).
    destruct D as [(t & ->)|NP]; [reflexivity|].
    destruct (wunitary_op_ok u qs W ND ltac:(lia) S NP) as (op & E1 & E2 & Wo & So & Io).
    assert (Ea : wapply_op_overwrite m CN n op v a 0 0 = apply_op_overwrite CN n op v a 0 0).
    { apply wapply_op_overwrite_ok; try assumption; try rewrite Io; try lia; exact R. }
    destruct u; try (exfalso; exact (NP _ eq_refl)); rewrite E1, E2; cbn [bind]; rewrite Ea; reflexivity.
  - rewrite wmeasure_ok; [reflexivity|assumption|assumption|assumption|]. repeat split; lia.
  - rewrite wmeasure_probs_ok by assumption. reflexivity.
Qed.
Lemma wsim_ok n draws p : n <= 63 -> Forall (wf_entry n) p -> Forall small_entry p -> forall v a ms, length v = 2 ^ n -> length a = 2 ^ n ->
  foldM (wsim_step m n draws) p (v, a, ms) = foldM (sim_step n draws) p (v, a, ms).
Proof.
  intros Hn W S. induction p as [|e p IH]; intros v a ms Lv La; cbn [foldM]; [reflexivity|]. inversion W; subst. inversion S; subst.
  rewrite wsim_step_ok by assumption. destruct (step_exact n draws v a ms e) as (v1 & ms1 & E & L1 & _); try assumption. rewrite E. cbn [bind]. apply IH; assumption.
Qed.

Lemma winit_bits_ok n r x : n <= 64 -> in_range n r -> length r <= 64 -> winit_bits m n (r, x) = init_bits n (r, x).
Proof.
  intros Hn R Hl. unfold winit_bits, init_bits. cbn zeta. apply mapM_ext. intros [ri i] Hin. apply enumerate_In in Hin.
  assert (L : ri < length r). { rewrite <- rev_length. apply nth_error_Some. congruence. }
  assert (Hi : i < n). { apply R. apply in_rev. eapply nth_error_In. exact Hin. }
  repeat (rewrite wsub_ok, chk_sub_ok by lia; cbn [bind]). rewrite wshr_ok by lia. reflexivity.
Qed.
Lemma winitial_index_ok n it : n <= 64 -> (forall r x, In (r, x) it -> in_range n r /\ length r <= 64) -> winitial_index m n it = initial_index n it.
Proof.
  intros Hn R. unfold winitial_index, initial_index.
  rewrite (mapM_ext _ (init_bits n) it) by (intros [r x] Hin; destruct (R r x Hin); apply winit_bits_ok; assumption).
  rewrite (SimProofs.mapM_ok (init_bits n) (fun rx => map (init_pair n (length (fst rx)) (snd rx)) (enumerate (rev (fst rx))))).
  2:{ intros [r x] Hin. destruct (R r x Hin). apply init_bits_ok. assumption. }
  cbn [bind]. apply foldM_ok. intros acc [p b] Hin. apply in_concat in Hin. destruct Hin as (l & Hl & Hin). apply in_map_iff in Hl. destruct Hl as ([r x] & <- & Hr).
  destruct (R r x Hr) as (Rr & _). apply in_map_iff in Hin. destruct Hin as ([ri i] & E & Hin). apply enumerate_In in Hin. cbn [init_pair] in E. inversion E.
  assert (Hi : i < n). { apply Rr. apply in_rev. eapply nth_error_In. exact Hin. }
  rewrite wshl_bit; [reflexivity| |lia]. destruct (Nat.testbit _ _); cbn; lia.
Qed.

Lemma wcalculate_ok b it draws : bn b <= 63 -> Forall (wf_entry (bn b)) (pipeline b) -> Forall small_entry (pipeline b) ->
  (forall r v, In (r, v) it -> in_range (bn b) r /\ length r <= 64) ->
  wcalculate_state_with_init m b it draws = calculate_state_with_init b it draws.
Proof.
  intros Hn W S R. unfold wcalculate_state_with_init, calculate_state_with_init. cbn zeta. rewrite wshl_1 by exact Hn. cbn [bind].
  rewrite winitial_index_ok by (try assumption; lia). destruct (initial_index (bn b) it) as [i| |]; cbn [bind]; try reflexivity.
  destruct (idx (repeat (RtoC 0) (2 ^ bn b)) i); cbn [bind]; try reflexivity.
  rewrite wsim_ok; try assumption; [reflexivity| |]; rewrite ?upd_nth_length; apply repeat_length.
Qed.
End Build.
