(** Proofs about states kept in pieces. *)
From Coq Require Import Reals Lra.
From Coquelicot Require Import Coquelicot.
From Verif Require Import Base BitsModel BitsSpec BitsProofs BitsProofs2 OpsModel OpsSpec OpsProofs OpsProofs2 Instances UnitaryProofs StateOpsModel MeasureModel MeasureSpec MeasureProofs MeasureProofs2
  BuilderModel SimModel DenSpec DenProofs SimSpec ProjSpec WholeSpec DistSpec.
Local Open Scope nat_scope.

Lemma seq_shift' (A : Type) (f : nat -> A) k off : map (fun j => f (off + j)) (seq 0 k) = map f (seq off k).
Proof. replace (seq off k) with (map (fun j => off + j) (seq 0 k)); [rewrite map_map; reflexivity|]. revert off. induction k as [|k IH]; intros off; [reflexivity|]. cbn [seq map]. f_equal; [lia|]. rewrite <- seq_shift, map_map, <- (IH (S off)). apply map_ext. intros; lia. Qed.

Lemma piece_ok n op chunks k ooff : wf_op op -> in_range n (op_indices op) -> ooff + k <= 2 ^ n ->
  apply_chunks CN n op chunks (repeat (RtoC 0) k) 0 ooff = Ok (map (row_value CN n op (concat chunks) 0) (seq ooff k)).
Proof.
  intros W R B. rewrite (apply_chunks_ok CN CN_laws) by (rewrite ?repeat_length; assumption). rewrite (apply_op_ok CN CN_laws) by (rewrite ?repeat_length; assumption). rewrite repeat_length.
  f_equal. rewrite <- (seq_shift' _ (row_value CN n op (concat chunks) 0)). apply map_ext_in. intros j Hj. rewrite nth_repeat. cbn. apply Cplus_0_l.
Qed.
Lemma out_pieces_ok n op chunks : wf_op op -> in_range n (op_indices op) -> forall layout ooff, ooff + list_sum layout <= 2 ^ n ->
  exists cs, out_pieces n op chunks layout ooff = Ok cs /\ map (@length C) cs = layout /\ concat cs = map (row_value CN n op (concat chunks) 0) (seq ooff (list_sum layout)).
Proof.
  intros W R. induction layout as [|k ks IH]; intros ooff B; [exists []; repeat split; reflexivity|].
  change (list_sum (k :: ks)) with (k + list_sum ks) in *. destruct (IH (ooff + k) ltac:(lia)) as (cs & E & Lc & Cc).
  eexists. split; [cbn [out_pieces]; rewrite piece_ok by (assumption || lia); cbn [bind]; rewrite E; reflexivity|]. split.
  - cbn [map]. rewrite Lc, map_length, seq_length. reflexivity.
  - cbn [concat]. rewrite Cc, seq_app, map_app. reflexivity.
Qed.
Lemma whole_gate n op v : wf_op op -> in_range n (op_indices op) ->
  apply_op CN n op v (repeat (RtoC 0) (2 ^ n)) 0 0 = Ok (map (row_value CN n op v 0) (seq 0 (2 ^ n))).
Proof.
  intros W R. rewrite (apply_op_ok CN CN_laws) by (rewrite ?repeat_length; auto; lia). rewrite repeat_length. f_equal. apply map_ext_in. intros j Hj. rewrite nth_repeat. cbn. apply Cplus_0_l.
Qed.

Definition shown (n : nat) (qs : list nat) (m : nat) (p : R) (v : list C) (i : nat) : C :=
  if shows qs m (dec n i) then Cmult (nth i v (RtoC 0)) (RtoC (1 / sqrt p)) else RtoC 0.
Lemma collapse_one n qs m p pre c post : NoDup qs -> in_range n qs -> p <> 0%R -> length (pre ++ c ++ post) <= 2 ^ n ->
  measure_state n qs (m, p) c (repeat (RtoC 0) (length c)) (length pre) (length pre) = Ok (map (shown n qs m p (pre ++ c ++ post)) (seq (length pre) (length c))).
Proof.
  intros ND R Hp B. rewrite !app_length in B. rewrite measure_state_ok by (rewrite ?repeat_length; try assumption; lia). rewrite repeat_length.
  f_equal. rewrite <- (seq_shift' _ (shown n qs m p (pre ++ c ++ post))). apply map_ext_in. intros j Hj. apply in_seq in Hj. unfold collapsed, shown.
  replace (length pre <=? length pre + j) with true by (symmetry; apply Nat.leb_le; lia). replace (length pre + j <? length pre + length c) with true by (symmetry; apply Nat.ltb_lt; lia). cbn [andb].
  rewrite (app_nth2 pre) by lia. replace (length pre + j - length pre) with j by lia. rewrite app_nth1 by lia. reflexivity.
Qed.
Lemma collapse_pieces_ok n qs m p : NoDup qs -> in_range n qs -> p <> 0%R -> forall chunks pre, length (pre ++ concat chunks) <= 2 ^ n ->
  exists cs, collapse_pieces n qs m p chunks (length pre) = Ok cs /\ map (@length C) cs = map (@length C) chunks /\ concat cs = map (shown n qs m p (pre ++ concat chunks)) (seq (length pre) (length (concat chunks))).
Proof.
  intros ND R Hp. induction chunks as [|c chunks IH]; intros pre B; [exists []; repeat split; reflexivity|]. cbn [concat] in *.
  destruct (IH (pre ++ c) ltac:(rewrite <- app_assoc; exact B)) as (cs & E & Lc & Cc). rewrite <- app_assoc in Cc. rewrite (app_length pre c) in E, Cc.
  eexists. split; [cbn [collapse_pieces]; rewrite (collapse_one n qs m p pre c (concat chunks)) by assumption; cbn [bind]; rewrite E; reflexivity|]. split.
  - cbn [map]. rewrite Lc, map_length, seq_length. reflexivity.
  - cbn [concat]. rewrite Cc, app_length, seq_app, map_app. reflexivity.
Qed.
Lemma collapse_pieces_0 n qs m : forall chunks off, collapse_pieces n qs m 0 chunks off = Ok (map (fun c => repeat (RtoC 0) (length c)) chunks).
Proof.
  induction chunks as [|c chunks IH]; intros off; [reflexivity|]. cbn [collapse_pieces]. unfold measure_state. destruct (Req_EM_T 0 0) as [_|X]; [|congruence]. cbn [bind]. rewrite IH. reflexivity.
Qed.
Lemma concat_zeros (chunks : list (list C)) : concat (map (fun c => repeat (RtoC 0) (length c)) chunks) = repeat (RtoC 0) (length (concat chunks)).
Proof. induction chunks as [|c chunks IH]; [reflexivity|]. cbn [map concat]. rewrite IH, app_length, repeat_app. reflexivity. Qed.
Lemma whole_show n qs m v : NoDup qs -> in_range n qs -> length v = 2 ^ n -> exists w, measure 0 n qs v (repeat (RtoC 0) (2 ^ n)) None (Some (m, None)) = Ok ((m, born n qs m 0 v), w) /\
  w = (if Req_EM_T (born n qs m 0 v) 0 then repeat (RtoC 0) (2 ^ n) else map (shown n qs m (born n qs m 0 v) v) (seq 0 (2 ^ n))).
Proof.
  intros ND R Lv. eexists. split; [|reflexivity]. unfold measure. cbn [bind]. rewrite measure_prob_ok by assumption. cbn [bind]. destruct (Req_EM_T (born n qs m 0 v) 0) as [E|E].
  - unfold measure_state. destruct (Req_EM_T (born n qs m 0 v) 0); [reflexivity|contradiction].
  - assert (H := collapse_one n qs m _ [] v [] ND R E ltac:(cbn; rewrite app_nil_r; lia)). cbn [app length] in H. rewrite app_nil_r, Lv in H. rewrite H. reflexivity.
Qed.

Lemma step_ok n s chunks : step_fits n s -> length (concat chunks) = 2 ^ n ->
  exists cs ps, dist_step n chunks s = Ok (cs, ps) /\ whole_step n (concat chunks) s = Ok (concat cs, ps) /\ length (concat cs) = 2 ^ n /\
    map (@length C) cs = match s with DGate _ layout => layout | DShow _ _ => map (@length C) chunks end.
Proof.
  destruct s as [op layout|qs m]; cbn [step_fits]; intros F Lc.
  - destruct F as (W & R & S). destruct (out_pieces_ok n op chunks W R layout 0 ltac:(lia)) as (cs & E & Ll & Cc). exists cs, []. cbn [dist_step whole_step]. rewrite E, whole_gate by assumption. cbn [bind].
    rewrite S in Cc. rewrite Cc. repeat split; [rewrite map_length, seq_length; reflexivity|exact Ll].
  - destruct F as (ND & R). destruct (chunk_probs_ok n m qs R ND chunks 0) as (ps & E & _ & M). rewrite measure_prob_ok in M by assumption. injection M as M.
    destruct (whole_show n qs m (concat chunks) ND R Lc) as (w & Ew & Hw). cbn [dist_step whole_step]. rewrite E, Ew. cbn [bind]. rewrite <- M.
    destruct (Req_EM_T (born n qs m 0 (concat chunks)) 0) as [Z|Z]; subst w.
    + rewrite Z, collapse_pieces_0. cbn [bind]. do 2 eexists. split; [reflexivity|]. rewrite concat_zeros, Lc. repeat split; [apply repeat_length|]. rewrite map_map. apply map_ext. intros c. apply repeat_length.
    + destruct (collapse_pieces_ok n qs m _ ND R Z chunks [] ltac:(cbn; lia)) as (cs & E1 & Ll & Cc). cbn [app length] in E1, Cc. rewrite E1. cbn [bind]. do 2 eexists. split; [reflexivity|]. rewrite Cc, Lc. repeat split; [rewrite map_length, seq_length; reflexivity|exact Ll].
Qed.
Lemma pieces_ok n ss : Forall (step_fits n) ss -> forall chunks, length (concat chunks) = 2 ^ n ->
  exists cs ps, dist_run n ss chunks = Ok (cs, ps) /\ whole_run n ss (concat chunks) = Ok (concat cs, ps) /\ length (concat cs) = 2 ^ n.
Proof.
  induction 1 as [|s ss F _ IH]; intros chunks Lc; [exists chunks, []; auto|].
  destruct (step_ok n s chunks F Lc) as (c1 & p1 & E1 & W1 & L1 & _). destruct (IH c1 L1) as (cs & ps & E2 & W2 & L2). exists cs, (p1 ++ ps). cbn [dist_run whole_run]. rewrite E1, W1. cbn [bind]. rewrite E2, W2. auto.
Qed.

(** *** Recorded circuits *)
Lemma results_inj a : forall b, results a = results b -> a = b.
Proof. induction a as [|[x p] a IH]; intros [|[y q] b] H; try discriminate; [reflexivity|]. cbn [results map fst snd] in H. injection H as -> -> H. f_equal. apply IH, H. Qed.
Lemma gate_overwrite n op v a : wf_op op -> in_range n (op_indices op) -> length a = 2 ^ n ->
  apply_op_overwrite CN n op v a 0 0 = Ok (map (row_value CN n op v 0) (seq 0 (2 ^ n))).
Proof. intros W R La. rewrite (apply_op_overwrite_ok CN CN_laws) by (auto; lia). rewrite La. reflexivity. Qed.
Lemma sim_whole n draws p : Forall (wf_entry n) p -> Forall gate_or_meas p -> forall v a ms0 v' a' ms', length v = 2 ^ n -> length a = 2 ^ n ->
  foldM (sim_step n draws) p (v, a, ms0) = Ok (v', a', ms') ->
  exists out, ms' = ms0 ++ results out /\ (Forall (fun o => snd o <> 0%R) out -> forall layouts, length layouts = length p -> Forall (fun l => list_sum l = 2 ^ n) layouts ->
    whole_run n (steps_of p (map fst out) layouts) v = Ok (v', map snd out) /\ Forall (step_fits n) (steps_of p (map fst out) layouts)).
Proof.
  induction p as [|[qs co] p IH]; intros W G v a ms0 v' a' ms' Lv La E.
  - cbn in E. injection E as <- <- <-. exists []. split; [symmetry; apply app_nil_r|]. intros _ [|l ls] Hl; [|discriminate]. split; [reflexivity|constructor].
  - inversion W as [|? ? (ND & R & Wu) W']; subst. inversion G as [|? ? Ge G']; subst. cbn [fst snd] in *. unfold gate_or_meas in Ge. cbn [snd] in Ge. cbn [foldM] in E. unfold sim_step at 1 in E.
    destruct (co_obj co) as [u|[|]] eqn:Eo; [| |contradiction].
    + assert (Hu : forall t, u <> UPhase t) by (intros t ->; exact Ge). destruct (unitary_op_ok u qs Wu ND Hu) as (op & Eop & Wop & Iop & _).
      assert (E' : foldM (sim_step n draws) p (map (row_value CN n op v 0) (seq 0 (2 ^ n)), v, ms0) = Ok (v', a', ms')).
      { destruct u; try (exfalso; eapply Hu; reflexivity); rewrite Eop in E; cbn [bind] in E; rewrite gate_overwrite in E by (rewrite ?Iop; assumption); cbn [bind] in E; exact E. }
      destruct (IH W' G' _ _ _ _ _ _ ltac:(rewrite map_length, seq_length; reflexivity) Lv E') as (out & Em & H). exists out. split; [exact Em|]. intros Fo [|l ls] Hl Fl; [discriminate|]. injection Hl as Hl. assert (Sl := Forall_inv Fl). assert (Fl' := Forall_inv_tail Fl).
      destruct (H Fo ls Hl Fl') as (Hr & Hf). cbn [steps_of]. rewrite Eo, Eop. split.
      * cbn [whole_run whole_step]. rewrite whole_gate by (rewrite ?Iop; assumption). cbn [bind]. rewrite Hr. reflexivity.
      * constructor; [|exact Hf]. cbn. rewrite Iop. auto.
    + destruct (measure (draws (length ms0)) n qs v a None None) as [((m, pr), w)| |] eqn:Em; [|discriminate|discriminate]. cbn [bind] in E.
      unfold measure in Em. destruct (soft_measure (draws (length ms0)) n qs v 0) as [m0| |]; [|discriminate|discriminate]. cbn [bind] in Em. rewrite measure_prob_ok in Em by assumption. cbn [bind] in Em.
      destruct (measure_state n qs (m0, born n qs m0 0 v) v a 0 0) as [w0| |] eqn:Ew; [|discriminate|discriminate]. cbn [bind] in Em. injection Em as <- <- <-.
      assert (Lw : length w0 = 2 ^ n).
      { destruct (Req_EM_T (born n qs m0 0 v) 0) as [Z|Z].
        - unfold measure_state in Ew. destruct (Req_EM_T (born n qs m0 0 v) 0); [|contradiction]. injection Ew as <-. exact La.
        - destruct (measure_state_full n qs m0 _ v a R ND Z Lv La) as (w1 & E1 & L1 & _). rewrite Ew in E1. injection E1 as ->. exact L1. }
      destruct (IH W' G' _ _ _ _ _ _ Lw Lv E) as (out & Eq & H). exists ((m0, born n qs m0 0 v) :: out). split; [rewrite Eq, <- app_assoc; reflexivity|]. intros Fo [|l ls] Hl Fl; [discriminate|]. injection Hl as Hl. assert (Sl := Forall_inv Fl). assert (Fl' := Forall_inv_tail Fl).
      assert (Z := Forall_inv Fo). assert (Fo' := Forall_inv_tail Fo). cbn [snd] in Z. destruct (H Fo' ls Hl Fl') as (Hr & Hf). cbn [steps_of map fst snd]. rewrite Eo. split.
      * cbn [whole_run whole_step]. destruct (whole_show n qs m0 v ND R Lv) as (w1 & E1 & Hw1). rewrite E1. cbn [bind]. destruct (Req_EM_T (born n qs m0 0 v) 0) as [?|_]; [contradiction|].
        destruct (measure_state_full n qs m0 _ v a R ND Z Lv La) as (w2 & E2 & L2 & N2). rewrite Ew in E2. injection E2 as <-.
        assert (X : w1 = w0). { subst w1. apply (nth_ext _ _ (RtoC 0) (RtoC 0)); [rewrite map_length, seq_length; lia|]. intros i Hi. rewrite map_length, seq_length in Hi. rewrite (nth_map_seq (shown n qs m0 (born n qs m0 0 v) v)) by exact Hi. symmetry. apply N2, Hi. }
        rewrite X, Hr. reflexivity.
      * constructor; [split; assumption|exact Hf].
Qed.

(** *** Sampling *)
Lemma pieces_born n qs m : forall chunks off, rsum (fun '(o, c) => born n qs m o c) (placed off chunks) = born n qs m off (concat chunks).
Proof.
  induction chunks as [|c chunks IH]; intros off.
  - cbn [placed rsum concat]. unfold born. symmetry. transitivity (rsum (fun _ : nat => 0%R) (seq 0 (2 ^ n))).
    + apply rsum_ext. intros i _. unfold amp_off. assert (Z : nth (i - off) ([] : list C) (n0 CN) = RtoC 0) by (destruct (i - off); reflexivity). rewrite Z. change (n0 CN) with (RtoC 0). destruct (shows _ _ _); [|reflexivity]. destruct (i <? off); rewrite Cmod_0; cbn; ring.
    + generalize (seq 0 (2 ^ n)). induction l as [|a l IHl]; [reflexivity|]. cbn. rewrite IHl. ring.
  - cbn [placed rsum concat]. rewrite IH, born_app. reflexivity.
Qed.
