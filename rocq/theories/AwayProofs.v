From Coq Require Import Reals Lra FunctionalExtensionality Permutation.
From Coquelicot Require Import Hierarchy RInt Complex.
From Verif Require Import Base BitsModel BitsSpec BitsProofs BitsProofs2 OpsModel OpsSpec OpsProofs ConjSpec Instances UnitaryProofs MeasureModel MeasureSpec MeasureProofs MeasureProofs2
  BuilderModel RegProofs ConserveProofs ConserveProofs2 HistorySpec HistoryProofs SimModel DenSpec DenProofs SimSpec SimProofs LocalProofs HandleProofs ProjSpec WholeSpec WholeProofs WholeProofs2 WholeProofs3 ShapeSpec AwaySpec.
Local Open Scope nat_scope.

(** *** Qubits that are not given *)
Lemma call_entries s rs c ps s' rs' : distinct_positions c -> legal rs ps -> do_call (s, rs) c ps = Some (s', rs') ->
  bn (bld s) <= bn (bld s') /\ (exists p, pipeline (bld s') = pipeline (bld s) ++ p /\
    forall e q, In e p -> In q (fst e) -> In q (concat (pick rs ps)) \/ In q (reserve s) \/ bn (bld s) <= q) /\
  (forall q, In q (concat (pick rs ps)) \/ In q (concat (keep rs ps)) <-> In q (concat rs)) /\
  (forall q, In q (concat (keep rs ps)) -> In q (concat rs')) /\
  (forall q, In q (concat rs') \/ In q (reserve s') -> In q (concat rs) \/ In q (reserve s) \/ bn (bld s) <= q).
Proof.
  intros HD HL H. cbn [do_call] in H.
  pose proof (s_run_call False (length (conds s)) c (pick rs ps) HD (fun X => match X with end) s) as S.
  assert (K : forall q, cnt q (concat (pick rs ps)) + cnt q (concat (keep rs ps)) = cnt q (concat rs)) by (intros q; apply pick_keep_cnt; exact HL).
  assert (X : exists outs, rs' = keep rs ps ++ outs /\ ConserveProofs.post False s [concat (pick rs ps)] s' [concat outs]).
  { destruct (run_call _ c (pick rs ps) s) as [outs s1|e s1|p]; inversion H; subst.
    - exists outs. split; [reflexivity|exact S].
    - exists []. rewrite app_nil_r. split; [reflexivity|]. eapply post_weak; [exact S|]. intros q. cbn. lia. }
  destruct X as (outs & -> & B & (p & E & _ & C) & D). clear S H. cbn [concat] in C, D.
  assert (F : forall q, ConserveProofs.fresh s s' q = 0 \/ bn (bld s) <= q) by (intros q; unfold ConserveProofs.fresh; destruct (Nat.leb_spec (bn (bld s)) q); cbn; auto).
  assert (Y : forall q, 1 <= cnt q (concat (pick rs ps) ++ []) + cnt q (reserve s) + ConserveProofs.fresh s s' q -> In q (concat (pick rs ps)) \/ In q (reserve s) \/ bn (bld s) <= q).
  { intros q Hq. rewrite app_nil_r in Hq. rewrite !cnt_In. destruct (F q) as [Z|Z]; [|right; right; exact Z]. lia. }
  split; [exact B|]. split.
  - exists p. split; [exact E|]. intros e q He Hq. apply Y. apply cnt_In in Hq. specialize (C e q He). lia.
  - split; [intros q; rewrite !cnt_In; specialize (K q); lia|]. split; [intros q Hq; rewrite concat_app; apply in_or_app; left; exact Hq|].
    intros q Hq. rewrite concat_app, in_app_iff in Hq. specialize (D q). rewrite app_nil_r in D.
    assert (Z : In q (concat (keep rs ps)) \/ 1 <= cnt q (concat outs) + cnt q (reserve s')) by (rewrite !cnt_In in *; lia).
    destruct Z as [Z|Z]; [left; rewrite !cnt_In in *; specialize (K q); lia|].
    destruct (Y q) as [Y1|Y1]; [lia|left|right; exact Y1]. rewrite !cnt_In in *. specialize (K q). lia.
Qed.

Lemma apart_reach r cl1 cl2 : apart r cl1 cl2 -> reach distinct_positions cl1 cl2.
Proof. induction 1; [constructor|econstructor; eassumption]. Qed.
Lemma reach_trans ok cl1 cl2 cl3 : reach ok cl1 cl2 -> reach ok cl2 cl3 -> reach ok cl1 cl3.
Proof. intros H G. induction G as [cl|a b c' k ps G IH O L E]; [exact H|]. exact (reach_step ok cl1 b c' k ps (IH H) O L E). Qed.
Lemma not_reserved cl q : no_cloning cl -> In q (concat (snd cl)) -> ~ In q (reserve (fst cl)) /\ q < bn (bld (fst cl)).
Proof.
  destruct cl as [s rs]. cbn [fst snd]. intros (N & R) H. split; [|apply R; unfold held; apply in_or_app; left; exact H].
  intros X. assert (C := proj1 (cnt_NoDup _) N q). rewrite held_cnt in C. apply cnt_In in H, X. lia.
Qed.
Lemma apart_untouched r cl1 cl2 : reach distinct_positions start cl1 -> incl r (concat (snd cl1)) -> apart r cl1 cl2 ->
  bn (bld (fst cl1)) <= bn (bld (fst cl2)) /\ incl r (concat (snd cl2)) /\
  exists p, pipeline (bld (fst cl2)) = pipeline (bld (fst cl1)) ++ p /\ forall e q, In e p -> In q (fst e) -> ~ In q r.
Proof.
  intros Re I H. induction H as [cl|cl1 cl2 cl3 c ps H IH HD HL HN HC].
  - split; [lia|]. split; [exact I|]. exists []. rewrite app_nil_r. split; [reflexivity|intros e q []].
  - destruct (IH Re I) as (B & I2 & p & E & P). destruct cl2 as [s2 rs2], cl3 as [s3 rs3]. cbn [fst snd] in *.
    assert (NC : no_cloning (s2, rs2)) by (apply reach_no_cloning; eapply reach_trans; [exact Re|eapply apart_reach; exact H]).
    destruct (call_entries _ _ _ _ _ _ HD HL HC) as (B' & (p' & E' & P') & K1 & K2 & _). split; [lia|]. split.
    + intros q Hq. apply K2. destruct (proj2 (K1 q) (I2 q Hq)) as [X|X]; [destruct (HN q Hq X)|exact X].
    + exists (p ++ p'). rewrite E', E, app_assoc. split; [reflexivity|]. intros e q He Hq Hr. apply in_app_iff in He. destruct He as [He|He]; [exact (P e q He Hq Hr)|].
      destruct (not_reserved (s2, rs2) q NC (I2 q Hr)) as (Z1 & Z2). cbn [fst] in *.
      destruct (P' e q He Hq) as [X|[X|X]]; [exact (HN q Hr X)|exact (Z1 X)|lia].
Qed.
Lemma lost_untouched cl1 cl2 q : reach distinct_positions start cl1 -> q < bn (bld (fst cl1)) -> ~ In q (held cl1) -> reach distinct_positions cl1 cl2 ->
  q < bn (bld (fst cl2)) /\ ~ In q (held cl2) /\
  exists p, pipeline (bld (fst cl2)) = pipeline (bld (fst cl1)) ++ p /\ forall e, In e p -> ~ In q (fst e).
Proof.
  intros _ Hq Hh H. induction H as [cl|cl1 cl2 cl3 c ps H IH HD HL HC].
  - split; [exact Hq|]. split; [exact Hh|]. exists []. rewrite app_nil_r. split; [reflexivity|intros e []].
  - destruct (IH Hq Hh) as (B & I2 & p & E & P). destruct cl2 as [s2 rs2], cl3 as [s3 rs3]. cbn [fst snd] in *.
    destruct (call_entries _ _ _ _ _ _ HD HL HC) as (B' & (p' & E' & P') & K1 & K2 & K3).
    assert (Hd : forall (s : st) rs, In q (held (s, rs)) <-> In q (concat rs) \/ In q (reserve s)) by (intros s rs; rewrite !cnt_In, held_cnt; lia).
    assert (N : ~ In q (concat rs2) /\ ~ In q (reserve s2)) by (rewrite Hd in I2; tauto).
    split; [lia|]. split.
    + rewrite Hd. intros X. apply K3 in X. destruct X as [X|[X|X]]; [tauto|tauto|lia].
    + exists (p ++ p'). rewrite E', E, app_assoc. split; [reflexivity|]. intros e He Hi. apply in_app_iff in He. destruct He as [He|He]; [exact (P e He Hi)|].
      destruct (P' e q He Hi) as [X|[X|X]]; [apply (proj1 N), K1; left; exact X|tauto|lia].
Qed.

(** *** Total weight of the branches *)
Definition vec (n : nat) (psi : state) : Prop := exists v, length v = 2 ^ n /\ psi = st_of CN n v.
Lemma vec_ket n x : vec n (ket n x).
Proof. exists (upd_nth (enc n x) (RtoC 1) (repeat (RtoC 0) (2 ^ n))). split; [rewrite upd_nth_length; apply repeat_length|]. rewrite st_of_basis by apply enc_lt. symmetry. apply dec_enc_ket. Qed.
Lemma vec_dep n psi x y : vec n psi -> (forall q, q < n -> x q = y q) -> psi x = psi y.
Proof. intros (v & _ & ->) H. unfold st_of. rewrite (enc_ext n x y H). reflexivity. Qed.
Lemma vec_of_dep n psi : (forall x y, (forall q, q < n -> x q = y q) -> psi x = psi y) -> vec n psi.
Proof.
  intros H. exists (vec_of n psi). unfold vec_of. split; [rewrite map_length, seq_length; reflexivity|]. extensionality x. unfold st_of.
  rewrite (nth_indep _ _ (psi (dec n 0))) by (rewrite map_length, seq_length; apply enc_lt).
  rewrite (map_nth (fun i => psi (dec n i))), seq_nth by apply enc_lt. cbn [Nat.add]. apply H. intros q Hq. rewrite dec_enc.
  rewrite (proj2 (Nat.ltb_lt q n)) by exact Hq. reflexivity.
Qed.
Lemma vec_proj n qs m psi : in_range n qs -> vec n psi -> vec n (proj qs m psi).
Proof.
  intros R V. apply vec_of_dep. intros x y H. unfold proj. rewrite (shows_ext qs m x y) by (intros q Hq; apply H, R, Hq).
  rewrite (vec_dep n psi x y V H). reflexivity.
Qed.
Lemma plain_of_gate qs k u : gate_or_meas (qs, mkCO k (OUnit u)) -> plain_entry (qs, mkCO k (OUnit u)).
Proof. unfold plain_entry, gate_or_meas. cbn. destruct u; auto. Qed.
Lemma vec_uden n qs k u psi : wf_entry n (qs, mkCO k (OUnit u)) -> gate_or_meas (qs, mkCO k (OUnit u)) -> vec n psi -> vec n (uden u qs psi).
Proof.
  intros W G (v & Lv & ->). destruct (sim_step_plain n (fun _ => 0%R) v v [] _ W (plain_of_gate _ _ _ G) Lv Lv) as (v1 & _ & L1 & H).
  exists v1. split; [exact L1|]. symmetry. exact H.
Qed.
Lemma weight_uden n qs k u psi : wf_entry n (qs, mkCO k (OUnit u)) -> unitary_entry (qs, mkCO k (OUnit u)) -> gate_or_meas (qs, mkCO k (OUnit u)) -> vec n psi ->
  weight n (uden u qs psi) = weight n psi.
Proof.
  intros W U G (v & Lv & ->). destruct (sim_step_plain n (fun _ => 0%R) v v [] _ W (plain_of_gate _ _ _ G) Lv Lv) as (v1 & _ & L1 & H).
  cbn [fst snd oden co_obj] in H. unfold oden in H. cbn [co_obj] in H. rewrite <- H, !weight_mag by assumption. exact (mag_isometry n v v1 _ W U Lv L1 H).
Qed.
Lemma weight_proj_sum n qs psi : rsum (fun m => weight n (proj qs m psi)) (seq 0 (2 ^ length qs)) = weight n psi.
Proof.
  unfold weight, below. rewrite rsum_exchange. apply rsum_ext. intros i _. destruct (shows_unique qs (dec n i)) as (k & Hk & Sk & U).
  rewrite (rsum_single _ _ k).
  - unfold proj. rewrite Sk. reflexivity.
  - apply seq_NoDup.
  - apply in_seq. lia.
  - intros m Hm Hne. apply in_seq in Hm. unfold proj. destruct (shows qs m (dec n i)) eqn:E; [|rewrite Cmod_0; ring]. exfalso. apply Hne. apply U; [lia|exact E].
Qed.
Lemma rsum_concat {A B} (f : B -> R) (g : A -> list B) l : rsum f (concat (map g l)) = rsum (fun a => rsum f (g a)) l.
Proof. induction l as [|a l IH]; [reflexivity|]. cbn [map concat rsum]. rewrite rsum_app, IH. reflexivity. Qed.
Lemma branch_total n p : forall psi, Forall (wf_entry n) p -> Forall unitary_entry p -> Forall gate_or_meas p -> vec n psi ->
  rsum (fun ms => weight n (branch p ms psi)) (outcomes (measured p)) = weight n psi.
Proof.
  induction p as [|[qs [k o]] p IH]; intros psi W U G V; cbn [measured branch co_obj].
  - cbn. ring.
  - inversion W as [|? ? We Wp]; subst. inversion U as [|? ? Ue Up]; subst. inversion G as [|? ? Ge Gp]; subst. destruct o as [u|mk].
    + rewrite IH; auto; [eapply weight_uden; eassumption|eapply vec_uden; eassumption].
    + cbn [outcomes]. rewrite rsum_concat. rewrite <- (weight_proj_sum n qs psi). apply rsum_ext. intros m _. rewrite rsum_map. apply IH; auto. apply vec_proj; [exact (proj1 (proj2 We))|exact V].
Qed.

(** *** More qubits *)
Lemma branch_vec n p : forall ms psi, Forall (wf_entry n) p -> Forall gate_or_meas p -> vec n psi -> vec n (branch p ms psi).
Proof.
  induction p as [|[qs [k o]] p IH]; intros ms psi W G V; [exact V|]. inversion W as [|? ? We Wp]; subst. inversion G as [|? ? Ge Gp]; subst. cbn [branch co_obj]. destruct o as [u|mk].
  - apply IH; auto. eapply vec_uden; eassumption.
  - destruct ms; apply IH; auto. apply vec_proj; [exact (proj1 (proj2 We))|exact V].
Qed.
Lemma dec_double n j b q : q < S n -> dec (S n) (2 * j + Nat.b2n b) q = if q =? n then b else dec n j q.
Proof.
  intros Hq. unfold dec. rewrite (proj2 (Nat.ltb_lt q (S n))) by exact Hq. cbn [andb]. destruct (Nat.eqb_spec q n) as [->|Hn].
  - replace (S n - 1 - n) with 0 by lia. apply Nat.testbit_0_r.
  - rewrite (proj2 (Nat.ltb_lt q n)) by lia. cbn [andb]. replace (S n - 1 - q) with (S (n - 1 - q)) by lia. apply Nat.testbit_succ_r.
Qed.
Lemma rsum_double (f : nat -> R) k : rsum f (seq 0 (2 * k)) = rsum (fun j => (f (2 * j)%nat + f (2 * j + 1)%nat)%R) (seq 0 k).
Proof.
  induction k as [|k IH]; [reflexivity|]. replace (2 * S k) with (2 * k + 2) by lia. rewrite seq_app, rsum_app, IH, (seq_S k), rsum_app. rewrite !Nat.add_0_l. change (seq (2 * k) 2) with [2 * k; S (2 * k)]. cbn [rsum]. rewrite Nat.add_1_r.
  ring.
Qed.
Lemma shows1 q m x : m < 2 -> shows [q] m x = Bool.eqb (x q) (m =? 1).
Proof. intros H. destruct m as [|[|m]]; [| |lia]; unfold shows; cbn; destruct (x q); reflexivity. Qed.
Lemma weight_wider n b psi : vec n psi -> weight (S n) (proj [n] (Nat.b2n b) psi) = weight n psi.
Proof.
  intros V. unfold weight, below. change (2 ^ S n) with (2 * 2 ^ n). rewrite rsum_double. apply rsum_ext. intros j _.
  assert (A : forall b' q, q < S n -> dec (S n) (2 * j + Nat.b2n b') q = if q =? n then b' else dec n j q) by (intros; apply dec_double; assumption).
  assert (B : forall b', psi (dec (S n) (2 * j + Nat.b2n b')) = psi (dec n j)).
  { intros b'. apply (vec_dep n); [exact V|]. intros q Hq. rewrite A by lia. destruct (Nat.eqb_spec q n); [lia|reflexivity]. }
  pose proof (B false) as B0. pose proof (B true) as B1. pose proof (A false n ltac:(lia)) as A0. pose proof (A true n ltac:(lia)) as A1. rewrite Nat.eqb_refl in A0, A1.
  cbn [Nat.b2n] in *. rewrite Nat.add_0_r in *. unfold proj. rewrite !shows1, A0, A1, B0, B1 by (destruct b; cbn; lia). destruct b; cbn [Nat.b2n Nat.eqb Bool.eqb]; rewrite Cmod_0; ring.
Qed.
Lemma ket_wider n x : ket (S n) x = proj [n] (Nat.b2n (x n)) (ket n x).
Proof.
  extensionality y. unfold proj, ket. rewrite shows1 by (destruct (x n); cbn; lia).
  assert (S1 : forall z, enc (S n) z = 2 * enc n z + Nat.b2n (z n)).
  { intros z. unfold enc. rewrite seq_S, map_app. apply be_app. }
  rewrite !S1. destruct (Nat.eqb_spec (2 * enc n x + Nat.b2n (x n)) (2 * enc n y + Nat.b2n (y n))), (Nat.eqb_spec (enc n x) (enc n y)), (x n), (y n); cbn in *; try reflexivity; lia.
Qed.
Lemma weight_bigger p ms x n : Forall (wf_entry n) p -> Forall gate_or_meas p -> forall k, weight (n + k) (branch p ms (ket (n + k) x)) = weight n (branch p ms (ket n x)).
Proof.
  intros W G. induction k as [|k IH]; [rewrite Nat.add_0_r; reflexivity|]. rewrite <- IH, Nat.add_succ_r, ket_wider, branch_proj.
  - apply weight_wider. apply branch_vec; [|exact G|apply vec_ket]. eapply Forall_impl; [|exact W]. intros e (A & B & C). split; [exact A|]. split; [|exact C]. intros q Hq. specialize (B q Hq). lia.
  - eapply Forall_impl; [|exact W]. intros e (A & B & C) q [<-|[]] Hq. specialize (B _ Hq). lia.
Qed.

(** *** Measuring a register that was left alone *)
Lemma outcomes_ok qss : forall ms, In ms (outcomes qss) <-> Forall2 (fun qs m => m < 2 ^ length qs) qss ms.
Proof.
  induction qss as [|qs qss IH]; intros ms; cbn [outcomes].
  - split; [intros [<-|[]]; constructor|intros H; inversion H; left; reflexivity].
  - rewrite in_concat. split.
    + intros (l & Hl & Hm). apply in_map_iff in Hl. destruct Hl as (m & <- & Hs). apply in_map_iff in Hm. destruct Hm as (ms' & <- & Ho).
      apply in_seq in Hs. constructor; [lia|apply IH; exact Ho].
    + intros H. inversion H as [|? m ? ms' Hm Hr]; subst. exists (map (cons m) (outcomes qss)). split.
      * apply in_map_iff. exists m. split; [reflexivity|]. apply in_seq. lia.
      * apply in_map_iff. exists ms'. split; [reflexivity|]. apply IH. exact Hr.
Qed.
Lemma wf_wider n n' p : n <= n' -> Forall (wf_entry n) p -> Forall (wf_entry n') p.
Proof. intros L. apply Forall_impl. intros e (A & B & C). split; [exact A|]. split; [|exact C]. intros q Hq. specialize (B q Hq). lia. Qed.
Lemma no_signalling cl1 cl2 r it x : reach distinct_positions start cl1 -> incl r (concat (snd cl1)) -> NoDup r -> apart r cl1 cl2 ->
  Forall suits (pipeline (bld (fst cl2))) -> Forall unitary_entry (pipeline (bld (fst cl2))) -> Forall gate_or_meas (pipeline (bld (fst cl2))) ->
  (forall r v, In (r, v) it -> in_range (bn (bld (fst cl1))) r) -> loads it x ->
  exists later h1 h2 s1 s2, measured (pipeline (bld (fst cl2))) = measured (pipeline (bld (fst cl1))) ++ later /\
    measure_single r (fst cl1) = Ret (r, h1) s1 /\ measure_single r (fst cl2) = Ret (r, h2) s2 /\
    forall ms m, Forall2 (fun qs m => m < 2 ^ length qs) (measured (pipeline (bld (fst cl1)))) ms -> m < 2 ^ length r ->
    exists P, (forall ms', In ms' (outcomes later) ->
        over_draws (length (ms ++ ms' ++ [m])) (fun d => gives (calculate_state_with_init (bld s2) it d) (ms ++ ms' ++ [m])) (P ms')) /\
      over_draws (length (ms ++ [m])) (fun d => gives (calculate_state_with_init (bld s1) it d) (ms ++ [m])) (rsum P (outcomes later)).
Proof.
  intros Re I ND A Su U G R Lo. destruct (apart_untouched r cl1 cl2 Re I A) as (B & I2 & p & E & Un).
  pose proof (reach_no_cloning _ (reach_trans _ _ _ _ Re (apart_reach _ _ _ A))) as (NC2 & EN2).
  pose proof (reach_no_cloning _ Re) as (NC1 & EN1).
  destruct cl1 as [s1 rs1], cl2 as [s2 rs2]. cbn [fst snd] in *. unfold entries_ok in EN1, EN2. cbn [fst] in EN1, EN2.
  assert (W2 : Forall (wf_entry (bn (bld s2))) (pipeline (bld s2))).
  { rewrite Forall_forall in *. intros e He. specialize (EN2 e He). specialize (Su e He). split; [apply EN2|]. split; [apply EN2|exact Su]. }
  assert (W1 : Forall (wf_entry (bn (bld s1))) (pipeline (bld s1))).
  { rewrite E in Su. apply Forall_app in Su. destruct Su as (Su & _). rewrite Forall_forall in *. intros e He. specialize (EN1 e He). specialize (Su e He). split; [apply EN1|]. split; [apply EN1|exact Su]. }
  assert (R1 : in_range (bn (bld s1)) r) by (intros q Hq; apply (not_reserved (s1, rs1) q NC1 (I q Hq))).
  assert (WM : forall n, bn (bld s1) <= n -> wf_entry n (r, mkCO (length r) (OMeas MSingle))).
  { intros n Hn. split; [exact ND|]. split; [intros q Hq; specialize (R1 q Hq); cbn in *; lia|exact Logic.I]. }
  set (me := (r, mkCO (length r) (OMeas MSingle))) in *.
  exists (measured p), (meas (bld s1)), (meas (bld s2)), (mkSt (mkB (pipeline (bld s1) ++ [me]) (bn (bld s1)) (zeroed (bld s1)) (S (meas (bld s1)))) (conds s1)),
    (mkSt (mkB (pipeline (bld s2) ++ [me]) (bn (bld s2)) (zeroed (bld s2)) (S (meas (bld s2)))) (conds s2)).
  split; [rewrite E; apply measured_app|]. split; [reflexivity|]. split; [reflexivity|]. intros ms m Hms Hm. cbn [bld].
  rewrite E in U, G, W2. apply Forall_app in U, G, W2. destruct U as (U1 & Up), G as (G1 & Gp), W2 as (W2 & Wp).
  assert (Lms : length ms = length (measured (pipeline (bld s1)))) by (symmetry; eapply Forall2_length'; exact Hms).
  exists (fun ms' => weight (bn (bld s2)) (branch (pipeline (bld s2) ++ [me]) (ms ++ ms' ++ [m]) (ket (bn (bld s2)) x))). split.
  - intros ms' Hms'. apply outcomes_ok in Hms'. apply (joint_born (mkB (pipeline (bld s2) ++ [me]) (bn (bld s2)) (zeroed (bld s2)) (S (meas (bld s2)))) it x (ms ++ ms' ++ [m])); cbn [bn pipeline].
    + intros r' v Hr q Hq. specialize (R r' v Hr q Hq). cbn in *. lia.
    + exact Lo.
    + rewrite E. repeat (apply Forall_app; split); auto.
    + rewrite E. repeat (apply Forall_app; split); auto. constructor; [exact Logic.I|constructor].
    + rewrite E. repeat (apply Forall_app; split); auto. constructor; [exact Logic.I|constructor].
    + rewrite E, !measured_app, <- app_assoc. apply Forall2_app; [exact Hms|]. apply Forall2_app; [exact Hms'|]. cbn. constructor; [exact Hm|constructor].
  - replace (rsum _ (outcomes (measured p))) with (weight (bn (bld s1)) (branch (pipeline (bld s1) ++ [me]) (ms ++ [m]) (ket (bn (bld s1)) x))).
    + apply (joint_born (mkB (pipeline (bld s1) ++ [me]) (bn (bld s1)) (zeroed (bld s1)) (S (meas (bld s1)))) it x (ms ++ [m])); cbn [bn pipeline]; auto.
      * apply Forall_app; split; auto.
      * apply Forall_app; split; auto. constructor; [exact Logic.I|constructor].
      * apply Forall_app; split; auto. constructor; [exact Logic.I|constructor].
      * rewrite measured_app. apply Forall2_app; [exact Hms|]. cbn. constructor; [exact Hm|constructor].
    + assert (X := weight_bigger (pipeline (bld s1) ++ [me]) (ms ++ [m]) x (bn (bld s1))). rewrite <- (X ltac:(apply Forall_app; split; auto) ltac:(apply Forall_app; split; [exact G1|constructor; [exact Logic.I|constructor]]) (bn (bld s2) - bn (bld s1))).
      replace (bn (bld s1) + (bn (bld s2) - bn (bld s1))) with (bn (bld s2)) by lia.
      rewrite branch_app by exact Lms. set (phi := branch (pipeline (bld s1)) ms (ket (bn (bld s2)) x)). cbn [branch me co_obj].
      rewrite <- (branch_total (bn (bld s2)) p); [|assumption|assumption|assumption|].
      * apply rsum_ext. intros ms' Hms'. apply outcomes_ok in Hms'. rewrite E, <- app_assoc, branch_app by exact Lms. fold phi.
        rewrite branch_app by (symmetry; eapply Forall2_length'; exact Hms'). cbn [branch me co_obj]. rewrite branch_proj; [reflexivity|].
        apply Forall_forall. intros e He q Hq Hi. exact (Un e q He Hi Hq).
      * apply vec_proj; [intros q Hq; specialize (R1 q Hq); cbn in *; lia|]. apply branch_vec; auto. apply vec_ket.
Qed.
