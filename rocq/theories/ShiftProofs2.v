(** Scripts after others; product states. *)
From Coq Require Import Reals Lra FunctionalExtensionality.
From Coquelicot Require Import Complex.
From Verif Require Import Base BitsSpec BitsProofs OpsModel OpsSpec OpsProofs Instances BuilderModel SimModel HistorySpec DenSpec DenProofs SimSpec SimProofs MeasureSpec MeasureProofs ProjSpec WholeSpec WholeProofs WholeProofs2 WholeProofs3 SubSpec SubProofs AwaySpec AwayProofs GateProofs ShiftSpec ShiftProofs.
Local Open Scope nat_scope.

Lemma nth_front {A} (l1 l2 : list A) p d : nth (length l1 + p) (l1 ++ l2) d = nth p l2 d.
Proof. rewrite app_nth2 by lia. f_equal. lia. Qed.
Lemma pick_behind rs0 k rs ps : pick (rs0 ++ map (moved k) rs) (map (Nat.add (length rs0)) ps) = map (moved k) (pick rs ps).
Proof. unfold pick. rewrite !map_map. apply map_ext. intros p. rewrite nth_front. apply (map_nth (moved k) rs []). Qed.
Lemma existsb_add k p ps : existsb (Nat.eqb (k + p)) (map (Nat.add k) ps) = existsb (Nat.eqb p) ps.
Proof. induction ps as [|a ps IH]; [reflexivity|]. cbn [map existsb]. rewrite IH. f_equal. destruct (Nat.eqb_spec (k + p) (k + a)), (Nat.eqb_spec p a); try reflexivity; lia. Qed.
Lemma keep_behind rs0 k rs ps : keep (rs0 ++ map (moved k) rs) (map (Nat.add (length rs0)) ps) = rs0 ++ map (moved k) (keep rs ps).
Proof.
  unfold keep. rewrite app_length, map_length, seq_app, filter_app, map_app. f_equal.
  - rewrite (filter_ext_in _ (fun _ => true)).
    + replace (filter (fun _ => true) (seq 0 (length rs0))) with (seq 0 (length rs0)) by (induction (seq 0 (length rs0)) as [|a l IH]; cbn; congruence).
      transitivity (map (fun p => nth p rs0 []) (seq 0 (length rs0))).
      * apply map_ext_in. intros p Hp. apply in_seq in Hp. apply app_nth1. lia.
      * apply seq_nth_map.
    + intros p Hp. apply in_seq in Hp. apply negb_true_iff. apply not_true_iff_false. intros X. apply existsb_exists in X. destruct X as (q & Hq & E). apply Nat.eqb_eq in E. apply in_map_iff in Hq. destruct Hq as (a & <- & _). lia.
  - rewrite Nat.add_0_l, <- (Nat.add_0_r (length rs0)) at 1. rewrite (seq_sh (length rs0)). unfold sh.
    replace (filter (fun p => negb (existsb (Nat.eqb p) (map (Nat.add (length rs0)) ps))) (map (Nat.add (length rs0)) (seq 0 (length rs))))
      with (map (Nat.add (length rs0)) (filter (fun p => negb (existsb (Nat.eqb p) ps)) (seq 0 (length rs)))).
    + rewrite !map_map. apply map_ext. intros p. rewrite nth_front. apply (map_nth (moved k) rs []).
    + induction (seq 0 (length rs)) as [|a l IH]; [reflexivity|]. cbn [map filter]. rewrite existsb_add, <- IH. destruct (negb (existsb (Nat.eqb a) ps)); reflexivity.
Qed.
Lemma do_after cl0 cl c ps : no_absolute c -> do_call (after cl0 cl) c (map (Nat.add (length (snd cl0))) ps) = option_map (after cl0) (do_call cl c ps).
Proof.
  intros NA. destruct cl as [s rs]. set (k := bn (bld (fst cl0))).
  pose proof (n_call k (meas (bld (fst cl0))) (pipeline (bld (fst cl0))) (length (conds s)) c (pick rs ps)) as H.
  specialize (H ltac:(intros is ->; exact NA) s). set (s1 := shs k (meas (bld (fst cl0))) (pipeline (bld (fst cl0))) s) in H.
  change (after cl0 (s, rs)) with (s1, snd cl0 ++ map (moved k) rs). unfold do_call. rewrite pick_behind, keep_behind. replace (length (conds s1)) with (length (conds s)) by (symmetry; apply map_length).
  change (map (moved k) (pick rs ps)) with (map (sh k) (pick rs ps)). rewrite H.
  destruct (run_call (length (conds s)) c (pick rs ps) s) as [outs s'|e s'|]; cbn [sho option_map]; [|reflexivity|reflexivity].
  unfold after. cbn [fst snd]. rewrite map_app, <- app_assoc. reflexivity.
Qed.
Lemma play_after cl0 p : forall cl, Forall (fun c => no_absolute (fst c)) p -> play (behind (length (snd cl0)) p) (after cl0 cl) = option_map (after cl0) (play p cl).
Proof.
  induction p as [|[c ps] p IH]; intros cl H; [reflexivity|]. inversion H as [|? ? Hc Hp]; subst. cbn [behind map play]. rewrite do_after by exact Hc. destruct (do_call cl c ps); cbn [option_map]; [apply IH; exact Hp|reflexivity].
Qed.
Lemma after_start cl0 : at_rest cl0 -> after cl0 start = cl0.
Proof.
  intros (H1 & H2). destruct cl0 as [[b c] rs]. destruct b as [p n z m]. cbn in *. subst. unfold after, start. cbn. rewrite !app_nil_r, !Nat.add_0_r. reflexivity.
Qed.

(** *** Product states *)
Definition tensor (k : nat) (phi psi : state) : state := fun y => Cmult (phi y) (psi (fun q => y (k + q))).
Definition joined (k : nat) (x0 x : bs) : bs := fun q => if q <? k then x0 q else x (q - k).
Lemma enc_sum k n y : enc (k + n) y = enc k y * 2 ^ n + enc n (fun q => y (k + q)).
Proof. unfold enc. rewrite seq_app, map_app, be_app_gen, map_length, seq_length. do 2 f_equal. rewrite Nat.add_0_l, <- (Nat.add_0_r k) at 1. rewrite (seq_sh k). unfold sh. rewrite map_map. reflexivity. Qed.
Lemma ket_tensor k n x0 x : ket (k + n) (joined k x0 x) = tensor k (ket k x0) (ket n x).
Proof.
  extensionality y. unfold tensor, ket. rewrite !enc_sum.
  assert (E1 : enc k (joined k x0 x) = enc k x0). { apply enc_ext. intros q Hq. unfold joined. rewrite (proj2 (Nat.ltb_lt q k)) by exact Hq. reflexivity. }
  assert (E2 : enc n (fun q => joined k x0 x (k + q)) = enc n x). { apply enc_ext. intros q Hq. unfold joined. destruct (Nat.ltb_spec (k + q) k); [lia|]. f_equal. lia. }
  rewrite E1, E2. pose proof (enc_lt n x). pose proof (enc_lt n (fun q => y (k + q))). set (a := enc k x0). set (b := enc k y). set (c := enc n x) in *. set (d := enc n (fun q => y (k + q))) in *.
  destruct (Nat.eqb_spec a b) as [->|Hab].
  - destruct (Nat.eqb_spec c d) as [->|Hcd]; [rewrite Nat.eqb_refl|]; [ring|]. destruct (Nat.eqb_spec (b * 2 ^ n + c) (b * 2 ^ n + d)); [lia|ring].
  - destruct (Nat.eqb_spec (a * 2 ^ n + c) (b * 2 ^ n + d)) as [E|E]; [|destruct (c =? d); ring]. exfalso. apply Hab. apply (f_equal (fun z => z / 2 ^ n)) in E. rewrite !Nat.div_add_l, !Nat.div_small in E by lia. lia.
Qed.
Lemma rsum_product (f : nat -> R) a b : rsum f (seq 0 (a * b)) = rsum (fun i => rsum (fun j => f (i * b + j)%nat) (seq 0 b)) (seq 0 a).
Proof.
  induction a as [|a IH]; [reflexivity|]. replace (S a * b) with (a * b + b) by lia. rewrite seq_app, rsum_app, IH, seq_S, rsum_app. f_equal. cbn [rsum]. rewrite !Nat.add_0_l. rewrite <- (Nat.add_0_r (a * b)) at 1. rewrite (seq_sh (a * b)). unfold sh. rewrite rsum_map. ring.
Qed.
Lemma dec_sum k n i j q : i < 2 ^ k -> j < 2 ^ n -> q < k + n -> dec (k + n) (i * 2 ^ n + j) q = joined k (dec k i) (dec n j) q.
Proof.
  intros Hi Hj Hq. unfold joined, dec. rewrite (proj2 (Nat.ltb_lt q (k + n)) Hq). cbn [andb]. destruct (Nat.ltb_spec q k) as [H|H]; cbn [andb].
  - replace (k + n - 1 - q) with (k - 1 - q + n) by lia. rewrite <- Nat.div_pow2_bits. f_equal. rewrite Nat.div_add_l, Nat.div_small by lia. lia.
  - rewrite (proj2 (Nat.ltb_lt (q - k) n)) by lia. cbn [andb]. replace (n - 1 - (q - k)) with (k + n - 1 - q) by lia. rewrite <- (Nat.mod_pow2_bits_low _ n) by lia. f_equal. rewrite Nat.add_comm, Nat.mod_add, Nat.mod_small by lia. reflexivity.
Qed.
Lemma weight_tensor k n phi psi : vec k phi -> vec n psi -> weight (k + n) (tensor k phi psi) = (weight k phi * weight n psi)%R.
Proof.
  intros V W. unfold weight, below. rewrite Nat.pow_add_r, rsum_product. rewrite Rmult_comm, <- rsum_mul. apply rsum_ext. intros i Hi. apply in_seq in Hi. rewrite (Rmult_comm (rsum _ _)), <- rsum_mul. apply rsum_ext. intros j Hj. apply in_seq in Hj.
  unfold tensor. rewrite Cmod_mult, Rpow_mult_distr. f_equal; do 2 f_equal.
  - apply (vec_dep k); [exact V|]. intros q Hq. rewrite dec_sum by lia. unfold joined. rewrite (proj2 (Nat.ltb_lt q k)) by exact Hq. reflexivity.
  - apply (vec_dep n); [exact W|]. intros q Hq. rewrite dec_sum by lia. unfold joined. destruct (Nat.ltb_spec (k + q) k); [lia|]. f_equal. lia.
Qed.
Lemma gate_moved k n qs c u phi psi : wf_entry n (qs, mkCO c (OUnit u)) -> gate_or_meas (qs, mkCO c (OUnit u)) -> vec k phi -> vec n psi ->
  uden u (moved k qs) (tensor k phi psi) = tensor k phi (uden u qs psi).
Proof.
  intros W G V V2. assert (N : NoDup (seq k n)) by apply seq_NoDup. assert (L : length (seq k n) = n) by apply seq_length.
  assert (E : map (fun j => nth j (seq k n) 0) qs = moved k qs). { apply map_ext_in. intros q Hq. apply seq_nth. apply W. exact Hq. }
  pose proof (oden_ren (seq k n) N (qs, mkCO c (OUnit u))) as H. rewrite L in H. specialize (H W). cbn [fst snd oden co_obj] in H. unfold oden in H. cbn [co_obj] in H. rewrite E in H. apply (f_equal (fun D => D (tensor k phi psi))) in H. cbv beta in H. rewrite H. clear H. extensionality y. rewrite embed_unfold.
  replace (fun z => tensor k phi psi (put_regs (seq k n) y z)) with (scaled (phi y) psi).
  - rewrite uden_scaled. unfold scaled, tensor. f_equal. apply (vec_dep n); [eapply vec_uden; eassumption|]. intros q Hq. unfold at_regs. rewrite L, (proj2 (Nat.ltb_lt q n) Hq), seq_nth by exact Hq. reflexivity.
  - extensionality z. unfold scaled, tensor. f_equal.
    + apply (vec_dep k); [exact V|]. intros q Hq. symmetry. apply (put_out _). rewrite in_seq. lia.
    + apply (vec_dep n); [exact V2|]. intros q Hq. rewrite <- (seq_nth k 0 Hq). symmetry. apply put_at; [exact N|lia].
Qed.
Lemma gate_front k n qs c u phi psi : wf_entry k (qs, mkCO c (OUnit u)) -> gate_or_meas (qs, mkCO c (OUnit u)) -> vec k phi -> vec n psi ->
  uden u qs (tensor k phi psi) = tensor k (uden u qs phi) psi.
Proof.
  intros W G V V2. assert (N : NoDup (seq 0 k)) by apply seq_NoDup. assert (L : length (seq 0 k) = k) by apply seq_length.
  assert (E : map (fun j => nth j (seq 0 k) 0) qs = qs). { transitivity (map (fun q => q) qs); [|apply map_id]. apply map_ext_in. intros q Hq. rewrite seq_nth; [reflexivity|]. apply W. exact Hq. }
  pose proof (oden_ren (seq 0 k) N (qs, mkCO c (OUnit u))) as H. rewrite L in H. specialize (H W). cbn [fst snd oden co_obj] in H. unfold oden in H. cbn [co_obj] in H. rewrite E in H. apply (f_equal (fun D => D (tensor k phi psi))) in H. cbv beta in H. rewrite H. clear H. extensionality y. rewrite embed_unfold.
  replace (fun z => tensor k phi psi (put_regs (seq 0 k) y z)) with (scaled (psi (fun q => y (k + q))) phi).
  - rewrite uden_scaled. unfold scaled, tensor. rewrite Cmult_comm. f_equal. apply (vec_dep k); [eapply vec_uden; eassumption|]. intros q Hq. unfold at_regs. rewrite L, (proj2 (Nat.ltb_lt q k) Hq), seq_nth by exact Hq. reflexivity.
  - extensionality z. unfold scaled, tensor. rewrite Cmult_comm. f_equal.
    + apply (vec_dep k); [exact V|]. intros q Hq. replace q with (nth q (seq 0 k) 0) at 2 by (apply seq_nth; exact Hq). symmetry. apply put_at; [exact N|lia].
    + apply (vec_dep n); [exact V2|]. intros q Hq. symmetry. apply put_out. rewrite in_seq. lia.
Qed.
Lemma proj_moved k qs m phi psi : proj (moved k qs) m (tensor k phi psi) = tensor k phi (proj qs m psi).
Proof.
  extensionality y. unfold proj, tensor. replace (shows (moved k qs) m y) with (shows qs m (fun q => y (k + q))); [destruct (shows qs m (fun q => y (k + q))); [reflexivity|ring]|].
  unfold shows, moved. rewrite map_length. apply GateProofs.forallb_ext_in. intros j Hj. apply in_seq in Hj. rewrite (nth_indep (map (Nat.add k) qs) 0 (k + 0)) by (rewrite map_length; lia). rewrite map_nth. reflexivity.
Qed.
Lemma proj_front k qs m phi psi : proj qs m (tensor k phi psi) = tensor k (proj qs m phi) psi.
Proof. extensionality y. unfold proj, tensor. destruct (shows qs m y); [reflexivity|ring]. Qed.
Definition moved_pipe (k : nat) (p : pipe) : pipe := map (fun e => (moved k (fst e), snd e)) p.
Lemma branch_moved k n phi p : forall ms psi, Forall (wf_entry n) p -> Forall gate_or_meas p -> vec k phi -> vec n psi ->
  branch (moved_pipe k p) ms (tensor k phi psi) = tensor k phi (branch p ms psi).
Proof.
  induction p as [|[qs [c o]] p IH]; intros ms psi W G V V2; [reflexivity|]. inversion W as [|? ? We Wp]; subst. inversion G as [|? ? Ge Gp]; subst. cbn [moved_pipe map branch fst snd co_obj]. fold (moved_pipe k p). destruct o as [u|mk].
  - erewrite gate_moved by eassumption. apply IH; auto. eapply vec_uden; eassumption.
  - destruct ms as [|m ms]; [apply IH; auto|]. rewrite proj_moved. apply IH; auto. apply vec_proj; [exact (proj1 (proj2 We))|exact V2].
Qed.
Lemma branch_front k n psi p : forall ms phi, Forall (wf_entry k) p -> Forall gate_or_meas p -> vec k phi -> vec n psi ->
  branch p ms (tensor k phi psi) = tensor k (branch p ms phi) psi.
Proof.
  induction p as [|[qs [c o]] p IH]; intros ms phi W G V V2; [reflexivity|]. inversion W as [|? ? We Wp]; subst. inversion G as [|? ? Ge Gp]; subst. cbn [branch co_obj]. destruct o as [u|mk].
  - erewrite gate_front by eassumption. apply IH; auto. eapply vec_uden; eassumption.
  - destruct ms as [|m ms]; [apply IH; auto|]. rewrite proj_front. apply IH; auto. apply vec_proj; [exact (proj1 (proj2 We))|exact V].
Qed.
Lemma measured_moved k p : measured (moved_pipe k p) = map (moved k) (measured p).
Proof. induction p as [|[qs [c [u|m]]] p IH]; cbn [moved_pipe map measured fst snd co_obj]; [reflexivity|exact IH|]. f_equal. exact IH. Qed.
Lemma branch_product k n p0 p ms0 ms x0 x : Forall (wf_entry k) p0 -> Forall gate_or_meas p0 -> Forall (wf_entry n) p -> Forall gate_or_meas p -> length ms0 = length (measured p0) ->
  branch (p0 ++ moved_pipe k p) (ms0 ++ ms) (ket (k + n) (joined k x0 x)) = tensor k (branch p0 ms0 (ket k x0)) (branch p ms (ket n x)).
Proof.
  intros W0 G0 W G L. rewrite ket_tensor. rewrite branch_app by auto. erewrite branch_front by (eauto; apply vec_ket). eapply branch_moved; eauto; [|apply vec_ket]. apply branch_vec; auto. apply vec_ket.
Qed.
Lemma wf_moved k n p : Forall (wf_entry n) p -> Forall (wf_entry (k + n)) (moved_pipe k p).
Proof.
  intros W. apply Forall_forall. intros e He. apply in_map_iff in He. destruct He as (e0 & <- & He). rewrite Forall_forall in W. destruct (W _ He) as (A & B & D). split; [|split]; cbn [fst snd].
  - apply FinFun.Injective_map_NoDup; [intros a b; lia|exact A].
  - intros q Hq. apply in_map_iff in Hq. destruct Hq as (a & <- & Ha). specialize (B a Ha). lia.
  - unfold moved. destruct (co_obj (snd e0)) as [u|m]; [|exact I]. destruct u; cbn [wf_unitary] in *; rewrite ?map_length; try exact D; destruct D as (D1 & D2); (split; [|exact D2]); destruct (fst e0); cbn; congruence.
Qed.
Lemma unitary_moved k p : Forall unitary_entry p -> Forall unitary_entry (moved_pipe k p).
Proof.
  intros W. apply Forall_forall. intros e He. apply in_map_iff in He. destruct He as (e0 & <- & He). rewrite Forall_forall in W. specialize (W _ He). unfold unitary_entry in *. cbn [fst snd]. unfold moved. destruct (co_obj (snd e0)) as [u|m]; [|exact I]. destruct u; try exact I. rewrite map_length. exact W.
Qed.
Lemma gate_or_meas_moved k p : Forall gate_or_meas p -> Forall gate_or_meas (moved_pipe k p).
Proof. intros W. apply Forall_forall. intros e He. apply in_map_iff in He. destruct He as (e0 & <- & He). rewrite Forall_forall in W. exact (W _ He). Qed.
Lemma plain_moved k p : Forall plain_entry p -> Forall plain_entry (moved_pipe k p).
Proof. intros W. apply Forall_forall. intros e He. apply in_map_iff in He. destruct He as (e0 & <- & He). rewrite Forall_forall in W. exact (W _ He). Qed.
Definition moved_init (k : nat) (it : list (reg * nat)) : list (reg * nat) := map (fun '(r, v) => (moved k r, v)) it.
Lemma loads_joined k it0 it x0 x : (forall r v, In (r, v) it0 -> in_range k r) -> loads it0 x0 -> loads it x -> loads (it0 ++ moved_init k it) (joined k x0 x).
Proof.
  intros R (A0 & B0) (A & B). split.
  - intros r v H j Hj. apply in_app_or in H. destruct H as [H|H].
    + unfold joined. rewrite (proj2 (Nat.ltb_lt (nth j r 0) k)); [apply (A0 r v H j Hj)|]. apply (R r v H). apply nth_In. exact Hj.
    + apply in_map_iff in H. destruct H as ([r' v'] & E & H). inversion E; subst. unfold moved in *. rewrite map_length in Hj. rewrite (nth_indep _ 0 (k + 0)) by (rewrite map_length; exact Hj). rewrite map_nth. unfold joined. destruct (Nat.ltb_spec (k + nth j r' 0) k); [lia|].
      replace (k + nth j r' 0 - k) with (nth j r' 0) by lia. apply (A r' v H j Hj).
  - intros q H. unfold joined. destruct (Nat.ltb_spec q k) as [Hq|Hq].
    + apply B0. intros r v Hr X. apply (H r v); [apply in_or_app; left; exact Hr|exact X].
    + apply B. intros r v Hr X. apply (H (moved k r) v); [apply in_or_app; right; apply in_map_iff; exists (r, v); auto|]. apply in_map_iff. exists (q - k). split; [lia|exact X].
Qed.
Lemma range_joined k n it0 it : (forall r v, In (r, v) it0 -> in_range k r) -> (forall r v, In (r, v) it -> in_range n r) -> forall r v, In (r, v) (it0 ++ moved_init k it) -> in_range (k + n) r.
Proof.
  intros R0 R r v H q Hq. apply in_app_or in H. destruct H as [H|H]; [specialize (R0 r v H q Hq); lia|]. apply in_map_iff in H. destruct H as ([r' v'] & E & H). inversion E; subst. apply in_map_iff in Hq. destruct Hq as (a & <- & Ha). specialize (R r' v H a Ha). lia.
Qed.
