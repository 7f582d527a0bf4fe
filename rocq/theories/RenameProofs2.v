(** Renamed programs: what they simulate to; orders of allocation. *)
From Coq Require Import Reals Lra FunctionalExtensionality Permutation.
From Coquelicot Require Import Complex.
From Verif Require Import Base BitsSpec BitsProofs OpsModel OpsSpec OpsProofs Instances BuilderModel SimModel HistorySpec DenSpec DenProofs SimSpec SimProofs MeasureSpec MeasureProofs ProjSpec WholeSpec WholeProofs WholeProofs2 WholeProofs3 SubSpec SubProofs AwaySpec AwayProofs GateProofs ShiftSpec RenameSpec RenameProofs.
Local Open Scope nat_scope.

(** *** Calls *)
Lemma pick_renamed f rs ps : pick (map (map f) rs) ps = map (map f) (pick rs ps).
Proof. unfold pick. rewrite map_map. apply map_ext. intros p. exact (map_nth (map f) rs [] p). Qed.
Lemma keep_renamed f rs ps : keep (map (map f) rs) ps = map (map f) (keep rs ps).
Proof. unfold keep. rewrite map_length, map_map. apply map_ext. intros p. exact (map_nth (map f) rs [] p). Qed.
Section Calls.
Context (N : nat) (f : nat -> nat) (INJ : forall p q, f p = f q -> p = q) (ID : forall q, N <= q -> f q = q).
Lemma do_renamed cl c ps : N <= bn (bld (fst cl)) -> no_absolute c ->
  do_call (renamed f cl) c ps = option_map (renamed f) (do_call cl c ps) /\ forall cl', do_call cl c ps = Some cl' -> N <= bn (bld (fst cl')).
Proof.
  intros B NA. destruct cl as [s rs]. cbn [fst] in B.
  destruct (n_call N f INJ ID (length (conds s)) c (pick rs ps) ltac:(intros is ->; exact NA) s B) as [H L].
  unfold renamed. cbn [fst snd]. unfold do_call. rewrite pick_renamed, keep_renamed. replace (length (conds (renamed_state f s))) with (length (conds s)) by (symmetry; apply map_length).
  change (map (map f)) with (map (sh f)). change (renamed_state f s) with (shs f s). rewrite H.
  destruct (run_call (length (conds s)) c (pick rs ps) s) as [outs s'|e s'|]; cbn [sho option_map]; (split; [|intros cl' X; try discriminate X; injection X as <-; exact L]); try reflexivity.
  unfold renamed. cbn [fst snd]. rewrite map_app. reflexivity.
Qed.
Lemma play_renamed p : forall cl, N <= bn (bld (fst cl)) -> Forall (fun c => no_absolute (fst c)) p ->
  play p (renamed f cl) = option_map (renamed f) (play p cl) /\ forall cl', play p cl = Some cl' -> N <= bn (bld (fst cl')).
Proof.
  induction p as [|[c ps] p IH]; intros cl B H; [split; [reflexivity|]; cbn; intros cl' X; injection X as <-; exact B|]. inversion H as [|? ? Hc Hp]; subst. cbn [play].
  destruct (do_renamed cl c ps B Hc) as [E L]. rewrite E. destruct (do_call cl c ps) as [cl1|]; cbn [option_map]; [|split; [reflexivity|intros ? X; discriminate X]]. apply IH; [apply L; reflexivity|exact Hp].
Qed.
End Calls.

(** *** Simulation *)
Section Turn.
Context (n : nat) (f : nat -> nat) (RN : renumbers n f).
Notation rho := (map f (seq 0 n)).
Notation zz := (fun _ : nat => false).
Lemma rho_len : length rho = n.
Proof. rewrite map_length, seq_length. reflexivity. Qed.
Lemma rho_nth q : q < n -> nth q rho 0 = f q.
Proof. intros H. rewrite (nth_indep _ _ (f 0)) by (rewrite rho_len; exact H). rewrite (map_nth f), seq_nth by exact H. reflexivity. Qed.
Lemma rho_NoDup : NoDup rho.
Proof. apply FinFun.Injective_map_NoDup; [intros p q; apply RN|apply seq_NoDup]. Qed.
Lemma rho_all q : q < n -> In q rho.
Proof.
  intros H. assert (I : incl (seq 0 n) rho).
  { apply NoDup_length_incl; [exact rho_NoDup|rewrite rho_len, seq_length; lia|]. intros p Hp. apply in_map_iff in Hp. destruct Hp as (j & <- & Hj). apply in_seq in Hj. apply in_seq. pose proof (proj1 RN j). lia. }
  apply I, in_seq. lia.
Qed.
Lemma map_rho qs : in_range n qs -> map (fun j => nth j rho 0) qs = map f qs.
Proof. intros H. apply map_ext_in. intros q Hq. apply rho_nth, H, Hq. Qed.
Definition back (y : bs) : bs := put_regs rho zz y.
Lemma back_at y q : q < n -> back y (f q) = y q.
Proof. intros H. unfold back. rewrite <- (rho_nth q H). apply put_at; [exact rho_NoDup|rewrite rho_len; exact H]. Qed.
Lemma back_out y q : n <= q -> back y q = false.
Proof. intros H. unfold back. apply put_out. intros X. apply in_map_iff in X. destruct X as (j & <- & Hj). apply in_seq in Hj. pose proof (proj1 RN j). lia. Qed.
Lemma back_again x q : q < n -> back (fun q => x (f q)) q = x q.
Proof. intros H. apply rho_all in H. apply in_map_iff in H. destruct H as (j & <- & Hj). apply in_seq in Hj. rewrite back_at by lia. reflexivity. Qed.
(** The state seen with the old numbers. *)
Definition turn (psi : state) : state := fun y => psi (back y).
Lemma turn_vec psi : vec n psi -> vec n (turn psi).
Proof.
  intros V. apply vec_of_dep. intros x y H. unfold turn. apply (vec_dep n psi); [exact V|]. intros q Hq. apply rho_all in Hq. apply in_map_iff in Hq. destruct Hq as (j & <- & Hj). apply in_seq in Hj.
  rewrite !back_at by lia. apply H. lia.
Qed.
Lemma turn_back psi x : vec n psi -> turn psi (fun q => x (f q)) = psi x.
Proof. intros V. unfold turn. apply (vec_dep n psi); [exact V|]. intros q Hq. apply back_again. exact Hq. Qed.
Lemma turn_uden qs k u psi : wf_entry n (qs, mkCO k (OUnit u)) -> gate_or_meas (qs, mkCO k (OUnit u)) -> vec n psi -> turn (uden u (map f qs) psi) = uden u qs (turn psi).
Proof.
  intros W G V. extensionality y. unfold turn at 1. pose proof (oden_ren rho rho_NoDup (qs, mkCO k (OUnit u))) as H. rewrite rho_len in H. specialize (H W). cbn [fst snd] in H. unfold oden in H. cbn [co_obj] in H.
  rewrite map_rho in H by (exact (proj1 (proj2 W))). apply (f_equal (fun D => D psi (back y))) in H. etransitivity; [exact H|]. rewrite embed_unfold.
  transitivity (uden u qs (turn psi) (at_regs rho (back y))).
  - f_equal. extensionality z. unfold turn, back. f_equal. apply put_put. exact rho_NoDup.
  - apply (vec_dep n); [eapply vec_uden; [exact W|exact G|apply turn_vec; exact V]|]. intros q Hq. unfold at_regs. rewrite rho_len, (proj2 (Nat.ltb_lt q n) Hq), rho_nth by exact Hq. apply back_at. exact Hq.
Qed.
Lemma shows_back qs m y : in_range n qs -> shows (map f qs) m (back y) = shows qs m y.
Proof.
  intros H. unfold shows. rewrite map_length. apply forallb_ext_in. intros j Hj. apply in_seq in Hj. f_equal. rewrite (nth_indep _ _ (f 0)) by (rewrite map_length; lia). rewrite (map_nth f). apply back_at, H, nth_In. lia.
Qed.
Lemma turn_proj qs m psi : in_range n qs -> turn (proj (map f qs) m psi) = proj qs m (turn psi).
Proof. intros H. extensionality y. unfold turn, proj. rewrite shows_back by exact H. reflexivity. Qed.
Lemma uden_vec_f qs k u psi : wf_entry n (qs, mkCO k (OUnit u)) -> gate_or_meas (qs, mkCO k (OUnit u)) -> vec n psi -> vec n (uden u (map f qs) psi).
Proof.
  intros W G V. eapply (vec_uden n (map f qs) k); [|exact G|exact V]. rewrite <- map_rho by (exact (proj1 (proj2 W))).
  apply (wf_ren rho rho_NoDup n (qs, mkCO k (OUnit u))); [rewrite rho_len; exact W|]. intros q Hq. apply in_map_iff in Hq. destruct Hq as (j & <- & Hj). apply in_seq in Hj. pose proof (proj1 RN j). lia.
Qed.
Lemma turn_branch p : forall ms psi, Forall (wf_entry n) p -> Forall gate_or_meas p -> vec n psi ->
  turn (branch (map (fun e => (map f (fst e), snd e)) p) ms psi) = branch p ms (turn psi).
Proof.
  induction p as [|[qs [k o]] p IH]; intros ms psi W G V; [reflexivity|]. inversion W as [|? ? We Wp]; subst. inversion G as [|? ? Ge Gp]; subst. cbn [map branch fst snd co_obj].
  assert (RF : in_range n (map f qs)). { intros q Hq. apply in_map_iff in Hq. destruct Hq as (j & <- & Hj). apply RN. apply (proj1 (proj2 We)). exact Hj. }
  destruct o as [u|mk].
  - rewrite IH; auto; [|eapply uden_vec_f; eassumption]. erewrite turn_uden by eassumption. reflexivity.
  - destruct ms as [|m ms]; rewrite IH; auto; [|apply vec_proj; assumption]. rewrite turn_proj by (exact (proj1 (proj2 We))). reflexivity.
Qed.
Lemma turn_weight psi : vec n psi -> weight n (turn psi) = weight n psi.
Proof.
  intros V. unfold weight, below. set (g := fun i => enc n (back (dec n i))).
  rewrite (rsum_ext _ (fun i => (Cmod (psi (dec n (g i))) ^ 2)%R)).
  - rewrite <- (rsum_map (fun i => (Cmod (psi (dec n i)) ^ 2)%R) g). apply rsum_perm. apply NoDup_Permutation_bis.
    + apply NoDup_map_in; [|apply seq_NoDup]. intros i j Hi Hj E. apply in_seq in Hi, Hj. rewrite <- (enc_dec n i), <- (enc_dec n j) by lia. apply enc_ext. intros q Hq.
      rewrite <- (back_at (dec n i) q Hq), <- (back_at (dec n j) q Hq). apply (enc_inj n); [exact E|]. apply RN. exact Hq.
    + rewrite map_length. lia.
    + intros i Hi. apply in_map_iff in Hi. destruct Hi as (j & <- & _). apply in_seq. pose proof (enc_lt n (back (dec n j))). unfold g. lia.
  - intros i _. unfold turn. f_equal. f_equal. apply (vec_dep n psi); [exact V|]. intros q Hq. unfold g. rewrite dec_enc, (proj2 (Nat.ltb_lt q n) Hq). reflexivity.
Qed.

Lemma turn_ket x : turn (ket n (back x)) = ket n x.
Proof.
  extensionality y. unfold turn, ket. destruct (Nat.eqb_spec (enc n x) (enc n y)) as [E|E], (Nat.eqb_spec (enc n (back x)) (enc n (back y))) as [E'|E']; try reflexivity; exfalso.
  - apply E'. apply enc_ext. intros q Hq. apply rho_all in Hq. apply in_map_iff in Hq. destruct Hq as (j & <- & Hj). apply in_seq in Hj. rewrite !back_at by lia. apply (enc_inj n); [exact E|lia].
  - apply E. apply enc_ext. intros q Hq. rewrite <- (back_at x q Hq), <- (back_at y q Hq). apply (enc_inj n); [exact E'|]. apply RN. exact Hq.
Qed.
Lemma range_renamed it : (forall r v, In (r, v) it -> in_range n r) -> forall r v, In (r, v) (renamed_init f it) -> in_range n r.
Proof.
  intros H r v I q Hq. apply in_map_iff in I. destruct I as ((r' & v') & E & I). injection E as <- <-. apply in_map_iff in Hq. destruct Hq as (j & <- & Hj). apply RN. exact (H _ _ I j Hj).
Qed.
Lemma loads_renamed it x : (forall r v, In (r, v) it -> in_range n r) -> loads it x -> loads (renamed_init f it) (back x).
Proof.
  intros R (L1 & L2). split.
  - intros r v I j Hj. apply in_map_iff in I. destruct I as ((r' & v') & E & I). injection E as <- <-. rewrite map_length in Hj. rewrite (nth_indep _ _ (f 0)) by (rewrite map_length; exact Hj).
    rewrite (map_nth f), back_at by (apply (R _ _ I), nth_In; exact Hj). exact (L1 _ _ I j Hj).
  - intros q Hq. destruct (Nat.lt_ge_cases q n) as [Hn|Hn]; [|apply back_out; exact Hn]. apply rho_all in Hn. apply in_map_iff in Hn. destruct Hn as (j & <- & Hj). apply in_seq in Hj.
    rewrite back_at by lia. apply L2. intros r v I X. apply (Hq (map f r) v); [|apply in_map; exact X]. apply in_map_iff. exists (r, v). split; [reflexivity|exact I].
Qed.
Lemma wf_renamed p : Forall (wf_entry n) p -> Forall (wf_entry n) (map (fun e => (map f (fst e), snd e)) p).
Proof.
  intros H. apply Forall_map. eapply Forall_impl; [|exact H]. intros e W. cbn beta. rewrite <- map_rho by (exact (proj1 (proj2 W))).
  apply (wf_ren rho rho_NoDup n e); [rewrite rho_len; exact W|]. intros q Hq. apply in_map_iff in Hq. destruct Hq as (j & <- & Hj). apply in_seq in Hj. apply RN. lia.
Qed.
Lemma unitary_renamed p : Forall unitary_entry p -> Forall unitary_entry (map (fun e => (map f (fst e), snd e)) p).
Proof. intros H. apply Forall_map. eapply Forall_impl; [|exact H]. intros [qs [k [u|mk]]]; cbn; auto. unfold unitary_entry. cbn. rewrite map_length. auto. Qed.
Lemma plain_renamed p : Forall plain_entry p -> Forall plain_entry (map (fun e => (map f (fst e), snd e)) p).
Proof. intros H. apply Forall_map. eapply Forall_impl; [|exact H]. intros [qs [k [u|mk]]]; auto. Qed.
Lemma gm_renamed p : Forall gate_or_meas p -> Forall gate_or_meas (map (fun e => (map f (fst e), snd e)) p).
Proof. intros H. apply Forall_map. eapply Forall_impl; [|exact H]. intros [qs [k [u|mk]]]; auto. Qed.
Lemma measured_renamed p : measured (map (fun e => (map f (fst e), snd e)) p) = map (map f) (measured p).
Proof. induction p as [|[qs [k [u|mk]]] p IH]; [reflexivity|exact IH|]. cbn [map measured fst snd co_obj]. rewrite IH. reflexivity. Qed.
End Turn.

(** *** Orders of allocation *)
Fixpoint chunks (a : nat) (ks : list nat) : list reg := match ks with [] => [] | k :: ks' => seq a k :: chunks (a + k) ks' end.
Definition total (ks : list nat) : nat := fold_right Nat.add 0 ks.
Lemma concat_chunks ks : forall a, concat (chunks a ks) = seq a (total ks).
Proof. induction ks as [|k ks IH]; intros a; [reflexivity|]. cbn [chunks concat total fold_right]. rewrite IH, seq_app. reflexivity. Qed.
Lemma length_chunks ks : forall a, map (@length nat) (chunks a ks) = ks.
Proof. induction ks as [|k ks IH]; intros a; [reflexivity|]. cbn [chunks map]. rewrite seq_length, IH. reflexivity. Qed.
Lemma chunks_concat L : forall P, map (map (fun q => nth q (P ++ concat L) q)) (chunks (length P) (map (@length nat) L)) = L.
Proof.
  induction L as [|l L IH]; intros P; [reflexivity|]. cbn [map chunks concat]. f_equal.
  - apply (list_eq_nth 0); [rewrite map_length, seq_length; reflexivity|]. intros j Hj. rewrite map_length, seq_length in Hj.
    rewrite (nth_indep _ _ ((fun q => nth q (P ++ l ++ concat L) q) 0)) by (rewrite map_length, seq_length; exact Hj). rewrite (map_nth (fun q => nth q (P ++ l ++ concat L) q)), seq_nth by exact Hj.
    rewrite app_nth2 by lia. replace (length P + j - length P) with j by lia. rewrite app_nth1 by exact Hj. apply nth_indep. exact Hj.
  - specialize (IH (P ++ l)). rewrite app_length, <- app_assoc in IH. exact IH.
Qed.
Lemma keep_none rs : keep rs [] = rs.
Proof. unfold keep. cbn. replace (filter (fun _ => true) (seq 0 (length rs))) with (seq 0 (length rs)) by (induction (seq 0 (length rs)) as [|a l IH]; cbn; congruence). apply seq_nth_map. Qed.
Lemma play_allocations ks order : (forall i, In i order -> 0 < nth i ks 0) -> forall a rs,
  play (allocations ks order) (mkSt (mkB [] a [] 0) [], rs) =
    Some (mkSt (mkB [] (a + total (map (fun i => nth i ks 0) order)) [] 0) [], rs ++ chunks a (map (fun i => nth i ks 0) order)).
Proof.
  induction order as [|i order IH]; intros H a rs; [cbn; rewrite Nat.add_0_r, app_nil_r; reflexivity|].
  cbn [allocations map play]. assert (E : do_call (mkSt (mkB [] a [] 0) [], rs) (CRegister (nth i ks 0)) [] = Some (mkSt (mkB [] (a + nth i ks 0) [] 0) [], rs ++ [seq a (nth i ks 0)])).
  { specialize (H i (or_introl eq_refl)). unfold do_call. rewrite keep_none. cbn [run_call conds length pick map]. unfold out1, register, get, put, mbind, lift, ret. cbn [bld bn pipeline zeroed meas conds]. destruct (nth i ks 0) as [|k]; [lia|]. reflexivity. }
  rewrite E. rewrite (IH (fun j Hj => H j (or_intror Hj))). cbn [total fold_right chunks]. rewrite Nat.add_assoc, <- app_assoc. reflexivity.
Qed.
Lemma by_number_nth order : NoDup order -> forall rs, length rs = length order -> map (by_number order rs) order = rs.
Proof.
  assert (A : forall i order rs, ~ In i order -> filter (fun p : nat * reg => fst p =? i) (combine order rs) = []).
  { intros i o. induction o as [|j o IH]; intros rs H; [reflexivity|]. destruct rs as [|r rs]; [reflexivity|]. cbn [combine filter fst]. destruct (Nat.eqb_spec j i) as [->|_]; [exfalso; apply H; left; reflexivity|]. apply IH. intros X. apply H. right. exact X. }
  induction order as [|i order IH]; intros N rs L; [destruct rs; [reflexivity|discriminate]|]. destruct rs as [|r rs]; [discriminate|]. inversion N; subst. injection L as L. cbn [map]. f_equal.
  - unfold by_number. cbn [combine filter fst]. rewrite Nat.eqb_refl. reflexivity.
  - transitivity (map (by_number order rs) order); [|apply IH; assumption]. apply map_ext_in. intros j Hj. unfold by_number. cbn [combine filter fst]. destruct (Nat.eqb_spec i j) as [->|_]; [contradiction|reflexivity].
Qed.
Lemma total_perm l l' : Permutation l l' -> total l = total l'.
Proof. induction 1; cbn in *; unfold total in *; lia. Qed.
Lemma map_ext_in_iff' {A B} (g h : A -> B) l : map g l = map h l -> forall a, In a l -> g a = h a.
Proof. induction l as [|b l IH]; intros E a []; injection E as E1 E2; [subst; exact E1|apply IH; assumption]. Qed.
Lemma allocation_order ks order : Permutation order (seq 0 (length ks)) -> Forall (fun k => 0 < k) ks ->
  exists f cl, renumbers (bn (bld (fst cl))) f /\ (forall q, bn (bld (fst cl)) <= q -> f q = q) /\ bn (bld (fst cl)) = total ks /\
    allocated_in ks (seq 0 (length ks)) = Some cl /\ allocated_in ks order = Some (renamed f cl).
Proof.
  intros P K. assert (N : NoDup order) by (eapply Permutation_NoDup; [symmetry; exact P|apply seq_NoDup]).
  assert (G : forall o, Permutation o (seq 0 (length ks)) -> NoDup o -> allocated_in ks o = Some (mkSt (mkB [] (total ks) [] 0) [], map (by_number o (chunks 0 (map (fun i => nth i ks 0) o))) (seq 0 (length ks)))).
  { intros o Po No. unfold allocated_in, start, empty_builder. rewrite play_allocations.
    - cbn [option_map fst snd Nat.add app]. rewrite (total_perm _ (map (fun i => nth i ks 0) (seq 0 (length ks)))) by (apply Permutation_map; exact Po). rewrite (seq_nth_map ks 0). reflexivity.
    - intros i Hi. apply (Permutation_in i Po) in Hi. apply in_seq in Hi. rewrite Forall_forall in K. apply K, nth_In. lia. }
  set (regs := chunks 0 (map (fun i => nth i ks 0) order)). set (L := map (by_number order regs) (seq 0 (length ks))).
  assert (LR : length regs = length order) by (unfold regs; rewrite <- (map_length (@length nat)), length_chunks, map_length; reflexivity).
  assert (LL : map (@length nat) L = ks).
  { assert (E : map (fun i => length (by_number order regs i)) order = map (fun i => nth i ks 0) order).
    { rewrite <- (length_chunks (map (fun i => nth i ks 0) order) 0). fold regs. transitivity (map (@length nat) (map (by_number order regs) order)); [rewrite map_map; reflexivity|]. rewrite (by_number_nth order N regs LR). reflexivity. }
    unfold L. rewrite map_map. transitivity (map (fun i => nth i ks 0) (seq 0 (length ks))); [|apply seq_nth_map]. apply map_ext_in. intros i Hi. apply (Permutation_in i (Permutation_sym P)) in Hi. exact (map_ext_in_iff' _ _ _ E i Hi). }
  assert (PR : Permutation (concat L) (seq 0 (total ks))).
  { transitivity (concat (map (by_number order regs) order)); [unfold L; rewrite <- !flat_map_concat_map; apply Permutation_flat_map; symmetry; exact P|].
    rewrite by_number_nth by assumption. unfold regs. rewrite concat_chunks. rewrite (total_perm _ (map (fun i => nth i ks 0) (seq 0 (length ks)))) by (apply Permutation_map; exact P). rewrite (seq_nth_map ks 0). reflexivity. }
  assert (LC : length (concat L) = total ks) by (rewrite (Permutation_length PR); apply seq_length).
  assert (NC : NoDup (concat L)) by (eapply Permutation_NoDup; [symmetry; exact PR|apply seq_NoDup]).
  set (f := fun q => nth q (concat L) q).
  assert (F1 : forall q, total ks <= q -> f q = q) by (intros q Hq; unfold f; apply nth_overflow; lia).
  assert (F2 : forall q, q < total ks -> f q < total ks). { intros q Hq. assert (X : In (f q) (concat L)) by (unfold f; apply nth_In; lia). apply (Permutation_in _ PR) in X. apply in_seq in X. lia. }
  exists f, (mkSt (mkB [] (total ks) [] 0) [], chunks 0 ks). cbn [fst bld bn]. split; [split; [exact F2|]|split; [exact F1|split; [reflexivity|split]]].
  - intros p q E. destruct (Nat.lt_ge_cases p (total ks)) as [Hp|Hp], (Nat.lt_ge_cases q (total ks)) as [Hq|Hq].
    + apply (proj1 (NoDup_nth (concat L) 0) NC); [lia|lia|]. unfold f in E. rewrite (nth_indep _ p 0), (nth_indep _ q 0) in E by lia. exact E.
    + rewrite (F1 q Hq) in E. specialize (F2 p Hp). lia.
    + rewrite (F1 p Hp) in E. specialize (F2 q Hq). lia.
    + rewrite (F1 p Hp), (F1 q Hq) in E. exact E.
  - rewrite (G (seq 0 (length ks))) by (try reflexivity; apply seq_NoDup). rewrite (seq_nth_map ks 0), by_number_nth; [reflexivity|apply seq_NoDup|]. rewrite seq_length, <- (map_length (@length nat)), length_chunks. reflexivity.
  - rewrite (G order P N). fold regs. fold L. pose proof (chunks_concat L []) as C. rewrite LL in C. change (map (map f) (chunks 0 ks) = L) in C. unfold renamed. cbn [fst snd]. rewrite C. reflexivity.
Qed.
