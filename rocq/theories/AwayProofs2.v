From Coq Require Import Reals Lra FunctionalExtensionality Permutation.
From Coquelicot Require Import Hierarchy RInt Complex.
From Verif Require Import Base BitsModel BitsSpec BitsProofs BitsProofs2 OpsModel OpsSpec OpsProofs ConjSpec Instances UnitaryProofs MeasureModel MeasureSpec MeasureProofs MeasureProofs2
  BuilderModel SimModel DenSpec DenProofs SimSpec SimProofs ProjSpec WholeSpec WholeProofs WholeProofs2 WholeProofs3 AwaySpec AwayProofs.
Local Open Scope nat_scope.

Lemma updl_comm a b : (forall q, In q a -> ~ In q b) -> forall x c d, updl (updl x a c) b d = updl (updl x b d) a c.
Proof.
  intros H. revert H. induction b as [|q b IH]; intros H x c d; [destruct d; reflexivity|]. destruct d as [|v d]; [reflexivity|]. cbn [updl].
  assert (Hq : ~ In q a) by (intros X; apply (H q X); left; reflexivity).
  rewrite <- IH by (intros p Hp X; apply (H p Hp); right; exact X).
  f_equal. symmetry. revert x c. clear - Hq. induction a as [|p a IH]; intros x [|u c]; try reflexivity. cbn [updl].
  rewrite <- IH by (intros X; apply Hq; right; exact X). f_equal. extensionality i. unfold upd. destruct (Nat.eqb_spec i p), (Nat.eqb_spec i q); try reflexivity. subst. exfalso. apply Hq. left. reflexivity.
Qed.
Lemma act_comm a b M M' psi : (forall q, In q a -> ~ In q b) -> act CN a M (act CN b M' psi) = act CN b M' (act CN a M psi).
Proof.
  intros H. extensionality x. unfold act.
  assert (Ea : forall c, map (updl x a c) b = map x b) by (intros c; apply map_ext_in; intros q Hq; apply updl_notin; intros X; exact (H q X Hq)).
  assert (Eb : forall c, map (updl x b c) a = map x a) by (intros c; apply map_ext_in; intros q Hq; apply updl_notin; intros X; exact (H q Hq X)).
  transitivity (big CN (fun c => big CN (fun d => nmul CN (nmul CN (M (map x a) c) (M' (map x b) d)) (psi (updl (updl x a c) b d))) (bools (length b))) (bools (length a))).
  - apply (big_ext CN). intros c _. rewrite (big_mul_l CN CN_laws). apply (big_ext CN). intros d _. rewrite Ea. cbn. ring.
  - rewrite (big_exchange CN CN_laws). apply (big_ext CN). intros d _. rewrite (big_mul_l CN CN_laws). apply (big_ext CN). intros c _. rewrite Eb, updl_comm by exact H. cbn. ring.
Qed.
Lemma uden_comm a b u u' psi : NoDup a -> NoDup b -> wf_unitary u a -> wf_unitary u' b -> (forall q, In q a -> ~ In q b) -> uden u a (uden u' b psi) = uden u' b (uden u a psi).
Proof.
  intros Na Nb Wa Wb H. assert (Ph : forall t q phi, uden (UPhase t) q phi = phi) by (intros t [|? [|? ?]] phi; reflexivity).
  destruct u; try (rewrite !Ph; reflexivity);
  (destruct u'; try (rewrite !Ph; reflexivity);
   match goal with |- uden ?u a (uden ?v b _) = _ =>
     destruct (unitary_op_ok u a Wa Na ltac:(discriminate)) as (o1 & _ & _ & _ & E1); destruct (unitary_op_ok v b Wb Nb ltac:(discriminate)) as (o2 & _ & _ & _ & E2) end;
   rewrite <- !E1, <- !E2, <- ?E1; apply act_comm; exact H).
Qed.

Lemma branch_swap n e1 e2 p ms psi : wf_entry n e1 -> wf_entry n e2 -> (forall q, In q (fst e1) -> ~ In q (fst e2)) -> is_measurement e1 && is_measurement e2 = false ->
  branch (e1 :: e2 :: p) ms psi = branch (e2 :: e1 :: p) ms psi.
Proof.
  destruct e1 as [a [k o1]], e2 as [b [l o2]]. intros (N1 & _ & W1) (N2 & _ & W2) H M. unfold is_measurement in M. cbn [fst snd co_obj] in *. cbn [branch co_obj].
  assert (H' : forall q, In q b -> ~ In q a) by (intros q Hb Ha; exact (H q Ha Hb)).
  destruct o1 as [u|mk], o2 as [u'|mk']; try discriminate.
  - rewrite (uden_comm b a u' u) by assumption. reflexivity.
  - destruct ms; [reflexivity|]. rewrite proj_uden by exact H'. reflexivity.
  - destruct ms; [reflexivity|]. rewrite proj_uden by exact H. reflexivity.
Qed.
Lemma branch_prefix p1 : forall p2 p2' ms, (forall ms psi, branch p2 ms psi = branch p2' ms psi) -> forall psi, branch (p1 ++ p2) ms psi = branch (p1 ++ p2') ms psi.
Proof.
  induction p1 as [|[qs co] p1 IH]; intros p2 p2' ms H psi; cbn [app branch]; [apply H|]. destruct (co_obj co); [apply IH; exact H|]. destruct ms; apply IH; exact H.
Qed.
Lemma reordered_perm p p' : reordered p p' -> Permutation p p'.
Proof. induction 1; [reflexivity|apply Permutation_app_head; constructor|etransitivity; eassumption]. Qed.
Lemma reordered_measured p p' : reordered p p' -> measured p' = measured p.
Proof.
  induction 1 as [|p1 [a [k o1]] [b [l o2]] p2 H M|]; [reflexivity| |congruence]. rewrite !measured_app. f_equal. cbn [measured co_obj]. unfold is_measurement in M. cbn in M.
  destruct o1, o2; try reflexivity; discriminate.
Qed.
Lemma reordered_branch n p p' : reordered p p' -> Forall (wf_entry n) p -> forall ms psi, branch p' ms psi = branch p ms psi.
Proof.
  induction 1 as [|p1 e1 e2 p2 H M|p p' p'' H1 IH1 H2 IH2]; intros W ms psi; [reflexivity| |].
  - symmetry. apply branch_prefix. intros ms' psi'. apply Forall_app in W. destruct W as (_ & W). inversion W as [|? ? X1 W']; subst. inversion W'; subst. eapply branch_swap; eassumption.
  - rewrite IH2, IH1; [reflexivity|exact W|]. rewrite Forall_forall in *. intros e He. apply W. eapply Permutation_in; [apply Permutation_sym, reordered_perm; exact H1|exact He].
Qed.
Lemma plain_branch p : Forall plain_entry p -> forall ms psi, branch p ms psi = den p psi.
Proof.
  induction 1 as [|[qs [k o]] p Pl _ IH]; intros ms psi; [reflexivity|]. cbn [branch co_obj]. destruct o as [u|m]; [|destruct Pl]. rewrite IH. reflexivity.
Qed.
Lemma st_of_inj n v w : length v = 2 ^ n -> length w = 2 ^ n -> st_of CN n v = st_of CN n w -> v = w.
Proof.
  intros Lv Lw H. apply nth_ext with (d := RtoC 0) (d' := RtoC 0); [congruence|]. intros i Hi. rewrite <- !(nth_st n) by lia. rewrite H. reflexivity.
Qed.
Lemma reordered_state b b' it x draws : (forall r v, In (r, v) it -> in_range (bn b) r) -> loads it x -> bn b' = bn b -> reordered (pipeline b) (pipeline b') ->
  Forall (wf_entry (bn b)) (pipeline b) -> Forall plain_entry (pipeline b) ->
  exists v, calculate_state_with_init b it draws = Ok (v, []) /\ calculate_state_with_init b' it draws = Ok (v, []).
Proof.
  intros R L En H W Pl. assert (P := reordered_perm _ _ H).
  assert (Tr : forall Q : list nat * cobj -> Prop, Forall Q (pipeline b) -> Forall Q (pipeline b')) by (intros Q F; rewrite Forall_forall in *; intros e He; apply F; eapply Permutation_in; [apply Permutation_sym; exact P|exact He]).
  destruct (simulate_ok b it x draws R L W Pl) as (v & E & Lv & S).
  destruct (simulate_ok b' it x draws) as (v' & E' & Lv' & S'); rewrite ?En; auto.
  exists v. split; [exact E|]. rewrite E'. do 2 f_equal. rewrite En in *. apply (st_of_inj (bn b)); auto. rewrite S, S'. rewrite <- !(plain_branch _ (Tr _ Pl) []), <- (plain_branch _ Pl []).
  eapply reordered_branch; [exact H|exact W].
Qed.
Lemma reordered_joint b b' it x : (forall r v, In (r, v) it -> in_range (bn b) r) -> loads it x -> bn b' = bn b -> reordered (pipeline b) (pipeline b') ->
  Forall (wf_entry (bn b)) (pipeline b) -> Forall unitary_entry (pipeline b) -> Forall gate_or_meas (pipeline b) ->
  forall ms, Forall2 (fun qs m => m < 2 ^ length qs) (measured (pipeline b)) ms -> exists a,
    over_draws (length ms) (fun d => gives (calculate_state_with_init b it d) ms) a /\ over_draws (length ms) (fun d => gives (calculate_state_with_init b' it d) ms) a.
Proof.
  intros R L En H W U G ms Hm. assert (P := reordered_perm _ _ H).
  assert (Tr : forall Q : list nat * cobj -> Prop, Forall Q (pipeline b) -> Forall Q (pipeline b')) by (intros Q F; rewrite Forall_forall in *; intros e He; apply F; eapply Permutation_in; [apply Permutation_sym; exact P|exact He]).
  exists (weight (bn b) (branch (pipeline b) ms (ket (bn b) x))). split; [apply joint_born; auto|].
  rewrite <- (reordered_branch _ _ _ H W), <- En. apply joint_born; rewrite ?En; auto. rewrite (reordered_measured _ _ H). exact Hm.
Qed.
