(** Measurements taken apart, put together and moved: C106, C107. *)
From Coq Require Import Reals Lra FunctionalExtensionality Permutation.
From Coquelicot Require Import Complex.
From Verif Require Import Base BitsSpec BitsProofs OpsModel OpsSpec OpsProofs Instances BuilderModel SimModel HistorySpec DenSpec DenProofs SimSpec SimProofs MeasureSpec MeasureProofs ProjSpec WholeSpec WholeProofs WholeProofs2 WholeProofs3 SubSpec SubProofs AwaySpec AwayProofs GateProofs AwayProofs2 CmatProofs ProgramProofs2 SplitSpec.
Local Open Scope nat_scope.

Lemma same_branch b it x ms b' ms' : bn b' = bn b -> (forall r v, In (r, v) it -> in_range (bn b) r) -> loads it x ->
  Forall (wf_entry (bn b)) (pipeline b) -> Forall unitary_entry (pipeline b) -> Forall gate_or_meas (pipeline b) ->
  Forall (wf_entry (bn b)) (pipeline b') -> Forall unitary_entry (pipeline b') -> Forall gate_or_meas (pipeline b') ->
  Forall2 (fun qs m => m < 2 ^ length qs) (measured (pipeline b)) ms -> Forall2 (fun qs m => m < 2 ^ length qs) (measured (pipeline b')) ms' ->
  branch (pipeline b) ms (ket (bn b) x) = branch (pipeline b') ms' (ket (bn b) x) -> same_result it b ms b' ms'.
Proof.
  intros En R L W U G W' U' G' H H' E. split.
  - exists (weight (bn b) (branch (pipeline b) ms (ket (bn b) x))). split; [apply joint_born; assumption|]. rewrite E, <- En. rewrite <- En in R, W'. apply joint_born; assumption.
  - intros d d' v v' out out' D D' Ev Em Ev' Em'.
    destruct (run_branch b it x d R L W U G D) as (v1 & o1 & E1 & _ & C1 & _ & S1).
    assert (R' := R). assert (W1 := W'). rewrite <- En in R', W1. destruct (run_branch b' it x d' R' L W1 U' G' D') as (v2 & o2 & E2 & _ & C2 & _ & S2).
    assert (inj : forall o o', results o = results o' -> o = o'). { induction o as [|[m p] o IH]; intros [|[m' p'] o'] X; try discriminate; [reflexivity|]. injection X as -> -> X. f_equal. apply IH. exact X. }
    rewrite Ev in E1. injection E1 as <- E1. apply inj in E1. subst o1. rewrite Ev' in E2. injection E2 as <- E2. apply inj in E2. subst o2.
    rewrite Em in C1, S1. rewrite Em' in C2, S2. rewrite En in C2, S2. rewrite <- E in C2, S2. assert (C : chance out = chance out') by congruence. split; [|exact C].
    destruct (run_exact b it x d R L W) as (u & ? & ? & X & Lu & _). rewrite Ev in X. injection X as <- _.
    destruct (run_exact b' it x d' R' L W1) as (u' & ? & ? & X & Lu' & _). rewrite Ev' in X. injection X as <- _. rewrite En in Lu'.
    apply (st_of_inj (bn b)); [exact Lu|exact Lu'|]. rewrite S1, S2, C. reflexivity.
Qed.
Lemma sides b p1 p2 mid mid' it x ms1 ms2 ml ml' : starts (bn b) it x -> fine (bn b) p1 -> fine (bn b) p2 -> fine (bn b) mid -> fine (bn b) mid' ->
  possible p1 ms1 -> possible p2 ms2 -> possible mid ml -> possible mid' ml' ->
  (forall psi, vec (bn b) psi -> branch mid ml psi = branch mid' ml' psi) ->
  same_result it (with_entries b (p1 ++ mid ++ p2)) (ms1 ++ ml ++ ms2) (with_entries b (p1 ++ mid' ++ p2)) (ms1 ++ ml' ++ ms2).
Proof.
  intros (R & L) (W1 & U1 & G1) (W2 & U2 & G2) (W3 & U3 & G3) (W4 & U4 & G4) H1 H2 H3 H4 E.
  apply (same_branch _ it x); cbn [with_entries bn pipeline]; try assumption; try reflexivity; repeat (apply Forall_app; split); try assumption.
  1,2: rewrite !measured_app; repeat apply Forall2_app; assumption.
  rewrite !branch_app by (symmetry; eapply Forall2_length'; eassumption). f_equal. apply E. apply branch_vec; auto. apply vec_ket.
Qed.
Lemma fine_measures n rs : Forall (fun r => NoDup r /\ in_range n r) rs -> fine n (map measure_of rs).
Proof.
  induction 1 as [|r rs (N & R) _ (W & U & G)]; [repeat split; constructor|]. repeat split; cbn [map]; constructor; try assumption; try exact I. split; [exact N|]. split; [exact R|exact I].
Qed.
Lemma testbit_mod a k j : Nat.testbit (a mod 2 ^ k) j = (j <? k) && Nat.testbit a j.
Proof. destruct (Nat.ltb_spec j k); [apply Nat.mod_pow2_bits_low|apply Nat.mod_pow2_bits_high]; assumption. Qed.
Lemma shows_app ra rb m x : shows (ra ++ rb) m x = shows ra (m mod 2 ^ length ra) x && shows rb (m / 2 ^ length ra) x.
Proof.
  unfold shows. rewrite app_length, seq_app, forallb_app. f_equal.
  - apply forallb_ext_in. intros j Hj. apply in_seq in Hj. rewrite app_nth1 by lia. rewrite testbit_mod, (proj2 (Nat.ltb_lt j _)) by lia. reflexivity.
  - replace (0 + length ra) with (length ra + 0) by lia. rewrite seq_shift_add, forallb_map. apply forallb_ext_in. intros j Hj. rewrite app_nth2_plus, Nat.div_pow2_bits, (Nat.add_comm j). reflexivity.
Qed.

(** *** C106: measuring two registers one after the other is measuring their merged register. *)
Theorem C106_apart : forall b p1 p2 ra rb it x ms1 ms2 m, starts (bn b) it x -> fine (bn b) p1 -> fine (bn b) p2 ->
  NoDup (ra ++ rb) -> in_range (bn b) (ra ++ rb) -> possible p1 ms1 -> possible p2 ms2 -> m < 2 ^ length (ra ++ rb) ->
  same_result it (with_entries b (p1 ++ [measure_of (ra ++ rb)] ++ p2)) (ms1 ++ [m] ++ ms2)
    (with_entries b (p1 ++ [measure_of ra; measure_of rb] ++ p2)) (ms1 ++ [m mod 2 ^ length ra; m / 2 ^ length ra] ++ ms2).
Proof.
  intros b p1 p2 ra rb it x ms1 ms2 m S F1 F2 N R P1 P2 Hm. assert (N' := proj1 (NoDup_app_iff _ _) N).
  apply (sides b p1 p2 _ _ it x); try assumption.
  - apply (fine_measures _ [ra ++ rb]). repeat constructor; assumption.
  - apply (fine_measures _ [ra; rb]). repeat constructor; try apply N'; intros q Hq; apply R, in_or_app; auto.
  - repeat constructor. exact Hm.
  - rewrite app_length, Nat.pow_add_r in Hm. repeat constructor; [apply Nat.mod_upper_bound, Nat.pow_nonzero; lia|apply Nat.div_lt_upper_bound; [apply Nat.pow_nonzero; lia|exact Hm]].
  - intros psi _. cbn [branch measure_of co_obj]. extensionality y. unfold proj. rewrite shows_app. destruct (shows ra _ y), (shows rb _ y); reflexivity.
Qed.
Print Assumptions C106_apart.
(** Measuring the qubits of a register in another order gives the bits in that order. *)
Theorem C106_rearranged : forall b p1 p2 r r' it x ms1 ms2 m m', starts (bn b) it x -> fine (bn b) p1 -> fine (bn b) p2 ->
  NoDup r -> in_range (bn b) r -> Permutation r r' -> possible p1 ms1 -> possible p2 ms2 -> m < 2 ^ length r -> m' < 2 ^ length r' ->
  (forall j j', j < length r -> j' < length r' -> nth j r 0 = nth j' r' 0 -> Nat.testbit m j = Nat.testbit m' j') ->
  same_result it (with_entries b (p1 ++ [measure_of r] ++ p2)) (ms1 ++ [m] ++ ms2) (with_entries b (p1 ++ [measure_of r'] ++ p2)) (ms1 ++ [m'] ++ ms2).
Proof.
  intros b p1 p2 r r' it x ms1 ms2 m m' S F1 F2 N R P P1 P2 Hm Hm' B. apply (sides b p1 p2 _ _ it x); try assumption.
  - apply (fine_measures _ [r]). repeat constructor; assumption.
  - apply (fine_measures _ [r']). repeat constructor; [eapply Permutation_NoDup; eassumption|]. intros q Hq. apply R. eapply Permutation_in; [symmetry; exact P|exact Hq].
  - repeat constructor. exact Hm.
  - repeat constructor. exact Hm'.
  - intros psi _. cbn [branch measure_of co_obj]. extensionality y. unfold proj.
    assert (A : forall r r' m m', Permutation r r' -> (forall j j', j < length r -> j' < length r' -> nth j r 0 = nth j' r' 0 -> Nat.testbit m j = Nat.testbit m' j') -> shows r m y = true -> shows r' m' y = true).
    { clear. intros r r' m m' P B H. unfold shows in *. rewrite forallb_forall in *. intros j' Hj'. apply in_seq in Hj'.
      assert (I : In (nth j' r' 0) r) by (eapply Permutation_in; [symmetry; exact P|apply nth_In; lia]). apply (In_nth _ _ 0) in I. destruct I as (j & Hj & E).
      rewrite <- E, <- (B j j') by (try exact E; lia). apply H, in_seq. lia. }
    destruct (shows r m y) eqn:E1, (shows r' m' y) eqn:E2; try reflexivity; exfalso.
    + rewrite (A r r' m m' P B E1) in E2. discriminate.
    + rewrite (A r' r m' m (Permutation_sym P)) in E1; [discriminate| |exact E2]. intros j' j Hj' Hj E. symmetry. apply B; auto.
Qed.
Print Assumptions C106_rearranged.
(** Two measurements next to each other may be exchanged, even on shared qubits. *)
Theorem C106_exchanged : forall b p1 p2 ra rb it x ms1 ms2 ma mb, starts (bn b) it x -> fine (bn b) p1 -> fine (bn b) p2 ->
  NoDup ra -> in_range (bn b) ra -> NoDup rb -> in_range (bn b) rb -> possible p1 ms1 -> possible p2 ms2 -> ma < 2 ^ length ra -> mb < 2 ^ length rb ->
  same_result it (with_entries b (p1 ++ [measure_of ra; measure_of rb] ++ p2)) (ms1 ++ [ma; mb] ++ ms2)
    (with_entries b (p1 ++ [measure_of rb; measure_of ra] ++ p2)) (ms1 ++ [mb; ma] ++ ms2).
Proof.
  intros b p1 p2 ra rb it x ms1 ms2 ma mb S F1 F2 Na Ra Nb Rb P1 P2 Ha Hb. apply (sides b p1 p2 _ _ it x); try assumption.
  - apply (fine_measures _ [ra; rb]). repeat constructor; assumption.
  - apply (fine_measures _ [rb; ra]). repeat constructor; assumption.
  - repeat constructor; assumption.
  - repeat constructor; assumption.
  - intros psi _. cbn [branch measure_of co_obj]. extensionality y. unfold proj. destruct (shows ra ma y), (shows rb mb y); reflexivity.
Qed.
Print Assumptions C106_exchanged.
(** An initial value for a merged register is initial values for its parts. *)
Theorem C106_initial : forall b it1 it2 ra rb v x draws, starts (bn b) (it1 ++ (ra ++ rb, v) :: it2) x -> Forall (wf_entry (bn b)) (pipeline b) ->
  calculate_state_with_init b (it1 ++ (ra ++ rb, v) :: it2) draws =
  calculate_state_with_init b (it1 ++ (ra, v mod 2 ^ length ra) :: (rb, v / 2 ^ length ra) :: it2) draws.
Proof.
  intros b it1 it2 ra rb v x draws (R & L) W.
  assert (R' : forall r v', In (r, v') (it1 ++ (ra, v mod 2 ^ length ra) :: (rb, v / 2 ^ length ra) :: it2) -> in_range (bn b) r).
  { intros r v' H q Hq. apply in_app_iff in H. destruct H as [H|[E|[E|H]]].
    - apply (R r v'); [apply in_or_app; left; exact H|exact Hq].
    - injection E as <- _. apply (R (ra ++ rb) v); [apply in_or_app; right; left; reflexivity|apply in_or_app; left; exact Hq].
    - injection E as <- _. apply (R (ra ++ rb) v); [apply in_or_app; right; left; reflexivity|apply in_or_app; right; exact Hq].
    - apply (R r v'); [apply in_or_app; right; right; exact H|exact Hq]. }
  assert (L' : loads (it1 ++ (ra, v mod 2 ^ length ra) :: (rb, v / 2 ^ length ra) :: it2) x).
  { destruct L as (L1 & L2). split.
    - intros r v' H j Hj. apply in_app_iff in H. destruct H as [H|[E|[E|H]]].
      + apply (L1 r v'); [apply in_or_app; left; exact H|exact Hj].
      + injection E as <- <-. rewrite testbit_mod, (proj2 (Nat.ltb_lt _ _) Hj). cbn [andb]. rewrite <- (L1 (ra ++ rb) v) by (first [apply in_or_app; right; left; reflexivity|rewrite app_length; lia]). rewrite app_nth1 by exact Hj. reflexivity.
      + injection E as <- <-. rewrite Nat.div_pow2_bits, Nat.add_comm, <- (L1 (ra ++ rb) v) by (first [apply in_or_app; right; left; reflexivity|rewrite app_length; lia]). rewrite app_nth2_plus. reflexivity.
      + apply (L1 r v'); [apply in_or_app; right; right; exact H|exact Hj].
    - intros q Hq. apply L2. intros r v' H X. apply in_app_iff in H. destruct H as [H|[E|H]].
      + apply (Hq r v'); [apply in_or_app; left; exact H|exact X].
      + injection E as <- <-. apply in_app_iff in X. destruct X as [X|X]; [apply (Hq ra (v mod 2 ^ length ra))|apply (Hq rb (v / 2 ^ length ra))]; try exact X; apply in_or_app; right; [left|right; left]; reflexivity.
      + apply (Hq r v'); [apply in_or_app; right; right; right; exact H|exact X]. }
  destruct (run_exact b _ x draws R L W) as (u & o & l & E & Lu & H). destruct (run_exact b _ x draws R' L' W) as (u' & o' & l' & E' & Lu' & H').
  pose proof (steps_det _ _ _ _ _ H _ H') as D. injection D as D1 _ D2. rewrite E, E'. subst o'. rewrite (st_of_inj (bn b) u u' Lu Lu' D1). reflexivity.
Qed.
Print Assumptions C106_initial.
(** A Bell pair measured as one register of two qubits or qubit by qubit, in either order. *)
Definition pair_entries : pipe := [([0], mkCO 1 (OUnit UH)); ([0; 1], mkCO 2 (OUnit UCNOT))].
Lemma pair_fine : fine 2 pair_entries.
Proof.
  unfold pair_entries. split; [|split; repeat constructor]. unfold wf_entry.
  repeat apply Forall_cons; try apply Forall_nil; cbn; (split; [repeat constructor; cbn; intuition lia|split; [intuition lia|exact I || reflexivity]]).
Qed.
Lemma starts_zero n : starts n [] (fun _ => false).
Proof. split; [intros r v []|]. split; [intros r v []|reflexivity]. Qed.
Example C106_witness : let b := mkB [] 2 [] 0 in
  same_result [] (with_entries b (pair_entries ++ [measure_of [0; 1]])) [3] (with_entries b (pair_entries ++ [measure_of [0]; measure_of [1]])) [1; 1] /\
  same_result [] (with_entries b (pair_entries ++ [measure_of [0; 1]])) [1] (with_entries b (pair_entries ++ [measure_of [1; 0]])) [2].
Proof.
  intros b. assert (F0 : fine 2 []) by (repeat split; constructor). assert (N : NoDup [0; 1]) by (repeat constructor; cbn; intuition lia). assert (R : in_range 2 [0; 1]) by (intros q [<-|[<-|[]]]; lia). split.
  - apply (C106_apart b pair_entries [] [0] [1] [] (fun _ => false) [] [] 3); try assumption; try exact pair_fine; try apply starts_zero; try (repeat constructor); cbn; lia.
  - apply (C106_rearranged b pair_entries [] [0; 1] [1; 0] [] (fun _ => false) [] [] 1 2); try assumption; try exact pair_fine; try apply starts_zero; try (repeat constructor); try (cbn; lia).
    intros j j' Hj Hj' E. cbn in Hj, Hj'. destruct j as [|[|j]], j' as [|[|j']]; cbn in E; try lia; reflexivity.
Qed.

(** *** C107: a measurement may be put off past gates that do not change the value of its qubits. *)
Lemma proj_sumof {A} qs m (c : A -> C) f l : proj qs m (sumof c f l) = sumof c (fun a => proj qs m (f a)) l.
Proof.
  extensionality y. unfold proj, sumof. destruct (shows qs m y); [reflexivity|]. symmetry. apply (big_zero CN CN_laws). intros a _. cbn. ring.
Qed.
Lemma steady_proj n qs p m psi : in_range n qs -> steady n qs p -> vec n psi -> den p (proj qs m psi) = proj qs m (den p psi).
Proof.
  intros R St (v & Lv & ->). rewrite (st_of_sum n v Lv), proj_sumof, !den_sumof, proj_sumof. unfold sumof. extensionality y. apply big_ext. intros k _. f_equal.
  set (z := dec n k). unfold proj at 2.
  destruct (existsb (fun q => xorb (z q) (y q)) qs) eqn:E.
  - apply existsb_exists in E. destruct E as (q & Hq & E). assert (E' : z q <> y q) by (destruct (z q), (y q); cbn in E; congruence). rewrite (St z y q Hq E').
    transitivity (RtoC 0); [|destruct (shows qs m y); reflexivity]. unfold proj.
    destruct (shows qs m z) eqn:Sz.
    + replace (fun x => if shows qs m x then ket n z x else RtoC 0) with (ket n z); [apply (St z y q Hq E')|]. extensionality x. destruct (shows qs m x) eqn:Sx; [reflexivity|]. unfold ket. destruct (Nat.eqb_spec (enc n z) (enc n x)) as [X|X]; [|reflexivity].
      exfalso. rewrite (shows_ext qs m x z) in Sx; [congruence|]. intros q' Hq'. symmetry. apply (enc_inj n z x X). apply R. exact Hq'.
    + replace (fun x => if shows qs m x then ket n z x else RtoC 0) with zero; [rewrite den_zero; reflexivity|]. extensionality x. destruct (shows qs m x) eqn:Sx; [|reflexivity]. unfold ket. destruct (Nat.eqb_spec (enc n z) (enc n x)) as [X|X]; [|reflexivity].
      exfalso. rewrite (shows_ext qs m x z) in Sx; [congruence|]. intros q' Hq'. symmetry. apply (enc_inj n z x X). apply R. exact Hq'.
  - assert (A : forall q, In q qs -> z q = y q). { intros q Hq. destruct (xorb (z q) (y q)) eqn:X; [|destruct (z q), (y q); cbn in X; congruence]. assert (existsb (fun q => xorb (z q) (y q)) qs = true) by (apply existsb_exists; eauto). congruence. }
    rewrite <- (shows_ext qs m z y A). unfold proj. destruct (shows qs m z) eqn:Sz.
    + f_equal. extensionality x. destruct (shows qs m x) eqn:Sx; [reflexivity|]. unfold ket. destruct (Nat.eqb_spec (enc n z) (enc n x)) as [X|X]; [|reflexivity].
      exfalso. rewrite (shows_ext qs m x z) in Sx; [congruence|]. intros q' Hq'. symmetry. apply (enc_inj n z x X). apply R. exact Hq'.
    + replace (fun x => if shows qs m x then ket n z x else RtoC 0) with zero; [rewrite den_zero; reflexivity|]. extensionality x. destruct (shows qs m x) eqn:Sx; [|reflexivity]. unfold ket. destruct (Nat.eqb_spec (enc n z) (enc n x)) as [X|X]; [|reflexivity].
      exfalso. rewrite (shows_ext qs m x z) in Sx; [congruence|]. intros q' Hq'. symmetry. apply (enc_inj n z x X). apply R. exact Hq'.
Qed.
Theorem C107_put_off : forall b p1 mid p2 qs it x ms1 ms2 m, starts (bn b) it x -> fine (bn b) p1 -> fine (bn b) mid -> fine (bn b) p2 -> Forall plain_entry mid ->
  steady (bn b) qs mid -> NoDup qs -> in_range (bn b) qs -> possible p1 ms1 -> possible p2 ms2 -> m < 2 ^ length qs ->
  same_result it (with_entries b (p1 ++ (measure_of qs :: mid) ++ p2)) (ms1 ++ [m] ++ ms2) (with_entries b (p1 ++ (mid ++ [measure_of qs]) ++ p2)) (ms1 ++ [m] ++ ms2).
Proof.
  intros b p1 mid p2 qs it x ms1 ms2 m S F1 F F2 P St N R P1 P2 Hm. destruct (fine_measures (bn b) [qs]) as (Wm & Um & Gm); [repeat constructor; assumption|]. destruct F as (Wd & Ud & Gd).
  assert (M : measured mid = []). { clear - P. induction P as [|[q [k [u|o]]] p X _ IH]; [reflexivity|exact IH|destruct X]. }
  apply (sides b p1 p2 _ _ it x); try assumption.
  - repeat split; (apply (Forall_app _ [measure_of qs])); split; assumption.
  - repeat split; apply Forall_app; split; assumption.
  - unfold possible. cbn [measured measure_of co_obj]. rewrite M. repeat constructor. exact Hm.
  - unfold possible. rewrite measured_app, M. repeat constructor. exact Hm.
  - intros psi V. change [m] with ([] ++ [m]) at 2. rewrite branch_app by (rewrite M; reflexivity). cbn [branch measure_of co_obj]. rewrite !plain_branch by exact P. apply (steady_proj (bn b)); assumption.
Qed.
Print Assumptions C107_put_off.
(** Gates that have these qubits as controls, diagonal gates and gates elsewhere are such gates. *)
Lemma on1_diagonal a b q psi x : on1 (diag a b) q psi x = Cmult (if x q then b else a) (psi x).
Proof.
  pose proof (upd_id x q) as U. unfold on1, diag. destruct (x q); cbn [eqb]; rewrite U; ring.
Qed.
Theorem C107_controls : forall n qs p, Forall (wf_entry n) p -> in_range n qs -> Forall (fun e => forall q, In q qs -> only_reads q e) p -> steady n qs p.
Proof.
  intros n qs p W R H x y q Hq Hxy.
  assert (G : forall psi, (forall z, z q <> x q -> psi z = RtoC 0) -> forall z, z q <> x q -> den p psi z = RtoC 0).
  { revert W. induction H as [|e p He _ IH]; intros W psi Z z Hz; [apply Z; exact Hz|]. inversion W as [|? ? We Wp]; subst. rewrite den_cons. apply IH; [exact Wp| |exact Hz]. clear z Hz IH. intros z Hz.
    destruct (He q Hq) as [Ho|Ho].
    - pose proof (within_oden e psi zero z) as X. rewrite X; [rewrite oden_zero; reflexivity|]. intros w Hw. apply Z. rewrite (Hw q Ho). exact Hz.
    - destruct e as [rs [k [u|o]]]; cbn [fst snd co_obj] in *; [|destruct Ho]. unfold oden. cbn [co_obj]. destruct We as (Nr & _ & We). cbn [fst snd co_obj] in We, Nr.
      destruct u; try (destruct Ho; fail); cbn [wf_unitary] in We.
      4: { destruct rs as [|c [|t [|? ?]]]; try discriminate. cbn in Ho. subst c. cbn [uden]. unfold ctl_not, cflip. apply Z. destruct (forallb z [q]); [|exact Hz]. unfold flip. rewrite upd_other; [exact Hz|]. inversion Nr as [|? ? Hn _]; subst. intros ->. apply Hn. left. reflexivity. }
      all: destruct rs as [|r [|? ?]]; try discriminate; cbn [uden]; unfold mZ, mS, mT, mRz; rewrite on1_diagonal, Z by exact Hz; ring. }
  apply G; [|congruence]. intros z Hz. unfold ket. destruct (Nat.eqb_spec (enc n x) (enc n z)) as [E|E]; [|reflexivity]. exfalso. apply Hz. symmetry. apply (enc_inj n x z E q). apply R. exact Hq.
Qed.
Print Assumptions C107_controls.
(** The control of a controlled not measured before it or after it; not so its target. *)
Example C107_witness : let b := mkB [] 2 [] 0 in
  same_result [] (with_entries b ([([0], mkCO 1 (OUnit UH))] ++ (measure_of [0] :: [([0; 1], mkCO 2 (OUnit UCNOT))]) ++ [measure_of [1]])) [1; 1]
    (with_entries b ([([0], mkCO 1 (OUnit UH))] ++ ([([0; 1], mkCO 2 (OUnit UCNOT))] ++ [measure_of [0]]) ++ [measure_of [1]])) [1; 1] /\
  ~ steady 2 [1] [([0; 1], mkCO 2 (OUnit UCNOT))].
Proof.
  intros b. destruct pair_fine as (W & U & G). inversion W as [|? ? W1 W2]; subst. split.
  - apply (C107_put_off b [([0], mkCO 1 (OUnit UH))] [([0; 1], mkCO 2 (OUnit UCNOT))] [measure_of [1]] [0] [] (fun _ => false) [] [1] 1); try apply starts_zero.
    + split; [constructor; [exact W1|constructor]|split; repeat constructor].
    + split; [exact W2|split; repeat constructor].
    + apply (fine_measures 2 [[1]]). constructor; [|constructor]. split; [repeat constructor; cbn; tauto|intros q [<-|[]]; lia].
    + repeat constructor.
    + apply C107_controls; [exact W2|intros q [<-|[]]; cbn; lia|]. constructor; [|constructor]. intros q [<-|[]]. right. reflexivity.
    + repeat constructor; cbn; tauto.
    + intros q [<-|[]]. cbn. lia.
    + constructor.
    + repeat constructor.
    + cbn. lia.
  - intros H. specialize (H (fun q => q =? 0) (fun _ => true) 1 (or_introl eq_refl) ltac:(discriminate)). unfold den in H. cbn in H. unfold ctl_not, cflip, ket in H. cbn in H. injection H as H. lra.
Qed.
