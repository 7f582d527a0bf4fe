(** From builder calls to measured results: C86, and the programs of the documentation. *)
From Coq Require Import Reals Lra.
From Coquelicot Require Import Complex.
From Verif Require Import Base BitsSpec BitsProofs OpsSpec Instances MeasureSpec BuilderModel RegProofs SimModel DenSpec DenProofs SimSpec SimProofs SimProofs2 RunSpec RunProofs LinkProofs ProjSpec WholeSpec WholeProofs PropGates
  EndSpec EndProofs ProgramModel ExampleModel EndProofs2 EndProofs4.
Local Open Scope nat_scope.
Local Open Scope mon_scope.

(** *** C86 *)
Theorem C86_measured_calls : forall A s L (m : M A) a L' D (f : A -> reg) it x, does s L m a L' D ->
  (forall r v, In (r, v) it -> in_range (bn (bld s)) r) -> loads it x ->
  Forall (wf_entry (bn (bld s))) (pipeline (bld s)) -> Forall plain_entry (pipeline (bld s)) -> Forall unitary_entry (pipeline (bld s)) ->
  (forall n q, idle s q -> q < n -> clean [q] (den (pipeline (bld s)) (ket n x))) -> NoDup (f a) -> incl (f a) L' ->
  exists s', then_measure m f s = Ret (a, meas (bld s)) s' /\ bn (bld s) <= bn (bld s') /\
  let n := bn (bld s') in let psi := D (den (pipeline (bld s)) (ket n x)) in
  (forall k, k < 2 ^ length (f a) -> over_draws 1 (fun d => gives (calculate_state_with_init (bld s') it d) [k]) (prob_of n (f a) k psi)) /\
  (forall draws, (forall j, (0 < draws j <= 1)%R) -> exists v k, k < 2 ^ length (f a) /\
    calculate_state_with_init (bld s') it draws = Ok (v, [RSingle k (prob_of n (f a) k psi)]) /\ (0 < prob_of n (f a) k psi)%R /\
    st_of CN n v = post n (f a) k psi).
Proof. intros A s L m a L' D f it x. exact (measured_end s L m a L' D f it x). Qed.
Print Assumptions C86_measured_calls.
(** A stochastic measurement at the end reports all probabilities. *)
Theorem C86_stochastic_calls : forall A s L (m : M A) a L' D (f : A -> reg) it x, does s L m a L' D ->
  (forall r v, In (r, v) it -> in_range (bn (bld s)) r) -> loads it x ->
  Forall (wf_entry (bn (bld s))) (pipeline (bld s)) -> Forall plain_entry (pipeline (bld s)) ->
  (forall n q, idle s q -> q < n -> clean [q] (den (pipeline (bld s)) (ket n x))) -> NoDup (f a) -> incl (f a) L' ->
  exists s', then_stochastic m f s = Ret (a, meas (bld s)) s' /\ bn (bld s) <= bn (bld s') /\
  let n := bn (bld s') in let psi := D (den (pipeline (bld s)) (ket n x)) in
  forall draws, exists v, calculate_state_with_init (bld s') it draws = Ok (v, [RStochastic (map (fun k => prob_of n (f a) k psi) (seq 0 (2 ^ length (f a))))]).
Proof. intros A s L m a L' D f it x. exact (stochastic_end s L m a L' D f it x). Qed.
Print Assumptions C86_stochastic_calls.
(** h on a register of two, measured. *)
Example C86_example : does (fresh 2) [0; 1] (g_h (aco 0) [0; 1]) [0; 1] [0; 1] (each mH [0; 1]) /\
  (forall n q, idle (fresh 2) q -> q < n -> clean [q] (den (pipeline (bld (fresh 2))) (ket n (fun _ => false)))).
Proof.
  split.
  - apply C40_gates; [apply fresh_tidy|apply fresh_live|apply incl_refl| |discriminate]; try (repeat constructor; cbn; intuition lia). intros q. cbn. intuition lia.
  - intros n q _ Hq. apply ket_clean; [exact Hq|reflexivity].
Qed.

(** *** C87: the CSWAP example compares the registers *)
Theorem C87_cswap : forall n a b, 0 < n -> exists q ra rb h s, cswap_doc n (mkSt empty_builder []) = Ret (q, ra, rb, h) s /\ length ra = n /\ length rb = n /\
  let run := calculate_state_with_init (bld s) [(ra, a); (rb, b)] in
  let equal := a mod 2 ^ n = b mod 2 ^ n in
  (forall draws, (forall j, (0 < draws j <= 1)%R) -> exists v ms k p, run draws = Ok (v, ms) /\ get_measurement ms h = Ok (k, p) /\
    (equal -> k = 0 /\ p = 1%R) /\ (~ equal -> k < 2 /\ p = (/ 2)%R)) /\
  (~ equal -> over_draws 1 (fun d => gives (run d) [0]) (/ 2) /\ over_draws 1 (fun d => gives (run d) [1]) (/ 2)).
Proof.
  intros n a b Hn. set (ra := seq 1 n). set (rb := seq (1 + n) n). set (N := 1 + n + n).
  assert (Lra : length ra = n) by apply seq_length. assert (Lrb : length rb = n) by apply seq_length.
  assert (E0 : 0 :: ra ++ rb = seq 0 N).
  { unfold ra, rb, N. change (1 + n + n) with (1 + (n + n)). rewrite seq_app. cbn [seq app]. f_equal. rewrite seq_app. reflexivity. }
  assert (Nd : NoDup (0 :: ra ++ rb)) by (rewrite E0; apply seq_NoDup). assert (Rg : in_range N (0 :: ra ++ rb)) by (rewrite E0; intros q Hq; apply in_seq in Hq; lia).
  assert (Rab : in_range N (ra ++ rb)) by (intros q Hq; apply Rg; right; exact Hq).
  assert (T : tidy (fresh N)) by apply fresh_tidy. assert (Lv : live (fresh N) (0 :: ra ++ rb)) by (apply fresh_live; assumption).
  assert (Dd : does (fresh N) (0 :: ra ++ rb) (cswap_calls [0] ra rb) ([0], ra, rb) (0 :: ra ++ rb) (swap_test 0 ra rb)).
  { apply cswap_does; [reflexivity|exact T|exact Lv|congruence|]. unfold ra. destruct n; [lia|discriminate]. }
  set (it := [(ra, a); (rb, b)]). set (x := loaded it).
  assert (Lo : loads it x) by (apply loads_loaded; cbn; rewrite app_nil_r; inversion Nd; assumption).
  assert (R : forall r v, In (r, v) it -> in_range N r).
  { intros r v [X|[X|[]]]; injection X as Xr _; rewrite <- Xr; intros q Hq; apply Rab, in_app_iff; auto. }
  assert (X0 : x 0 = false).
  { apply (proj2 Lo). intros r v [X|[X|[]]]; injection X as Xr _; rewrite <- Xr; intros Hq; apply in_seq in Hq; lia. }
  assert (Xb : forall r v, In (r, v) it -> length r = n -> map x r = map (Nat.testbit v) (seq 0 n)).
  { intros r v Hin Hl. apply nth_ext with (d := x 0) (d' := Nat.testbit v 0); [rewrite !map_length, seq_length; exact Hl|]. intros j Hj. rewrite map_length in Hj. rewrite !map_nth, seq_nth by lia.
    apply (proj1 Lo r v Hin j Hj). }
  assert (Eq : map x ra = map x rb <-> a mod 2 ^ n = b mod 2 ^ n).
  { rewrite (Xb ra a), (Xb rb b) by (cbn; auto). split.
    - intros H. apply Nat.bits_inj. intros j. destruct (Nat.lt_ge_cases j n) as [Hj|Hj].
      + rewrite !Nat.mod_pow2_bits_low by exact Hj. pose proof (f_equal (fun l => nth j l (Nat.testbit 0 0)) H) as F. cbv beta in F.
        rewrite (nth_indep _ _ (Nat.testbit a 0)), map_nth, seq_nth in F by (rewrite ?map_length, ?seq_length; exact Hj).
        rewrite (nth_indep _ _ (Nat.testbit b 0)), map_nth, seq_nth in F by (rewrite ?map_length, ?seq_length; exact Hj). exact F.
      + rewrite !Nat.mod_pow2_bits_high by exact Hj. reflexivity.
    - intros H. apply map_ext_in. intros j Hj. apply in_seq in Hj. rewrite <- (Nat.mod_pow2_bits_low a n j), <- (Nat.mod_pow2_bits_low b n j) by lia. rewrite H. reflexivity. }
  destruct (C86_measured_calls _ (fresh N) _ _ _ _ _ (fun y => fst (fst y)) it x Dd R Lo) as (s & Es & Hb & H1 & H2); try (constructor; fail).
  { intros k q [Hq|[]] Hlt. cbn. apply ket_clean; [exact Hlt|]. apply (proj2 Lo). intros r v Hin X. specialize (R r v Hin q X). cbn in Hq. lia. }
  { cbn. repeat constructor. intros []. }
  { cbn. intros q [<-|[]]. left. reflexivity. }
  cbn [fst length] in *. cbn [fresh bld bn meas] in Hb, Es.
  assert (P : forall k, k < 2 -> prob_of (bn (bld s)) [0] k (swap_test 0 ra rb (den (pipeline (bld (fresh N))) (ket (bn (bld s)) x))) =
    (if list_eq_dec Bool.bool_dec (map x ra) (map x rb) then if is1 k then 0 else 1 else / 2)%R).
  { intros k Hk. cbn [fresh bld pipeline den fold_left]. apply swap_test_prob; auto; [lia| |congruence]. intros q Hq. specialize (Rab q Hq). lia. }
  exists [0], ra, rb, 0, s. split.
  { unfold cswap_doc. unfold then_measure in Es. unfold mbind in *.
    assert (Q : qubit (mkSt empty_builder []) = Ret [0] (mkSt (mkB [] 1 [] 0) [])) by reflexivity. rewrite Q. clear Q.
    assert (Q : forall k, register n (mkSt (mkB [] k [] 0) []) = Ret (seq k n) (mkSt (mkB [] (k + n) [] 0) [])) by (intros k; unfold register; destruct n; [lia|reflexivity]).
    rewrite !Q. fold ra rb. change (mkSt (mkB [] (1 + n + n) [] 0) []) with (fresh N). change (mkSt (mkB [] N [] 0) []) with (fresh N) in Es.
    destruct (cswap_calls [0] ra rb (fresh N)) as [[[q1 ra1] rb1] s1| |]; try discriminate. cbn [fst] in *. destruct (measure_single q1 s1) as [[q2 h] s2| |] eqn:Em; try discriminate. cbn in Em, Es |- *.
    injection Em as E1 E2 E3. injection Es as F1 F2 F3 F4 F5. rewrite <- E1, <- E2, <- F5, F1, F2, F3, F4 in *. reflexivity. }
  split; [exact Lra|]. split; [exact Lrb|]. cbv zeta. fold it. split.
  - intros draws Dp. destruct (H2 draws Dp) as (v & k & Hk & Er & Hp & _). change (2 ^ 1) with 2 in Hk. exists v. eexists. exists k. eexists. split; [exact Er|]. split; [reflexivity|]. rewrite (P k Hk) in *. destruct (list_eq_dec Bool.bool_dec (map x ra) (map x rb)) as [Em|Nm].
    + split; [intros _|intros Ne; destruct (Ne (proj1 Eq Em))]. destruct k as [|[|k]]; [split; reflexivity|cbn in Hp; lra|lia].
    + split; [intros Ee; destruct (Nm (proj2 Eq Ee))|]. intros _. split; [exact Hk|reflexivity].
  - intros Ne. pose proof (H1 0 ltac:(cbn; lia)) as A0. pose proof (H1 1 ltac:(cbn; lia)) as A1. rewrite P in A0, A1 by lia.
    destruct (list_eq_dec Bool.bool_dec (map x ra) (map x rb)) as [Em|Nm]; [destruct (Ne (proj1 Eq Em))|]. split; assumption.
Qed.
Print Assumptions C87_cswap.
(** As in the documentation: 3 qubits, values 0 and 1. *)
Example C87_example : 0 < 3 /\ 0 mod 2 ^ 3 <> 1 mod 2 ^ 3 /\ 5 mod 2 ^ 3 = 13 mod 2 ^ 3.
Proof. cbn. repeat split; lia. Qed.
