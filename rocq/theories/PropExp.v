(** Modular exponentiation: C74. *)
From Coq Require Import Reals Lra FunctionalExtensionality Permutation.
From Coquelicot Require Import Complex.
From Verif Require Import Base BitsSpec BitsProofs OpsModel OpsSpec Instances BuilderModel RegProofs DenSpec DenProofs LocalProofs
  RunSpec RunProofs GateProofs ToffoliProofs CondProofs SubSpec SubProofs SubProofs2 SubProofs3 ProgramModel ProgramSpec ProgramProofs ProgramProofs2 CircProofs CircProofs2
  ArithModel ArithSpec ArithProofs ArithProofs2 ArithProofs3 ArithProofs4 LinkProofs SimModel SimSpec SimProofs ArithProofs5 ArithProofs6 ArithProofs7 ArithProofs8 WeakProofs TraceProofs ArithProofs9 ArithProofs10 ArithProofs11 ArithProofs12
  ArithProofs14 ArithProofs16 ArithProofs17 ArithProofs18 TimesSpec.
Local Open Scope nat_scope.
Local Open Scope mon_scope.
Local Ltac nd := repeat constructor; cbn; intuition lia.

(** *** C74: exp_mod *)
(** [f] on the registers [rs] succeeds, gives them back and leaves the builder in order. *)
Definition in_order (d : nat) (f : nat -> list reg -> M (list reg)) (rs : list reg) (s : st) : Prop :=
  exists s' p, f d rs s = Ret rs s' /\ conds s' = conds s /\ meas (bld s') = meas (bld s) /\ tidy s' /\ live s' (cqs d (conds s) ++ concat rs) /\
    bn (bld s) <= bn (bld s') /\ pipeline (bld s') = pipeline (bld s) ++ p /\ Forall (wf_entry (bn (bld s'))) p /\ Forall proper_entry p.
Lemma in_order_x d f rs Q s : xacts d f rs Q -> at_depth d s -> tidy s -> live s (cqs d (conds s) ++ concat rs) -> in_order d f rs s.
Proof.
  intros X Ad T Lv. destruct (X s Ad T Lv) as (s' & p & E & Ec & Em & Eb & Ep & W & Pr & T' & Lv' & _). exists s', p. tauto.
Qed.
(** For all right sizes, at any depth of conditions, exp_mod succeeds: the recursion ends, every
    register is given back and every temporary qubit is returned. *)
Theorem C74_exp_mod_total : forall d ra rb rm rp re s, length ra = S (length rm) -> length rp = S (length rm) -> length re = S (length rm) -> rm <> [] -> rb <> [] -> at_depth d s -> tidy s ->
  live s (cqs d (conds s) ++ concat [ra; rb; rm; rp; re]) -> in_order d exp_mod [ra; rb; rm; rp; re] s.
Proof.
  intros d ra rb rm rp re s La Lp Le Hm Hb. apply (in_order_x d (fun d rs => exp_mod d rs) _ (fun _ => any)). apply exp_total; try assumption. cbn [nth]. lia.
Qed.
Print Assumptions C74_exp_mod_total.
(** So do the inverses it calls. *)
Theorem C74_inverses_total : forall d ra rb rm rp s, length ra = S (length rm) -> length rp = S (length rm) -> rm <> [] -> at_depth d s -> tidy s ->
  (rb <> [] -> live s (cqs d (conds s) ++ concat [ra; rb; rm; rp]) -> in_order d times_mod_inv [ra; rb; rm; rp] s) /\
  (live s (cqs d (conds s) ++ concat [ra; rm; rp]) -> in_order d square_mod_inv [ra; rm; rp] s).
Proof.
  intros d ra rb rm rp s La Lp Hm Ad T. split.
  - intros Hb Lv. eapply in_order_x; [apply times_inv_total; assumption|assumption|assumption|exact Lv].
  - intros Lv. eapply in_order_x; [apply square_inv_total; assumption|assumption|assumption|exact Lv].
Qed.
Print Assumptions C74_inverses_total.
(** With one exponent qubit, which is 1, ra = 0, rp = 0, rm = 2^(n-1), and all conditions met,
    nothing is to change: the amplitude found is sin (1/2) to the 2 (n+1). *)
Theorem C74_exp_mod_exact : forall d b ra rm rp re s, length ra = S (length rm) -> length rp = S (length rm) -> length re = S (length rm) -> rm <> [] -> at_depth d s -> tidy s ->
  live s (cqs d (conds s) ++ concat [ra; [b]; rm; rp; re]) ->
  exists s' p, exp_mod d [ra; [b]; rm; rp; re] s = Ret [ra; [b]; rm; rp; re] s' /\ bn (bld s) <= bn (bld s') /\ pipeline (bld s') = pipeline (bld s) ++ p /\
    forall psi x, val ra x = 0 -> x b = true -> val rp x = 0 -> val rm x = 2 ^ (length rm - 1) -> (forall q, In q (cqs d (conds s)) -> x q = true) ->
      (forall q, idle s q -> q < bn (bld s') -> x q = false) -> settled (seq 0 (bn (bld s'))) x psi ->
      den p psi x = Cmult (cpow (RtoC (sin (/ 2))) (2 * S (length rm))) (psi x).
Proof.
  intros d b ra rm rp re s La Lp Le Hm Ad T Lv.
  destruct (exp_one ra [b] rm rp re La Lp Le Hm ltac:(discriminate) 1 d b eq_refl s Ad T Lv) as (s' & p & E & Ec & Em & Eb & Ep & W & Pr & T' & Lv' & _ & Q).
  exists s', p. do 3 (split; [assumption|]). intros psi x Va Xb Vp Vm Kx Z Se.
  assert (Z0 : forall r, val r x = 0 -> zero_in r x).
  { intros r V q Hq. apply (val_inj r x (fun _ => false)); [|exact Hq]. rewrite V. symmetry. apply val_zero. intros p' _. reflexivity. }
  assert (N : NoDup (cqs d (conds s) ++ concat [ra; [b]; rm; rp; re])) by apply Lv.
  apply (exp_amp d b (cqs d (conds s)) ra rm rp re s s' p psi x La Lp Le Hm N Q); auto.
  intros q Hq. destruct Lv' as (_ & X). destruct (Nat.lt_ge_cases q (bn (bld s'))) as [Y|Y]; [exact Y|]. exfalso. apply (X q Hq). left. exact Y.
Qed.
Print Assumptions C74_exp_mod_exact.
(** Through the simulator: exp_mod with one exponent qubit is wrong for all sizes of the rest. *)
Theorem C74_refuted : forall k b ra rm rp re it x draws, length ra = S (length rm) -> length rp = S (length rm) -> length re = S (length rm) -> rm <> [] -> NoDup (concat [ra; [b]; rm; rp; re]) ->
  in_range k (concat [ra; [b]; rm; rp; re]) -> (forall r v, In (r, v) it -> in_range k r) -> loads it x -> val ra x = 0 -> x b = true -> val rp x = 0 -> val re x = 0 -> val rm x = 2 ^ (length rm - 1) ->
  exps_mod ra [b] rm rp re x x /\
  exists s' v, exp_mod 0 [ra; [b]; rm; rp; re] (fresh k) = Ret [ra; [b]; rm; rp; re] s' /\ calculate_state_with_init (bld s') it draws = Ok (v, []) /\
    nth (enc (bn (bld s')) x) v (RtoC 0) = RtoC (sin (/ 2) ^ (2 * S (length rm))) /\ (0 < sin (/ 2) ^ (2 * S (length rm)) < 1)%R.
Proof.
  intros k b ra rm rp re it x draws La Lp Le Hm Nd R Ri Lo Va Xb Vp Ve Vm. split.
  { unfold exps_mod. rewrite Va, Vp, Ve, Vm. assert (P : 0 < 2 ^ (length rm - 1)) by (pose proof (Nat.pow_nonzero 2 (length rm - 1)); lia).
    do 3 (split; [exact P || reflexivity|]). split; [intros q _; reflexivity|]. rewrite Nat.mul_0_l, Nat.mod_0_l by lia. reflexivity. }
  assert (Lv : live (fresh k) (cqs 0 (conds (fresh k)) ++ concat [ra; [b]; rm; rp; re])) by (cbn [cqs app]; apply fresh_live; assumption).
  destruct (C74_exp_mod_total 0 ra [b] rm rp re (fresh k) La Lp Le Hm ltac:(discriminate) (fresh_depth k) (fresh_tidy k) Lv) as (s' & p & E & _ & _ & _ & _ & Eb & Ep & W & Pr).
  destruct (C74_exp_mod_exact 0 b ra rm rp re (fresh k) La Lp Le Hm (fresh_depth k) (fresh_tidy k) Lv) as (s2 & p2 & E2 & _ & Ep2 & D).
  rewrite E in E2. injection E2 as <-. rewrite Ep in Ep2. cbn [fresh bld pipeline app] in Ep, Ep2. subst p2. cbn [fresh bld bn] in Eb.
  destruct (simulate_ok (bld s') it x draws) as (v & Ev & Lv' & H).
  - intros r w Hin q Hq. specialize (Ri r w Hin q Hq). lia.
  - exact Lo.
  - rewrite Ep. exact W.
  - rewrite Ep. eapply Forall_impl; [|exact Pr]. intros e He. apply He.
  - exists s', v. split; [exact E|]. split; [exact Ev|]. split.
    + change (st_of CN (bn (bld s')) v x = RtoC (sin (/ 2) ^ (2 * S (length rm)))). rewrite H, Ep, (D _ x Va Xb Vp Vm).
      * rewrite ket_eq by reflexivity. assert (P : forall k, cpow (RtoC (sin (/ 2))) k = RtoC (sin (/ 2) ^ k)) by (induction k0 as [|m IH]; [reflexivity|]; cbn [cpow pow]; rewrite IH, <- RtoC_mult; reflexivity).
        rewrite P. ring.
      * intros q [].
      * intros q [Hq|[]] _. apply (proj2 Lo). intros r w Hin X. specialize (Ri r w Hin q X). cbn in Hq. lia.
      * intros z (q & Hq & X). apply in_seq in Hq. apply (ket_ne _ x z q); [lia|congruence].
    + assert (S1 : (0 < sin (/ 2))%R) by (apply sin_gt_0; [lra|]; pose proof PI2_1; lra). assert (S2 : (sin (/ 2) < / 2)%R) by (apply sin_lt_x; lra).
      assert (Q : forall m, (0 < sin (/ 2) ^ S m < 1)%R).
      { induction m as [|m IH]; [cbn [pow]; lra|]. change (sin (/ 2) ^ S (S m))%R with (sin (/ 2) * sin (/ 2) ^ S m)%R. split; nra. }
      replace (2 * S (length rm)) with (S (2 * length rm + 1)) by lia. apply Q.
Qed.
Print Assumptions C74_refuted.
(** Wrong sizes are errors that leave the builder as it is. *)
Theorem C74_sizes : forall d ra rb rm rp re s, ~ (length ra = S (length rm) /\ length rp = S (length rm) /\ length re = S (length rm)) -> exists e, exp_mod d [ra; rb; rm; rp; re] s = Fail e s.
Proof.
  intros d ra rb rm rp re s H. unfold exp_mod. cbn [exp_mod_fuel]. destruct (Nat.eqb_spec (length ra) (length rm + 1)) as [E|E]; cbn [negb]; [|eexists; reflexivity].
  destruct (Nat.eqb_spec (length rp) (length rm + 1)) as [E'|E']; cbn [negb]; [|eexists; reflexivity].
  destruct (Nat.eqb_spec (length re) (length rm + 1)) as [E2|E2]; cbn [negb]; [exfalso; apply H; lia|eexists; reflexivity].
Qed.
Print Assumptions C74_sizes.
(** The hypotheses can be met: 0 * 0 ^ 1 mod 2; and three exponent qubits, which recurs twice. *)
Example C74_example : (exists s', exp_mod 0 [[0; 1; 2]; [3]; [5; 6]; [7; 8; 9]; [10; 11; 12]] (fresh 13) = Ret [[0; 1; 2]; [3]; [5; 6]; [7; 8; 9]; [10; 11; 12]] s') /\
  (let x := fun q => (q =? 3) || (q =? 6) in val [0; 1; 2] x = 0 /\ x 3 = true /\ val [7; 8; 9] x = 0 /\ val [10; 11; 12] x = 0 /\ val [5; 6] x = 2 ^ (length [5; 6] - 1) /\ loads [([5; 6], 2); ([3], 1)] x) /\
  in_order 0 exp_mod [[0; 1]; [2; 3; 4]; [5]; [6; 7]; [8; 9]] (fresh 10) /\ in_order 0 times_mod_inv [[0; 1]; [2; 3; 4]; [5]; [6; 7]] (fresh 8) /\
  exists s e, exp_mod 0 [[0; 1; 2]; [3]; [5; 6]; [7; 8; 9]; [10; 11]] s = Fail e s.
Proof.
  split; [|split; [|split; [|split]]].
  - destruct (C74_exp_mod_total 0 [0; 1; 2] [3] [5; 6] [7; 8; 9] [10; 11; 12] (fresh 13) eq_refl eq_refl eq_refl ltac:(discriminate) ltac:(discriminate) (fresh_depth 13) (fresh_tidy 13)) as (s' & p & E & _).
    + apply (fresh_live 13); [nd|intros q Hq; cbn in Hq; lia].
    + exists s'. exact E.
  - cbv zeta. do 5 (split; [reflexivity|]). split.
    + intros r v [X|[X|[]]] j Hj; injection X as <- <-; [do 2 (destruct j as [|j]; [reflexivity|])|destruct j as [|j]; [reflexivity|]]; cbn in Hj; lia.
    + intros q Hq. apply orb_false_iff. split; apply Nat.eqb_neq; intros ->; [apply (Hq [3] 1); [right; left; reflexivity|left; reflexivity]|apply (Hq [5; 6] 2); [left; reflexivity|right; left; reflexivity]].
  - apply C74_exp_mod_total; try reflexivity; try discriminate; [apply fresh_depth|apply fresh_tidy|apply (live_fresh 10)].
  - apply (C74_inverses_total 0 [0; 1] [2; 3; 4] [5] [6; 7] (fresh 8)); try reflexivity; try discriminate; [apply fresh_depth|apply fresh_tidy|apply (live_fresh 8)].
  - exists (fresh 13). apply C74_sizes. intros (_ & _ & X). discriminate.
Qed.
