(** Modular squaring: C72. *)
From Coq Require Import Reals Lra FunctionalExtensionality Permutation.
From Coquelicot Require Import Complex.
From Verif Require Import Base BitsSpec BitsProofs OpsModel OpsSpec Instances BuilderModel RegProofs DenSpec DenProofs LocalProofs
  RunSpec RunProofs GateProofs ToffoliProofs CondProofs SubSpec SubProofs SubProofs2 SubProofs3 ProgramModel ProgramSpec ProgramProofs ProgramProofs2 CircProofs CircProofs2
  ArithModel ArithSpec ArithProofs ArithProofs2 ArithProofs3 ArithProofs4 LinkProofs SimModel SimSpec SimProofs ArithProofs5 ArithProofs6 ArithProofs7 ArithProofs8 WeakProofs ArithProofs9 ArithProofs10 ArithProofs11 ArithProofs12 TimesSpec TraceProofs ArithProofs14.
Local Open Scope nat_scope.
Local Open Scope mon_scope.

(** *** C72: square_mod *)
(** For all right sizes, at any depth of conditions, square_mod succeeds, gives back its registers
    and leaves the builder in order. *)
Theorem C72_square_mod_total : forall d ra rm rs s, length ra = S (length rm) -> length rs = S (length rm) -> rm <> [] -> at_depth d s -> tidy s -> live s (cqs d (conds s) ++ ra ++ rm ++ rs) ->
  exists s' p, square_mod d [ra; rm; rs] s = Ret [ra; rm; rs] s' /\ conds s' = conds s /\ meas (bld s') = meas (bld s) /\ tidy s' /\ live s' (cqs d (conds s) ++ ra ++ rm ++ rs) /\
    bn (bld s) <= bn (bld s') /\ (forall q, idle s' q <-> idle s q) /\ pipeline (bld s') = pipeline (bld s) ++ p /\ Forall (wf_entry (bn (bld s'))) p /\ Forall proper_entry p.
Proof.
  intros d ra rm rs s La Ls Hm Ad T Lv.
  replace (ra ++ rm ++ rs) with (concat [ra; rm; rs]) in * by (cbn [concat]; rewrite app_nil_r; reflexivity).
  destruct (square_xacts d ra rm rs La Ls Hm s Ad T Lv) as (s' & p & E & Ec & Em & Eb & Ep & W & Pr & T' & Lv' & _ & _ & Id & _).
  exists s', p. do 9 (split; [assumption|]). assumption.
Qed.
Print Assumptions C72_square_mod_total.
(** With ra = 0 and rm = 2^(n-1) nothing is to change, whatever rs holds: from that basis state the
    amplitude of that same basis state is sin (1/2) to the size of rm. *)
Theorem C72_square_mod_exact : forall ra rm rs s, length ra = S (length rm) -> length rs = S (length rm) -> rm <> [] -> at_depth 0 s -> tidy s -> live s (ra ++ rm ++ rs) ->
  exists s' p, square_mod 0 [ra; rm; rs] s = Ret [ra; rm; rs] s' /\ pipeline (bld s') = pipeline (bld s) ++ p /\
    forall x, val ra x = 0 -> val rm x = 2 ^ (length rm - 1) -> (forall q, idle s q -> x q = false) -> den p (ket (bn (bld s')) x) x = cpow (RtoC (sin (/ 2))) (length rm).
Proof.
  intros ra rm rs s La Ls Hm Ad T Lv.
  assert (Lv4 : live s (cqs 0 (conds s) ++ concat [ra; rm; rs])) by (cbn [cqs app concat]; rewrite app_nil_r; exact Lv).
  destruct (square_xacts 0 ra rm rs La Ls Hm s Ad T Lv4) as (s' & p & E & Ec & Em & Eb & Ep & W & Pr & T' & Lv' & _ & Q). cbn [cqs app] in Lv'.
  exists s', p. split; [exact E|]. split; [exact Ep|]. intros x Va Vm Z. apply (square_amp ra rm rs s s' p x La Ls Hm Q W Pr); [| |exact Vm|exact Z].
  - intros q Hq. destruct Lv' as (_ & X). destruct (Nat.lt_ge_cases q (bn (bld s'))) as [Y|Y]; [exact Y|]. exfalso. apply (X q Hq). left. exact Y.
  - intros q Hq. apply (val_inj ra x (fun _ => false)); [|exact Hq]. rewrite Va. symmetry. apply val_zero. intros p' _. reflexivity.
Qed.
Print Assumptions C72_square_mod_exact.
(** Through the simulator: square_mod is wrong for all sizes of its registers. *)
Theorem C72_refuted : forall k ra rm rs it x draws, length ra = S (length rm) -> length rs = S (length rm) -> rm <> [] -> NoDup (ra ++ rm ++ rs) -> in_range k (ra ++ rm ++ rs) ->
  (forall r v, In (r, v) it -> in_range k r) -> loads it x -> val ra x = 0 -> val rm x = 2 ^ (length rm - 1) -> val rs x < val rm x ->
  squares_mod ra rm rs x x /\
  exists s' v, square_mod 0 [ra; rm; rs] (fresh k) = Ret [ra; rm; rs] s' /\ calculate_state_with_init (bld s') it draws = Ok (v, []) /\
    nth (enc (bn (bld s')) x) v (RtoC 0) = RtoC (sin (/ 2) ^ length rm) /\ (0 < sin (/ 2) ^ length rm < 1)%R.
Proof.
  intros k ra rm rs it x draws La Ls Hm Nd R Ri Lo Va Vm Vs. split.
  { unfold squares_mod. rewrite Va. rewrite Vm in *. assert (P : 0 < 2 ^ (length rm - 1)) by (pose proof (Nat.pow_nonzero 2 (length rm - 1)); lia).
    split; [exact P|]. split; [exact Vs|]. split; [intros q _; reflexivity|]. rewrite Nat.add_0_r, Nat.mod_small by exact Vs. reflexivity. }
  assert (Lv : live (fresh k) (ra ++ rm ++ rs)) by (apply fresh_live; assumption).
  destruct (C72_square_mod_total 0 ra rm rs (fresh k) La Ls Hm (fresh_depth k) (fresh_tidy k) Lv) as (s' & p & E & _ & _ & _ & _ & Eb & _ & Ep & W & Pr).
  destruct (C72_square_mod_exact ra rm rs (fresh k) La Ls Hm (fresh_depth k) (fresh_tidy k) Lv) as (s2 & p2 & E2 & Ep2 & D).
  rewrite E in E2. injection E2 as <-. rewrite Ep in Ep2. cbn [fresh bld pipeline app] in Ep, Ep2. subst p2. cbn [fresh bld bn] in Eb.
  destruct (simulate_ok (bld s') it x draws) as (v & Ev & Lv' & H).
  - intros r w Hin q Hq. specialize (Ri r w Hin q Hq). lia.
  - exact Lo.
  - rewrite Ep. exact W.
  - rewrite Ep. eapply Forall_impl; [|exact Pr]. intros e He. apply He.
  - exists s', v. split; [exact E|]. split; [exact Ev|]. split.
    + change (st_of CN (bn (bld s')) v x = RtoC (sin (/ 2) ^ length rm)). rewrite H, Ep, (D x Va Vm).
      * generalize (length rm). induction n as [|m IH]; [reflexivity|]; cbn [cpow pow]; rewrite IH, <- RtoC_mult; reflexivity.
      * intros q [Hq|[]]. apply (proj2 Lo). intros r w Hin X. specialize (Ri r w Hin q X). cbn in Hq. lia.
    + assert (S1 : (0 < sin (/ 2))%R) by (apply sin_gt_0; [lra|]; pose proof PI2_1; lra). assert (S2 : (sin (/ 2) < / 2)%R) by (apply sin_lt_x; lra).
      assert (Q : forall m, (0 < sin (/ 2) ^ S m < 1)%R).
      { induction m as [|m IH]; [cbn [pow]; lra|]. change (sin (/ 2) ^ S (S m))%R with (sin (/ 2) * sin (/ 2) ^ S m)%R. split; nra. }
      destruct (length rm) as [|j] eqn:Lr; [destruct rm; [congruence|discriminate]|]. apply Q.
Qed.
Print Assumptions C72_refuted.
(** Wrong sizes are errors that leave the builder as it is. *)
Theorem C72_sizes : forall d ra rm rs s, ~ (length ra = S (length rm) /\ length rs = S (length rm)) -> exists e, square_mod d [ra; rm; rs] s = Fail e s.
Proof.
  intros d ra rm rs s H. unfold square_mod. destruct (Nat.eqb_spec (length ra) (length rm + 1)) as [E|E]; cbn [negb]; [|eexists; reflexivity].
  destruct (Nat.eqb_spec (length rs) (length rm + 1)) as [E'|E']; cbn [negb]; [exfalso; apply H; lia|eexists; reflexivity].
Qed.
Print Assumptions C72_sizes.
(** The hypotheses can be met: 1 + 0 squared mod 2. *)
Example C72_example : exists s', square_mod 0 [[0; 1; 2]; [3; 4]; [5; 6; 7]] (fresh 8) = Ret [[0; 1; 2]; [3; 4]; [5; 6; 7]] s' /\
  (let x := fun q => (q =? 4) || (q =? 5) in val [0; 1; 2] x = 0 /\ val [3; 4] x = 2 ^ (length [3; 4] - 1) /\ val [5; 6; 7] x < val [3; 4] x /\ loads [([3; 4], 2); ([5; 6; 7], 1)] x) /\
  exists s e, square_mod 0 [[0; 1]; [3; 4]; [5; 6; 7]] s = Fail e s.
Proof.
  destruct (C72_square_mod_total 0 [0; 1; 2] [3; 4] [5; 6; 7] (fresh 8) eq_refl eq_refl ltac:(discriminate) (fresh_depth 8) (fresh_tidy 8) (live_fresh 8)) as (s' & p & E & _).
  exists s'. split; [exact E|]. split.
  - cbv zeta. do 2 (split; [reflexivity|]). split; [cbv; lia|]. split.
    + intros r v [X|[X|[]]] j Hj; injection X as <- <-; do 3 (destruct j as [|j]; [first [reflexivity|cbn in Hj; lia]|]); cbn in Hj; lia.
    + intros q Hq. apply orb_false_iff. split; apply Nat.eqb_neq; intros ->; [apply (Hq [3; 4] 2); [left; reflexivity|right; left; reflexivity]|apply (Hq [5; 6; 7] 1); [right; left; reflexivity|left; reflexivity]].
  - exists (fresh 8). destruct (C72_sizes 0 [0; 1] [3; 4] [5; 6; 7] (fresh 8)) as (e & He); [intros (X & _); discriminate|exists e; exact He].
Qed.
