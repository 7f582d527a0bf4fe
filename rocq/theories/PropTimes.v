(** Modular multiplication: C71. *)
From Coq Require Import Reals Lra FunctionalExtensionality Permutation.
From Coquelicot Require Import Complex.
From Verif Require Import Base BitsSpec BitsProofs OpsModel OpsSpec Instances BuilderModel RegProofs DenSpec DenProofs LocalProofs
  RunSpec RunProofs GateProofs ToffoliProofs CondProofs SubSpec SubProofs SubProofs2 SubProofs3 ProgramModel ProgramSpec ProgramProofs ProgramProofs2 CircProofs CircProofs2
  ArithModel ArithSpec ArithProofs ArithProofs2 ArithProofs3 ArithProofs4 LinkProofs SimModel SimSpec SimProofs ArithProofs5 ArithProofs6 ArithProofs7 ArithProofs8 WeakProofs ArithProofs9 ArithProofs10 ArithProofs11 ArithProofs12 TimesSpec.
Local Open Scope nat_scope.
Local Open Scope mon_scope.
Local Ltac nd := repeat constructor; cbn; intuition lia.

(** *** C71: times_mod *)
(** For all right sizes, at any depth of conditions, times_mod succeeds, gives back its registers
    and leaves the builder in order: nothing is lost, doubled or left behind. *)
Theorem C71_times_mod_total : forall d ra rb rm rp s, length ra = S (length rm) -> length rp = S (length rm) -> rm <> [] -> rb <> [] -> at_depth d s -> tidy s ->
  live s (cqs d (conds s) ++ ra ++ rb ++ rm ++ rp) ->
  exists s' p, times_mod d [ra; rb; rm; rp] s = Ret [ra; rb; rm; rp] s' /\ conds s' = conds s /\ meas (bld s') = meas (bld s) /\ tidy s' /\ live s' (cqs d (conds s) ++ ra ++ rb ++ rm ++ rp) /\
    bn (bld s) <= bn (bld s') /\ pipeline (bld s') = pipeline (bld s) ++ p /\ Forall (wf_entry (bn (bld s'))) p /\ Forall proper_entry p.
Proof.
  intros d ra rb rm rp s La Lp Hm Hb Ad T Lv.
  replace (ra ++ rb ++ rm ++ rp) with (concat [ra; rb; rm; rp]) in * by (cbn [concat]; rewrite app_nil_r; reflexivity).
  destruct (times_run d ra rb rm rp s La Lp Hm Hb Ad T Lv) as (rt & rc & s' & p & _ & _ & _ & _ & E & Ec & Em & Eb & Ep & W & Pr & T' & Lv' & _).
  exists s', p. do 8 (split; [assumption|]). assumption.
Qed.
Print Assumptions C71_times_mod_total.
(** With ra = 0, rb = 0 and rm = 2^(n-1) nothing is to change: the amplitude found is sin (1/2)
    to the size of rb. *)
Theorem C71_times_mod_exact : forall ra rb rm rp s, length ra = S (length rm) -> length rp = S (length rm) -> rm <> [] -> rb <> [] -> at_depth 0 s -> tidy s -> live s (ra ++ rb ++ rm ++ rp) ->
  exists s' p, times_mod 0 [ra; rb; rm; rp] s = Ret [ra; rb; rm; rp] s' /\ bn (bld s) <= bn (bld s') /\ pipeline (bld s') = pipeline (bld s) ++ p /\
    forall psi x, val ra x = 0 -> val rb x = 0 -> val rm x = 2 ^ (length rm - 1) -> (forall q, idle s q -> q < bn (bld s') -> x q = false) -> settled (seq 0 (bn (bld s'))) x psi ->
      den p psi x = Cmult (cpow (RtoC (sin (/ 2))) (length rb)) (psi x).
Proof.
  intros ra rb rm rp s La Lp Hm Hb Ad T Lv.
  assert (Lv4 : live s (cqs 0 (conds s) ++ concat [ra; rb; rm; rp])) by (cbn [cqs app concat]; rewrite app_nil_r; exact Lv).
  destruct (times_run 0 ra rb rm rp s La Lp Hm Hb Ad T Lv4) as (rt & rc & s' & p & Lt & Lc & N & It & E & Ec & Em & Eb & Ep & W & Pr & T' & Lv' & _ & D).
  cbn [cqs app] in N, D, Lv'. exists s', p. do 3 (split; [assumption|]). intros psi x Va Vb Vm Z Se.
  assert (Z0 : forall r, val r x = 0 -> zero_in r x).
  { intros r V q Hq. apply (val_inj r x (fun _ => false)); [|exact Hq]. rewrite V. symmetry. apply val_zero. intros p' _. reflexivity. }
  assert (Hlt : forall q, In q (concat [ra; rb; rm; rp]) -> q < bn (bld s')).
  { intros q Hq. destruct Lv' as (_ & X). destruct (Nat.lt_ge_cases q (bn (bld s'))) as [Y|Y]; [exact Y|]. exfalso. apply (X q Hq). left. exact Y. }
  assert (Cl : forall q, q < bn (bld s') -> x q = false -> clean [q] psi).
  { intros q Hq Hx z q' [<-|[]] Hz. apply Se. exists q. split; [apply in_seq; lia|]. rewrite Hx, Hz. discriminate. }
  rewrite (D (bn (bld s')) psi (Nat.le_refl _)).
  - apply (times_amp ra rb rm rp rt rc psi x La Lp Hm Hb Lt Lc N).
    + intros q Hq. apply Z; apply It; apply in_or_app; left; exact Hq.
    + intros q Hq. apply Z; apply It; apply in_or_app; right; exact Hq.
    + exact Vm.
    + apply Z0. exact Va.
    + eapply settled_incl; [|exact Se]. intros q Hq. apply in_seq. split; [lia|]. cbn. rewrite !in_app_iff in Hq.
      destruct (in_dec Nat.eq_dec q (rt ++ rc)) as [I|I]; [apply (It q I)|]. apply Hlt. cbn [concat]. rewrite !in_app_iff in *. tauto.
  - intros q Iq Hq. apply Cl; [exact Hq|]. apply Z; assumption.
  - intros z q Hq Hz. apply (Cl q) with (t := q); [apply Hlt; cbn [concat]; rewrite !in_app_iff; tauto|apply (Z0 rb Vb); exact Hq|left; reflexivity|exact Hz].
Qed.
Print Assumptions C71_times_mod_exact.
(** Through the simulator: times_mod is wrong for all sizes of its registers. *)
Theorem C71_refuted : forall k ra rb rm rp it x draws, length ra = S (length rm) -> length rp = S (length rm) -> rm <> [] -> rb <> [] -> NoDup (ra ++ rb ++ rm ++ rp) -> in_range k (ra ++ rb ++ rm ++ rp) ->
  (forall r v, In (r, v) it -> in_range k r) -> loads it x -> val ra x = 0 -> val rb x = 0 -> val rm x = 2 ^ (length rm - 1) -> val rp x < val rm x ->
  mults_mod ra rb rm rp x x /\
  exists s' v, times_mod 0 [ra; rb; rm; rp] (fresh k) = Ret [ra; rb; rm; rp] s' /\ calculate_state_with_init (bld s') it draws = Ok (v, []) /\
    nth (enc (bn (bld s')) x) v (RtoC 0) = RtoC (sin (/ 2) ^ length rb) /\ (0 < sin (/ 2) ^ length rb < 1)%R.
Proof.
  intros k ra rb rm rp it x draws La Lp Hm Hb Nd R Ri Lo Va Vb Vm Vp. split.
  { unfold mults_mod. rewrite Va, Vb. rewrite Vm in *. assert (P : 0 < 2 ^ (length rm - 1)) by (pose proof (Nat.pow_nonzero 2 (length rm - 1)); lia).
    split; [exact P|]. split; [exact Vp|]. split; [intros q _; reflexivity|]. rewrite Nat.add_0_r, Nat.mod_small by exact Vp. reflexivity. }
  assert (Lv : live (fresh k) (ra ++ rb ++ rm ++ rp)) by (apply fresh_live; assumption).
  destruct (C71_times_mod_total 0 ra rb rm rp (fresh k) La Lp Hm Hb (fresh_depth k) (fresh_tidy k) Lv) as (s' & p & E & _ & _ & _ & _ & Eb & Ep & W & Pr).
  destruct (C71_times_mod_exact ra rb rm rp (fresh k) La Lp Hm Hb (fresh_depth k) (fresh_tidy k) Lv) as (s2 & p2 & E2 & _ & Ep2 & D).
  rewrite E in E2. injection E2 as <-. rewrite Ep in Ep2. cbn [fresh bld pipeline app] in Ep, Ep2. subst p2. cbn [fresh bld bn] in Eb.
  destruct (simulate_ok (bld s') it x draws) as (v & Ev & Lv' & H).
  - intros r w Hin q Hq. specialize (Ri r w Hin q Hq). lia.
  - exact Lo.
  - rewrite Ep. exact W.
  - rewrite Ep. eapply Forall_impl; [|exact Pr]. intros e He. apply He.
  - exists s', v. split; [exact E|]. split; [exact Ev|]. split.
    + change (st_of CN (bn (bld s')) v x = RtoC (sin (/ 2) ^ length rb)). rewrite H, Ep, (D _ x Va Vb Vm).
      * rewrite ket_eq by reflexivity. assert (P : forall k, cpow (RtoC (sin (/ 2))) k = RtoC (sin (/ 2) ^ k)) by (induction k0 as [|m IH]; [reflexivity|]; cbn [cpow pow]; rewrite IH, <- RtoC_mult; reflexivity).
        rewrite P. ring.
      * intros q [Hq|[]] _. apply (proj2 Lo). intros r w Hin X. specialize (Ri r w Hin q X). cbn in Hq. lia.
      * intros z (q & Hq & X). apply in_seq in Hq. apply (ket_ne _ x z q); [lia|congruence].
    + assert (S1 : (0 < sin (/ 2))%R) by (apply sin_gt_0; [lra|]; pose proof PI2_1; lra). assert (S2 : (sin (/ 2) < / 2)%R) by (apply sin_lt_x; lra).
      assert (Q : forall m, (0 < sin (/ 2) ^ S m < 1)%R).
      { induction m as [|m IH]; [cbn [pow]; lra|]. change (sin (/ 2) ^ S (S m))%R with (sin (/ 2) * sin (/ 2) ^ S m)%R. split; nra. }
      destruct (length rb) as [|j] eqn:Lr; [destruct rb; [congruence|discriminate]|]. apply Q.
Qed.
Print Assumptions C71_refuted.
(** Wrong sizes are errors that leave the builder as it is. *)
Theorem C71_sizes : forall d ra rb rm rp s, ~ (length ra = S (length rm) /\ length rp = S (length rm)) -> exists e, times_mod d [ra; rb; rm; rp] s = Fail e s.
Proof.
  intros d ra rb rm rp s H. unfold times_mod. destruct (Nat.eqb_spec (length ra) (length rm + 1)) as [E|E]; cbn [negb]; [|eexists; reflexivity].
  destruct (Nat.eqb_spec (length rp) (length rm + 1)) as [E'|E']; cbn [negb]; [exfalso; apply H; lia|eexists; reflexivity].
Qed.
Print Assumptions C71_sizes.
(** The hypotheses can be met: 0 times 0 mod 2, with two qubits in rb. *)
Example C71_example : exists s', times_mod 0 [[0; 1; 2]; [3; 4]; [5; 6]; [7; 8; 9]] (fresh 10) = Ret [[0; 1; 2]; [3; 4]; [5; 6]; [7; 8; 9]] s' /\
  (let x := fun q => q =? 6 in val [0; 1; 2] x = 0 /\ val [3; 4] x = 0 /\ val [7; 8; 9] x = 0 /\ val [5; 6] x = 2 ^ (length [5; 6] - 1) /\ loads [([5; 6], 2)] x) /\
  exists s e, times_mod 0 [[0; 1]; [3; 4]; [5; 6]; [7; 8; 9]] s = Fail e s.
Proof.
  destruct (C71_times_mod_total 0 [0; 1; 2] [3; 4] [5; 6] [7; 8; 9] (fresh 10) eq_refl eq_refl ltac:(discriminate) ltac:(discriminate) (fresh_depth 10) (fresh_tidy 10) (live_fresh 10)) as (s' & p & E & _).
  exists s'. split; [exact E|]. split.
  - cbv zeta. do 4 (split; [reflexivity|]). split.
    + intros r v [X|[]] j Hj. injection X as <- <-. do 2 (destruct j as [|j]; [reflexivity|]). cbn in Hj. lia.
    + intros q Hq. apply Nat.eqb_neq. intros ->. apply (Hq [5; 6] 2); [left; reflexivity|right; left; reflexivity].
  - exists (fresh 10). destruct (C71_sizes 0 [0; 1] [3; 4] [5; 6] [7; 8; 9] (fresh 10)) as (e & He); [intros (X & _); discriminate|exists e; exact He].
Qed.
