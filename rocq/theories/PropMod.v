(** Modular arithmetic: C58. *)
From Coq Require Import Reals Lra FunctionalExtensionality Permutation.
From Coquelicot Require Import Complex.
From Verif Require Import Base BitsSpec BitsProofs OpsModel OpsSpec Instances BuilderModel RegProofs DenSpec DenProofs LocalProofs
  RunSpec RunProofs GateProofs ToffoliProofs CondProofs SubSpec SubProofs SubProofs2 SubProofs3 ProgramModel ProgramSpec ProgramProofs ProgramProofs2 CircProofs CircProofs2
  ArithModel ArithSpec ArithProofs ArithProofs2 ArithProofs3 ArithProofs4 LinkProofs SimModel SimSpec SimProofs ArithProofs5 ArithProofs6 ArithProofs7.
Local Open Scope nat_scope.
Local Open Scope mon_scope.
Local Ltac nd := repeat constructor; cbn; intuition lia.

(** *** C58: add_mod *)
(** On basis states: the amplitude found at the right answer is sin (1/2) to the number of
    places that are lost. *)
Theorem C58_add_mod_exact : forall ra rb rm s, length ra = length rm -> length rb = S (length ra) -> ra <> [] -> NoDup (ra ++ rb ++ rm) ->
  at_depth 0 s -> tidy s -> live s (ra ++ rb ++ rm) ->
  exists s' p, add_mod 0 [ra; rb; rm] s = Ret [ra; rb; rm] s' /\ conds s' = conds s /\ tidy s' /\ live s' (ra ++ rb ++ rm) /\
    bn (bld s) <= bn (bld s') /\ pipeline (bld s') = pipeline (bld s) ++ p /\
    forall psi x y, adds_mod ra rb rm x y -> (forall q, idle s q -> q < bn (bld s') -> x q = false) -> settled (seq 0 (bn (bld s'))) x psi ->
      den p psi y = Cmult (cpow (RtoC (sin (/ 2))) (lost (length ra) (val ra x) (val rb x) (val rm x))) (psi x).
Proof.
  intros ra rb rm s Lm Lb Ha Nd Ad T Lv.
  destruct (add_mod_run ra rb rm s Lm Lb Ha Nd Ad T Lv) as (t & rc & s' & p & Lc & N & It & E & Ec & _ & Eb & Ep & _ & _ & T' & Lv' & D).
  exists s', p. do 6 (split; [assumption|]). intros psi x y (Am & Bm & O & V) Z Se.
  assert (Zt : zero_in (t :: rc) x) by (intros q Hq; apply Z; apply It; exact Hq).
  destruct (mod_value ra rb rm rc t Lm Lb Ha Lc N x (Zt t (or_introl eq_refl)) (fun q Hq => Zt q (or_intror Hq)) Am Bm y O V) as (Ey & Ek).
  rewrite D. 2:{ intros q Iq Hq z q' [<-|[]] Hz. apply Se. exists q. split; [apply in_seq; lia|]. rewrite (Z q Iq Hq), Hz. discriminate. }
  rewrite <- Ey, (mod_amp ra rb rm rc t Lm Lb Ha Lc N), Ek; [reflexivity|]. eapply settled_incl; [|exact Se].
  intros q Hq. apply in_seq. split; [lia|]. cbn. destruct (in_dec Nat.eq_dec q (t :: rc)) as [I|I]; [apply It; exact I|].
  destruct Lv' as (_ & X). destruct (Nat.lt_ge_cases q (bn (bld s'))) as [Y|Y]; [exact Y|]. exfalso. apply (X q); [|left; exact Y]. rewrite !in_app_iff in *. tauto.
Qed.
Print Assumptions C58_add_mod_exact.
(** On states without inputs that lose a place, in particular on all sums of inputs with
    ra, rb < rm for registers of one qubit. *)
Theorem C58_add_mod_partial : forall ra rb rm s, length ra = length rm -> length rb = S (length ra) -> ra <> [] -> NoDup (ra ++ rb ++ rm) ->
  at_depth 0 s -> tidy s -> live s (ra ++ rb ++ rm) ->
  exists s' p, add_mod 0 [ra; rb; rm] s = Ret [ra; rb; rm] s' /\ conds s' = conds s /\ tidy s' /\ live s' (ra ++ rb ++ rm) /\
    bn (bld s) <= bn (bld s') /\ pipeline (bld s') = pipeline (bld s) ++ p /\
    forall psi, (forall q, idle s q -> q < bn (bld s') -> clean [q] psi) ->
      (forall x, ~ (val ra x < val rm x /\ val rb x < val rm x /\ lost (length ra) (val ra x) (val rb x) (val rm x) = 0) -> psi x = RtoC 0) ->
      (forall x y, adds_mod ra rb rm x y -> (forall q, idle s q -> q < bn (bld s') -> x q = false) -> den p psi y = psi x) /\
      (forall y, (forall x, adds_mod ra rb rm x y -> psi x = RtoC 0) -> den p psi y = RtoC 0).
Proof.
  intros ra rb rm s Lm Lb Ha Nd Ad T Lv.
  destruct (add_mod_run ra rb rm s Lm Lb Ha Nd Ad T Lv) as (t & rc & s' & p & Lc & N & It & E & Ec & _ & Eb & Ep & _ & _ & T' & Lv' & D).
  exists s', p. do 6 (split; [assumption|]). intros psi Cl G.
  assert (Nb : NoDup rb) by apply (mod_disj ra rb rm rc t N).
  assert (tot : forall x, val rm x <> 0 -> exists y, only_in rb x y /\ val rb y = (val ra x + val rb x) mod val rm x).
  { intros x Hm. destruct (le_onto (length rb) ((val ra x + val rb x) mod val rm x)) as (l & Ll & El).
    - pose proof (Nat.mod_upper_bound (val ra x + val rb x) (val rm x) Hm). pose proof (val_bound rm x) as B. rewrite <- Lm in B. rewrite Lb. cbn [Nat.pow]. lia.
    - exists (updl x rb l). split; [intros q Hq; apply updl_notin; exact Hq|]. unfold val at 1. rewrite updl_map by assumption. exact El. }
  assert (Dirty : forall x, ~ zero_in (t :: rc) x -> psi x = RtoC 0).
  { intros x Hx. destruct (existsb x (t :: rc)) eqn:X.
    - apply existsb_exists in X. destruct X as (q & Hq & X). apply (Cl q (proj1 (It q Hq)) (proj2 (It q Hq)) x q); [left; reflexivity|exact X].
    - exfalso. apply Hx. intros q Hq. apply not_true_is_false. intros Y. assert (existsb x (t :: rc) = true); [|congruence]. apply existsb_exists. eauto. }
  assert (Mv : forall x y, zero_in (t :: rc) x -> adds_mod ra rb rm x y -> run (mod_c t rc ra rb rm) x = y /\ kmod t rc ra rb rm x = lost (length ra) (val ra x) (val rb x) (val rm x)).
  { intros x y Zt (Am & Bm & O & V). apply mod_value; try assumption; [apply Zt; left; reflexivity|intros q Hq; apply Zt; right; exact Hq]. }
  assert (Zdec : forall x, {zero_in (t :: rc) x} + {~ zero_in (t :: rc) x}).
  { intros x. destruct (existsb x (t :: rc)) eqn:X; [right|left].
    - intros Z. apply existsb_exists in X. destruct X as (q & Hq & X). rewrite (Z q Hq) in X. discriminate.
    - intros q Hq. apply not_true_is_false. intros Y. assert (existsb x (t :: rc) = true); [|congruence]. apply existsb_exists. eauto. }
  assert (Gd : forall x, psi x = RtoC 0 \/ zero_in (t :: rc) x /\ val ra x < val rm x /\ val rb x < val rm x /\ lost (length ra) (val ra x) (val rb x) (val rm x) = 0).
  { intros x. destruct (Zdec x) as [Z|Z]; [|left; apply Dirty; exact Z].
    destruct (lt_dec (val ra x) (val rm x)) as [A|A]; [|left; apply G; tauto]. destruct (lt_dec (val rb x) (val rm x)) as [B|B]; [|left; apply G; tauto].
    destruct (Nat.eq_dec (lost (length ra) (val ra x) (val rb x) (val rm x)) 0) as [C|C]; [right; tauto|left; apply G; tauto]. }
  rewrite (D psi Cl), (mod_good ra rb rm rc t Lm Lb Ha Lc N).
  2:{ intros x Hk. destruct (Gd x) as [X|(Z & A & B & C)]; [exact X|]. destruct (tot x ltac:(lia)) as (y & O & V).
      destruct (Mv x y Z) as (_ & K); [split; [exact A|split; [exact B|split; [exact O|exact V]]]|]. lia. }
  pose proof (mod_c_ok ra rb rm rc t Lm Lb Ha Lc N) as Ck. split.
  - intros x y A Z. assert (Zt : zero_in (t :: rc) x) by (intros q Hq; apply Z; apply It; exact Hq). destruct (Mv x y Zt A) as (<- & _). apply (eff_run _ _ _ _ Ck).
  - intros y H. unfold eff. set (x := run (rev (mod_c t rc ra rb rm)) y). destruct (Gd x) as [X|(Z & A & B & C)]; [exact X|]. apply H.
    destruct (tot x ltac:(lia)) as (y' & O & V). assert (Am : adds_mod ra rb rm x y') by (split; [exact A|split; [exact B|split; [exact O|exact V]]]).
    destruct (Mv x y' Z Am) as (E' & _). unfold x in E'. rewrite (run_rev' _ _ _ Ck) in E'. rewrite E'. exact Am.
Qed.
Print Assumptions C58_add_mod_partial.
(** Through the simulator. *)
Theorem C58_simulated : forall k ra rb rm it x y draws, length ra = length rm -> length rb = S (length ra) -> ra <> [] -> NoDup (ra ++ rb ++ rm) -> in_range k (ra ++ rb ++ rm) ->
  (forall r v, In (r, v) it -> in_range k r) -> loads it x -> adds_mod ra rb rm x y ->
  exists s' v, add_mod 0 [ra; rb; rm] (fresh k) = Ret [ra; rb; rm] s' /\ calculate_state_with_init (bld s') it draws = Ok (v, []) /\
    nth (enc (bn (bld s')) y) v (RtoC 0) = cpow (RtoC (sin (/ 2))) (lost (length ra) (val ra x) (val rb x) (val rm x)).
Proof.
  intros k ra rb rm it x y draws Lm Lb Ha Nd R Ri Lo Am.
  destruct (add_mod_run ra rb rm (fresh k) Lm Lb Ha Nd (fresh_depth k) (fresh_tidy k) (fresh_live k _ Nd R)) as (t & rc & s' & p & _ & _ & _ & E & _ & _ & Eb & Ep & W & Pr & _).
  destruct (C58_add_mod_exact ra rb rm (fresh k) Lm Lb Ha Nd (fresh_depth k) (fresh_tidy k) (fresh_live k _ Nd R)) as (s2 & p2 & E2 & _ & _ & _ & _ & Ep2 & D).
  rewrite E in E2. injection E2 as <-. rewrite Ep in Ep2. cbn [fresh bld pipeline app] in Ep, Ep2. subst p2. cbn [fresh bld bn] in Eb.
  destruct (simulate_ok (bld s') it x draws) as (v & Ev & Lv & H).
  - intros r w Hin q Hq. specialize (Ri r w Hin q Hq). lia.
  - exact Lo.
  - rewrite Ep. exact W.
  - rewrite Ep. eapply Forall_impl; [|exact Pr]. intros e He. apply He.
  - exists s', v. split; [exact E|]. split; [exact Ev|].
    change (st_of CN (bn (bld s')) v y = cpow (RtoC (sin (/ 2))) (lost (length ra) (val ra x) (val rb x) (val rm x))). rewrite H, Ep, (D _ x y Am).
    + rewrite ket_eq by reflexivity. ring.
    + intros q [Hq|[]] _. apply (proj2 Lo). intros r w Hin X. specialize (Ri r w Hin q X). cbn in Hq. lia.
    + intros z (q & Hq & X). apply in_seq in Hq. apply (ket_ne _ x z q); [lia|congruence].
Qed.
Print Assumptions C58_simulated.
(** So add_mod is wrong for all sizes from 2 up: 0 + 0 mod 3. *)
Theorem C58_refuted : forall n k ra rb rm it x draws, length ra = S (S n) -> length rb = S (S (S n)) -> length rm = S (S n) -> NoDup (ra ++ rb ++ rm) -> in_range k (ra ++ rb ++ rm) ->
  (forall r v, In (r, v) it -> in_range k r) -> loads it x -> val ra x = 0 -> val rb x = 0 -> val rm x = 3 ->
  adds_mod ra rb rm x x /\ exists s' v j, add_mod 0 [ra; rb; rm] (fresh k) = Ret [ra; rb; rm] s' /\ calculate_state_with_init (bld s') it draws = Ok (v, []) /\
    nth (enc (bn (bld s')) x) v (RtoC 0) = RtoC (sin (/ 2) ^ S j) /\ (0 <= sin (/ 2) ^ S j < 1)%R.
Proof.
  intros n k ra rb rm it x draws La Lb Lm Nd R Ri Lo Va Vb Vm.
  assert (Am : adds_mod ra rb rm x x) by (unfold adds_mod; rewrite Va, Vb, Vm; repeat split; lia). split; [exact Am|].
  destruct (C58_simulated k ra rb rm it x x draws ltac:(lia) ltac:(lia) ltac:(intros ->; discriminate) Nd R Ri Lo Am) as (s' & v & E1 & E2 & E3).
  rewrite Va, Vb, Vm, La in E3.
  set (j := length (filter (fun i => (0 + 0) mod 2 ^ i <? 3 mod 2 ^ i) (seq 2 n))).
  change (lost (S (S n)) 0 0 3) with (S j) in E3.
  assert (P : forall k, cpow (RtoC (sin (/ 2))) k = RtoC (sin (/ 2) ^ k)) by (induction k0 as [|m IH]; [reflexivity|]; cbn [cpow pow]; rewrite IH, <- RtoC_mult; reflexivity).
  rewrite P in E3. exists s', v, j. split; [exact E1|]. split; [exact E2|]. split; [exact E3|].
  assert (S1 : (0 < sin (/ 2))%R) by (apply sin_gt_0; [lra|]; pose proof PI2_1; lra). assert (S2 : (sin (/ 2) < / 2)%R) by (apply sin_lt_x; lra).
  split; [apply pow_le; lra|]. assert (Q : forall m, (0 <= sin (/ 2) ^ m <= 1)%R).
  { induction m as [|m IH]; cbn [pow]; [lra|]. split; nra. }
  specialize (Q j). cbn [pow]. nra.
Qed.
Print Assumptions C58_refuted.
(** Wrong sizes are errors that leave the builder as it is. *)
Theorem C58_sizes : forall d ra rb rm s, ~ (length ra = length rm /\ length rb = S (length ra)) -> exists e, add_mod d [ra; rb; rm] s = Fail e s.
Proof.
  intros d ra rb rm s H. unfold add_mod. destruct (Nat.eqb_spec (length ra) (length rm)) as [E|E]; cbn [negb]; [|eexists; reflexivity].
  destruct (Nat.eqb_spec (length rb) (length ra + 1)) as [E'|E']; cbn [negb]; [exfalso; apply H; lia|eexists; reflexivity].
Qed.
Print Assumptions C58_sizes.
(** The hypotheses can be met: 2 + 1 mod 3 loses nothing, 1 + 0 mod 3 nothing, 0 + 0 mod 3 one place. *)
Example C58_example : exists s', add_mod 0 [[0; 1]; [2; 3; 4]; [5; 6]] (fresh 7) = Ret [[0; 1]; [2; 3; 4]; [5; 6]] s' /\
  adds_mod [0; 1] [2; 3; 4] [5; 6] (fun q => existsb (Nat.eqb q) [1; 2; 5; 6]) (fun q => existsb (Nat.eqb q) [1; 5; 6]) /\
  lost 2 2 1 3 = 0 /\ lost 2 1 0 3 = 0 /\ lost 2 0 0 3 = 1 /\ (forall a b m, lost 1 a b m = 0).
Proof.
  destruct (C58_add_mod_exact [0; 1] [2; 3; 4] [5; 6] (fresh 7) eq_refl eq_refl ltac:(discriminate) ltac:(cbn; nd) (fresh_depth 7) (fresh_tidy 7) (live_fresh 7)) as (s' & p & E & _).
  exists s'. split; [exact E|]. split.
  - split; [cbn; lia|]. split; [cbn; lia|]. split; [|reflexivity]. intros q Hq. do 7 (destruct q as [|q]; [reflexivity || (exfalso; apply Hq; cbn; tauto)|]). reflexivity.
  - split; [reflexivity|]. split; [reflexivity|]. split; [reflexivity|]. intros a b m. unfold lost. cbn. destruct (a + b <? m); reflexivity.
Qed.
