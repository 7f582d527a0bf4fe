(** The inverses of the modular functions are their adjoints: C58, C71, C72, C74. *)
From Coq Require Import Reals Lra FunctionalExtensionality Permutation.
From Coquelicot Require Import Complex.
From Verif Require Import Base BitsSpec BitsProofs OpsModel OpsSpec Instances BuilderModel RegProofs DenSpec DenProofs LocalProofs LinkProofs
  RunSpec RunProofs GateProofs ToffoliProofs CondProofs SubSpec SubProofs SubProofs2 SubProofs3 SubProofs5 SubProofs6 SimModel SimSpec SimProofs ProgramModel ProgramSpec ProgramProofs ProgramProofs2 CircProofs CircProofs2
  ArithModel ArithSpec ArithProofs ArithProofs2 ArithProofs3 ArithProofs4 ArithProofs5 ArithProofs6 ArithProofs7 ArithProofs8 WeakProofs TraceProofs ArithProofs9 ArithProofs10 ArithProofs11 ArithProofs12 ArithProofs14 KindProofs ArithProofs15 ArithProofs17
  TimesSpec InvValueProofs ExpInvModel ExpInvProofs PropModInv PropModInv2 PropTimesInv.
Local Open Scope nat_scope.
Local Open Scope mon_scope.
Local Ltac nd := repeat constructor; cbn; intuition lia.

(** [f] on a new builder with registers in order, of the sizes of [rs], and [finv] on the registers [rs] of a
    builder with [k] qubits: for all [x] and [y] that differ on [rs] only, the amplitude of [x] after [finv]
    from [y] is the conjugate of that of [y] after [f] from [x], temporary qubits being 0 in both. *)
Definition adjoint (f finv : list reg -> M (list reg)) (k : nat) (rs : list reg) : Prop :=
  let m := length (concat rs) in let R := ranges 0 (map (@length nat) rs) in
  exists s1 s2, f R (fresh m) = Ret R s1 /\ finv rs (fresh k) = Ret rs s2 /\
    forall x y it1 it2 draws1 draws2, only_in (concat rs) x y ->
      (forall r v, In (r, v) it1 -> in_range m r) -> loads it1 (at_regs (concat rs) x) -> (forall r v, In (r, v) it2 -> in_range k r) -> loads it2 y ->
      exists v w, calculate_state_with_init (bld s1) it1 draws1 = Ok (v, []) /\ calculate_state_with_init (bld s2) it2 draws2 = Ok (w, []) /\
        nth (enc (bn (bld s2)) x) w (RtoC 0) = Cconj (nth (enc (bn (bld s1)) (at_regs (concat rs) y)) v (RtoC 0)).
Lemma adjoint_all (f : nat -> list reg -> M (list reg)) k rs s1 : rs <> [] -> Forall (fun r => r <> []) rs -> (forall r, knd (f 0 r)) ->
  let m := length (concat rs) in let R := ranges 0 (map (@length nat) rs) in
  xacts 0 f R (fun _ => any) -> f 0 R (fresh m) = Ret R s1 -> touching (fun j => m <= S j) (pipeline (bld s1)) -> NoDup (concat rs) -> in_range k (concat rs) ->
  adjoint (f 0) (fun rs => inv_macro 0 rs (f 0)) k rs.
Proof.
  intros Hrs Hne Kn m R Hx E Tc Nd Rg.
  pose proof (fresh_x f rs Hx) as X0. pose proof X0 as X1. destruct X1 as (s1' & p0 & E' & _ & _ & Eb & Ep & W & Pr & _). fold m R in E'. rewrite E in E'. injection E' as <-. cbn [fresh bld pipeline bn app] in Ep, Eb. subst p0. fold m in Eb.
  destruct (inv_value f rs s1 R (concat R) (Kn R) E X0 Tc Hrs Hne (fresh k) (fresh_depth k) (fresh_tidy k) (fresh_live k _ Nd Rg)) as (s2 & p & H1 & _ & _ & _ & H5 & H6 & H7 & H8 & H9).
  cbn [fresh bld bn pipeline app] in H5, H6. exists s1, s2. split; [exact E|]. split; [exact H1|].
  intros x y it1 it2 draws1 draws2 O R1 L1 R2 L2.
  destruct (simulate_ok (bld s1) it1 (at_regs (concat rs) x) draws1) as (v & Ev & _ & Sv).
  { intros r w Hin q Hq. specialize (R1 r w Hin q Hq). lia. }
  { exact L1. }
  { exact W. }
  { eapply Forall_impl; [|exact Pr]. intros e He. apply He. }
  destruct (simulate_ok (bld s2) it2 y draws2) as (w & Ew & _ & Sw).
  { intros r u Hin q Hq. specialize (R2 r u Hin q Hq). lia. }
  { exact L2. }
  { rewrite H6. exact H7. }
  { rewrite H6. eapply Forall_impl; [|exact H8]. intros e He. apply He. }
  exists v, w. split; [exact Ev|]. split; [exact Ew|].
  assert (Y : forall q, k <= q -> y q = false) by (intros q Hq; apply (proj2 L2); intros r u Hin I; specialize (R2 r u Hin q I); lia).
  assert (X : forall q, k <= q -> x q = false).
  { intros q Hq. rewrite <- O; [apply Y; exact Hq|]. intros I. specialize (Rg q I). lia. }
  change (st_of CN (bn (bld s2)) w x = Cconj (st_of CN (bn (bld s1)) v (at_regs (concat rs) y))). rewrite Sv, Sw, H6.
  destruct (H9 x y O) as (G & _).
  - intros q [Iq|[]] _. apply X. exact Iq.
  - intros q Hq. apply X. lia.
  - apply G. intros B HB _.
    assert (W' := within_wf (bn (bld s1)) (pipeline (bld s1)) W). apply W'. intros z Hz. unfold ket.
    set (x0 := at_regs (concat rs) x). set (n := bn (bld s1)) in *.
    assert (Zx : forall j, m <= j -> x0 j = false) by (intros j Hj; apply at_off; exact Hj).
    assert (Q : enc B x0 = enc B z <-> enc n x0 = enc n z).
    { split; intros e; apply enc_ext; intros j Hj.
      - apply (enc_inj _ _ _ e). lia.
      - destruct (Nat.lt_ge_cases j n) as [L|L]; [apply (enc_inj _ _ _ e); exact L|]. rewrite Zx by lia. rewrite Hz by (rewrite in_seq; lia). symmetry. apply at_off. unfold m in Eb. lia. }
    destruct (Nat.eqb_spec (enc B x0) (enc B z)) as [F|F], (Nat.eqb_spec (enc n x0) (enc n z)) as [F'|F']; try reflexivity; tauto.
Qed.

(** *** C58, C71, C72, C74: for all sizes and all inputs, also where the functions are wrong *)
Theorem C58_inverse_adjoint : forall k ra rb rm, length ra = length rm -> length rb = S (length ra) -> ra <> [] -> NoDup (concat [ra; rb; rm]) -> in_range k (concat [ra; rb; rm]) ->
  adjoint (add_mod 0) (add_mod_inv 0) k [ra; rb; rm].
Proof.
  intros k ra rb rm Lm Lb Ha Nd Rg. destruct (mod_new ra rb rm Lm Lb Ha) as (s1 & p & E & Ep & Eb & Tc & X & _). subst p.
  apply (adjoint_all add_mod k [ra; rb; rm] s1); try assumption.
  - discriminate.
  - repeat constructor; try assumption; apply ne_length; apply ne_length in Ha; lia.
  - intros r. apply n_add_mod.
  - eapply wacts_xacts, add_mod_w; rewrite ?seq_length; try assumption. apply ne_length. rewrite seq_length. apply ne_length. exact Ha.
Qed.
Print Assumptions C58_inverse_adjoint.
Theorem C71_inverse_adjoint : forall k ra rb rm rp, length ra = S (length rm) -> length rp = S (length rm) -> rm <> [] -> rb <> [] -> NoDup (concat [ra; rb; rm; rp]) -> in_range k (concat [ra; rb; rm; rp]) ->
  adjoint (times_mod 0) (times_mod_inv 0) k [ra; rb; rm; rp].
Proof.
  intros k ra rb rm rp La Lp Hm Hb Nd Rg. set (rs := [ra; rb; rm; rp] : list reg) in *. set (m := length (concat rs)). pose proof (live_seq m) as Lv. unfold m in Lv. rewrite <- (proj1 (ranges_spec rs)) in Lv. fold m in Lv.
  set (R := ranges 0 (map (@length nat) rs)) in *.
  assert (HM : seq (length ra + length rb) (length rm) <> []) by (apply ne_length; rewrite seq_length; apply ne_length; exact Hm).
  assert (HB : seq (length ra) (length rb) <> []) by (apply ne_length; rewrite seq_length; apply ne_length; exact Hb).
  destruct (times_touch (seq 0 (length ra)) (seq (length ra) (length rb)) (seq (length ra + length rb) (length rm)) (seq (length ra + length rb + length rm) (length rp)) (fresh m)) as (s1 & p & E & Ep & (e & j & He & Hj & Ij)).
  1, 2: rewrite !seq_length; assumption. 1, 2: assumption. 1: apply fresh_depth. 1: apply fresh_tidy. 1: exact Lv.
  cbn [fresh bld pipeline app] in Ep. subst p. apply (adjoint_all times_mod k rs s1); try assumption.
  - discriminate.
  - repeat constructor; try assumption; apply ne_length; lia.
  - intros r. apply n_times_mod.
  - eapply xacts_any, times_xacts; rewrite ?seq_length; assumption.
  - exists e, j. split; [exact He|]. split; [exact Hj|]. destruct Ij as [Ij|[]]. change (m <= j) in Ij. change (m <= S j). lia.
Qed.
Print Assumptions C71_inverse_adjoint.
Theorem C72_inverse_adjoint : forall k ra rm rs, length ra = S (length rm) -> length rs = S (length rm) -> rm <> [] -> NoDup (concat [ra; rm; rs]) -> in_range k (concat [ra; rm; rs]) ->
  adjoint (square_mod 0) (square_mod_inv 0) k [ra; rm; rs].
Proof.
  intros k ra rm rp La Lp Hm Nd Rg. set (rs := [ra; rm; rp] : list reg) in *. set (m := length (concat rs)). pose proof (live_seq m) as Lv. unfold m in Lv. rewrite <- (proj1 (ranges_spec rs)) in Lv. fold m in Lv.
  set (R := ranges 0 (map (@length nat) rs)) in *.
  assert (HM : seq (length ra) (length rm) <> []) by (apply ne_length; rewrite seq_length; apply ne_length; exact Hm).
  destruct (square_touch (seq 0 (length ra)) (seq (length ra) (length rm)) (seq (length ra + length rm) (length rp)) (fresh m)) as (s1 & p & E & Ep & (e & j & He & Hj & Ij)).
  1, 2: rewrite !seq_length; assumption. 1: assumption. 1: apply fresh_depth. 1: apply fresh_tidy. 1: exact Lv.
  cbn [fresh bld pipeline app] in Ep. subst p. apply (adjoint_all square_mod k rs s1); try assumption.
  - discriminate.
  - repeat constructor; try assumption; apply ne_length; lia.
  - intros r. apply n_square_mod.
  - eapply xacts_any, square_xacts; rewrite ?seq_length; assumption.
  - exists e, j. split; [exact He|]. split; [exact Hj|]. destruct Ij as [Ij|[]]. change (m <= j) in Ij. change (m <= S j). lia.
Qed.
Print Assumptions C72_inverse_adjoint.
Theorem C74_inverse_adjoint : forall k ra rb rm rp re, length ra = S (length rm) -> length rp = S (length rm) -> length re = S (length rm) -> rm <> [] -> rb <> [] ->
  NoDup (concat [ra; rb; rm; rp; re]) -> in_range k (concat [ra; rb; rm; rp; re]) -> adjoint (exp_mod 0) (exp_mod_inv 0) k [ra; rb; rm; rp; re].
Proof.
  intros k ra rb rm rp re La Lp Le Hm Hb Nd Rg. destruct (exp_new ra rb rm rp re La Lp Le Hm Hb) as (X & Ne & s1 & E & Tc).
  apply (adjoint_all exp_mod k [ra; rb; rm; rp; re] s1); try assumption.
  - discriminate.
  - intros r. apply n_exp_mod_fuel.
Qed.
Print Assumptions C74_inverse_adjoint.
(** The hypotheses can be met, with registers out of order; 2 and 1 differ on the register rb only. *)
Example C58_adjoint_example : forall draws1 draws2, exists s1 s2 v w, add_mod 0 [[0; 1]; [2; 3; 4]; [5; 6]] (fresh 7) = Ret [[0; 1]; [2; 3; 4]; [5; 6]] s1 /\
  add_mod_inv 0 [[6; 5]; [4; 3; 2]; [1; 0]] (fresh 7) = Ret [[6; 5]; [4; 3; 2]; [1; 0]] s2 /\
  calculate_state_with_init (bld s1) [([2; 3; 4], 1)] draws1 = Ok (v, []) /\ calculate_state_with_init (bld s2) [([4; 3; 2], 2)] draws2 = Ok (w, []) /\
  nth (enc (bn (bld s2)) (fun q => q =? 4)) w (RtoC 0) = Cconj (nth (enc (bn (bld s1)) (at_regs [6; 5; 4; 3; 2; 1; 0] (fun q => q =? 3))) v (RtoC 0)).
Proof.
  intros draws1 draws2. destruct (C58_inverse_adjoint 7 [6; 5] [4; 3; 2] [1; 0]) as (s1 & s2 & E1 & E2 & H).
  - reflexivity.
  - reflexivity.
  - discriminate.
  - cbn. nd.
  - intros q Hq. cbn in Hq. lia.
  - destruct (H (fun q => q =? 4) (fun q => q =? 3) [([2; 3; 4], 1)] [([4; 3; 2], 2)] draws1 draws2) as (v & w & F1 & F2 & F3).
    + intros q Hq. cbn in Hq. assert (q <> 4 /\ q <> 3) as (N4 & N3) by (split; intros ->; apply Hq; tauto). rewrite (proj2 (Nat.eqb_neq q 4) N4), (proj2 (Nat.eqb_neq q 3) N3). reflexivity.
    + intros r u [E|[]] q Hq. injection E as <- <-. cbn in *. lia.
    + split.
      * intros r u [E|[]] j Hj. injection E as <- <-. cbn in Hj. destruct j as [|[|[|j]]]; first [reflexivity|lia].
      * intros q Hq. unfold at_regs. cbn [length concat app]. destruct (Nat.ltb_spec q 7) as [L|L]; [|reflexivity].
        destruct q as [|[|[|q]]]; try reflexivity; [exfalso; apply (Hq [2; 3; 4] 1); cbn; auto|]. destruct q as [|[|[|[|q]]]]; first [reflexivity|lia].
    + intros r u [E|[]] q Hq. injection E as <- <-. cbn in Hq. lia.
    + split.
      * intros r u [E|[]] j Hj. injection E as <- <-. cbn in Hj. destruct j as [|[|[|j]]]; first [reflexivity|lia].
      * intros q Hq. apply Nat.eqb_neq. intros ->. apply (Hq [4; 3; 2] 2); cbn; auto.
    + exists s1, s2, v, w. split; [exact E1|]. split; [exact E2|]. split; [exact F1|]. split; [exact F2|exact F3].
Qed.
