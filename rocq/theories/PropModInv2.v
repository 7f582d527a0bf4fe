(** What the inverse of add_mod computes: C58. *)
From Coq Require Import Reals Lra FunctionalExtensionality Permutation.
From Coquelicot Require Import Complex.
From Verif Require Import Base BitsSpec BitsProofs OpsModel OpsSpec Instances BuilderModel RegProofs DenSpec DenProofs LocalProofs LinkProofs
  RunSpec RunProofs GateProofs ToffoliProofs CondProofs SubSpec SubProofs SubProofs2 SubProofs3 SubProofs5 SubProofs6 SimModel SimSpec SimProofs ProgramModel ProgramSpec ProgramProofs ProgramProofs2 CircProofs CircProofs2
  ArithModel ArithSpec ArithProofs ArithProofs2 ArithProofs3 ArithProofs4 ArithProofs5 ArithProofs6 ArithProofs7 ArithProofs8 WeakProofs TraceProofs ArithProofs9 ArithProofs10 ArithProofs11 ArithProofs12 ArithProofs14 KindProofs ArithProofs15 ArithProofs17
  InvValueProofs PropMod PropExp PropModInv.
Local Open Scope nat_scope.
Local Open Scope mon_scope.
Local Ltac nd := repeat constructor; cbn; intuition lia.

Lemma val_mid l1 l2 l3 x : val (seq (length l1) (length l2)) (at_regs (l1 ++ l2 ++ l3) x) = val l2 x.
Proof.
  unfold val. f_equal. rewrite at_map by (intros q Hq; apply in_seq in Hq; rewrite !app_length; lia). rewrite map_nth_mid. reflexivity.
Qed.
Lemma cconj_sin n : Cconj (cpow (RtoC (sin (/ 2))) n) = cpow (RtoC (sin (/ 2))) n.
Proof.
  assert (P : forall k, cpow (RtoC (sin (/ 2))) k = RtoC (sin (/ 2) ^ k)) by (induction k as [|m IH]; [reflexivity|]; cbn [cpow pow]; rewrite IH, <- RtoC_mult; reflexivity).
  rewrite P. apply Cconj_RtoC.
Qed.

Section Mod.
Context (ra rb rm : list nat) (Lm : length ra = length rm) (Lb : length rb = S (length ra)) (Ha : ra <> []).
Notation k := (length (concat [ra; rb; rm])).
Notation A := (seq 0 (length ra)).
Notation Bq := (seq (length ra) (length rb)).
Notation Mq := (seq (length ra + length rb) (length rm)).
Lemma three : concat [ra; rb; rm] = ra ++ rb ++ rm.
Proof. cbn [concat]. rewrite app_nil_r. reflexivity. Qed.
Lemma vals x : val A (at_regs (ra ++ rb ++ rm) x) = val ra x /\ val Bq (at_regs (ra ++ rb ++ rm) x) = val rb x /\ val Mq (at_regs (ra ++ rb ++ rm) x) = val rm x.
Proof.
  split; [apply (val_mid [] ra (rb ++ rm))|]. split; [apply val_mid|]. rewrite <- app_length. rewrite app_assoc, <- (app_nil_r ((ra ++ rb) ++ rm)), <- app_assoc. apply val_mid.
Qed.
Lemma adds_at x y : adds_mod ra rb rm x y -> NoDup (ra ++ rb ++ rm) -> adds_mod A Bq Mq (at_regs (ra ++ rb ++ rm) x) (at_regs (ra ++ rb ++ rm) y).
Proof.
  intros (H1 & H2 & O & V) N. destruct (vals x) as (E1 & E2 & E3), (vals y) as (_ & F2 & _). unfold adds_mod. rewrite E1, E2, E3, F2. split; [exact H1|]. split; [exact H2|]. split; [|exact V].
  intros q Hq. unfold at_regs. rewrite !app_length. destruct (Nat.ltb_spec q (length ra + (length rb + length rm))) as [L|L]; [|reflexivity]. apply O. intros I.
  apply Hq. apply in_seq. apply NoDup_app_iff in N. destruct N as (_ & N2 & N3). apply NoDup_app_iff in N2. destruct N2 as (_ & _ & N4).
  destruct (Nat.lt_ge_cases q (length ra)) as [G|G].
  - exfalso. rewrite app_nth1 in I by exact G. apply (N3 _ (nth_In _ 0 G)). apply in_or_app. left. exact I.
  - split; [exact G|]. destruct (Nat.lt_ge_cases q (length ra + length rb)) as [G'|G']; [exact G'|]. exfalso. rewrite app_nth2 in I by exact G. rewrite app_nth2 in I by lia.
    apply (N4 _ I). apply nth_In. lia.
Qed.
Lemma at_zero x q : k <= q -> at_regs (ra ++ rb ++ rm) x q = false.
Proof. intros H. unfold at_regs. destruct (Nat.ltb_spec q (length (ra ++ rb ++ rm))) as [L|L]; [rewrite three in H; lia|reflexivity]. Qed.
Lemma mod_new : exists s1 p, add_mod 0 [A; Bq; Mq] (fresh k) = Ret [A; Bq; Mq] s1 /\ pipeline (bld s1) = p /\ k <= bn (bld s1) /\ touching (fun j => k <= S j) p /\
  xdoes any (fresh k) (seq 0 k) (add_mod 0 [A; Bq; Mq]) [A; Bq; Mq] (seq 0 k) /\
  (forall B x y, bn (bld s1) <= B -> adds_mod A Bq Mq x y -> (forall q, k <= q -> x q = false) -> den p (ket B x) y = cpow (RtoC (sin (/ 2))) (lost (length ra) (val A x) (val Bq x) (val Mq x))) /\
  (forall B x y, bn (bld s1) <= B -> adds_mod A Bq Mq x y -> (forall q, k <= q -> x q = false) -> lost (length ra) (val A x) (val Bq x) (val Mq x) = 0 -> den p (ket B x) = ket B y).
Proof.
  assert (Ek : k = length ra + (length rb + length rm)) by (rewrite three, !app_length; reflexivity).
  assert (Ec : A ++ Bq ++ Mq = seq 0 k) by (rewrite Ek, !seq_app; reflexivity).
  assert (CC : concat [A; Bq; Mq] = A ++ Bq ++ Mq) by (cbn [concat]; rewrite app_nil_r; reflexivity).
  assert (Lv : live (fresh k) (A ++ Bq ++ Mq)) by (rewrite Ec; apply live_seq).
  assert (Nd : NoDup (A ++ Bq ++ Mq)) by (rewrite Ec; apply seq_NoDup).
  assert (LA : length A = length Mq) by (rewrite !seq_length; exact Lm). assert (LB : length Bq = S (length A)) by (rewrite !seq_length; exact Lb).
  assert (HA : A <> []) by (destruct ra; [congruence|discriminate]).
  destruct (C58_add_mod_exact A Bq Mq (fresh k) LA LB HA Nd (fresh_depth k) (fresh_tidy k) Lv) as (s1 & p & E & _ & _ & _ & Eb & Ep & D).
  destruct (C58_add_mod_partial A Bq Mq (fresh k) LA LB HA Nd (fresh_depth k) (fresh_tidy k) Lv) as (s2 & p2 & E2 & _ & _ & _ & _ & Ep2 & D2).
  rewrite E in E2. injection E2 as <-. rewrite Ep in Ep2. cbn [fresh bld pipeline app] in Ep, Ep2. subst p2.
  destruct (add_mod_touch A Bq Mq (fresh k) LA LB HA (fresh_depth k) (fresh_tidy k)) as (s3 & p3 & E3 & Ep3 & (e & j & He & Hj & Ij)); [rewrite CC; exact Lv|].
  rewrite E in E3. injection E3 as <-. rewrite Ep in Ep3. cbn [fresh bld pipeline app] in Ep3. subst p3.
  rewrite !seq_length in D, D2. cbn [fresh bld bn] in Eb.
  exists s1, p. split; [exact E|]. split; [exact Ep|]. split; [exact Eb|]. split.
  { exists e, j. split; [exact He|]. split; [exact Hj|]. destruct Ij as [Ij|[]]. cbn [fresh bld bn] in Ij. lia. }
  assert (Id : forall q, idle (fresh k) q -> k <= q) by (intros q [I|[]]; exact I).
  split.
  { pose proof (wacts_xacts 0 add_mod [A; Bq; Mq] _ (add_mod_w 0 A Bq Mq LA LB HA)) as X. specialize (X (fresh k) (fresh_depth k) (fresh_tidy k)). cbn [cqs fresh conds app] in X. rewrite CC, Ec in X. eapply x_weak; [|apply X; apply live_seq]. intros; exact I. }
  split.
  - intros B x y HB Am Z. rewrite (D (ket B x) x y Am).
    + rewrite ket_eq by reflexivity. ring.
    + intros q Iq _. apply Z, Id, Iq.
    + intros z (q & Hq & X). apply in_seq in Hq. apply (ket_ne _ x z q); [lia|congruence].
  - intros B x y HB Am Z L0.
    assert (Ag : forall z, (forall q, q < B -> z q = x q) -> val A z = val A x /\ val Bq z = val Bq x /\ val Mq z = val Mq x).
    { intros z Hz. assert (V : forall r, (forall q, In q r -> q < k) -> val r z = val r x) by (intros r Hr; unfold val; f_equal; apply map_ext_in; intros q Hq; apply Hz; specialize (Hr q Hq); lia).
      split; [|split]; apply V; intros q Hq; apply in_seq in Hq; lia. }
    assert (Kz : forall z, (forall q, q < B -> z q = x q) \/ ket B x z = RtoC 0).
    { intros z. unfold ket. destruct (Nat.eqb_spec (enc B x) (enc B z)) as [e'|e']; [left|right; reflexivity]. intros q Hq. symmetry. apply (enc_inj _ _ _ e' q Hq). }
    destruct (D2 (ket B x)) as (G1 & G2).
    + intros q Iq Hq. apply ket_clean; [lia|]. apply Z, Id, Iq.
    + intros z Hz. destruct (Kz z) as [X|X]; [|exact X]. exfalso. apply Hz. destruct (Ag z X) as (-> & -> & ->). destruct Am as (M1 & M2 & _). auto.
    + destruct Am as (M1 & M2 & O & V). extensionality z. unfold ket at 2. destruct (Nat.eqb_spec (enc B y) (enc B z)) as [F|F].
      * set (w := fun q => if q <? B then x q else z q).
        assert (Hw : forall q, q < B -> w q = x q) by (intros q Hq; unfold w; rewrite (proj2 (Nat.ltb_lt q B) Hq); reflexivity).
        rewrite (G1 w z).
        -- unfold ket. replace (enc B w) with (enc B x); [rewrite Nat.eqb_refl; reflexivity|]. apply enc_ext. intros q Hq. symmetry. apply Hw, Hq.
        -- destruct (Ag w Hw) as (V1 & V2 & V3). unfold adds_mod. rewrite V1, V2, V3. split; [exact M1|]. split; [exact M2|]. split.
           ++ intros q Hq. unfold w. destruct (Nat.ltb_spec q B) as [L|L]; [|reflexivity]. rewrite <- (enc_inj _ _ _ F q L). apply O. exact Hq.
           ++ rewrite <- V. unfold val. f_equal. apply map_ext_in. intros q Hq. symmetry. apply (enc_inj _ _ _ F). apply in_seq in Hq. lia.
        -- intros q Iq Hq. rewrite Hw by lia. apply Z, Id, Iq.
      * apply G2. intros w (_ & _ & Ow & Vw). destruct (Kz w) as [X|X]; [|exact X]. exfalso. apply F. destruct (Ag w X) as (V1 & V2 & V3). rewrite V1, V2, V3, <- V in Vw.
        apply enc_ext. intros q Hq. destruct (in_dec Nat.eq_dec q Bq) as [I|I].
        -- symmetry. apply (val_inj _ _ _ Vw). exact I.
        -- rewrite O, Ow by exact I. symmetry. apply X. exact Hq.
Qed.
Lemma mod_inverse s : at_depth 0 s -> tidy s -> live s (ra ++ rb ++ rm) ->
  exists s' p, add_mod_inv 0 [ra; rb; rm] s = Ret [ra; rb; rm] s' /\ conds s' = conds s /\ tidy s' /\ live s' (ra ++ rb ++ rm) /\ bn (bld s) <= bn (bld s') /\
    pipeline (bld s') = pipeline (bld s) ++ p /\ Forall (wf_entry (bn (bld s'))) p /\ Forall proper_entry p /\
    forall x y, adds_mod ra rb rm x y -> (forall q, idle s q -> q < bn (bld s') -> x q = false) -> (forall q, bn (bld s') <= q -> x q = false) ->
      den p (ket (bn (bld s')) y) x = cpow (RtoC (sin (/ 2))) (lost (length ra) (val ra x) (val rb x) (val rm x)) /\
      (lost (length ra) (val ra x) (val rb x) (val rm x) = 0 ->
        forall phi, (forall q, idle s q -> q < bn (bld s') -> clean [q] phi) -> den p phi x = phi y).
Proof.
  intros Ad T Lv. destruct mod_new as (s1 & p0 & E & Ep & Eb & Tc & X & D1 & D2). rewrite <- Ep in Tc.
  destruct (inv_value add_mod [ra; rb; rm] s1 [A; Bq; Mq] (seq 0 k)) with (s := s) as (s' & p & H1 & H2 & H3 & H4 & H5 & H6 & H7 & H8 & H9).
  - apply n_add_mod.
  - exact E.
  - exact X.
  - exact Tc.
  - discriminate.
  - repeat constructor; try assumption; apply ne_length; apply ne_length in Ha; lia.
  - exact Ad.
  - exact T.
  - rewrite three. exact Lv.
  - rewrite three in *. exists s', p. do 8 (split; [assumption|]). intros x y Am Z Zb. assert (N : NoDup (ra ++ rb ++ rm)) by apply Lv.
    pose proof (adds_at x y Am N) as Am'. destruct (vals x) as (V1 & V2 & V3).
    destruct (H9 x y) as (G1 & G2).
    + intros q Hq. destruct Am as (_ & _ & O & _). apply O. intros I. apply Hq. rewrite !in_app_iff. tauto.
    + exact Z.
    + exact Zb.
    + split.
      * rewrite <- cconj_sin. apply G1. intros B HB _. rewrite Ep, <- V1, <- V2, <- V3. apply D1; [exact HB|exact Am'|intros q Hq; apply at_zero; rewrite three; exact Hq].
      * intros L0. apply G2. intros B HB _. rewrite Ep. apply D2; [exact HB|exact Am'|intros q Hq; apply at_zero; rewrite three; exact Hq|]. rewrite V1, V2, V3. exact L0.
Qed.
End Mod.

(** *** C58: the value of the inverse *)
(** From the basis state with (a + b) mod m: the amplitude found at b is sin (1/2) to the number of places that add_mod loses on a, b, m. *)
Theorem C58_inverse_exact : forall ra rb rm s, length ra = length rm -> length rb = S (length ra) -> ra <> [] -> at_depth 0 s -> tidy s -> live s (ra ++ rb ++ rm) ->
  exists s' p, add_mod_inv 0 [ra; rb; rm] s = Ret [ra; rb; rm] s' /\ conds s' = conds s /\ tidy s' /\ live s' (ra ++ rb ++ rm) /\ bn (bld s) <= bn (bld s') /\
    pipeline (bld s') = pipeline (bld s) ++ p /\
    forall x y, adds_mod ra rb rm x y -> (forall q, idle s q -> q < bn (bld s') -> x q = false) -> (forall q, bn (bld s') <= q -> x q = false) ->
      den p (ket (bn (bld s')) y) x = cpow (RtoC (sin (/ 2))) (lost (length ra) (val ra x) (val rb x) (val rm x)).
Proof.
  intros ra rb rm s Lm Lb Ha Ad T Lv. destruct (mod_inverse ra rb rm Lm Lb Ha s Ad T Lv) as (s' & p & H1 & H2 & H3 & H4 & H5 & H6 & H7 & H8 & H9).
  exists s', p. do 6 (split; [assumption|]). intros x y Am Z Zb. apply H9; assumption.
Qed.
Print Assumptions C58_inverse_exact.
(** On every state: where no place is lost, the amplitude of (a + b) mod m ends up at b. *)
Theorem C58_inverse_partial : forall ra rb rm s, length ra = length rm -> length rb = S (length ra) -> ra <> [] -> at_depth 0 s -> tidy s -> live s (ra ++ rb ++ rm) ->
  exists s' p, add_mod_inv 0 [ra; rb; rm] s = Ret [ra; rb; rm] s' /\ conds s' = conds s /\ tidy s' /\ live s' (ra ++ rb ++ rm) /\ bn (bld s) <= bn (bld s') /\
    pipeline (bld s') = pipeline (bld s) ++ p /\
    forall phi, (forall q, idle s q -> q < bn (bld s') -> clean [q] phi) ->
    forall x y, adds_mod ra rb rm x y -> lost (length ra) (val ra x) (val rb x) (val rm x) = 0 ->
      (forall q, idle s q -> q < bn (bld s') -> x q = false) -> (forall q, bn (bld s') <= q -> x q = false) -> den p phi x = phi y.
Proof.
  intros ra rb rm s Lm Lb Ha Ad T Lv. destruct (mod_inverse ra rb rm Lm Lb Ha s Ad T Lv) as (s' & p & H1 & H2 & H3 & H4 & H5 & H6 & H7 & H8 & H9).
  exists s', p. do 6 (split; [assumption|]). intros phi Cl x y Am L0 Z Zb. apply (H9 x y); assumption.
Qed.
Print Assumptions C58_inverse_partial.
(** Through the simulator, from registers loaded with a, (a + b) mod m and m. *)
Theorem C58_inverse_simulated : forall k ra rb rm it x y draws, length ra = length rm -> length rb = S (length ra) -> ra <> [] -> NoDup (ra ++ rb ++ rm) -> in_range k (ra ++ rb ++ rm) ->
  (forall r v, In (r, v) it -> in_range k r) -> loads it y -> adds_mod ra rb rm x y ->
  exists s' v, add_mod_inv 0 [ra; rb; rm] (fresh k) = Ret [ra; rb; rm] s' /\ calculate_state_with_init (bld s') it draws = Ok (v, []) /\
    nth (enc (bn (bld s')) x) v (RtoC 0) = cpow (RtoC (sin (/ 2))) (lost (length ra) (val ra x) (val rb x) (val rm x)).
Proof.
  intros k ra rb rm it x y draws Lm Lb Ha Nd R Ri Lo Am.
  destruct (mod_inverse ra rb rm Lm Lb Ha (fresh k) (fresh_depth k) (fresh_tidy k) (fresh_live k _ Nd R)) as (s' & p & E & _ & _ & _ & Eb & Ep & W & Pr & D).
  cbn [fresh bld bn pipeline app] in Eb, Ep.
  destruct (simulate_ok (bld s') it y draws) as (v & Ev & Lv & H).
  - intros r w Hin q Hq. specialize (Ri r w Hin q Hq). lia.
  - exact Lo.
  - rewrite Ep. exact W.
  - rewrite Ep. eapply Forall_impl; [|exact Pr]. intros e He. apply He.
  - exists s', v. split; [exact E|]. split; [exact Ev|].
    assert (Y : forall q, k <= q -> y q = false).
    { intros q Hq. apply (proj2 Lo). intros r w Hin I. specialize (Ri r w Hin q I). lia. }
    assert (X : forall q, k <= q -> x q = false).
    { intros q Hq. destruct Am as (_ & _ & O & _). rewrite <- O; [apply Y; exact Hq|]. intros I. assert (q < k); [apply R; rewrite !in_app_iff; tauto|lia]. }
    change (st_of CN (bn (bld s')) v x = cpow (RtoC (sin (/ 2))) (lost (length ra) (val ra x) (val rb x) (val rm x))). rewrite H, Ep. apply D.
    + exact Am.
    + intros q [Iq|[]] _. apply X. exact Iq.
    + intros q Hq. apply X. lia.
Qed.
Print Assumptions C58_inverse_simulated.
(** So the inverse is wrong too for all sizes from 2 up: 0 - 0 mod 3. *)
Theorem C58_inverse_refuted : forall n k ra rb rm it x draws, length ra = S (S n) -> length rb = S (S (S n)) -> length rm = S (S n) -> NoDup (ra ++ rb ++ rm) -> in_range k (ra ++ rb ++ rm) ->
  (forall r v, In (r, v) it -> in_range k r) -> loads it x -> val ra x = 0 -> val rb x = 0 -> val rm x = 3 ->
  adds_mod ra rb rm x x /\ exists s' v j, add_mod_inv 0 [ra; rb; rm] (fresh k) = Ret [ra; rb; rm] s' /\ calculate_state_with_init (bld s') it draws = Ok (v, []) /\
    nth (enc (bn (bld s')) x) v (RtoC 0) = RtoC (sin (/ 2) ^ S j) /\ (0 <= sin (/ 2) ^ S j < 1)%R.
Proof.
  intros n k ra rb rm it x draws La Lb Lm Nd R Ri Lo Va Vb Vm.
  destruct (C58_refuted n k ra rb rm it x draws La Lb Lm Nd R Ri Lo Va Vb Vm) as (Am & s0 & v0 & j & E1 & E2 & E3 & B). split; [exact Am|].
  destruct (C58_simulated k ra rb rm it x x draws ltac:(lia) ltac:(lia) ltac:(intros ->; discriminate) Nd R Ri Lo Am) as (s1 & v1 & F1 & F2 & F3).
  rewrite E1 in F1. injection F1 as <-. rewrite E2 in F2. injection F2 as <-. rewrite E3 in F3.
  destruct (C58_inverse_simulated k ra rb rm it x x draws ltac:(lia) ltac:(lia) ltac:(intros ->; discriminate) Nd R Ri Lo Am) as (s' & v & G1 & G2 & G3).
  exists s', v, j. rewrite <- F3 in G3. auto.
Qed.
Print Assumptions C58_inverse_refuted.
(** The hypotheses can be met: from a = 2, 0 = (2 + 1) mod 3, the 1 is found. *)
Example C58_inverse_example2 : forall draws, exists s' v, add_mod_inv 0 [[0; 1]; [2; 3; 4]; [5; 6]] (fresh 7) = Ret [[0; 1]; [2; 3; 4]; [5; 6]] s' /\
  calculate_state_with_init (bld s') [([0; 1], 2); ([2; 3; 4], 0); ([5; 6], 3)] draws = Ok (v, []) /\
  nth (enc (bn (bld s')) (fun q => existsb (Nat.eqb q) [1; 2; 5; 6])) v (RtoC 0) = RtoC 1.
Proof.
  intros draws. destruct (C58_inverse_simulated 7 [0; 1] [2; 3; 4] [5; 6] [([0; 1], 2); ([2; 3; 4], 0); ([5; 6], 3)] (fun q => existsb (Nat.eqb q) [1; 2; 5; 6]) (fun q => existsb (Nat.eqb q) [1; 5; 6]) draws)
    as (s' & v & E1 & E2 & E3).
  - reflexivity.
  - reflexivity.
  - discriminate.
  - cbn. nd.
  - intros q Hq. cbn in Hq. lia.
  - intros r w [E|[E|[E|[]]]] q Hq; injection E as <- <-; cbn in Hq; lia.
  - split.
    + intros r w [E|[E|[E|[]]]] j Hj; injection E as <- <-; cbn in Hj; destruct j as [|[|[|j]]]; first [reflexivity|lia].
    + intros q Hq. destruct (existsb (Nat.eqb q) [1; 5; 6]) eqn:X; [|reflexivity]. exfalso. apply existsb_exists in X. destruct X as (j & Ij & X). apply Nat.eqb_eq in X. subst j.
      destruct Ij as [<-|[<-|[<-|[]]]]; [apply (Hq [0; 1] 2); cbn; auto|apply (Hq [5; 6] 3); cbn; auto|apply (Hq [5; 6] 3); cbn; auto].
  - unfold adds_mod. split; [cbn; lia|]. split; [cbn; lia|]. split; [|reflexivity]. intros q Hq. cbn in *. destruct q as [|[|[|q]]]; try reflexivity. exfalso. apply Hq. auto.
  - exists s', v. split; [exact E1|]. split; [exact E2|]. etransitivity; [exact E3|]. reflexivity.
Qed.
