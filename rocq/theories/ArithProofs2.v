(** What the add circuit computes. *)
From Coq Require Import Reals FunctionalExtensionality Permutation.
From Coquelicot Require Import Complex.
From Verif Require Import Base BitsSpec BitsProofs OpsModel OpsSpec Instances BuilderModel RegProofs DenSpec DenProofs LocalProofs LinkProofs
  RunSpec RunProofs GateProofs ToffoliProofs CondProofs SubSpec SubProofs SubProofs2 SubProofs3 ProgramModel ProgramSpec ProgramProofs ProgramProofs2 CircProofs CircProofs2
  ArithModel ArithSpec ArithProofs.
Local Open Scope nat_scope.

Fixpoint rip (c : bool) (cs ra rb : list bool) : list bool :=
  match ra, rb, cs with
  | [a], b :: b1 :: _, _ => [xorb b (xorb a c); xorb b1 (maj a b c)]
  | a :: ra', b :: rb', c1 :: cs' => xorb b (xorb a c) :: rip (xorb c1 (maj a b c)) cs' ra' rb'
  | _, _, _ => []
  end.
Lemma rip_length : forall cs c ra rb, length ra = S (length cs) -> length rb = S (length ra) -> length (rip c cs ra rb) = length rb.
Proof.
  induction cs as [|c1 cs IH]; intros c ra rb La Lb.
  - destruct ra as [|a [|]]; try discriminate. destruct rb as [|b [|b1 [|]]]; try discriminate. reflexivity.
  - destruct ra as [|a [|a1 ra]]; try discriminate. destruct rb as [|b rb]; try discriminate. cbn [rip length] in *. rewrite IH; cbn [length]; lia.
Qed.
Lemma run_add : forall cs c ra rb x, length ra = S (length cs) -> length rb = S (length ra) -> NoDup ((c :: cs) ++ ra ++ rb) ->
  run (add_c (c :: cs) ra rb) x = updl x rb (rip (x c) (map x cs) (map x ra) (map x rb)).
Proof.
  induction cs as [|c1 cs IH]; intros c ra rb x La Lb N.
  - destruct ra as [|a [|]]; try discriminate. destruct rb as [|b [|b1 [|]]]; try discriminate. cbn [app] in N. cbn [add_c map rip updl].
    assert (N' := N). inversion N' as [|? ? Nc N1]; subst. inversion N1 as [|? ? Na N2]; subst. inversion N2 as [|? ? Nb _]; subst. cbn in Nc, Na, Nb.
    rewrite run_app, (proj1 (run_carry c a b b1 x N)), run_sum by intuition congruence. rewrite !(upd_other x b1) by intuition congruence.
    rewrite <- (upd_comm x b1 b) by intuition congruence. reflexivity.
  - destruct ra as [|a ra]; [discriminate|]. destruct rb as [|b rb]; [discriminate|]. cbn [length] in La, Lb. injection La as La. injection Lb as Lb.
    assert (N' : NoDup (c :: c1 :: cs ++ a :: ra ++ b :: rb)) by exact N.
    assert (Nt : NoDup ((c1 :: cs) ++ ra ++ rb)) by (eapply sub_NoDup; [|exact N']; cbn [app]; auto 12 using sub, sub_all).
    assert (N4 : NoDup [c; a; b; c1]).
    { eapply (sub_pick _ _ [c; c1; a; b]); [|cbn [app]|exact N']; [apply perm_skip; apply (Permutation_app_comm [a; b] [c1])|]. auto 12 using sub, sub_all. }
    assert (Hc1 : ~ In c1 cs /\ ~ In c1 ra /\ ~ In c1 rb).
    { cbn [app] in Nt. inversion Nt as [|? ? X _]; subst. rewrite !in_app_iff in X. tauto. }
    assert (Nb : NoDup (b :: rb)) by (eapply sub_NoDup; [|exact N']; auto 12 using sub, sub_all).
    assert (Hrb : ~ In c rb /\ ~ In a rb /\ ~ In b rb).
    { assert (Y : NoDup (c :: a :: b :: rb)) by (eapply sub_NoDup; [|exact N']; auto 12 using sub, sub_all).
      inversion Y as [|? ? Y1 Y2]; subst. inversion Y2 as [|? ? Y3 Y4]; subst. inversion Y4 as [|? ? Y5 _]; subst. cbn in Y1, Y3. tauto. }
    inversion N4 as [|? ? Nc M1]; subst. inversion M1 as [|? ? Na M2]; subst. inversion M2 as [|? ? Nb1 _]; subst. cbn in Nc, Na, Nb1.
    set (m := maj (x a) (x b) (x c)). set (x1 := upd x c1 (xorb (x c1) m)).
    assert (Mp : forall l, ~ In c1 l -> map x1 l = map x l).
    { intros l Hl. apply map_ext_in. intros q Hq. apply upd_other. intros ->. tauto. }
    set (v := rip (xorb (x c1) m) (map x cs) (map x ra) (map x rb)).
    assert (Lv : length v = length rb) by (unfold v; rewrite rip_length; rewrite ?map_length; lia).
    set (x2 := updl x1 rb v).
    assert (R2 : run (add_c (c1 :: cs) ra rb) x1 = x2).
    { rewrite IH by assumption. unfold x2, v. rewrite !Mp by tauto. unfold x1 at 2. rewrite upd_same. reflexivity. }
    assert (O2 : forall q, ~ In q rb -> x2 q = x1 q) by (intros q Hq; apply updl_notin; exact Hq).
    assert (V2 : map x2 rb = v) by (apply updl_map; [inversion Nb; assumption|exact Lv]).
    assert (A2 : x2 a = x a /\ x2 b = x b /\ x2 c = x c /\ x2 c1 = xorb (x c1) m).
    { rewrite !O2 by tauto. unfold x1. rewrite upd_same, !upd_other by intuition congruence. auto. }
    destruct A2 as (A2a & A2b & A2c & A2d).
    change (add_c (c :: c1 :: cs) (a :: ra) (b :: rb)) with (carry_c c a b c1 ++ add_c (c1 :: cs) ra rb ++ rev (carry_c c a b c1) ++ sum_c c a b).
    rewrite !run_app. rewrite (proj1 (run_carry c a b c1 x N4)). fold m. fold x1. rewrite R2.
    rewrite (proj2 (run_carry c a b c1 x2 N4)), A2a, A2b, A2c, A2d. fold m. rewrite xorb_assoc, xorb_nilpotent, xorb_false_r.
    rewrite run_sum by intuition congruence. rewrite !(upd_other x2 c1) by intuition congruence. rewrite A2a, A2b, A2c.
    symmetry. assert (Ev : rip (x c) (map x (c1 :: cs)) (map x (a :: ra)) (map x (b :: rb)) = xorb (x b) (xorb (x a) (x c)) :: v).
    { destruct ra as [|a1 ra]; [discriminate|]. reflexivity. }
    rewrite Ev. apply updl_unique; [exact Nb| |].
    + cbn [map]. rewrite upd_same. f_equal. rewrite <- V2. apply map_ext_in. intros q Hq. rewrite !upd_other; [reflexivity| |]; intros ->; tauto.
    + intros q Hq. cbn in Hq. rewrite upd_other by intuition congruence. destruct (Nat.eq_dec q c1) as [->|Hne]; [apply upd_same|].
      rewrite upd_other by exact Hne. rewrite O2 by tauto. apply upd_other. exact Hne.
Qed.
Lemma b2n_xor a b c : b2n (xorb b (xorb a c)) + 2 * b2n (maj a b c) = b2n a + b2n b + b2n c.
Proof. destruct a, b, c; reflexivity. Qed.
Lemma rip_value : forall cs c ra rb, length ra = S (length cs) -> length rb = S (length ra) -> (forall b, In b cs -> b = false) ->
  le (rip c cs ra rb) = (b2n c + le ra + le rb) mod 2 ^ length rb.
Proof.
  induction cs as [|c1 cs IH]; intros c ra rb La Lb Z.
  - destruct ra as [|a [|]]; try discriminate. destruct rb as [|b [|b1 [|]]]; try discriminate. destruct a, b, b1, c; reflexivity.
  - destruct ra as [|a [|a1 ra]]; try discriminate. destruct rb as [|b rb]; [discriminate|]. cbn [length] in La, Lb. injection La as La. injection Lb as Lb.
    assert (Hc1 : c1 = false) by (apply Z; left; reflexivity). cbn [rip le]. fold (le (a1 :: ra)).
    rewrite IH; [|cbn [length]; lia|cbn [length]; lia|intros b' Hb; apply Z; right; exact Hb]. rewrite Hc1, xorb_false_l.
    set (w := le (a1 :: ra)). set (u := le rb). set (P := 2 ^ length rb). replace (2 ^ length (b :: rb)) with (2 * P) by reflexivity.
    assert (HP : P <> 0) by (unfold P; pose proof (pow2_pos (length rb)); lia).
    pose proof (b2n_xor a b c) as X. set (sm := b2n (xorb b (xorb a c))) in *. set (mj := b2n (maj a b c)) in *.
    change (b2n a1 + 2 * le ra) with w. replace (b2n c + (b2n a + 2 * w) + (b2n b + 2 * u)) with (sm + (mj + w + u) * 2) by lia.
    rewrite Nat.mod_mul_r by lia. rewrite Nat.mod_add, Nat.div_add by lia.
    replace (sm mod 2) with sm by (unfold sm; destruct (xorb b (xorb a c)); reflexivity).
    replace (sm / 2) with 0 by (unfold sm; destruct (xorb b (xorb a c)); reflexivity). reflexivity.
Qed.
Lemma le_inj l l' : length l = length l' -> le l = le l' -> l = l'.
Proof.
  revert l'. induction l as [|b l IH]; intros [|b' l'] L E; try discriminate; [reflexivity|]. cbn [le length] in *.
  assert (b = b' /\ le l = le l') as (-> & E2) by (destruct b, b'; cbn [b2n] in E; split; try reflexivity; lia). f_equal. apply IH; [lia|exact E2].
Qed.
(** [y] is [x] with the sum in [rb]. *)
Lemma add_relation rc ra rb x y : length ra = length rc -> length rb = S (length rc) -> rc <> [] -> NoDup (rc ++ ra ++ rb) -> zero_in (tl rc) x -> only_in rb x y ->
  val rb y = (val ra x + val rb x + b2n (x (hd 0 rc))) mod 2 ^ length rb -> y = run (add_c rc ra rb) x.
Proof.
  intros La Lb Hne N Z O V. destruct rc as [|c cs]; [congruence|]. cbn [hd tl length] in *. rewrite run_add by (try assumption; lia).
  symmetry. apply updl_unique; [apply NoDup_app_iff in N; destruct N as (_ & N & _); apply NoDup_app_iff in N; apply N| |exact O].
  apply le_inj; [rewrite rip_length; rewrite ?map_length; lia|]. unfold val in V. rewrite V. rewrite rip_value; rewrite ?map_length; try lia.
  - f_equal. lia.
  - intros b Hb. apply in_map_iff in Hb. destruct Hb as (q & <- & Hq). apply Z. exact Hq.
Qed.

(** *** add and add_inv *)
Lemma add_acts rc ra rb : length ra = length rc -> length rb = S (length rc) -> rc <> [] -> NoDup (rc ++ ra ++ rb) ->
  acts 0 add [rc; ra; rb] (eff (add_c rc ra rb)) /\ cok (rc ++ ra ++ rb) (add_c rc ra rb).
Proof. intros La Lb Hne N. apply (add_fuel_acts rc ra rb (S (length rc)) La Lb Hne (Nat.le_succ_diag_r _) N). Qed.
Lemma rng_app f c1 c2 : map (rng f) (c1 ++ c2) = map (rng f) c1 ++ map (rng f) c2.
Proof. apply map_app. Qed.
Lemma add_c_natural f : forall rc ra rb, map (rng f) (add_c rc ra rb) = add_c (map f rc) (map f ra) (map f rb).
Proof.
  induction rc as [|c [|c1 cs] IH]; intros ra rb; [reflexivity| |].
  - destruct ra as [|a [|]]; [reflexivity| |]; destruct rb as [|b [|b1 [|]]]; reflexivity.
  - destruct ra as [|a ra]; [reflexivity|]. destruct rb as [|b rb]; [reflexivity|].
    change (add_c (c :: c1 :: cs) (a :: ra) (b :: rb)) with (carry_c c a b c1 ++ add_c (c1 :: cs) ra rb ++ rev (carry_c c a b c1) ++ sum_c c a b).
    rewrite !rng_app, IH. reflexivity.
Qed.
Lemma add_cs_natural f rs : map (rng f) (add_cs rs) = add_cs (map (map f) rs).
Proof. destruct rs as [|rc [|ra [|rb [|]]]]; try reflexivity. apply add_c_natural. Qed.
Lemma rip_last : forall cs c ra rb, length ra = S (length cs) -> length rb = S (length ra) -> (forall b, In b ra -> b = true) -> (forall b, In b rb -> b = true) ->
  last (rip c cs ra rb) true = false.
Proof.
  induction cs as [|c1 cs IH]; intros c ra rb La Lb Ha Hb.
  - destruct ra as [|a [|]]; try discriminate. destruct rb as [|b [|b1 [|]]]; try discriminate. cbn [rip last].
    rewrite (Ha a), (Hb b), (Hb b1) by (cbn; tauto). destruct c; reflexivity.
  - destruct ra as [|a [|a1 ra]]; try discriminate. destruct rb as [|b rb]; [discriminate|]. cbn [length] in La, Lb. cbn [rip].
    assert (X : last (rip (xorb c1 (maj a b c)) cs (a1 :: ra) rb) true = false).
    { apply IH; [cbn [length]; lia|cbn [length]; lia|intros q Hq; apply Ha; right; exact Hq|intros q Hq; apply Hb; right; exact Hq]. }
    assert (Y : length (rip (xorb c1 (maj a b c)) cs (a1 :: ra) rb) = length rb) by (apply rip_length; cbn [length]; lia).
    destruct (rip (xorb c1 (maj a b c)) cs (a1 :: ra) rb) as [|r0 r]; [cbn in Y; lia|exact X].
Qed.
Lemma last_map {A B} (f : A -> B) l a b : l <> [] -> last (map f l) b = f (last l a).
Proof. intros H. induction l as [|q [|q2 l] IH]; [congruence|reflexivity|]. apply IH. discriminate. Qed.
Lemma last_seq a n d : last (seq a (S n)) d = a + n.
Proof. revert a. induction n as [|n IH]; intros a; [cbn; lia|]. change (last (seq (S a) (S n)) d = a + S n). rewrite IH. lia. Qed.
Lemma add_inv_acts rc ra rb : length ra = length rc -> length rb = S (length rc) -> rc <> [] -> NoDup (rc ++ ra ++ rb) ->
  acts 0 add_inv [rc; ra; rb] (eff (rev (add_c rc ra rb))) /\ cok (rc ++ ra ++ rb) (rev (add_c rc ra rb)).
Proof.
  intros La Lb Hne N. split; [|apply cok_rev, add_acts; assumption].
  destruct rc as [|c cs]; [congruence|]. set (n := length cs) in *. cbn [length] in La, Lb. fold n in La, Lb.
  set (rs := [c :: cs; ra; rb] : list reg).
  assert (Ec : concat rs = (c :: cs) ++ ra ++ rb) by (cbn [rs concat]; rewrite app_nil_r; reflexivity).
  assert (Lk : length (concat rs) = S n + (S n + S (S n))) by (rewrite Ec, !app_length; cbn [length]; lia).
  assert (ER : ranges 0 (map (@length nat) rs) = [seq 0 (S n); seq (S n) (S n); seq (S n + S n) (S (S n))]).
  { cbn [rs map length ranges]. rewrite La, Lb. reflexivity. }
  assert (Nr : NoDup (seq 0 (S n) ++ seq (S n) (S n) ++ seq (S n + S n) (S (S n)))).
  { replace (seq 0 (S n) ++ seq (S n) (S n) ++ seq (S n + S n) (S (S n))) with (seq 0 (S n + (S n + S (S n)))); [apply seq_NoDup|].
    rewrite (seq_app (S n) (S n + S (S n)) 0), (seq_app (S n) (S (S n)) (0 + S n)). reflexivity. }
  assert (Aa : acts 0 add (ranges 0 (map (@length nat) rs)) (eff (add_cs (ranges 0 (map (@length nat) rs)))) /\ cok (seq 0 (length (concat rs))) (add_cs (ranges 0 (map (@length nat) rs)))).
  { rewrite ER. cbn [add_cs]. destruct (add_acts (seq 0 (S n)) (seq (S n) (S n)) (seq (S n + S n) (S (S n)))) as (X & Y); [rewrite !seq_length; reflexivity|rewrite !seq_length; reflexivity|discriminate|exact Nr|].
    split; [exact X|]. rewrite Lk. replace (seq 0 (S n + (S n + S (S n)))) with (seq 0 (S n) ++ seq (S n) (S n) ++ seq (S n + S n) (S (S n))); [exact Y|].
    rewrite (seq_app (S n) (S n + S (S n)) 0), (seq_app (S n) (S (S n)) (0 + S n)). reflexivity. }
  apply (inverse_acts 0 add add_cs rs (fun _ => true)).
  - rewrite Ec. exact N.
  - repeat apply Forall_cons; try apply Forall_nil; [discriminate| |]; [destruct ra|destruct rb]; discriminate.
  - discriminate.
  - apply Aa.
  - apply Aa.
  - rewrite add_cs_natural. f_equal. apply (ranges_map rs []).
  - rewrite ER, Lk. cbn [add_cs]. change (seq 0 (S n)) with (0 :: seq 1 n).
    assert (L1 : length (seq (S n) (S n)) = S (length (seq 1 n))) by (rewrite !seq_length; reflexivity).
    assert (L2 : length (seq (S n + S n) (S (S n))) = S (length (seq (S n) (S n)))) by (rewrite !seq_length; reflexivity).
    rewrite run_add by assumption. set (rbs := seq (S n + S n) (S (S n))) in *. set (v := rip _ _ _ _).
    assert (Lv : length v = length rbs) by (unfold v; rewrite rip_length; rewrite ?map_length; try reflexivity; assumption).
    replace (S n + (S n + S (S n)) - 1) with (last rbs 0) by (unfold rbs; rewrite last_seq; lia).
    rewrite <- (last_map (updl (fun _ => true) rbs v) rbs 0 true) by discriminate. rewrite updl_map; [|apply seq_NoDup|exact Lv].
    unfold v. rewrite rip_last; rewrite ?map_length; try assumption; try discriminate; intros b Hb; apply in_map_iff in Hb; destruct Hb as (q & <- & _); reflexivity.
  - left. reflexivity.
Qed.
