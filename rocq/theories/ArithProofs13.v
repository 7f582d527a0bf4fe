(** add_inv on a conditioned builder: amplitudes. *)
From Coq Require Import Reals Lra FunctionalExtensionality Permutation.
From Coquelicot Require Import Complex.
From Verif Require Import Base BitsSpec BitsProofs OpsModel OpsSpec Instances BuilderModel RegProofs DenSpec DenProofs LocalProofs LinkProofs
  RunSpec RunProofs GateProofs ToffoliProofs CondProofs SubSpec SubProofs SubProofs2 SubProofs3 SubProofs5 ProgramModel ProgramSpec ProgramProofs ProgramProofs2 CircProofs CircProofs2
  ArithModel ArithSpec ArithProofs ArithProofs2 ArithProofs5 ArithProofs6 ArithProofs8.
Local Open Scope nat_scope.
Local Open Scope mon_scope.

Lemma tilts_on c a b p F y : maj (y a) (y b) (y c) = true -> tilts c a b p F y = Cplus (Cmult sh (F (flip y p))) (Cmult (mV (y p) (y p)) (F y)).
Proof.
  intros H. unfold tilts. rewrite H. unfold on1, flip. destruct (y p) eqn:E; cbn [negb]; (replace (F y) with (F (upd y p (y p))) by (rewrite upd_id; reflexivity)); rewrite E; unfold mV, sh; cbn [eqb]; ring.
Qed.
Lemma tilts_off c a b p F y : maj (y a) (y b) (y c) = false -> tilts c a b p F y = F y.
Proof. intros H. unfold tilts. rewrite H. reflexivity. Qed.
(** How many factors there are: two for every carry into an inner place, one for the last. *)
Fixpoint kinv (rc ra rb : list nat) (x : bs) : nat :=
  match rc, ra, rb with
  | [c], [a], [b; _] => if maj (x a) (x b) (x c) then 1 else 0
  | c :: ((c1 :: _) as rc'), a :: ra', b :: rb' => (if maj (x a) (x b) (x c) then 2 else 0) + kinv rc' ra' rb' (run (carry_c c a b c1) x)
  | _, _, _ => 0
  end.
Lemma cpow_add z m n : cpow z (m + n) = Cmult (cpow z m) (cpow z n).
Proof. induction m as [|m IH]; cbn [Nat.add cpow]; [ring|]. rewrite IH. ring. Qed.
Lemma add_first cs c a ra b rb x : length ra = length cs -> length rb = S (length cs) -> NoDup ((c :: cs) ++ (a :: ra) ++ b :: rb) ->
  run (add_c (c :: cs) (a :: ra) (b :: rb)) x b = xorb (x b) (xorb (x a) (x c)).
Proof.
  intros La Lb N. rewrite (run_add cs c (a :: ra) (b :: rb) x) by (try exact N; cbn [length]; lia).
  assert (Nb : NoDup (b :: rb)) by (apply NoDup_app_iff in N; destruct N as (_ & N & _); apply NoDup_app_iff in N; apply N).
  set (v := rip _ _ _ _). assert (Lv : length v = length (b :: rb)) by (unfold v; rewrite rip_length; rewrite ?map_length; cbn [length]; lia).
  change (updl x (b :: rb) v b) with (hd false (map (updl x (b :: rb) v) (b :: rb))). rewrite updl_map by assumption. unfold v. cbn [map].
  destruct cs as [|c1 cs]; [|destruct ra; [discriminate|]; reflexivity]. destruct ra; [|discriminate]. destruct rb as [|b1 [|]]; try discriminate. reflexivity.
Qed.
Lemma addInvT_amp : forall rc ra rb psi y, length ra = length rc -> length rb = S (length rc) -> rc <> [] -> NoDup (rc ++ ra ++ rb) -> let x := run (add_c rc ra rb) y in
  (forall z, (forall q, ~ In q (rc ++ ra ++ rb) -> z q = x q) -> z (hd 0 rc) = x (hd 0 rc) -> z (hd 0 ra) = x (hd 0 ra) -> z (hd 0 rb) = x (hd 0 rb) -> z <> x -> psi z = RtoC 0) ->
  addInvT rc ra rb psi y = Cmult (cpow sh (kinv rc ra rb y)) (psi x).
Proof.
  induction rc as [|c rc IH]; intros ra rb psi y La Lb Hne N; [congruence|].
  destruct ra as [|a ra]; [discriminate|]. destruct rb as [|b rb]; [discriminate|]. cbn [hd].
  destruct rc as [|c1 cs].
  - destruct ra; [|discriminate]. destruct rb as [|b1 [|]]; try discriminate. cbn [app] in N.
    assert (M4 := N). apply NoDup_cons_iff in M4. destruct M4 as (Mc & M4). apply NoDup_cons_iff in M4. destruct M4 as (Ma & M4). apply NoDup_cons_iff in M4. destruct M4 as (Mb & _). cbn in Mc, Ma, Mb.
    assert (Nab : a <> b /\ c <> b /\ b <> b1 /\ a <> b1 /\ c <> b1) by intuition congruence. destruct Nab as (Nab & Ncb & Nbc & Nac & Ncc).
    change (add_c [c] [a] [b; b1]) with (carry_c c a b b1 ++ sum_c c a b). rewrite run_app, (proj1 (run_carry c a b b1 y N)). rewrite run_sum by assumption. cbn [addInvT kinv].
    set (m := maj (y a) (y b) (y c)). set (y1 := upd y b1 (xorb (y b1) m)). assert (Y1 : y1 a = y a /\ y1 b = y b /\ y1 c = y c) by (unfold y1; rewrite !upd_other by congruence; auto). destruct Y1 as (Ya & Yb & Yc).
    rewrite Ya, Yb, Yc. set (x := upd y1 b _). intros H.
    assert (Es : forall z, eff (rev (sum_c c a b)) psi z = psi (upd z b (xorb (z b) (xorb (z a) (z c))))).
    { intros z. unfold eff. rewrite rev_involutive, run_sum by assumption. reflexivity. }
    destruct m eqn:Em.
    + rewrite tilts_on by exact Em. rewrite !Es. rewrite (H (upd y b _)).
      * unfold flip. rewrite !upd_other by congruence. cbn [cpow]. replace (upd (upd y b1 (negb (y b1))) b (xorb (y b) (xorb (y a) (y c)))) with x; [ring|]. unfold x, y1. rewrite xorb_true_r. reflexivity.
      * intros q Hq. cbn in Hq. unfold x, y1. rewrite !upd_other by intuition congruence. reflexivity.
      * unfold x. rewrite !upd_other by congruence. symmetry. exact Yc.
      * unfold x. rewrite !upd_other by congruence. symmetry. exact Ya.
      * unfold x. rewrite !upd_same. reflexivity.
      * intros E. apply (f_equal (fun f => f b1)) in E. unfold x, y1 in E. rewrite upd_other in E by congruence. rewrite upd_other in E by congruence. rewrite upd_same, xorb_true_r in E. destruct (y b1); discriminate.
    + rewrite tilts_off by exact Em. rewrite Es. cbn [cpow]. unfold x, y1. rewrite xorb_false_r, upd_id. ring.
  - cbn [length] in La, Lb. injection La as La. injection Lb as Lb.
    assert (N' : NoDup (c :: c1 :: cs ++ a :: ra ++ b :: rb)) by exact N.
    assert (Nt : NoDup ((c1 :: cs) ++ ra ++ rb)) by (eapply sub_NoDup; [|exact N']; cbn [app]; auto 12 using sub, sub_all).
    assert (N4 : NoDup [c; a; b; c1]).
    { eapply (sub_pick _ _ [c; c1; a; b]); [|cbn [app]|exact N']; [apply perm_skip; apply (Permutation_app_comm [a; b] [c1])|]. auto 12 using sub, sub_all. }
    assert (M4 := N4). apply NoDup_cons_iff in M4. destruct M4 as (Mc & M4). apply NoDup_cons_iff in M4. destruct M4 as (Ma & M4). apply NoDup_cons_iff in M4. destruct M4 as (Mb & _). cbn in Mc, Ma, Mb.
    assert (Nab : a <> b /\ c <> b /\ b <> c1 /\ a <> c1 /\ c <> c1) by intuition congruence. destruct Nab as (Nab & Ncb & Nbc & Nac & Ncc).
    set (L := (c :: c1 :: cs) ++ (a :: ra) ++ b :: rb) in *. set (Lt := (c1 :: cs) ++ ra ++ rb) in *.
    assert (Dj : forall q, In q [c; a; b] -> ~ In q Lt).
    { assert (P : Permutation ([c; a; b] ++ Lt) L).
      { unfold L, Lt. cbn [app]. apply perm_skip. apply (Permutation_trans (l' := c1 :: cs ++ a :: b :: ra ++ rb)).
        - apply (Permutation_trans (l' := a :: b :: c1 :: cs ++ ra ++ rb)); [reflexivity|].
          change (a :: b :: c1 :: cs ++ ra ++ rb) with ([a; b] ++ (c1 :: cs) ++ (ra ++ rb)). change (c1 :: cs ++ a :: b :: ra ++ rb) with ((c1 :: cs) ++ [a; b] ++ (ra ++ rb)). rewrite (app_assoc [a; b] (c1 :: cs)), (app_assoc (c1 :: cs) [a; b]). apply Permutation_app_tail, Permutation_app_comm.
        - apply perm_skip. apply Permutation_app_head. apply perm_skip. apply Permutation_middle. }
      apply Permutation_sym in P. pose proof (Permutation_NoDup P N) as N5. apply NoDup_app_iff in N5. apply N5. }
    assert (LtL : forall q, ~ In q L -> ~ In q Lt).
    { intros q Hq X. apply Hq. unfold L, Lt in *. cbn in X |- *. rewrite !in_app_iff in *. cbn. rewrite in_app_iff in *. cbn. tauto. }
    assert (Da : ~ In a Lt) by (apply Dj; cbn; tauto). assert (Db : ~ In b Lt) by (apply Dj; cbn; tauto). assert (Dc : ~ In c Lt) by (apply Dj; cbn; tauto).
    destruct ra as [|a1 ra]; [destruct cs; discriminate|]. destruct rb as [|b1 rb]; [discriminate|].
    assert (Ck' : cok Lt (add_c (c1 :: cs) (a1 :: ra) (b1 :: rb))) by (apply add_acts; [exact La|exact Lb|discriminate|exact Nt]).
    assert (Out : forall w q, ~ In q Lt -> run (add_c (c1 :: cs) (a1 :: ra) (b1 :: rb)) w q = w q) by (intros w q Hq; apply (run_out _ _ _ Ck' Hq)).
    assert (Keep : forall w q, ~ In q (b1 :: rb) -> run (add_c (c1 :: cs) (a1 :: ra) (b1 :: rb)) w q = w q).
    { intros w q Hq. rewrite (run_add cs c1 (a1 :: ra) (b1 :: rb) w) by (try exact Nt; cbn [length] in *; lia). apply updl_notin. exact Hq. }
    assert (Fst : forall w, run (add_c (c1 :: cs) (a1 :: ra) (b1 :: rb)) w b1 = xorb (w b1) (xorb (w a1) (w c1))).
    { intros w. apply add_first; [cbn [length] in La; lia|cbn [length] in Lb; lia|exact Nt]. }
    assert (Nc1 : c1 <> a1 /\ c1 <> b1 /\ ~ In c1 (b1 :: rb)).
    { unfold Lt in Nt. cbn [app] in Nt. apply NoDup_cons_iff in Nt. destruct Nt as (X & _). rewrite !in_app_iff in X. cbn in X. rewrite in_app_iff in X. cbn in X. cbn. intuition congruence. }
    destruct Nc1 as (Nc1a & Nc1b & Nc1r).
    change (add_c (c :: c1 :: cs) (a :: a1 :: ra) (b :: b1 :: rb)) with (carry_c c a b c1 ++ add_c (c1 :: cs) (a1 :: ra) (b1 :: rb) ++ rev (carry_c c a b c1) ++ sum_c c a b).
    rewrite !run_app, (proj1 (run_carry c a b c1 y N4)). set (m := maj (y a) (y b) (y c)). set (x1 := upd y c1 (xorb (y c1) m)).
    set (y2 := run (add_c (c1 :: cs) (a1 :: ra) (b1 :: rb)) x1). rewrite (proj2 (run_carry c a b c1 y2 N4)).
    assert (A2 : y2 a = y a /\ y2 b = y b /\ y2 c = y c /\ y2 c1 = xorb (y c1) m).
    { unfold y2. rewrite !Out by assumption. rewrite Keep by exact Nc1r. unfold x1. rewrite upd_same, !upd_other by congruence. auto. }
    destruct A2 as (A2a & A2b & A2c & A2d). rewrite A2a, A2b, A2c, A2d. fold m. rewrite xorb_assoc, xorb_nilpotent, xorb_false_r.
    set (y3 := upd y2 c1 (y c1)). rewrite run_sum by assumption.
    assert (A3 : y3 a = y a /\ y3 b = y b /\ y3 c = y c /\ y3 c1 = y c1).
    { unfold y3. rewrite upd_same, !upd_other by congruence. auto. }
    destruct A3 as (A3a & A3b & A3c & A3d). rewrite A3a, A3b, A3c. set (x := upd y3 b _).
    change (kinv (c :: c1 :: cs) (a :: a1 :: ra) (b :: b1 :: rb) y) with ((if m then 2 else 0) + kinv (c1 :: cs) (a1 :: ra) (b1 :: rb) (run (carry_c c a b c1) y)).
    rewrite (proj1 (run_carry c a b c1 y N4)). fold m. fold x1.
    change (addInvT (c :: c1 :: cs) (a :: a1 :: ra) (b :: b1 :: rb) psi) with (tilts c a b c1 (addInvT (c1 :: cs) (a1 :: ra) (b1 :: rb) (tilts c a b c1 (eff (rev (sum_c c a b)) psi)))).
    set (phi := tilts c a b c1 (eff (rev (sum_c c a b)) psi)). set (A := addInvT (c1 :: cs) (a1 :: ra) (b1 :: rb) phi). intros H.
    assert (Es : forall z, eff (rev (sum_c c a b)) psi z = psi (upd z b (xorb (z b) (xorb (z a) (z c))))).
    { intros z. unfold eff. rewrite rev_involutive, run_sum by assumption. reflexivity. }
    (* states outside which psi is 0, before the sum *)
    assert (H' : forall z, (forall q, ~ In q Lt -> z q = y q) -> z <> y3 -> eff (rev (sum_c c a b)) psi z = RtoC 0).
    { intros z Hz Hn. assert (Za : z a = y a) by (apply Hz; exact Da). assert (Zb : z b = y b) by (apply Hz; exact Db). assert (Zc : z c = y c) by (apply Hz; exact Dc).
      rewrite Es, Za, Zb, Zc. apply H.
      - intros q Hq. assert (Hqt := LtL q Hq). assert (Hqb : q <> b) by (intros ->; apply Hq; unfold L; cbn; rewrite !in_app_iff; cbn; rewrite in_app_iff; cbn; tauto).
        assert (Hqc : q <> c1) by (intros ->; apply Hq; unfold L; cbn; tauto).
        unfold x. rewrite !upd_other by exact Hqb. unfold y3. rewrite upd_other by exact Hqc. rewrite Hz by exact Hqt. unfold y2. rewrite Out by exact Hqt. unfold x1. rewrite upd_other by exact Hqc. reflexivity.
      - unfold x. rewrite !upd_other by congruence. congruence.
      - unfold x. rewrite !upd_other by congruence. congruence.
      - unfold x. rewrite !upd_same. reflexivity.
      - intros E. apply Hn. extensionality q. destruct (Nat.eq_dec q b) as [->|Hq]; [congruence|]. apply (f_equal (fun f => f q)) in E. unfold x in E. rewrite !upd_other in E by exact Hq. exact E. }
    assert (X3 : eff (rev (sum_c c a b)) psi y3 = psi x) by (rewrite Es, A3a, A3b, A3c; reflexivity).
    assert (Mz : forall z, (forall q, ~ In q Lt -> z q = y q) -> maj (z a) (z b) (z c) = m) by (intros z Hz; rewrite !Hz by assumption; reflexivity).
    assert (Ic1 : In c1 Lt) by (unfold Lt; left; reflexivity).
    assert (Hx1 : forall q, ~ In q Lt -> x1 q = y q) by (intros q Hq; unfold x1; apply upd_other; intros ->; contradiction).
    assert (Hy2 : forall q, ~ In q Lt -> y2 q = y q) by (intros q Hq; unfold y2; rewrite Out by exact Hq; apply Hx1; exact Hq).
    assert (Hfl : forall z, (forall q, ~ In q Lt -> z q = y q) -> forall q, ~ In q Lt -> flip z c1 q = y q) by (intros z Hz q Hq; rewrite flip_other by (intros ->; contradiction); apply Hz; exact Hq).
    destruct m eqn:Em.
    + rewrite tilts_on by exact Em.
      assert (Ex1 : flip y c1 = x1) by (unfold x1; rewrite xorb_true_r; reflexivity). rewrite Ex1.
      assert (Ey3 : flip y2 c1 = y3) by (unfold y3, flip; rewrite A2d, xorb_true_r, negb_involutive; reflexivity).
      assert (A0 : A y = RtoC 0).
      { unfold A. rewrite (IH (a1 :: ra) (b1 :: rb) phi y La Lb ltac:(discriminate) Nt); cbn [hd]; set (w2 := run (add_c (c1 :: cs) (a1 :: ra) (b1 :: rb)) y).
        - replace (phi w2) with (RtoC 0); [ring|]. symmetry.
          assert (Hw : forall q, ~ In q Lt -> w2 q = y q) by (intros q Hq; unfold w2; apply Out; exact Hq).
          unfold phi. rewrite tilts_on by (apply Mz; exact Hw). rewrite (H' w2 Hw), (H' (flip w2 c1) (Hfl w2 Hw)); [ring| |].
          + intros E. apply (f_equal (fun f => f c1)) in E. rewrite flip_same, A3d in E. unfold w2 in E. rewrite Keep in E by exact Nc1r. destruct (y c1); discriminate.
          + intros E. apply (f_equal (fun f => f b1)) in E. unfold w2 in E. rewrite Fst in E. unfold y3 in E. rewrite upd_other in E by congruence. unfold y2 in E. rewrite Fst in E.
            unfold x1 in E. rewrite upd_same, !upd_other in E by congruence. destruct (y b1), (y a1), (y c1); discriminate.
        - intros z Hz Zc Za Zb Zn. assert (Hzy : forall q, ~ In q Lt -> z q = y q) by (intros q Hq; rewrite Hz by exact Hq; unfold w2; apply Out; exact Hq).
          unfold phi. rewrite tilts_on by (apply Mz; exact Hzy). rewrite (H' z Hzy), (H' (flip z c1) (Hfl z Hzy)); [ring| |].
          + intros E. apply (f_equal (fun f => f c1)) in E. rewrite flip_same, A3d, Zc in E. unfold w2 in E. rewrite Keep in E by exact Nc1r. destruct (y c1); discriminate.
          + intros E. apply (f_equal (fun f => f b1)) in E. rewrite Zb in E. unfold w2 in E. rewrite Fst in E. unfold y3 in E. rewrite upd_other in E by congruence. unfold y2 in E. rewrite Fst in E.
            unfold x1 in E. rewrite upd_same, !upd_other in E by congruence. destruct (y b1), (y a1), (y c1); discriminate. }
      rewrite A0. unfold A. rewrite (IH (a1 :: ra) (b1 :: rb) phi x1 La Lb ltac:(discriminate) Nt); cbn [hd]; fold y2.
      * replace (phi y2) with (Cmult sh (psi x)); [cbn [Nat.add cpow]; ring|]. symmetry. unfold phi. rewrite tilts_on by (apply Mz; exact Hy2). rewrite Ey3, X3, (H' y2 Hy2); [ring|].
        intros E. apply (f_equal (fun f => f c1)) in E. rewrite A2d, A3d in E. destruct (y c1); discriminate.
      * intros z Hz Zc Za Zb Zn. assert (Hzy : forall q, ~ In q Lt -> z q = y q) by (intros q Hq; rewrite Hz by exact Hq; apply Hy2; exact Hq).
        unfold phi. rewrite tilts_on by (apply Mz; exact Hzy). rewrite (H' z Hzy), (H' (flip z c1) (Hfl z Hzy)); [ring| |].
        -- intros E. apply Zn. rewrite <- (flip_flip z c1), E, <- Ey3. apply flip_flip.
        -- intros E. apply (f_equal (fun f => f c1)) in E. rewrite Zc, A2d, A3d in E. destruct (y c1); discriminate.
    + rewrite tilts_off by exact Em.
      assert (Ex1 : x1 = y) by (unfold x1; rewrite xorb_false_r; apply upd_id). assert (Ey3 : y3 = y2) by (unfold y3; rewrite <- (xorb_false_r (y c1)), <- A2d; apply upd_id).
      unfold A. rewrite <- Ex1. rewrite (IH (a1 :: ra) (b1 :: rb) phi x1 La Lb ltac:(discriminate) Nt); cbn [hd]; fold y2.
      * cbn [Nat.add]. replace (phi y2) with (psi x); [ring|]. unfold phi. rewrite tilts_off by (apply Mz; exact Hy2). rewrite <- Ey3. symmetry. exact X3.
      * intros z Hz Zc Za Zb Zn. assert (Hzy : forall q, ~ In q Lt -> z q = y q) by (intros q Hq; rewrite Hz by exact Hq; apply Hy2; exact Hq).
        unfold phi. rewrite tilts_off by (apply Mz; exact Hzy). apply H'; [exact Hzy|]. rewrite Ey3. exact Zn.
Qed.
(** The last carry. *)
Lemma kinv_count : forall rc ra rb x, length ra = length rc -> length rb = S (length rc) -> rc <> [] -> NoDup (rc ++ ra ++ rb) -> zero_in (tl rc) x ->
  kinv rc ra rb x = 2 * kcar rc ra rb x + (if carry_in ra rb (hd 0 rc) x (length rc) then 1 else 0).
Proof.
  induction rc as [|c rc IH]; intros ra rb x La Lb Hne N Z; [congruence|].
  destruct ra as [|a ra]; [discriminate|]. destruct rb as [|b rb]; [discriminate|].
  destruct rc as [|c1 cs].
  - destruct ra; [|discriminate]. destruct rb as [|b1 [|]]; try discriminate. cbn [kinv kcar hd length]. unfold carry_in, val, maj. cbn [firstn map le Nat.pow]. destruct (x a), (x b), (x c); reflexivity.
  - cbn [length] in La, Lb. injection La as La. injection Lb as Lb.
    assert (N' : NoDup (c :: c1 :: cs ++ a :: ra ++ b :: rb)) by exact N.
    assert (Nt : NoDup ((c1 :: cs) ++ ra ++ rb)) by (eapply sub_NoDup; [|exact N']; cbn [app]; auto 12 using sub, sub_all).
    assert (N4 : NoDup [c; a; b; c1]).
    { eapply (sub_pick _ _ [c; c1; a; b]); [|cbn [app]|exact N']; [apply perm_skip; apply (Permutation_app_comm [a; b] [c1])|]. auto 12 using sub, sub_all. }
    cbn [tl] in Z. set (m := maj (x a) (x b) (x c)).
    assert (Ex1 : run (carry_c c a b c1) x = upd x c1 m) by (rewrite (proj1 (run_carry c a b c1 x N4)), (Z c1), xorb_false_l by (left; reflexivity); reflexivity).
    change (kcar (c :: c1 :: cs) (a :: ra) (b :: rb) x) with ((if m then 1 else 0) + kcar (c1 :: cs) ra rb (run (carry_c c a b c1) x)).
    change (kinv (c :: c1 :: cs) (a :: ra) (b :: rb) x) with ((if m then 2 else 0) + kinv (c1 :: cs) ra rb (run (carry_c c a b c1) x)). rewrite Ex1.
    assert (Nc1 : ~ In c1 cs /\ ~ In c1 ra /\ ~ In c1 rb). { cbn [app] in Nt. apply NoDup_cons_iff in Nt. destruct Nt as (X & _). rewrite !in_app_iff in X. tauto. }
    rewrite IH; [|exact La|exact Lb|discriminate|exact Nt|].
    2:{ intros q Hq. cbn [tl] in Hq. rewrite upd_other; [apply Z; right; exact Hq|]. intros ->. tauto. }
    replace (carry_in (a :: ra) (b :: rb) (hd 0 (c :: c1 :: cs)) x (length (c :: c1 :: cs))) with (carry_in ra rb (hd 0 (c1 :: cs)) (upd x c1 m) (length (c1 :: cs))); [destruct m; lia|].
    cbn [hd length]. unfold carry_in. change (firstn (S (S (length cs))) (a :: ra)) with (a :: firstn (S (length cs)) ra). change (firstn (S (S (length cs))) (b :: rb)) with (b :: firstn (S (length cs)) rb).
    rewrite upd_same, !val_upd by (intros X; apply incl_firstn in X; tauto).
    unfold val. cbn [map]. change (2 ^ S (S (length cs))) with (2 * 2 ^ S (length cs)). cbn [le]. fold (val (firstn (S (length cs)) ra) x). fold (val (firstn (S (length cs)) rb) x).
    unfold m, maj. apply eq_true_iff_eq. rewrite !Nat.leb_le. destruct (x a), (x b), (x c); cbn [b2n orb andb]; lia.
Qed.
