(** Subtracting a power of two: what the carries lose. *)
From Coq Require Import Reals Lra FunctionalExtensionality Permutation.
From Coquelicot Require Import Complex.
From Verif Require Import Base BitsSpec BitsProofs OpsModel OpsSpec Instances BuilderModel RegProofs DenSpec DenProofs LocalProofs LinkProofs
  RunSpec RunProofs GateProofs ToffoliProofs CondProofs SubSpec SubProofs SubProofs2 SubProofs3 SubProofs5 ProgramModel ProgramSpec ProgramProofs ProgramProofs2 CircProofs CircProofs2
  ArithModel ArithSpec ArithProofs ArithProofs2 ArithProofs4 ArithProofs5 ArithProofs6 ArithProofs7 ArithProofs8 WeakProofs ArithProofs9.
Local Open Scope nat_scope.
Local Open Scope mon_scope.

Lemma le_app : forall l r, le (l ++ r) = le l + 2 ^ length l * le r.
Proof.
  induction l as [|b l IH]; intros r; [cbn; lia|]. cbn [app le length Nat.pow]. rewrite IH. lia.
Qed.
Lemma val_app l r x : val (l ++ r) x = val l x + 2 ^ length l * val r x.
Proof. unfold val. rewrite map_app, le_app, map_length. reflexivity. Qed.
Lemma val_zero r x : zero_in r x -> val r x = 0.
Proof.
  intros Z. unfold val. induction r as [|q r IH]; [reflexivity|]. cbn [map le]. rewrite (Z q (or_introl eq_refl)), IH by (intros p Hp; apply Z; right; exact Hp). reflexivity.
Qed.
Lemma zero_or (L : list nat) (x : bs) : zero_in L x \/ exists q, In q L /\ x q = true.
Proof.
  destruct (existsb x L) eqn:E; [right; apply existsb_exists in E; exact E|left]. intros q Hq. apply not_true_is_false. intros X.
  assert (existsb x L = true); [|congruence]. apply existsb_exists. eauto.
Qed.

Lemma addInvT_step c0 rc' m0 rm' b0 ra' psi : rc' <> [] ->
  addInvT (c0 :: rc') (m0 :: rm') (b0 :: ra') psi =
  tilts c0 m0 b0 (hd 0 rc') (addInvT rc' rm' ra' (tilts c0 m0 b0 (hd 0 rc') (eff (rev (sum_c c0 m0 b0)) psi))).
Proof. destruct rc' as [|c1 cs]; [congruence|reflexivity]. Qed.
Lemma kcar_step c0 rc' m0 rm' b0 ra' x : rc' <> [] ->
  kcar (c0 :: rc') (m0 :: rm') (b0 :: ra') x = (if maj (x m0) (x b0) (x c0) then 1 else 0) + kcar rc' rm' ra' (run (carry_c c0 m0 b0 (hd 0 rc')) x).
Proof. destruct rc' as [|c1 cs]; [congruence|reflexivity]. Qed.
Lemma app_ne {A} (l : list A) a : l ++ [a] <> [].
Proof. destruct l; discriminate. Qed.

Section Low.
Context (c m a t : nat).
(** Nothing happens at the low places when the low bits of rm are 0 and there are no carries. *)
Lemma addInvT_low : forall cs ms bs0, length ms = length cs -> length bs0 = length cs -> NoDup ((cs ++ [c]) ++ (ms ++ [m]) ++ bs0 ++ [a; t]) ->
  forall psi, clean (cs ++ ms) psi -> addInvT (cs ++ [c]) (ms ++ [m]) (bs0 ++ [a; t]) psi = tilts c m a t (eff (rev (sum_c c m a)) psi).
Proof.
  induction cs as [|c0 cs IH]; intros ms bs0 Lm Lb N psi Hc.
  - destruct ms; [|discriminate]. destruct bs0; [|discriminate]. reflexivity.
  - destruct ms as [|m0 ms]; [discriminate|]. destruct bs0 as [|b0 bs0]; [discriminate|]. injection Lm as Lm. injection Lb as Lb. cbn [app] in *.
    rewrite addInvT_step by apply app_ne. set (c1 := hd 0 (cs ++ [c])). set (T := fun phi => tilts c m a t (eff (rev (sum_c c m a)) phi)).
    assert (I1 : In c1 (cs ++ [c])) by (unfold c1; destruct cs; left; reflexivity).
    assert (N' := N). apply NoDup_cons_iff in N'. destruct N' as (Nc & N'). apply NoDup_app_iff in N'. destruct N' as (N1 & N2 & N3). apply NoDup_cons_iff in N2. destruct N2 as (Nm & N2). apply NoDup_app_iff in N2. destruct N2 as (N4 & N5 & N6). apply NoDup_cons_iff in N5. destruct N5 as (Nb & N5).
    rewrite !in_app_iff in Nc. cbn [In] in Nc. rewrite !in_app_iff in Nc. rewrite !in_app_iff in Nm. cbn [In] in Nm. rewrite !in_app_iff in Nm, Nb. cbn [In] in Nc, Nm, Nb. rewrite !in_app_iff in Nc. cbn [In] in Nc.
    assert (D1 : c1 <> c0) by (intros E; rewrite E in I1; apply in_app_or in I1; cbn in I1; tauto).
    assert (D2 : c1 <> m0) by (intros E; rewrite E in I1; apply (N3 m0 I1); left; reflexivity).
    assert (Dm : m0 <> b0) by (intros E; apply Nm; right; left; congruence). assert (Dc : c0 <> b0) by (intros E; apply Nc; right; right; right; left; congruence).
    assert (Dcm : c0 <> m0) by (intros E; apply Nc; right; left; congruence).
    assert (S1 : forall phi, clean [c0; m0] phi -> eff (rev (sum_c c0 m0 b0)) phi = phi).
    { intros phi Hp. extensionality x. unfold eff. rewrite rev_involutive, run_sum by congruence.
      destruct (x c0) eqn:Xc; [rewrite (Hp x c0), (Hp _ c0); cbn; try tauto; rewrite upd_other by congruence; exact Xc|].
      destruct (x m0) eqn:Xm; [rewrite (Hp x m0), (Hp _ m0); cbn; try tauto; rewrite upd_other by congruence; exact Xm|].
      cbn [xorb]. rewrite xorb_false_r, upd_id. reflexivity. }
    assert (S2 : forall phi, clean [c0; m0] phi -> tilts c0 m0 b0 c1 phi = phi).
    { intros phi Hp. extensionality x. unfold tilts. destruct (x c0) eqn:Xc.
      - assert (Z : forall v, phi (upd x c1 v) = RtoC 0) by (intros v; apply (Hp _ c0); [left; reflexivity|rewrite upd_other by congruence; exact Xc]).
        unfold on1. rewrite !Z, (Hp x c0 (or_introl eq_refl) Xc). destruct (maj _ _ _); ring.
      - destruct (x m0) eqn:Xm.
        + assert (Z : forall v, phi (upd x c1 v) = RtoC 0) by (intros v; apply (Hp _ m0); [right; left; reflexivity|rewrite upd_other by congruence; exact Xm]).
          unfold on1. rewrite !Z, (Hp x m0 (or_intror (or_introl eq_refl)) Xm). destruct (maj _ _ _); ring.
        + unfold maj. cbn. rewrite andb_false_r. reflexivity. }
    assert (H0 : clean [c0; m0] psi) by (intros x q Hq; apply Hc; cbn in Hq |- *; rewrite in_app_iff; cbn; intuition).
    rewrite S1 by exact H0. rewrite (S2 psi H0). rewrite IH; [|exact Lm|exact Lb| |].
    2:{ apply NoDup_app_iff. split; [exact N1|]. split; [apply NoDup_app_iff; split; [exact N4|]; split; [exact N5|]; intros q Hq X; apply (N6 q Hq); right; exact X|].
        intros q Hq X. apply (N3 q Hq). apply in_app_or in X. right. apply in_or_app. cbn. tauto. }
    2:{ intros x q Hq. apply Hc. rewrite in_app_iff in Hq. cbn [In]. rewrite in_app_iff. cbn. tauto. }
    apply S2. intros x q Hq Xq. unfold tilts, eff. rewrite !rev_involutive.
    assert (Hq4 : ~ In q [c; m; a; t]).
    { destruct Hq as [<-|[<-|[]]]; cbn; intros X; [apply Nc|]; [destruct X as [X|[X|[X|[X|[]]]]]; tauto|].
      destruct X as [X|[X|[X|[X|[]]]]]; [apply (N3 c ltac:(apply in_or_app; right; left; reflexivity)); left; congruence|tauto|tauto|tauto]. }
    cbn in Hq4. assert (Dma : m <> a /\ c <> a).
    { split; intros E; [apply (N6 m ltac:(apply in_or_app; right; left; reflexivity)); right; apply in_or_app; right; left; congruence|].
      apply (N3 c ltac:(apply in_or_app; right; left; reflexivity)). right. apply in_or_app. right. right. apply in_or_app. right. left. congruence. }
    assert (Z : forall y, y q = true -> psi (run (sum_c c m a) y) = RtoC 0).
    { intros y Hy. apply (H0 _ q); [exact Hq|]. rewrite run_sum by tauto. rewrite upd_other by intuition congruence. exact Hy. }
    assert (Zu : forall v, psi (run (sum_c c m a) (upd x t v)) = RtoC 0).
    { intros v. apply Z. rewrite upd_other by intuition congruence. exact Xq. }
    unfold on1. rewrite !Zu, (Z x Xq). destruct (maj _ _ _); ring.
Qed.
Lemma kcar_low : forall cs ms bs0, length ms = length cs -> length bs0 = length cs -> NoDup ((cs ++ [c]) ++ (ms ++ [m]) ++ bs0 ++ [a; t]) ->
  forall x, zero_in (cs ++ ms) x -> kcar (cs ++ [c]) (ms ++ [m]) (bs0 ++ [a; t]) x = 0.
Proof.
  induction cs as [|c0 cs IH]; intros ms bs0 Lm Lb N x Z.
  - destruct ms; [|discriminate]. destruct bs0; [|discriminate]. reflexivity.
  - destruct ms as [|m0 ms]; [discriminate|]. destruct bs0 as [|b0 bs0]; [discriminate|]. injection Lm as Lm. injection Lb as Lb. cbn [app] in *.
    rewrite kcar_step by apply app_ne. set (c1 := hd 0 (cs ++ [c])).
    assert (I1 : In c1 (cs ++ [c])) by (unfold c1; destruct cs; left; reflexivity).
    assert (N' := N). apply NoDup_cons_iff in N'. destruct N' as (Nc & N'). apply NoDup_app_iff in N'. destruct N' as (N1 & N2 & N3). apply NoDup_cons_iff in N2. destruct N2 as (Nm & N2). apply NoDup_app_iff in N2. destruct N2 as (N4 & N5 & N6). apply NoDup_cons_iff in N5. destruct N5 as (Nb & N5).
    rewrite !in_app_iff in Nc. cbn [In] in Nc. rewrite !in_app_iff in Nc. rewrite !in_app_iff in Nm. cbn [In] in Nm. rewrite !in_app_iff in Nm, Nb. cbn [In] in Nc, Nm, Nb. rewrite !in_app_iff in Nc. cbn [In] in Nc.
    assert (Xc : x c0 = false) by (apply Z; left; reflexivity). assert (Xm : x m0 = false) by (apply Z; right; apply in_or_app; right; left; reflexivity).
    assert (D1 : c1 <> c0) by (intros E; rewrite E in I1; apply in_app_or in I1; cbn in I1; tauto).
    assert (D2 : c1 <> m0) by (intros E; rewrite E in I1; apply (N3 m0 I1); left; reflexivity).
    assert (D3 : c1 <> b0) by (intros E; rewrite E in I1; apply (N3 b0 I1); right; apply in_or_app; right; left; reflexivity).
    assert (N4' : NoDup [c0; m0; b0; c1]).
    { assert (m0 <> b0) by (intros E; apply Nm; right; left; congruence). assert (c0 <> b0) by (intros E; apply Nc; right; right; right; left; congruence).
      assert (c0 <> m0) by (intros E; apply Nc; right; left; congruence). repeat constructor; cbn; intuition congruence. }
    rewrite (proj1 (run_carry c0 m0 b0 c1 x N4')). rewrite Xc, Xm. replace (maj false (x b0) false) with false by (unfold maj; cbn; rewrite andb_false_r; reflexivity).
    rewrite xorb_false_r, upd_id. apply IH; [exact Lm|exact Lb| |].
    + apply NoDup_app_iff. split; [exact N1|]. split; [apply NoDup_app_iff; split; [exact N4|]; split; [exact N5|]; intros q Hq X; apply (N6 q Hq); right; exact X|].
      intros q Hq X. apply (N3 q Hq). apply in_app_or in X. right. apply in_or_app. cbn. tauto.
    + intros q Hq. apply Z. rewrite in_app_iff in Hq. cbn [In]. rewrite in_app_iff. cbn. tauto.
Qed.
End Low.

(** rm is 2^(n-1), ra is 0. *)
Section Hot.
Context (cs ms bs0 : list nat) (c m a t : nat) (Lm : length ms = length cs) (Lb : length bs0 = length cs).
Notation rc := (cs ++ [c]).
Notation rm := (ms ++ [m]).
Notation ra := (bs0 ++ [a; t]).
Context (N : NoDup (rc ++ rm ++ ra)).
Definition hot (x : bs) : Prop := zero_in rc x /\ zero_in ms x /\ x m = true /\ zero_in ra x.

Lemma hot_len : length rm = length rc /\ length ra = S (length rc) /\ rc <> [].
Proof. rewrite !app_length. cbn. split; [lia|]. split; [lia|]. apply app_ne. Qed.
Lemma hot_ok : cok (rc ++ rm ++ ra) (add_c rc rm ra).
Proof. destruct hot_len as (H1 & H2 & H3). apply add_acts; assumption. Qed.
Lemma hot_disj : (forall q, In q rc -> ~ In q rm /\ ~ In q ra) /\ (forall q, In q rm -> ~ In q ra) /\ a <> t /\ ~ In a bs0 /\ ~ In t bs0 /\ ~ In m ms.
Proof.
  apply NoDup_app_iff in N. destruct N as (N1 & M & D1). apply NoDup_app_iff in M. destruct M as (N2 & N3 & D2). apply NoDup_app_iff in N3. destruct N3 as (N4 & N5 & D3).
  apply NoDup_app_iff in N2. destruct N2 as (_ & _ & D4).
  split; [intros q Hq; specialize (D1 q Hq); rewrite in_app_iff in D1; tauto|]. split; [exact D2|]. split; [|split; [|split]].
  - intros ->. apply NoDup_cons_iff in N5. cbn in N5. tauto.
  - intros X. apply (D3 a X). left. reflexivity.
  - intros X. apply (D3 t X). right. left. reflexivity.
  - intros X. apply (D4 m X). left. reflexivity.
Qed.
Lemma hot_add w : hot w -> run (add_c rc rm ra) (upd (flip w a) t true) = w.
Proof.
  intros (Zc & Zm & Wm & Za). destruct hot_len as (H1 & H2 & H3). destruct hot_disj as (D1 & D2 & At & Ab & Tb & Mm).
  set (z := upd (flip w a) t true).
  assert (Ia : In a ra) by (apply in_or_app; right; left; reflexivity). assert (It : In t ra) by (apply in_or_app; right; right; left; reflexivity).
  assert (Im : In m rm) by (apply in_or_app; right; left; reflexivity).
  assert (Off : forall q, ~ In q [a; t] -> z q = w q).
  { intros q Hq. cbn in Hq. unfold z, flip. rewrite !upd_other by intuition congruence. reflexivity. }
  assert (Zrc : zero_in rc z). { intros q Hq. rewrite Off; [apply Zc; exact Hq|]. intros X. apply (proj2 (D1 q Hq)). apply in_or_app. right. exact X. }
  destruct (add_fwd rc rm ra H1 H2 H3 N z Zrc) as (O & V).
  assert (Vm : val rm z = 2 ^ length cs).
  { rewrite (val_ext rm z w). 2:{ intros q Hq. apply Off. intros X. apply (D2 q Hq). apply in_or_app. right. exact X. }
    rewrite val_app, (val_zero ms w Zm), Lm. unfold val. cbn [map le]. rewrite Wm. cbn. lia. }
  assert (Va : val ra z = 2 ^ length cs + 2 * 2 ^ length cs).
  { rewrite val_app, (val_ext bs0 z w), (val_zero bs0 w), Lb.
    - unfold val. cbn [map le]. replace (z a) with true; [replace (z t) with true; [cbn; lia|]|]; symmetry; unfold z; [apply upd_same|].
      rewrite upd_other by congruence. unfold flip. rewrite upd_same, (Za a Ia). reflexivity.
    - intros q Hq. apply Za, in_or_app. left. exact Hq.
    - intros q Hq. apply Off. cbn. intros X. destruct X as [<-|[<-|[]]]; tauto. }
  rewrite Vm, Va in V. replace (2 ^ length ra) with (2 * (2 * 2 ^ length cs)) in V by (rewrite H2, app_length; cbn [length]; rewrite Nat.add_1_r; cbn [Nat.pow]; lia).
  replace (2 ^ length cs + (2 ^ length cs + 2 * 2 ^ length cs)) with (1 * (2 * (2 * 2 ^ length cs))) in V by lia.
  rewrite Nat.mod_mul in V by (pose proof (Nat.pow_nonzero 2 (length cs)); lia).
  extensionality q. destruct (in_dec Nat.eq_dec q ra) as [I|I].
  - apply (val_inj ra); [rewrite V; symmetry; apply val_zero; exact Za|exact I].
  - rewrite O by exact I. apply Off. intros X. apply I, in_or_app. right. exact X.
Qed.
Lemma hot_sub w : hot w -> run (rev (add_c rc rm ra)) w = upd (flip w a) t true.
Proof. intros H. rewrite <- (hot_add w H) at 1. apply (run_rev _ _ _ hot_ok). Qed.

Definition on_hot (psi : state) : Prop := forall x, psi x = RtoC 0 \/ hot x.
(** [op] followed by what keeps the answer 2^n - rm, seen from the addition: factor [f]. *)
Definition sub_keeps (op : state -> state) (f : C) : Prop := forall psi, on_hot psi -> forall u,
  (if run (rev (add_c rc rm ra)) u t then op psi (run (rev (add_c rc rm ra)) u) else RtoC 0) = Cmult f (psi u).
Lemma sub_exact : sub_keeps (eff (rev (add_c rc rm ra))) (RtoC 1).
Proof.
  intros psi H u. unfold eff. rewrite rev_involutive, (run_rev' _ _ _ hot_ok). destruct (run _ u t) eqn:E; [ring|].
  destruct (H u) as [->|Hu]; [ring|]. rewrite (hot_sub u Hu), upd_same in E. discriminate.
Qed.
Lemma sub_lossy : sub_keeps (addInvT rc rm ra) sh.
Proof.
  intros psi H u. destruct hot_len as (H1 & H2 & H3). destruct hot_disj as (D1 & D2 & At & Ab & Tb & Mm).
  assert (Ia : In a ra) by (apply in_or_app; right; left; reflexivity). assert (It : In t ra) by (apply in_or_app; right; right; left; reflexivity).
  assert (Im : In m rm) by (apply in_or_app; right; left; reflexivity). assert (Ic : In c rc) by (apply in_or_app; right; left; reflexivity).
  assert (Dm : m <> a /\ m <> t) by (split; intros E; apply (D2 m Im); rewrite E; assumption).
  assert (Dc : c <> a /\ c <> t /\ c <> m) by (split; [|split]; intros E; [apply (proj2 (D1 c Ic))|apply (proj2 (D1 c Ic))|apply (proj1 (D1 c Ic))]; rewrite E; assumption).
  set (z := run (rev (add_c rc rm ra)) u). assert (Eu : u = run (add_c rc rm ra) z) by (unfold z; rewrite (run_rev' _ _ _ hot_ok); reflexivity).
  rewrite addInvT_low; [|exact Lm|exact Lb|exact N|].
  2:{ intros x q Hq Xq. destruct (H x) as [E|(Zc & Zm & _)]; [exact E|]. exfalso. apply in_app_or in Hq. destruct Hq as [Hq|Hq]; [rewrite Zc in Xq by (apply in_or_app; left; exact Hq)|rewrite Zm in Xq by exact Hq]; discriminate. }
  assert (Hot1 : forall w, hot w -> run (sum_c c m a) w = flip w a).
  { intros w (Zc & Zm & Wm & Za). rewrite run_sum by (intuition congruence). rewrite Wm, (Zc c Ic). unfold flip. rewrite (Za a Ia). reflexivity. }
  unfold tilts, eff. rewrite rev_involutive.
  assert (Zt : forall y, y t = true -> psi (run (sum_c c m a) y) = RtoC 0).
  { intros y Hy. destruct (H (run (sum_c c m a) y)) as [E|(_ & _ & _ & Za)]; [exact E|]. exfalso. specialize (Za t It). rewrite run_sum in Za by (intuition congruence). rewrite upd_other in Za by congruence. congruence. }
  destruct (z t) eqn:Ez.
  - rewrite (Zt z Ez). unfold on1. rewrite (Zt (upd z t true)) by apply upd_same. rewrite Ez. set (w := run (sum_c c m a) (upd z t false)).
    destruct (H w) as [Ew|Hw].
    + rewrite Ew. destruct (H u) as [->|Hu]; [destruct (maj _ _ _); ring|].
      assert (X : w = u).
      { unfold w, z. rewrite (hot_sub u Hu). destruct Hu as (Zc & Zm & Um & Za). rewrite run_sum by (intuition congruence). extensionality q.
        destruct (Nat.eq_dec q a) as [->|Qa].
        - rewrite upd_same. unfold flip. rewrite !(upd_other _ t) by intuition congruence. rewrite upd_same, !upd_other by intuition congruence. rewrite Um, (Zc c Ic), (Za a Ia). reflexivity.
        - rewrite upd_other by congruence. destruct (Nat.eq_dec q t) as [->|Qt]; [rewrite upd_same; symmetry; apply Za; exact It|]. unfold flip. rewrite !upd_other by congruence. reflexivity. }
      rewrite <- X, Ew. destruct (maj _ _ _); ring.
    + assert (X : w = u).
      { rewrite Eu, <- (hot_add w Hw). f_equal. pose proof (Hot1 w Hw) as E1. rewrite <- E1. unfold w. rewrite !run_sum by (intuition congruence). extensionality q.
        destruct (Nat.eq_dec q t) as [->|Qt]; [rewrite upd_same; symmetry; exact Ez|]. rewrite (upd_other _ t) by congruence.
        destruct (Nat.eq_dec q a) as [->|Qa]; [|rewrite !upd_other by congruence; reflexivity]. rewrite !upd_same. rewrite !upd_other by intuition congruence. destruct (z a), (z m), (z c); reflexivity. }
      assert (M : maj (z m) (z a) (z c) = true).
      { destruct Hw as (Zc & Zm & Wm & Za). unfold w in Zc, Wm, Za. specialize (Za a Ia). specialize (Zc c Ic). rewrite run_sum in Zc, Wm, Za by (intuition congruence).
        rewrite upd_same in Za. rewrite !upd_other in Zc by intuition congruence. rewrite !upd_other in Wm by intuition congruence. rewrite !upd_other in Za by intuition congruence. rewrite Wm, Zc in Za |- *. destruct (z a); [reflexivity|discriminate]. }
      rewrite M, X. unfold mV, sh. cbn [Bool.eqb]. ring.
  - destruct (H u) as [->|Hu]; [ring|]. unfold z in Ez. rewrite (hot_sub u Hu), upd_same in Ez. discriminate.
Qed.
(** Adding has no inner carries. *)
Lemma low_good psi : clean (cs ++ ms) psi -> addT rc rm ra psi = eff (add_c rc rm ra) psi.
Proof.
  intros Hc. destruct hot_len as (H1 & H2 & H3). apply addT_good; try assumption. intros x Hk. destruct (zero_or (cs ++ ms) x) as [Z|(q & Hq & X)]; [|apply (Hc x q Hq X)].
  rewrite kcar_low in Hk by assumption. lia.
Qed.
Lemma low_addD d psi : clean (cs ++ ms) psi -> addD d rc rm ra psi = eff (add_c rc rm ra) psi.
Proof. intros Hc. destruct d as [|d]; [reflexivity|]. apply low_good. exact Hc. Qed.
Definition sub_factor (d : nat) : C := match d with 0 => RtoC 1 | S _ => sh end.
Lemma sub_factor_ok d : sub_keeps (addInvD d rc rm ra) (sub_factor d).
Proof. destruct d; [exact sub_exact|exact sub_lossy]. Qed.
End Hot.
