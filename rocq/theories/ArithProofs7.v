(** add_mod. *)
From Coq Require Import Reals Lra FunctionalExtensionality Permutation.
From Coquelicot Require Import Complex.
From Verif Require Import Base BitsSpec BitsProofs OpsModel OpsSpec Instances BuilderModel RegProofs DenSpec DenProofs LocalProofs LinkProofs
  RunSpec RunProofs GateProofs ToffoliProofs CondProofs SubSpec SubProofs SubProofs2 SubProofs3 SubProofs5 ProgramModel ProgramSpec ProgramProofs ProgramProofs2 CircProofs CircProofs2
  ArithModel ArithSpec ArithProofs ArithProofs2 ArithProofs4 ArithProofs5 ArithProofs6.
Local Open Scope nat_scope.
Local Open Scope mon_scope.

(** *** The circuit *)
Definition mod_1 (t : nat) (rc ra rb rm : list nat) : list gate :=
  add_c rc ra rb ++ rev (add_c rc rm rb) ++ [([(nth (length ra) rb 0, true)], t)].
Definition mod_3 (t : nat) (rc ra rb : list nat) : list gate :=
  rev (add_c rc ra rb) ++ [([(nth (length ra) rb 0, false)], t)] ++ add_c rc ra rb.
Definition mod_d (t : nat) (rc ra rb rm : list nat) (psi : state) : state :=
  eff (mod_3 t rc ra rb) (controlled [t] (addT rc rm rb) (eff (mod_1 t rc ra rb rm) psi)).

Section Run.
Context (ra rb rm rc : list nat) (t : nat) (Lm : length ra = length rm) (Lb : length rb = S (length ra)) (Ha : ra <> []) (Lc : length rc = length ra)
  (N : NoDup (ra ++ rb ++ rm ++ t :: rc)).
Notation n := (length ra).
Notation top := (nth n rb 0).
Notation rs := ([ra; rb; rm; [t]; rc] : list reg).

Lemma mod_disj : (NoDup ra /\ NoDup rb /\ NoDup rm /\ NoDup rc) /\ (~ In t ra /\ ~ In t rb /\ ~ In t rm /\ ~ In t rc) /\
  (forall q, In q ra -> ~ In q rb /\ ~ In q rm /\ ~ In q rc) /\ (forall q, In q rb -> ~ In q rm /\ ~ In q rc) /\ (forall q, In q rm -> ~ In q rc).
Proof.
  apply NoDup_app_iff in N. destruct N as (N1 & M1 & D1). apply NoDup_app_iff in M1. destruct M1 as (N2 & M2 & D2). apply NoDup_app_iff in M2. destruct M2 as (N3 & M3 & D3). apply NoDup_cons_iff in M3. destruct M3 as (N4 & N5).
  split; [auto|]. split.
  - split; [|split; [|split]]; [intros X; apply (D1 t X)|intros X; apply (D2 t X)|intros X; apply (D3 t X)|exact N4]; rewrite ?in_app_iff; cbn; tauto.
  - split; [|split]; intros q Hq; [pose proof (D1 q Hq) as X|pose proof (D2 q Hq) as X|pose proof (D3 q Hq) as X]; rewrite ?in_app_iff in X; cbn in X; tauto.
Qed.
Lemma mod_nodup1 : NoDup (rc ++ ra ++ rb).
Proof.
  destruct mod_disj as ((N1 & N2 & N3 & N4) & _ & D1 & D2 & D3). apply NoDup_app_iff. split; [exact N4|]. split; [apply NoDup_app_iff; split; [exact N1|]; split; [exact N2|]; intros q Hq; apply D1, Hq|].
  intros q Hq X. apply in_app_or in X. destruct X as [X|X]; [apply D1 in X|apply D2 in X]; tauto.
Qed.
Lemma mod_nodup2 : NoDup (rc ++ rm ++ rb).
Proof.
  destruct mod_disj as ((N1 & N2 & N3 & N4) & _ & D1 & D2 & D3). apply NoDup_app_iff. split; [exact N4|]. split; [apply NoDup_app_iff; split; [exact N3|]; split; [exact N2|]; intros q Hq X; apply D2 in X; tauto|].
  intros q Hq X. apply in_app_or in X. destruct X as [X|X]; [apply D3 in X|apply D2 in X]; tauto.
Qed.
Lemma top_in : In top rb.
Proof. apply nth_In. lia. Qed.
Lemma top_t : top <> t.
Proof. pose proof top_in as I. destruct mod_disj as (_ & (_ & X & _) & _). intros E. rewrite E in I. tauto. Qed.
Lemma rc_ne : rc <> [].
Proof. intros E. rewrite E in Lc. destruct ra; [congruence|discriminate]. Qed.

Definition mod_lines : list (line * (state -> state)) :=
  [(call add [whole 4; whole 0; whole 1], eff (add_c rc ra rb));
   (call add_inv [whole 4; whole 2; whole 1], eff (rev (add_c rc rm rb)));
   (control op_x [part 1 [n]; whole 3], eff (one_x t));
   (control add [whole 3; whole 4; whole 2; whole 1], addT rc rm rb);
   (call add_inv [whole 4; whole 0; whole 1], eff (rev (add_c rc ra rb)));
   (control_mask 0 op_x [part 1 [n]; whole 3], eff (one_x t));
   (call add [whole 4; whole 0; whole 1], eff (add_c rc ra rb))].
Lemma mod_lines_ok : Forall (fun p => line_acts 0 rs (fst p) (snd p)) mod_lines.
Proof.
  pose proof mod_nodup1 as N1. pose proof mod_nodup2 as N2. pose proof rc_ne as Hc. destruct mod_disj as (_ & (T1 & T2 & T3 & T4) & _).
  assert (Nb : rb <> []) by (intros E; rewrite E in Lb; discriminate). assert (Nm : rm <> []) by (intros E; rewrite E in Lm; destruct ra; [congruence|discriminate]).
  assert (E1 : forall f, line_regs rs (call f [whole 4; whole 0; whole 1]) = [rc; ra; rb]) by (intros f; unfold line_regs, gather; cbn; rewrite !app_nil_r; reflexivity).
  assert (E2 : forall f, line_regs rs (call f [whole 4; whole 2; whole 1]) = [rc; rm; rb]) by (intros f; unfold line_regs, gather; cbn; rewrite !app_nil_r; reflexivity).
  assert (E3 : line_regs rs (control add [whole 3; whole 4; whole 2; whole 1]) = [[t]; rc; rm; rb]) by (unfold line_regs, gather; cbn; rewrite !app_nil_r; reflexivity).
  assert (A1 : forall f, line_ok rs (call f [whole 4; whole 0; whole 1])).
  { intros f. split; [args_ok|]. rewrite E1. split; [repeat constructor; assumption|]. cbn [concat]. rewrite app_nil_r. exact N1. }
  assert (A2 : forall f, line_ok rs (call f [whole 4; whole 2; whole 1])).
  { intros f. split; [args_ok|]. rewrite E2. split; [repeat constructor; assumption|]. cbn [concat]. rewrite app_nil_r. exact N2. }
  assert (A3 : Forall (Forall (arg_ok rs)) [part 1 [n]; whole 3]).
  { repeat apply Forall_cons; try apply Forall_nil; split; cbn [fst snd length nth]; try lia; try exact I. intros i [<-|[]]. lia. }
  assert (N3 : NoDup [top; t]) by (pose proof top_t; repeat constructor; cbn; intuition congruence).
  unfold mod_lines. repeat apply Forall_cons; try apply Forall_nil; cbn [fst snd].
  - split; [apply A1|]. split; [intros X; exfalso; apply X; reflexivity|]. unfold call_targets, call_depth. cbn [call l_ctl l_fun]. rewrite E1. apply add_acts; try assumption; lia.
  - split; [apply A2|]. split; [intros X; exfalso; apply X; reflexivity|]. unfold call_targets, call_depth. cbn [call l_ctl l_fun]. rewrite E2. apply add_inv_acts; try assumption; lia.
  - split; [split; [exact A3|]; split; [repeat constructor; discriminate|exact N3]|]. split; [intros _; discriminate|]. apply x_is.
  - split; [split; [args_ok|]; rewrite E3; split; [repeat constructor; try assumption; discriminate|cbn [concat]; rewrite app_nil_r; cbn [app]; constructor; [rewrite !in_app_iff; tauto|exact N2]]|].
    split; [intros _; discriminate|]. unfold call_targets, call_depth. cbn [control l_ctl l_fun]. rewrite E3. cbn [tl]. apply (addT_acts 1 Nat.lt_0_1 rc rm rb (S (length rc))); try assumption; lia.
  - split; [apply A1|]. split; [intros X; exfalso; apply X; reflexivity|]. unfold call_targets, call_depth. cbn [call l_ctl l_fun]. rewrite E1. apply add_inv_acts; try assumption; lia.
  - split; [split; [exact A3|]; split; [repeat constructor; discriminate|exact N3]|]. split; [intros _; discriminate|]. apply x_is.
  - split; [apply A1|]. split; [intros X; exfalso; apply X; reflexivity|]. unfold call_targets, call_depth. cbn [call l_ctl l_fun]. rewrite E1. apply add_acts; try assumption; lia.
Qed.
Lemma mod_lines_op psi : lines_op rs mod_lines psi = mod_d t rc ra rb rm psi.
Proof.
  unfold mod_lines. cbn [lines_op]. unfold line_op, call_op. cbn [call control control_mask l_ctl]. unfold line_regs, gather. cbn [l_args call control control_mask map concat arg_qubits whole part fst snd nth app hd].
  unfold mod_d, mod_1, mod_3. rewrite <- !eff_app.
  assert (X : forall v phi, (fun x => if Bool.eqb (x top) v then eff (one_x t) phi x else phi x) = eff [([(top, v)], t)] phi).
  { intros v phi. extensionality x. unfold eff, run, step, one_x. cbn [rev app fold_left fst snd forallb sat]. unfold sat. cbn [fst snd]. rewrite andb_true_r. destruct (Bool.eqb (x top) v); reflexivity. }
  rewrite <- (X true), <- (X false). 
  assert (Y : forall phi, controlled [top] (eff (one_x t)) phi = fun x => if Bool.eqb (x top) true then eff (one_x t) phi x else phi x).
  { intros phi. extensionality x. unfold controlled. cbn [forallb]. destruct (x top); reflexivity. }
  assert (Z : forall phi, selected [top] 0 (eff (one_x t)) phi = fun x => if Bool.eqb (x top) false then eff (one_x t) phi x else phi x).
  { intros phi. extensionality x. unfold selected, matches. cbn. destruct (x top); reflexivity. }
  rewrite Y, Z. reflexivity.
Qed.
End Run.

Lemma add_mod_run ra rb rm s : length ra = length rm -> length rb = S (length ra) -> ra <> [] -> NoDup (ra ++ rb ++ rm) -> at_depth 0 s -> tidy s -> live s (ra ++ rb ++ rm) ->
  exists t rc s' p, length rc = length ra /\ NoDup (ra ++ rb ++ rm ++ t :: rc) /\ (forall q, In q (t :: rc) -> idle s q /\ q < bn (bld s')) /\
    add_mod 0 [ra; rb; rm] s = Ret [ra; rb; rm] s' /\ conds s' = conds s /\ meas (bld s') = meas (bld s) /\ bn (bld s) <= bn (bld s') /\
    pipeline (bld s') = pipeline (bld s) ++ p /\ Forall (wf_entry (bn (bld s'))) p /\ Forall proper_entry p /\ tidy s' /\ live s' (ra ++ rb ++ rm) /\
    forall psi, (forall q, idle s q -> q < bn (bld s') -> clean [q] psi) -> den p psi = mod_d t rc ra rb rm psi.
Proof.
  intros Lm Lb Ha Nd Ad T Lv.
  destruct (quiet_make s _ T Lv) as (t & It & Nt & s1 & H1 & H2 & H3 & H4 & H5 & H6 & H7 & H8).
  assert (Hn : 0 < length ra) by (destruct ra; [congruence|cbn; lia]).
  destruct (quiet_make_reg s1 _ (length ra) H6 H7 Hn) as (rc & Lc & Hrc & s2 & G1 & G2 & G3 & G4 & G5 & G6 & G7 & G8).
  assert (P : Permutation (rc ++ t :: ra ++ rb ++ rm) (ra ++ rb ++ rm ++ t :: rc)).
  { eapply Permutation_trans; [apply Permutation_app_comm|]. cbn [app]. rewrite <- !app_assoc. rewrite (app_assoc rb rm (t :: rc)), (app_assoc ra (rb ++ rm) (t :: rc)), (app_assoc rb rm rc), (app_assoc ra (rb ++ rm) rc). apply Permutation_middle. }
  assert (L2 : live s2 (ra ++ rb ++ rm ++ t :: rc)) by (eapply live_perm; eassumption).
  assert (N : NoDup (ra ++ rb ++ rm ++ t :: rc)) by apply L2.
  set (rs := [ra; rb; rm; [t]; rc] : list reg).
  assert (Ec : concat rs = ra ++ rb ++ rm ++ t :: rc) by (cbn [rs concat app]; rewrite app_nil_r; reflexivity).
  assert (Hb : rb <> []) by (intros E; rewrite E in Lb; discriminate). assert (Hm : rm <> []) by (intros E; rewrite E in Lm; destruct ra; [congruence|discriminate]).
  assert (Hc : rc <> []) by (intros E; rewrite E in Lc; destruct ra; [congruence|discriminate]).
  destruct (program_does 0 rs (mod_lines ra rb rm rc t) s2) as (D & _).
  { rewrite Ec. exact N. }
  { repeat constructor; try assumption. discriminate. }
  { apply mod_lines_ok; assumption. }
  { destruct Ad as (A1 & A2). split; [congruence|]. rewrite G2, H2. exact A2. }
  { exact G6. }
  { cbn [cqs app]. rewrite Ec. exact L2. }
  cbn [cqs app] in D. rewrite Ec in D.
  destruct D as (s3 & p & D1 & D2 & D3 & D4 & D5 & D6 & D7 & D8 & D9 & D10 & D11 & D12).
  assert (L3 : live s3 ([t] ++ rc ++ ra ++ rb ++ rm)).
  { eapply live_perm; [exact D9|]. symmetry. eapply Permutation_trans; [|exact P]. cbn [app]. apply Permutation_middle. }
  destruct (quiet_return s3 [t] _ D8 L3 ltac:(discriminate)) as (s4 & R1 & R2 & R3 & R4 & R5 & R6 & R7 & R8).
  destruct (quiet_return s4 rc _ R6 R7 Hc) as (s5 & Q1 & Q2 & Q3 & Q4 & Q5 & Q6 & Q7 & Q8).
  exists t, rc, s5, p. split; [exact Lc|]. split; [exact N|]. split.
  { intros q Hq. split; [|].
    - destruct Hq as [<-|Hq]; [exact It|]. destruct (Hrc q Hq) as (I1 & I2). destruct (proj1 (H8 q)) as [X|X]; [left; exact I1|exact X|]. exfalso. apply I2. right. exact X.
    - destruct L2 as (_ & X). destruct (Nat.lt_ge_cases q (bn (bld s5))) as [Y|Y]; [exact Y|]. exfalso. apply (X q); [rewrite !in_app_iff; cbn in Hq |- *; tauto|]. left. lia. }
  split.
  { unfold add_mod. rewrite Lm, Nat.eqb_refl. replace (length rb =? length rm + 1) with true by (symmetry; apply Nat.eqb_eq; lia). cbn [negb]. rewrite <- Lm. unfold mbind at 1. rewrite H1. unfold mbind at 1. rewrite G1.
    unfold mbind at 1. change (program 0 [ra; rb; rm; [t]; rc] _ s2) with (program 0 rs (map fst (mod_lines ra rb rm rc t)) s2). rewrite D1. cbn [rs]. unfold mbind at 1. rewrite R1. unfold mbind at 1. rewrite Q1. reflexivity. }
  split; [congruence|]. split; [congruence|]. split; [lia|]. split; [congruence|]. split; [eapply wf_entries_mono; [|exact D6]; lia|]. split; [exact D7|]. split; [exact Q6|]. split; [exact Q7|].
  intros psi Hp. rewrite D12.
  - rewrite controlled_nil. apply mod_lines_op.
  - intros q Iq Hq. assert (Iq1 : idle s1 q).
    { destruct (proj1 (G8 q) (or_introl Iq)) as [X|X]; [exact X|]. exfalso. destruct G7 as (_ & Y). apply (Y q); [apply in_or_app; right; exact X|exact Iq]. }
    apply Hp; [|lia]. destruct (proj1 (H8 q) (or_introl Iq1)) as [X|X]; [exact X|]. exfalso. destruct H7 as (_ & Y). apply (Y q); [right; exact X|exact Iq1].
Qed.

(** *** Amplitudes *)
Lemma addT_good : forall rc ra rb psi, length ra = length rc -> length rb = S (length rc) -> rc <> [] -> NoDup (rc ++ ra ++ rb) ->
  (forall x, 0 < kcar rc ra rb x -> psi x = RtoC 0) -> addT rc ra rb psi = eff (add_c rc ra rb) psi.
Proof.
  induction rc as [|c rc IH]; intros ra rb psi La Lb Hne N Hz; [congruence|].
  destruct ra as [|a ra]; [discriminate|]. destruct rb as [|b rb]; [discriminate|].
  destruct rc as [|c1 cs].
  - destruct ra; [|discriminate]. destruct rb as [|b1 [|]]; try discriminate. cbn [addT]. rewrite eff_app. reflexivity.
  - cbn [length] in La, Lb. injection La as La. injection Lb as Lb.
    assert (N' : NoDup (c :: c1 :: cs ++ a :: ra ++ b :: rb)) by exact N.
    assert (Nt : NoDup ((c1 :: cs) ++ ra ++ rb)) by (eapply sub_NoDup; [|exact N']; cbn [app]; auto 12 using sub, sub_all).
    assert (N4 : NoDup [c; a; b; c1]).
    { eapply (sub_pick _ _ [c; c1; a; b]); [|cbn [app]|exact N']; [apply perm_skip; apply (Permutation_app_comm [a; b] [c1])|]. auto 12 using sub, sub_all. }
    assert (M4 := N4). apply NoDup_cons_iff in M4. destruct M4 as (Mc & M4). apply NoDup_cons_iff in M4. destruct M4 as (Ma & M4). apply NoDup_cons_iff in M4. destruct M4 as (Mb & _). cbn in Mc, Ma, Mb.
    set (Lt := (c1 :: cs) ++ ra ++ rb) in *.
    assert (Dj : forall q, In q [c; a; b] -> ~ In q Lt).
    { assert (P : Permutation ([c; a; b] ++ Lt) ((c :: c1 :: cs) ++ (a :: ra) ++ b :: rb)).
      { unfold Lt. cbn [app]. apply perm_skip. apply (Permutation_trans (l' := c1 :: cs ++ a :: b :: ra ++ rb)).
        - apply (Permutation_trans (l' := a :: b :: c1 :: cs ++ ra ++ rb)); [reflexivity|].
          change (a :: b :: c1 :: cs ++ ra ++ rb) with ([a; b] ++ (c1 :: cs) ++ (ra ++ rb)). change (c1 :: cs ++ a :: b :: ra ++ rb) with ((c1 :: cs) ++ [a; b] ++ (ra ++ rb)). rewrite (app_assoc [a; b] (c1 :: cs)), (app_assoc (c1 :: cs) [a; b]). apply Permutation_app_tail, Permutation_app_comm.
        - apply perm_skip. apply Permutation_app_head. apply perm_skip. apply Permutation_middle. }
      apply Permutation_sym in P. pose proof (Permutation_NoDup P N) as N5. apply NoDup_app_iff in N5. apply N5. }
    change (addT (c :: c1 :: cs) (a :: ra) (b :: rb) psi) with (eff (sum_c c a b) (tilts c a b c1 (addT (c1 :: cs) ra rb (eff (carry_c c a b c1) psi)))).
    change (add_c (c :: c1 :: cs) (a :: ra) (b :: rb)) with (carry_c c a b c1 ++ add_c (c1 :: cs) ra rb ++ rev (carry_c c a b c1) ++ sum_c c a b).
    assert (Ckc : cok [c; a; b; c1] (carry_c c a b c1)) by apply (carry_acts 0 c a b c1 N4).
    rewrite IH; [|exact La|exact Lb|discriminate|exact Nt|].
    2:{ intros z Hk. unfold eff. apply Hz. change (kcar (c :: c1 :: cs) (a :: ra) (b :: rb) ?w) with ((if maj (w a) (w b) (w c) then 1 else 0) + kcar (c1 :: cs) ra rb (run (carry_c c a b c1) w)).
        rewrite (run_rev' _ _ _ Ckc). lia. }
    rewrite <- !eff_app. f_equal. set (psi2 := eff (add_c (c1 :: cs) ra rb) (eff (carry_c c a b c1) psi)).
    assert (Ckt : cok Lt (rev (add_c (c1 :: cs) ra rb))) by (apply cok_rev; apply add_acts; [exact La|exact Lb|discriminate|exact Nt]).
    assert (Z2 : forall w, maj (w a) (w b) (w c) = true -> psi2 w = RtoC 0).
    { intros w Hw. unfold psi2, eff. apply Hz. change (kcar (c :: c1 :: cs) (a :: ra) (b :: rb) ?v) with ((if maj (v a) (v b) (v c) then 1 else 0) + kcar (c1 :: cs) ra rb (run (carry_c c a b c1) v)).
      rewrite (proj2 (run_carry c a b c1 _ N4)). rewrite !upd_other by intuition congruence. rewrite !(run_out Lt) by (exact Ckt || (apply Dj; cbn; tauto)). rewrite Hw. lia. }
    extensionality z. unfold tilts, eff at 1. rewrite rev_involutive, (proj1 (run_carry c a b c1 z N4)). destruct (maj (z a) (z b) (z c)) eqn:Em.
    + assert (U : forall v, psi2 (upd z c1 v) = RtoC 0).
      { intros v. apply Z2. rewrite (upd_other z c1 v a), (upd_other z c1 v b), (upd_other z c1 v c) by intuition congruence. exact Em. }
      unfold on1. rewrite !U. ring.
    + rewrite xorb_false_r, upd_id. reflexivity.
Qed.

Definition mod_c (t : nat) (rc ra rb rm : list nat) : list gate := mod_1 t rc ra rb rm ++ ctl (ones [t]) (add_c rc rm rb) ++ mod_3 t rc ra rb.
Definition kmod (t : nat) (rc ra rb rm : list nat) (x : bs) : nat :=
  let z := run (mod_1 t rc ra rb rm) x in if z t then kcar rc rm rb z else 0.

Section Amps.
Context (ra rb rm rc : list nat) (t : nat) (Lm : length ra = length rm) (Lb : length rb = S (length ra)) (Ha : ra <> []) (Lc : length rc = length ra)
  (N : NoDup (ra ++ rb ++ rm ++ t :: rc)).
Notation n := (length ra).
Notation top := (nth n rb 0).
Notation L := (ra ++ rb ++ rm ++ t :: rc).
Let N1 : NoDup (rc ++ ra ++ rb) := mod_nodup1 ra rb rm rc t N.
Let N2 : NoDup (rc ++ rm ++ rb) := mod_nodup2 ra rb rm rc t N.
Let Hc : rc <> [] := rc_ne ra rb rm rc t Lm Lb Ha Lc N.
Let Tn : ~ In t (rc ++ rm ++ rb).
Proof. destruct (mod_disj ra rb rm rc t N) as (_ & (T1 & T2 & T3 & T4) & _). rewrite !in_app_iff. tauto. Qed.
Let Ck1 : cok (rc ++ ra ++ rb) (add_c rc ra rb).
Proof. apply add_acts; try assumption; lia. Qed.
Let Ck2 : cok (rc ++ rm ++ rb) (add_c rc rm rb).
Proof. apply add_acts; try assumption; lia. Qed.
Lemma flip_cok v : cok L [([(top, v)], t)].
Proof.
  constructor; [|constructor]. split; [|split]; cbn [fst snd map].
  - intros [E|[]]. apply (top_t ra rb rm rc t Lm Lb Lc N). exact E.
  - rewrite !in_app_iff. cbn. tauto.
  - intros q [<-|[]]. pose proof (top_in ra rb rm rc Lm Lb Lc). rewrite !in_app_iff. tauto.
Qed.
Lemma mod_1_ok : cok L (mod_1 t rc ra rb rm).
Proof.
  apply cok_app; [eapply cok_incl; [|exact Ck1]; intros q; rewrite !in_app_iff; cbn; tauto|]. apply cok_app; [apply cok_rev; eapply cok_incl; [|exact Ck2]; intros q; rewrite !in_app_iff; cbn; tauto|apply flip_cok].
Qed.
Lemma mod_3_ok : cok L (mod_3 t rc ra rb).
Proof.
  assert (X : cok L (add_c rc ra rb)) by (eapply cok_incl; [|exact Ck1]; intros q; rewrite !in_app_iff; cbn; tauto).
  apply cok_app; [apply cok_rev; exact X|]. apply cok_app; [apply flip_cok|exact X].
Qed.
Lemma mod_2_ok : cok L (ctl (ones [t]) (add_c rc rm rb)).
Proof.
  eapply cok_incl; [|apply cok_ctl; [exact Ck2|]].
  - intros q. cbn [ones map fst app In]. rewrite !in_app_iff. cbn. tauto.
  - cbn. intros q [<-|[]]. exact Tn.
Qed.
Lemma mod_c_ok : cok L (mod_c t rc ra rb rm).
Proof. apply cok_app; [apply mod_1_ok|]. apply cok_app; [apply mod_2_ok|apply mod_3_ok]. Qed.
Lemma run_mod_2 z : run (ctl (ones [t]) (add_c rc rm rb)) z = if z t then run (add_c rc rm rb) z else z.
Proof.
  rewrite run_ctl.
  - cbn [ones map forallb]. unfold sat. cbn [fst snd]. rewrite andb_true_r. destruct (z t); reflexivity.
  - intros g Hg. cbn. intros [E|[]]. apply Tn. rewrite E. eapply cok_targets; eassumption.
Qed.
Lemma mod_amp psi x : settled L x psi -> mod_d t rc ra rb rm psi (run (mod_c t rc ra rb rm) x) = Cmult (cpow sh (kmod t rc ra rb rm x)) (psi x).
Proof.
  intros Se. unfold mod_c, mod_d, kmod. rewrite !run_app. rewrite (eff_run _ _ _ _ mod_3_ok). set (z := run (mod_1 t rc ra rb rm) x). set (phi := eff (mod_1 t rc ra rb rm) psi).
  assert (V : phi z = psi x) by apply (eff_run _ _ _ _ mod_1_ok). assert (S1 : settled L z phi) by (apply settled_eff; [apply mod_1_ok|exact Se]).
  rewrite run_mod_2. unfold controlled. cbn [forallb]. rewrite andb_true_r. destruct (z t) eqn:Zt.
  - rewrite (run_out _ _ t Ck2 Tn), Zt. rewrite <- V. apply addT_amp; try assumption; try lia. eapply settled_incl; [|exact S1]. intros q. rewrite !in_app_iff. cbn. tauto.
  - rewrite Zt, V. cbn [cpow]. ring.
Qed.
Lemma mod_good psi : (forall x, 0 < kmod t rc ra rb rm x -> psi x = RtoC 0) -> mod_d t rc ra rb rm psi = eff (mod_c t rc ra rb rm) psi.
Proof.
  intros Hz. unfold mod_d, mod_c. rewrite <- !eff_app. f_equal. set (phi := eff (mod_1 t rc ra rb rm) psi). extensionality z.
  rewrite eff_ctl by (intros g Hg; cbn; intros [E|[]]; apply Tn; rewrite E; eapply cok_targets; eassumption).
  unfold controlled. cbn [ones map forallb]. unfold sat. cbn [fst snd]. rewrite !andb_true_r. destruct (z t) eqn:Zt; cbn [Bool.eqb]; [|reflexivity].
  set (phi' := fun w : bs => if w t then phi w else RtoC 0).
  transitivity (addT rc rm rb phi' z).
  - apply (proj1 (only_addT 1 rc rm rb Nat.lt_0_1 ltac:(lia) ltac:(lia) Hc N2)). intros y Hy. unfold phi'. rewrite (Hy t Tn), Zt. reflexivity.
  - rewrite addT_good; try assumption; try lia.
    + unfold eff. unfold phi'. rewrite (run_out _ _ t (cok_rev _ _ Ck2) Tn), Zt. reflexivity.
    + intros w Hw. unfold phi'. destruct (w t) eqn:Wt; [|reflexivity]. unfold phi, eff. apply Hz. unfold kmod. rewrite (run_rev' _ _ _ mod_1_ok), Wt. exact Hw.
Qed.
End Amps.

(** *** Values *)
Lemma le_cut : forall l i, le (firstn i l) = le l mod 2 ^ i.
Proof.
  induction l as [|b l IH]; intros i; [rewrite firstn_nil; cbn [le]; symmetry; apply Nat.mod_0_l, Nat.pow_nonzero; lia|].
  destruct i as [|i]; [rewrite Nat.mod_1_r; reflexivity|]. cbn [firstn le]. rewrite IH. change (2 ^ S i) with (2 * 2 ^ i).
  pose proof (Nat.pow_nonzero 2 i ltac:(lia)) as P. pose proof (Nat.mod_upper_bound (le l) (2 ^ i) P) as B. pose proof (Nat.div_mod (le l) (2 ^ i) P) as D.
  apply (Nat.mod_unique _ _ (le l / 2 ^ i)); [destruct b; cbn [b2n]; lia|]. nia.
Qed.
Lemma val_cut r x i : val (firstn i r) x = val r x mod 2 ^ i.
Proof. unfold val. rewrite <- firstn_map. apply le_cut. Qed.
Lemma le_bound l : le l < 2 ^ length l.
Proof. induction l as [|b l IH]; [cbn; lia|]. cbn [le length Nat.pow]. destruct b; cbn [b2n]; lia. Qed.
Lemma val_bound r x : val r x < 2 ^ length r.
Proof. unfold val. rewrite <- (map_length x r). apply le_bound. Qed.
Lemma le_top : forall l n, length l = S n -> nth n l false = (2 ^ n <=? le l).
Proof.
  induction l as [|b l IH]; intros n H; [discriminate|]. injection H as H. destruct n as [|n].
  - destruct l; [|discriminate]. destruct b; reflexivity.
  - cbn [nth le]. rewrite (IH n H). change (2 ^ S n) with (2 * 2 ^ n). apply Bool.eq_iff_eq_true. rewrite !Nat.leb_le. destruct b; cbn [b2n]; lia.
Qed.
Lemma val_top r n x : length r = S n -> x (nth n r 0) = (2 ^ n <=? val r x).
Proof. intros H. unfold val. rewrite <- le_top by (rewrite map_length; exact H). rewrite <- (map_nth x). apply nth_indep. rewrite map_length. lia. Qed.
Lemma val_ext r x y : (forall q, In q r -> x q = y q) -> val r x = val r y.
Proof. intros H. unfold val. f_equal. apply map_ext_in. exact H. Qed.
Lemma val_inj r x y : val r x = val r y -> forall q, In q r -> x q = y q.
Proof.
  intros H q Hq. unfold val in H. apply le_inj in H; [|rewrite !map_length; reflexivity]. clear - H Hq. induction r as [|p r IH]; [destruct Hq|]. injection H as H1 H2. destruct Hq as [<-|Hq]; [exact H1|apply IH; assumption].
Qed.
Section AddVals.
Context (rc ra rb : list nat) (La : length ra = length rc) (Lb : length rb = S (length rc)) (Hne : rc <> []) (N : NoDup (rc ++ ra ++ rb)).
Lemma add_fwd x : zero_in rc x -> only_in rb x (run (add_c rc ra rb) x) /\ val rb (run (add_c rc ra rb) x) = (val ra x + val rb x) mod 2 ^ length rb.
Proof.
  intros Z. assert (Nb : NoDup rb) by (apply NoDup_app_iff in N; destruct N as (_ & X & _); apply NoDup_app_iff in X; apply X).
  assert (Zt : zero_in (tl rc) x) by (intros q Hq; apply Z; destruct rc; [exact Hq|right; exact Hq]).
  assert (Z0 : x (hd 0 rc) = false) by (apply Z; destruct rc; [congruence|left; reflexivity]).
  destruct (le_onto (length rb) ((val ra x + val rb x) mod 2 ^ length rb)) as (l & Ll & El); [apply Nat.mod_upper_bound, Nat.pow_nonzero; lia|].
  assert (O : only_in rb x (updl x rb l)) by (intros q Hq; apply updl_notin; exact Hq).
  assert (V : val rb (updl x rb l) = (val ra x + val rb x) mod 2 ^ length rb) by (unfold val at 1; rewrite updl_map by assumption; exact El).
  rewrite <- (add_relation rc ra rb x (updl x rb l) La Lb Hne N Zt O); [auto|]. rewrite Z0. cbn [b2n]. rewrite Nat.add_0_r. exact V.
Qed.
Lemma add_bwd x : zero_in rc x -> only_in rb x (run (rev (add_c rc ra rb)) x) /\ val rb x = (val ra x + val rb (run (rev (add_c rc ra rb)) x)) mod 2 ^ length rb.
Proof.
  intros Z. set (z := run (rev (add_c rc ra rb)) x). assert (Ck : cok (rc ++ ra ++ rb) (add_c rc ra rb)) by (apply add_acts; assumption).
  assert (E : run (add_c rc ra rb) z = x) by (apply (run_rev' _ _ _ Ck)).
  assert (O : only_in rb x z).
  { intros q Hq. rewrite <- E. destruct rc as [|c cs]; [congruence|]. rewrite run_add by (try assumption; cbn in *; lia). rewrite updl_notin by exact Hq. reflexivity. }
  assert (D : forall q, In q (rc ++ ra) -> ~ In q rb) by (rewrite app_assoc in N; apply NoDup_app_iff in N; apply N).
  assert (Zz : zero_in rc z) by (intros q Hq; rewrite O; [apply Z; exact Hq|apply D, in_or_app; left; exact Hq]).
  split; [exact O|]. destruct (add_fwd z Zz) as (_ & V). rewrite E in V. rewrite V. f_equal. f_equal. apply val_ext. intros q Hq. apply O, D, in_or_app. right. exact Hq.
Qed.
End AddVals.

Lemma mod_small_diff s M k : 0 < k -> s < M -> forall v, (M + v) mod k = s mod k -> (k <=? M mod k + v mod k) = (s mod k <? M mod k).
Proof.
  intros Hk Hs v H. pose proof (Nat.mod_upper_bound M k ltac:(lia)). pose proof (Nat.mod_upper_bound v k ltac:(lia)). pose proof (Nat.mod_upper_bound s k ltac:(lia)).
  rewrite Nat.add_mod in H by lia. apply Bool.eq_iff_eq_true. rewrite Nat.leb_le, Nat.ltb_lt.
  destruct (Nat.lt_ge_cases (M mod k + v mod k) k) as [X|X].
  - rewrite Nat.mod_small in H by exact X. lia.
  - rewrite <- (Nat.mod_unique (M mod k + v mod k) k 1 (M mod k + v mod k - k)) in H by lia. lia.
Qed.

Section Value.
Context (ra rb rm rc : list nat) (t : nat) (Lm : length ra = length rm) (Lb : length rb = S (length ra)) (Ha : ra <> []) (Lc : length rc = length ra)
  (N : NoDup (ra ++ rb ++ rm ++ t :: rc)) (x : bs) (Xt : x t = false) (Xc : zero_in rc x) (Am : val ra x < val rm x) (Bm : val rb x < val rm x).
Notation n := (length ra).
Notation top := (nth n rb 0).
Notation P := (2 ^ S n).
Lemma step_if v z : run [([(top, v)], t)] z = if Bool.eqb (z top) v then flip z t else z.
Proof. unfold run, step. cbn [fold_left fst snd forallb]. unfold sat. cbn [fst snd]. rewrite andb_true_r. reflexivity. Qed.
Lemma mod_value y : only_in rb x y -> val rb y = (val ra x + val rb x) mod val rm x ->
  run (mod_c t rc ra rb rm) x = y /\ kmod t rc ra rb rm x = lost n (val ra x) (val rb x) (val rm x).
Proof.
  intros Oy Vy. pose proof (mod_nodup1 ra rb rm rc t N) as N1. pose proof (mod_nodup2 ra rb rm rc t N) as N2. pose proof (rc_ne ra rb rm rc t Lm Lb Ha Lc N) as Hc.
  pose proof (top_in ra rb rm rc Lm Lb Lc) as Ti. pose proof (top_t ra rb rm rc t Lm Lb Lc N) as Tt.
  destruct (mod_disj ra rb rm rc t N) as (_ & (T1 & T2 & T3 & T4) & D1 & D2 & D3).
  assert (La' : length ra = length rc) by lia. assert (Lm' : length rm = length rc) by lia. assert (Lb' : length rb = S (length rc)) by lia.
  pose proof (val_bound rm x) as Mb. rewrite <- Lm in Mb.
  set (a := val ra x) in *. set (b := val rb x) in *. set (M := val rm x) in *.
  assert (Pn : 2 ^ length rb = 2 * 2 ^ n) by (rewrite Lb; reflexivity).
  (* states agreeing with x off rb and t *)
  set (like := fun z : bs => forall q, ~ In q rb -> q <> t -> z q = x q).
  assert (LA : forall z, like z -> val ra z = a) by (intros z H; apply val_ext; intros q Hq; apply H; [apply D1, Hq|intros ->; tauto]).
  assert (LM : forall z, like z -> val rm z = M) by (intros z H; apply val_ext; intros q Hq; apply H; [intros X; apply D2 in X; tauto|intros ->; tauto]).
  assert (LC : forall z, like z -> zero_in rc z) by (intros z H q Hq; rewrite H; [apply Xc; exact Hq|intros X; apply D2 in X; tauto|intros ->; tauto]).
  assert (Lo : forall z w, like z -> only_in rb z w -> like w) by (intros z w H O q Hq Hq'; rewrite O by exact Hq; apply H; assumption).
  assert (Lf : forall z, like z -> like (flip z t)) by (intros z H q Hq Hq'; rewrite flip_other by exact Hq'; apply H; assumption).
  assert (Vf : forall z, val rb (flip z t) = val rb z) by (intros z; apply val_ext; intros q Hq; apply flip_other; intros ->; tauto).
  assert (Top : forall z, z top = (2 ^ n <=? val rb z)) by (intros z; apply val_top; exact Lb).
  assert (Bd : forall z, val rb z < 2 * 2 ^ n) by (intros z; rewrite <- Pn; apply val_bound).
  assert (x_like : like x) by (intros q _ _; reflexivity).
  assert (Mm : forall v k, v < 2 * 2 ^ n -> v + k * 2 ^ length rb = v + k * (2 * 2 ^ n)) by (intros; rewrite Pn; reflexivity).
  unfold kmod, mod_c, mod_1, mod_3. rewrite !run_app.
  destruct (add_fwd rc ra rb La' Lb' Hc N1 x (LC x x_like)) as (O1 & V1). set (x1 := run (add_c rc ra rb) x) in *.
  assert (l1 : like x1) by (eapply Lo; eassumption). fold a b in V1. rewrite Pn, Nat.mod_small in V1 by lia.
  destruct (add_bwd rc rm rb Lm' Lb' Hc N2 x1 (LC x1 l1)) as (O2 & V2). set (x2 := run (rev (add_c rc rm rb)) x1) in *.
  assert (l2 : like x2) by (eapply Lo; eassumption). rewrite (LM x1 l1), V1, Pn in V2. pose proof (Bd x2) as B2.
  assert (E2 : val rb x2 = if a + b <? M then 2 * 2 ^ n + a + b - M else a + b - M).
  { destruct (Nat.ltb_spec (a + b) M) as [X|X]; destruct (Nat.lt_ge_cases (M + val rb x2) (2 * 2 ^ n)) as [Y|Y].
    - rewrite Nat.mod_small in V2 by exact Y. lia.
    - rewrite <- (Nat.mod_unique _ (2 * 2 ^ n) 1 (M + val rb x2 - 2 * 2 ^ n)) in V2 by lia. lia.
    - rewrite Nat.mod_small in V2 by exact Y. lia.
    - rewrite <- (Nat.mod_unique _ (2 * 2 ^ n) 1 (M + val rb x2 - 2 * 2 ^ n)) in V2 by lia. lia. }
  assert (t2 : x2 t = false) by (rewrite O2, O1 by exact T2; exact Xt).
  assert (Tp2 : x2 top = (a + b <? M)).
  { rewrite Top, E2. destruct (Nat.ltb_spec (a + b) M); [apply Nat.leb_le|apply Nat.leb_gt]; lia. }
  rewrite !(step_if true x2), Tp2.
  set (x3 := if Bool.eqb (a + b <? M) true then flip x2 t else x2).
  assert (l3 : like x3) by (unfold x3; destruct (a + b <? M); cbn [Bool.eqb negb]; [apply Lf|]; exact l2).
  assert (V3 : val rb x3 = val rb x2) by (unfold x3; destruct (a + b <? M); cbn [Bool.eqb negb]; [apply Vf|reflexivity]).
  assert (t3 : x3 t = (a + b <? M)) by (unfold x3; destruct (a + b <? M); cbn [Bool.eqb]; [rewrite flip_same, t2; reflexivity|exact t2]).
  split.
  2:{ rewrite t3. unfold lost. destruct (Nat.ltb_spec (a + b) M) as [X|X]; [|reflexivity].
      rewrite kcar_count; [|lia|lia|exact Hc|exact N2|].
      2:{ intros q Hq. apply (LC x3 l3). destruct rc; [exact Hq|right; exact Hq]. }
      unfold inner_carries. rewrite Lc. f_equal. assert (Hd : x3 (hd 0 rc) = false) by (apply (LC x3 l3); destruct rc; [congruence|left; reflexivity]).
      assert (Fe : forall l, (forall i, In i l -> i <= n) -> filter (carry_in rm rb (hd 0 rc) x3) l = filter (fun i => (a + b) mod 2 ^ i <? M mod 2 ^ i) l).
      { induction l as [|i l IH]; intros Hl; [reflexivity|]. cbn [filter]. rewrite IH by (intros j Hj; apply Hl; right; exact Hj).
        replace (carry_in rm rb (hd 0 rc) x3 i) with ((a + b) mod 2 ^ i <? M mod 2 ^ i); [reflexivity|].
        unfold carry_in. rewrite Hd. cbn [b2n]. rewrite Nat.add_0_r, !val_cut, (LM x3 l3), V3, E2. symmetry. apply mod_small_diff; [apply Nat.neq_0_lt_0, Nat.pow_nonzero; lia|exact X|].
        replace (M + (2 * 2 ^ n + a + b - M)) with (a + b + 2 * 2 ^ n) by lia.
        assert (E : 2 * 2 ^ n = 2 ^ (S n - i) * 2 ^ i) by (rewrite <- Nat.pow_add_r; specialize (Hl i (or_introl eq_refl)); replace (S n - i + i) with (S n) by lia; reflexivity).
        rewrite E. apply Nat.mod_add, Nat.pow_nonzero. lia. }
      apply Fe. intros i Hi. apply in_seq in Hi. lia. }
  rewrite (run_mod_2 ra rb rm rc t Lm Lb Ha Lc N). rewrite t3.
  set (x4 := if a + b <? M then run (add_c rc rm rb) x3 else x3).
  destruct (add_fwd rc rm rb Lm' Lb' Hc N2 x3 (LC x3 l3)) as (O4 & V4).
  assert (O4' : only_in rb x3 x4) by (unfold x4; destruct (a + b <? M); [exact O4|intros q _; reflexivity]).
  assert (l4 : like x4) by (eapply Lo; eassumption).
  assert (E4 : val rb x4 = if a + b <? M then a + b else a + b - M).
  { unfold x4. destruct (Nat.ltb_spec (a + b) M) as [X|X]; [|rewrite V3; exact E2]. rewrite V4, V3, (LM x3 l3), E2, Pn. symmetry. apply (Nat.mod_unique _ _ 1); lia. }
  assert (t4 : x4 t = (a + b <? M)) by (rewrite O4' by exact T2; exact t3).
  destruct (add_bwd rc ra rb La' Lb' Hc N1 x4 (LC x4 l4)) as (O5 & V5). set (x5 := run (rev (add_c rc ra rb)) x4) in *.
  assert (l5 : like x5) by (eapply Lo; eassumption). rewrite (LA x4 l4), E4, Pn in V5. pose proof (Bd x5) as B5.
  assert (E5 : val rb x5 = if a + b <? M then b else 2 * 2 ^ n + b - M).
  { destruct (Nat.ltb_spec (a + b) M) as [X|X]; destruct (Nat.lt_ge_cases (a + val rb x5) (2 * 2 ^ n)) as [Y|Y].
    - rewrite Nat.mod_small in V5 by exact Y. lia.
    - rewrite <- (Nat.mod_unique _ (2 * 2 ^ n) 1 (a + val rb x5 - 2 * 2 ^ n)) in V5 by lia. lia.
    - rewrite Nat.mod_small in V5 by exact Y. lia.
    - rewrite <- (Nat.mod_unique _ (2 * 2 ^ n) 1 (a + val rb x5 - 2 * 2 ^ n)) in V5 by lia. lia. }
  assert (Tp5 : x5 top = negb (a + b <? M)).
  { rewrite Top, E5. destruct (Nat.ltb_spec (a + b) M); cbn [negb]; [apply Nat.leb_gt|apply Nat.leb_le]; lia. }
  rewrite (step_if false x5), Tp5. set (x6 := if Bool.eqb (negb (a + b <? M)) false then flip x5 t else x5).
  assert (l6 : like x6) by (unfold x6; destruct (a + b <? M); cbn [Bool.eqb negb]; [apply Lf|]; exact l5).
  assert (V6 : val rb x6 = val rb x5) by (unfold x6; destruct (a + b <? M); cbn [Bool.eqb negb]; [apply Vf|reflexivity]).
  assert (t6 : x6 t = false).
  { unfold x6. rewrite <- (O5 t T2) in t4. destruct (a + b <? M); cbn [negb Bool.eqb]; [rewrite flip_same, t4; reflexivity|exact t4]. }
  destruct (add_fwd rc ra rb La' Lb' Hc N1 x6 (LC x6 l6)) as (O7 & V7). set (x7 := run (add_c rc ra rb) x6) in *.
  assert (l7 : like x7) by (eapply Lo; eassumption).
  extensionality q. destruct (in_dec Nat.eq_dec q rb) as [I|I].
  - revert q I. apply val_inj. rewrite V7, V6, (LA x6 l6), E5, Vy, Pn. destruct (Nat.ltb_spec (a + b) M) as [X|X].
    + rewrite !Nat.mod_small by lia. reflexivity.
    + transitivity (a + b - M); [symmetry|]; apply (Nat.mod_unique _ _ 1); lia.
  - rewrite (Oy q I). destruct (Nat.eq_dec q t) as [->|Hq]; [rewrite (O7 t T2), t6; symmetry; exact Xt|apply l7; assumption].
Qed.
End Value.
