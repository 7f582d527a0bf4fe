(** times_mod_inv, square_mod_inv and exp_mod succeed at every depth. *)
From Coq Require Import Reals Lra FunctionalExtensionality Permutation.
From Coquelicot Require Import Complex.
From Verif Require Import Base BitsSpec BitsProofs OpsModel OpsSpec Instances BuilderModel RegProofs DenSpec DenProofs LocalProofs LinkProofs
  RunSpec RunProofs GateProofs ToffoliProofs CondProofs SubSpec SubProofs SubProofs2 SubProofs3 SubProofs5 SubProofs6 ProgramModel ProgramSpec ProgramProofs ProgramProofs2 CircProofs CircProofs2
  ArithModel ArithSpec ArithProofs ArithProofs2 ArithProofs3 ArithProofs4 ArithProofs5 ArithProofs6 ArithProofs7 ArithProofs8 WeakProofs TraceProofs ArithProofs9 ArithProofs10 ArithProofs11 ArithProofs12 ArithProofs14 KindProofs ArithProofs15.
Local Open Scope nat_scope.
Local Open Scope mon_scope.

Lemma xacts_any d f rs Q : xacts d f rs Q -> xacts d f rs (fun _ => any).
Proof. apply xacts_weak. intros; exact I. Qed.
Lemma ranges_spec rs : concat (ranges 0 (map (@length nat) rs)) = seq 0 (length (concat rs)) /\ map (@length nat) (ranges 0 (map (@length nat) rs)) = map (@length nat) rs.
Proof.
  split.
  - rewrite ranges_concat. f_equal. induction rs as [|r rs IH]; [reflexivity|]. cbn [map fold_right concat]. rewrite app_length, IH. reflexivity.
  - generalize 0 at 1. induction rs as [|r rs IH]; intros k; [reflexivity|]. cbn [map ranges]. rewrite seq_length, IH. reflexivity.
Qed.
Lemma live_seq k : live (fresh k) (seq 0 k).
Proof. apply fresh_live; [apply seq_NoDup|]. intros q Hq. apply in_seq in Hq. lia. Qed.

(** The inverse of a function on registers that succeeds and uses a temporary qubit. *)
Lemma inv_total (f : nat -> list reg -> M (list reg)) rs : rs <> [] -> Forall (fun r => r <> []) rs -> (forall r, knd (f 0 r)) ->
  (forall R, map (@length nat) R = map (@length nat) rs -> xacts 0 f R (fun _ => any)) ->
  (forall R s, map (@length nat) R = map (@length nat) rs -> at_depth 0 s -> tidy s -> live s (concat R) -> exists s' p, f 0 R s = Ret R s' /\ pipeline (bld s') = pipeline (bld s) ++ p /\ touching (idle s) p) ->
  forall d, xacts d (fun d rs => inv_macro d rs (f 0)) rs (fun _ => any).
Proof.
  intros H1 H2 Kn Hx Ht d. destruct (ranges_spec rs) as (C & L). set (R := ranges 0 (map (@length nat) rs)) in *. set (k := length (concat rs)) in *.
  pose proof (live_seq k) as Lv. assert (LvR := Lv). rewrite <- C in LvR.
  destruct (Ht R (fresh k) L (fresh_depth k) (fresh_tidy k) LvR) as (s1 & p & E & Ep & (e & j & He & Hj & Ij)). cbn [fresh bld pipeline app] in Ep.
  pose proof (Hx R L (fresh k) (fresh_depth k) (fresh_tidy k) LvR) as X. cbn [cqs fresh conds app] in X.
  destruct (inverse_x f rs s1 R (concat R) (Kn R) E) as (N & q & _ & _ & _ & _ & _ & _ & _ & A).
  - fold k. rewrite <- C. exact X.
  - fold k. exists e, j. rewrite Ep. split; [exact He|]. split; [exact Hj|]. destruct Ij as [Ij|[]]. cbn in Ij. lia.
  - exact H1.
  - exact H2.
  - eapply xacts_any. apply A.
Qed.
Lemma same4 {A} (R : list (list A)) a b c e : map (@length A) R = [a; b; c; e] -> exists r1 r2 r3 r4, R = [r1; r2; r3; r4] /\ length r1 = a /\ length r2 = b /\ length r3 = c /\ length r4 = e.
Proof. destruct R as [|r1 [|r2 [|r3 [|r4 [|]]]]]; try discriminate. intros E. injection E as <- <- <- <-. exists r1, r2, r3, r4. auto. Qed.
Lemma same3 {A} (R : list (list A)) a b c : map (@length A) R = [a; b; c] -> exists r1 r2 r3, R = [r1; r2; r3] /\ length r1 = a /\ length r2 = b /\ length r3 = c.
Proof. destruct R as [|r1 [|r2 [|r3 [|]]]]; try discriminate. intros E. injection E as <- <- <-. exists r1, r2, r3. auto. Qed.
Lemma ne_length {A} (l : list A) : l <> [] <-> 0 < length l.
Proof. destruct l; cbn; split; try congruence; lia. Qed.

Lemma times_inv_total d ra rb rm rp : length ra = S (length rm) -> length rp = S (length rm) -> rm <> [] -> rb <> [] -> xacts d times_mod_inv [ra; rb; rm; rp] (fun _ => any).
Proof.
  intros La Lp Hm Hb. apply (inv_total times_mod).
  - discriminate.
  - repeat constructor; try assumption; apply ne_length; lia.
  - intros r. apply n_times_mod.
  - intros R E. destruct (same4 R _ _ _ _ E) as (r1 & r2 & r3 & r4 & -> & L1 & L2 & L3 & L4). eapply xacts_any. apply times_xacts; [congruence|congruence|rewrite ne_length in *; lia|rewrite ne_length in *; lia].
  - intros R s E Ad T Lv. destruct (same4 R _ _ _ _ E) as (r1 & r2 & r3 & r4 & -> & L1 & L2 & L3 & L4). apply times_touch; try assumption; [congruence|congruence|rewrite ne_length in *; lia|rewrite ne_length in *; lia].
Qed.
Lemma square_inv_total d ra rm rs : length ra = S (length rm) -> length rs = S (length rm) -> rm <> [] -> xacts d square_mod_inv [ra; rm; rs] (fun _ => any).
Proof.
  intros La Ls Hm. apply (inv_total square_mod).
  - discriminate.
  - repeat constructor; try assumption; apply ne_length; lia.
  - intros r. apply n_square_mod.
  - intros R E. destruct (same3 R _ _ _ E) as (r1 & r2 & r3 & -> & L1 & L2 & L3). eapply xacts_any. apply square_xacts; [congruence|congruence|rewrite ne_length in *; lia].
  - intros R s E Ad T Lv. destruct (same3 R _ _ _ E) as (r1 & r2 & r3 & -> & L1 & L2 & L3). apply square_touch; try assumption; [congruence|congruence|rewrite ne_length in *; lia].
Qed.

(** *** exp_mod *)
Ltac set_ok N Ne := apply line_ok_set; [exact N|exact Ne|repeat constructor; discriminate| | |];
  [repeat apply Forall_cons; try apply Forall_nil; split; cbn; try lia; try exact Logic.I
  |repeat apply Forall_cons; try apply Forall_nil; unfold arg_set; cbn [snd]; try exact Logic.I
  |repeat constructor; cbn; intuition discriminate].
Section Exp.
Context (ra rb rm rp re : list nat) (La : length ra = S (length rm)) (Lp : length rp = S (length rm)) (Le : length re = S (length rm)) (Hm : rm <> []) (Hb : rb <> []).
Lemma e_ne : ra <> [] /\ rp <> [] /\ re <> [] /\ 0 < length rb.
Proof. rewrite !ne_length in *. lia. Qed.

(** One exponent qubit. *)
Definition tr_exp1 (d b : nat) : list nat -> tr := fun K =>
  chain_tr K [(fun K => tr_does (controlled K (selected [b] 0 (eff (copy_c rp re))))); (fun K => tr_times (S d) ra rp rm re ([b] ++ K))].
Lemma exp_one fuel d b : rb = [b] -> xacts d (exp_mod_fuel (S fuel)) [ra; rb; rm; rp; re] (tr_exp1 d b).
Proof.
  intros Eb s Ad T Lv. destruct e_ne as (Ha & Hp & He & Hk). set (rs5 := [ra; rb; rm; rp; re] : list reg) in *.
  assert (N : NoDup (concat rs5)) by (destruct Lv as (X & _); apply NoDup_app_iff in X; apply X).
  assert (Ne : Forall (fun r => r <> []) rs5) by (repeat constructor; assumption).
  set (ls := [(control_mask 0 copy [part 1 [0]; whole 3; whole 4], (fun K => tr_does (controlled K (selected [b] 0 (eff (copy_c rp re))))));
    (control times_mod [part 1 [0]; whole 0; whole 3; whole 2; whole 4], fun K => tr_times (S d) ra rp rm re ([b] ++ K))]).
  assert (Nc : NoDup (rp ++ re)).
  { cbn [concat rs5] in N. rewrite app_nil_r in N. do 3 (apply NoDup_app_iff in N; destruct N as (_ & N & _)). exact N. }
  assert (X : xacts d (fun d rs => program d rs (map fst ls)) rs5 (fun K => chain_tr K (map snd ls))).
  { apply program_x; [exact N|exact Ne|]. unfold ls. repeat apply Forall_cons; try apply Forall_nil; cbn [fst snd].
    - right. exists (eff (copy_c rp re)).
      assert (E : line_regs rs5 (control_mask 0 copy [part 1 [0]; whole 3; whole 4]) = [[b]; rp; re]) by (unfold line_regs, gather; cbn; rewrite !app_nil_r, Eb; reflexivity).
      split; [split; [|split; [intros _; discriminate|]]|].
      + set_ok N Ne; split; [repeat constructor; intros []|discriminate].
      + rewrite E. unfold call_targets, call_depth. cbn [control_mask l_ctl l_fun tl]. apply copy_acts; [lia|exact Hp|exact Nc].
      + intros K s0 s' p H. unfold line_op, call_op in H. rewrite E in H. exact H.
    - left. assert (E : line_regs rs5 (control times_mod [part 1 [0]; whole 0; whole 3; whole 2; whole 4]) = [[b]; ra; rp; rm; re]) by (unfold line_regs, gather; cbn; rewrite !app_nil_r, Eb; reflexivity).
      split; [set_ok N Ne; split; [repeat constructor; intros []|discriminate]|]. cbn [control l_ctl]. split; [discriminate|]. exists (tr_times (S d) ra rp rm re). split.
      + rewrite E. cbn [tl control l_fun]. apply times_xacts; assumption.
      + rewrite E. cbn [hd]. intros K s0 s' s1 s2 p B1 B2. unfold tr_times, idle, pool. rewrite B1, B2. tauto. }
  specialize (X s Ad T Lv). destruct X as (s' & p & E & X). exists s', p. split; [|exact X]. revert E. cbn [exp_mod_fuel rs5].
  rewrite La, Lp, Le, !Nat.add_1_r, !Nat.eqb_refl. cbn [negb]. rewrite Eb. cbn [length Nat.eqb]. intros E. exact E.
Qed.
End Exp.

Lemma exp_total : forall fuel d ra rb rm rp re, length ra = S (length rm) -> length rp = S (length rm) -> length re = S (length rm) -> rm <> [] -> rb <> [] -> length rb <= fuel ->
  xacts d (exp_mod_fuel fuel) [ra; rb; rm; rp; re] (fun _ => any).
Proof.
  induction fuel as [|fuel IH]; intros d ra rb rm rp re La Lp Le Hm Hb Hf; [apply ne_length in Hb; lia|].
  destruct (Nat.eq_dec (length rb) 1) as [K1|K1].
  { destruct rb as [|b [|]]; try discriminate. eapply xacts_any. apply exp_one; assumption || reflexivity. }
  intros s Ad T Lv. destruct (e_ne ra rb rm rp re La Lp Le Hm Hb) as (Ha & Hp & He & Hk). set (n := length rm) in *. set (K := cqs d (conds s)) in *.
  set (L := K ++ concat [ra; rb; rm; rp; re]) in *.
  destruct (quiet_make_reg s _ (n + 1) T Lv ltac:(lia)) as (ru & Lu & Hru & s1 & H1 & H2 & H3 & H4 & H5 & H6 & H7 & H8).
  destruct (quiet_make_reg s1 _ (n + 1) H6 H7 ltac:(lia)) as (rv & Lw & Hrv & s2 & G1 & G2 & G3 & G4 & G5 & G6 & G7 & G8).
  set (rs7 := [ra; rb; rm; rp; re; ru; rv] : list reg).
  assert (P : Permutation (rv ++ ru ++ L) (K ++ concat rs7)).
  { unfold L, rs7. cbn [concat]. rewrite !app_nil_r. eapply Permutation_trans; [apply Permutation_app_comm|]. rewrite <- app_assoc. eapply Permutation_trans; [apply Permutation_app_comm|].
    rewrite <- !app_assoc. do 6 apply Permutation_app_head. apply Permutation_app_comm. }
  assert (L2 : live s2 (K ++ concat rs7)) by (eapply live_perm; eassumption).
  assert (N : NoDup (concat rs7)) by (destruct L2 as (X & _); apply NoDup_app_iff in X; apply X).
  assert (Hu : ru <> [] /\ rv <> []) by (rewrite !ne_length; lia). destruct Hu as (Hu & Hv).
  assert (Ne : Forall (fun r => r <> []) rs7) by (repeat constructor; assumption).
  assert (Nc : NoDup (rp ++ rv)).
  { cbn [concat rs7] in N. rewrite app_nil_r in N. do 3 (apply NoDup_app_iff in N; destruct N as (_ & N & _)). apply NoDup_app_iff in N. destruct N as (N1 & N & N2). do 2 (apply NoDup_app_iff in N; destruct N as (_ & N & _)).
    apply NoDup_app_iff. split; [exact N1|]. split; [exact N|]. intros q Hq X. apply (N2 q Hq). rewrite !in_app_iff. tauto. }
  assert (EK : cqs d (conds s2) = K) by (rewrite G2, H2; reflexivity).
  set (ls := [(control_mask 0 copy [part 1 [0]; whole 3; whole 6], (fun _ => any) : list nat -> tr);
     (control times_mod [part 1 [0]; whole 0; whole 3; whole 2; whole 4], fun _ => any);
     (call square_mod [whole 0; whole 2; whole 5], fun _ => any);
     (call (exp_mod_fuel fuel) [whole 5; part 1 (seq 1 (length rb - 1)); whole 2; whole 6; whole 4], fun _ => any);
     (call square_mod_inv [whole 0; whole 2; whole 5], fun _ => any);
     (control times_mod_inv [part 1 [0]; whole 0; whole 3; whole 2; whole 4], fun _ => any);
     (control_mask 0 copy_inv [part 1 [0]; whole 3; whole 6], fun _ => any)]).
  assert (Ob : forall f, line_ok rs7 (control_mask 0 f [part 1 [0]; whole 3; whole 6])).
  { intros f. set_ok N Ne; split; [repeat constructor; intros []|discriminate]. }
  assert (Ot : forall f, line_ok rs7 (control f [part 1 [0]; whole 0; whole 3; whole 2; whole 4])).
  { intros f. set_ok N Ne; split; [repeat constructor; intros []|discriminate]. }
  assert (Os : forall f, line_ok rs7 (call f [whole 0; whole 2; whole 5])) by (intros f; set_ok N Ne).
  assert (Oe : forall f, line_ok rs7 (call f [whole 5; part 1 (seq 1 (length rb - 1)); whole 2; whole 6; whole 4])).
  { intros f. set_ok N Ne; [intros i Hi; apply in_seq in Hi; cbn; lia|split; [apply seq_NoDup|]]. destruct (length rb - 1) eqn:E; [lia|discriminate]. }
  assert (Eb : forall f, tl (line_regs rs7 (control_mask 0 f [part 1 [0]; whole 3; whole 6])) = [rp; rv]) by (intros f; unfold line_regs, gather; cbn; rewrite !app_nil_r; reflexivity).
  assert (Et : forall f, tl (line_regs rs7 (control f [part 1 [0]; whole 0; whole 3; whole 2; whole 4])) = [ra; rp; rm; re]) by (intros f; unfold line_regs, gather; cbn; rewrite !app_nil_r; reflexivity).
  assert (Es : forall f, line_regs rs7 (call f [whole 0; whole 2; whole 5]) = [ra; rm; ru]) by (intros f; unfold line_regs, gather; cbn; rewrite !app_nil_r; reflexivity).
  assert (Ee : forall f, line_regs rs7 (call f [whole 5; part 1 (seq 1 (length rb - 1)); whole 2; whole 6; whole 4]) = [ru; map (fun i => nth i rb 0) (seq 1 (length rb - 1)); rm; rv; re]) by (intros f; unfold line_regs, gather; cbn; rewrite !app_nil_r; reflexivity).
  assert (X : xacts d (fun d rs => program d rs (map fst ls)) rs7 (fun K => chain_tr K (map snd ls))).
  { apply program_x; [exact N|exact Ne|]. unfold ls. repeat apply Forall_cons; try apply Forall_nil; cbn [fst snd].
    - right. exists (eff (copy_c rp rv)). split; [|intros; exact Logic.I]. split; [apply Ob|]. split; [intros _; discriminate|]. unfold call_targets, call_depth. cbn [control_mask l_ctl l_fun]. rewrite Eb. apply copy_acts; [lia|exact Hp|exact Nc].
    - left. split; [apply Ot|]. cbn [control l_ctl]. split; [discriminate|]. exists (fun _ => any). split; [|intros; exact Logic.I]. rewrite Et. eapply xacts_any. apply times_xacts; assumption.
    - left. split; [apply Os|]. cbn [call l_ctl l_fun]. rewrite Es. eapply xacts_any. apply square_xacts; [assumption|fold n; lia|assumption].
    - left. split; [apply Oe|]. cbn [call l_ctl l_fun]. rewrite Ee. apply IH; rewrite ?map_length, ?seq_length; try assumption; try (fold n; lia). apply ne_length. rewrite map_length, seq_length. lia.
    - left. split; [apply Os|]. cbn [call l_ctl l_fun]. rewrite Es. apply square_inv_total; [assumption|fold n; lia|assumption].
    - left. split; [apply Ot|]. cbn [control l_ctl]. split; [discriminate|]. exists (fun _ => any). split; [|intros; exact Logic.I]. rewrite Et. apply times_inv_total; assumption.
    - right. exists (eff (rev (copy_c rp rv))). split; [|intros; exact Logic.I]. split; [apply Ob|]. split; [intros _; discriminate|]. unfold call_targets, call_depth. cbn [control_mask l_ctl l_fun]. rewrite Eb. apply copy_inv_acts; [lia|exact Hp|exact Nc]. }
  specialize (X s2 (at_depth_conds d s s2 ltac:(congruence) Ad) G6). cbv zeta in X. rewrite EK in X. specialize (X L2).
  destruct X as (s4 & p & D1' & D2' & D3 & D4 & D5 & D6 & D7 & D8 & D9 & D10 & _).
  assert (Pu : Permutation (rv ++ ru ++ L) (ru ++ rv ++ L)) by (rewrite !app_assoc; apply Permutation_app_tail, Permutation_app_comm).
  assert (L4 : live s4 (ru ++ rv ++ L)) by (eapply live_perm; [eapply live_perm; [exact D9|symmetry; exact P]|exact Pu]).
  destruct (quiet_return s4 ru _ D8 L4 Hu) as (s5 & R1 & R2 & R3 & R4 & R5 & R6 & R7 & R8).
  destruct (quiet_return s5 rv _ R6 R7 Hv) as (s6 & Q1 & Q2 & Q3 & Q4 & Q5 & Q6 & Q7 & Q8).
  exists s6, p. split.
  { cbn [exp_mod_fuel]. fold n. rewrite La, Lp, Le, !Nat.add_1_r, !Nat.eqb_refl. cbn [negb]. replace (length rb =? 1) with false by (symmetry; apply Nat.eqb_neq; exact K1).
    rewrite <- Nat.add_1_r. unfold mbind at 1. rewrite H1. unfold mbind at 1. rewrite G1. unfold mbind at 1.
    change (program d [ra; rb; rm; rp; re; ru; rv] _) with (program d rs7 (map fst ls)). rewrite D1'. cbn [rs7]. unfold mbind. rewrite R1, Q1. reflexivity. }
  split; [congruence|]. split; [congruence|]. split; [lia|]. split; [congruence|]. split; [eapply wf_entries_mono; [|exact D6]; lia|]. split; [exact D7|]. split; [exact Q6|]. split; [exact Q7|]. split; [|exact Logic.I].
  intros q. assert (X : In q (rv ++ ru ++ L) <-> In q (K ++ concat rs7)) by (split; apply Permutation_in; [exact P|symmetry; exact P]).
  assert (X' : In q (rv ++ ru ++ L) <-> In q (ru ++ rv ++ L)) by (split; apply Permutation_in; [exact Pu|symmetry; exact Pu]).
  assert (Z : idle s4 q \/ In q (ru ++ rv ++ L) <-> idle s2 q \/ In q (rv ++ ru ++ L)) by (rewrite <- X', X; exact (D10 q)).
  eapply iff_trans; [exact (Q8 q)|]. eapply iff_trans; [exact (R8 q)|]. eapply iff_trans; [exact Z|]. eapply iff_trans; [exact (G8 q)|]. exact (H8 q).
Qed.
