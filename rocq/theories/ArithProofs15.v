(** Inverses made by [#[invert]] of functions whose effect is not known: what they append. *)
From Coq Require Import Reals Lra FunctionalExtensionality Permutation.
From Coquelicot Require Import Complex.
From Verif Require Import Base BitsSpec BitsProofs OpsModel OpsSpec OpsProofs Instances ConjSpec BuilderModel RegProofs DenSpec DenProofs LocalProofs
  RunSpec RunProofs GateProofs ToffoliProofs CondProofs SubSpec SubProofs SubProofs2 SubProofs3 InvertProofs ProgramModel ProgramSpec ProgramProofs ProgramProofs2 CircProofs CircProofs2
  ArithModel ArithSpec ArithProofs ArithProofs2 ArithProofs3 ArithProofs4 LinkProofs SimModel SimSpec SimProofs ArithProofs5 ArithProofs6 ArithProofs7 ArithProofs8 WeakProofs ArithProofs9 ArithProofs10 ArithProofs11 ArithProofs12 TraceProofs ArithProofs14
  SubProofs6 KindProofs.
Local Open Scope nat_scope.
Local Open Scope mon_scope.

(** *** Which qubits are touched *)
Lemma touch_q p q psi : clean [q] psi -> ~ clean [q] (den p psi) -> exists e, In e p /\ In q (fst e).
Proof.
  intros H1 H2. destruct (in_dec Nat.eq_dec q (concat (map fst p))) as [I|I].
  - apply in_concat in I. destruct I as (l & Hl & Hq). apply in_map_iff in Hl. destruct Hl as (e & <- & He). exists e. auto.
  - exfalso. apply H2. apply (within_clean (concat (map fst p))); [|apply den_zero|exact I|exact H1].
    apply within_den. intros e He j Hj. apply in_concat. exists (fst e). split; [apply in_map; exact He|exact Hj].
Qed.
Lemma tr_touch D s s' p y z t : tr_does D s s' p -> (forall q, idle s q -> y q = false) -> y t = false -> z t = true -> (forall B, D (ket B y) z = RtoC 1) ->
  exists e, In e p /\ In t (fst e).
Proof.
  intros (Hb & _ & _ & _ & H) Hy Yt Zt HD. set (B := Nat.max (bn (bld s')) (S t)).
  apply (touch_q p t (ket B y)); [apply ket_clean; [unfold B; lia|exact Yt]|].
  intros X. specialize (X z t (or_introl eq_refl) Zt). rewrite H in X.
  - rewrite HD in X. apply (f_equal fst) in X. cbn in X. lra.
  - intros q Iq Hq. apply ket_clean; [unfold B; lia|apply Hy; exact Iq].
Qed.
Lemma cnot_touch c t s s' p : tr_does (controlled [] (controlled [c] (eff (one_x t)))) s s' p -> c <> t -> ~ idle s c -> exists e, In e p /\ In t (fst e).
Proof.
  intros Q Ne Ni. apply (tr_touch _ s s' p (fun q => q =? c) (upd (fun q => q =? c) t true) t Q).
  - intros q Iq. apply Nat.eqb_neq. intros ->. contradiction.
  - apply Nat.eqb_neq. congruence.
  - unfold upd. rewrite Nat.eqb_refl. reflexivity.
  - intros B. rewrite controlled_nil. unfold controlled. cbn [forallb]. unfold upd at 1. destruct (Nat.eqb_spec c t); [congruence|]. rewrite Nat.eqb_refl. cbn [andb].
    rewrite one_x_eff. apply ket_eq. intros q. unfold flip, upd. rewrite Nat.eqb_refl. cbn [negb]. destruct (Nat.eqb_spec q t) as [->|]; [|reflexivity]. apply Nat.eqb_neq. congruence.
Qed.
Definition touching (P : nat -> Prop) (p : pipe) : Prop := exists e j, In e p /\ In j (fst e) /\ P j.
Lemma touching_app P p q : touching P p \/ touching P q -> touching P (p ++ q).
Proof. intros [(e & j & He & H)|(e & j & He & H)]; exists e, j; (split; [apply in_or_app; tauto|exact H]). Qed.

(** *** Loops *)
Lemma x_ret {A} s L (a : A) : tidy s -> live s L -> xdoes any s L (ret a) a L.
Proof. intros T Lv. exists s, []. rewrite app_nil_r. do 9 (split; [first [reflexivity|lia|assumption|constructor]|]). split; [tauto|exact I]. Qed.
Lemma x_mfold {A} (f : A -> nat -> M A) (a : A) L : forall is s, tidy s -> live s L ->
  (forall i s1, In i is -> conds s1 = conds s -> tidy s1 -> live s1 L -> xdoes any s1 L (f a i) a L) -> xdoes any s L (mfold f is a) a L.
Proof.
  induction is as [|i is IH]; intros s T Lv H; cbn [mfold]; [apply x_ret; assumption|].
  eapply x_weak with (Q := then_tr any any); [intros; exact I|]. eapply x_bind; [apply H; [left; reflexivity|reflexivity|exact T|exact Lv]|]. intros s1 C1 T1 L1. apply IH; [exact T1|exact L1|].
  intros j s2 Hj C2 T2 L2. apply H; [right; exact Hj|congruence|exact T2|exact L2].
Qed.
Lemma wacts_xacts d f rs R : wacts d f rs R -> xacts d f rs (fun _ => any).
Proof. intros H s Ad T Lv. eapply x_wdoes. apply H; assumption. Qed.

Section First.
Context (ra rb rm rp rt rc : list nat) (Hm : rm <> []) (Hb : rb <> []) (La : length ra = S (length rm)) (Lp : length rp = S (length rm)) (Lt : length rt = length rb) (Lc : length rc = length rm)
  (Nd : NoDup (concat [ra; rb; rm; rp; rt; rc])).
Notation n := (length rm).
Notation k := (length rb).
Notation top := (nth n ra 0).
Notation ti i := (nth i rt 0).
Notation rs6 := ([ra; rb; rm; rp; rt; rc] : list reg).
Lemma first_touch i : i < k -> xacts 0 (fun d rs => times_first d n i rs) rs6 (fun K s s' p => K = [] -> ~ idle s top -> exists e, In e p /\ In (ti i) (fst e)).
Proof.
  intros Hi. destruct (first_lines_ok 0 ra rb rm rp rt rc Hm Hb La Lp Lt Lc Nd i Hi) as (A1 & A2 & A3 & O4 & A5). destruct (t_ne ra rb rm rp rt rc Hm Hb La Lp Lt Lc Nd) as (Ha & Hp & Ht & Hc & Hn & Hk).
  set (ls := [(call add_inv [whole 5; whole 2; whole 0], (fun K => tr_does (controlled K (addInvD 0 rc rm ra))) : list nat -> tr);
    (control op_x [part 0 [n]; part 4 [i]], fun K => tr_does (controlled K (controlled [top] (eff (one_x (ti i))))));
    (control add [part 4 [i]; whole 5; whole 2; whole 0], fun K => any);
    (control add_mod [part 1 [i]; part 0 (seq 0 n); whole 3; whole 2], fun K => any);
    (call rshift [whole 0], fun K => any)]).
  apply (xacts_weak _ _ _ (fun K => chain_tr K (map snd ls))).
  - intros K s s' p (s1 & p1 & p2' & -> & Q1 & s2 & p2 & p3 & -> & Q2 & _) -> Ni.
    destruct Q1 as (_ & I1 & _). destruct (cnot_touch top (ti i) s1 s2 p2 Q2) as (e & He & Hj).
    + intros E. assert (In top ra) by (apply nth_In; lia). assert (In (ti i) rt) by (apply nth_In; lia).
      destruct (t_sep ra rb rm rp rt rc Nd) as (S1 & _). destruct (S1 top) as (_ & _ & _ & X & _); [assumption|]. apply X. rewrite E. assumption.
    + rewrite I1. exact Ni.
    + exists e. split; [rewrite !in_app_iff; tauto|exact Hj].
  - apply (program_x 0 rs6 ls Nd (t_ne6 ra rb rm rp rt rc Hm Hb La Lp Lt Lc Nd)). unfold ls. repeat apply Forall_cons; try apply Forall_nil; cbn [fst snd].
    + right. exists (addInvD 0 rc rm ra). split; [exact A1|]. intros K s s' p H. exact H.
    + right. exists (eff (one_x (ti i))). split; [exact A2|]. intros K s s' p H. exact H.
    + right. exists (addD 1 rc rm ra). split; [exact A3|]. intros. exact I.
    + left. split; [exact O4|]. cbn [control l_ctl]. split; [discriminate|]. exists (fun _ => any). split; [|intros; exact I].
      unfold line_regs, gather. cbn [control l_args map concat arg_qubits whole part fst snd nth app tl]. rewrite !app_nil_r. eapply wacts_xacts, add_mod_w.
      * rewrite map_length, seq_length. reflexivity.
      * rewrite map_length, seq_length. exact Lp.
      * destruct n; [lia|discriminate].
    + right. exists (eff (rshift_c ra)). split; [exact A5|]. intros. exact I.
Qed.
Lemma loops_touch s : at_depth 0 s -> tidy s -> live s (concat rs6) ->
  xdoes (fun s s' p => ~ idle s top -> exists e, In e p /\ In (ti 0) (fst e)) s (concat rs6)
    (rs <- mfold (fun rs i => times_first 0 n i rs) (seq 0 k) rs6 ;; mfold (fun rs i => times_second 0 n i rs) (rev (seq 0 k)) rs) rs6 (concat rs6).
Proof.
  intros Ad T Lv. destruct (t_ne ra rb rm rp rt rc Hm Hb La Lp Lt Lc Nd) as (Ha & Hp & Ht & Hc & Hn & Hk).
  eapply x_weak with (Q := then_tr (then_tr _ any) any); [|eapply x_bind with (a := rs6) (L1 := concat rs6)].
  2:{ replace (seq 0 k) with (0 :: seq 1 (k - 1)) by (clear - Hk; destruct (length rb); [lia|cbn; rewrite Nat.sub_0_r; reflexivity]). cbn [mfold].
      eapply x_bind; [apply (first_touch 0 Hk s Ad T Lv)|]. intros s1 C1 T1 L1. apply x_mfold; [exact T1|exact L1|].
      intros i s2 Hi C2 T2 L2. apply in_seq in Hi. eapply x_weak with (Q := _); [|eapply (first_touch i ltac:(lia) s2 (at_depth_conds 0 s s2 ltac:(congruence) Ad) T2 L2)]. intros; exact I. }
  2:{ intros s1 C1 T1 L1. apply x_mfold; [exact T1|exact L1|]. intros i s2 Hi C2 T2 L2. apply in_rev, in_seq in Hi. eapply x_wdoes.
      apply (second_w 0 ra rb rm rp rt rc Hm Hb La Lp Lt Lc Nd i ltac:(lia) s2 (at_depth_conds 0 s s2 ltac:(congruence) Ad) T2 L2). }
  intros s0 s' p (s1 & p1 & p2 & -> & (s2 & p3 & p4 & -> & Q & _) & _) Ni. cbn [cqs] in Q. destruct (Q eq_refl Ni) as (e & He & Hj). exists e. split; [rewrite !in_app_iff; tauto|exact Hj].
Qed.
End First.

Lemma times_touch ra rb rm rp s : length ra = S (length rm) -> length rp = S (length rm) -> rm <> [] -> rb <> [] -> at_depth 0 s -> tidy s -> live s (concat [ra; rb; rm; rp]) ->
  exists s' p, times_mod 0 [ra; rb; rm; rp] s = Ret [ra; rb; rm; rp] s' /\ pipeline (bld s') = pipeline (bld s) ++ p /\ touching (idle s) p.
Proof.
  intros La Lp Hm Hb Ad T Lv. set (L := concat [ra; rb; rm; rp]) in *.
  assert (Hn : 0 < length rm) by (destruct rm; [congruence|cbn; lia]). assert (Hk : 0 < length rb) by (destruct rb; [congruence|cbn; lia]).
  destruct (quiet_make_reg s _ (length rb) T Lv Hk) as (rt & Lt & Hrt & s1 & H1 & H2 & H3 & H4 & H5 & H6 & H7 & H8).
  destruct (quiet_make_reg s1 _ (length rm) H6 H7 Hn) as (rc & Lc & Hrc & s2 & G1 & G2 & G3 & G4 & G5 & G6 & G7 & G8).
  assert (P : Permutation (rc ++ rt ++ L) (concat [ra; rb; rm; rp; rt; rc])).
  { unfold L. cbn [concat]. rewrite !app_nil_r. eapply Permutation_trans; [apply Permutation_app_comm|]. rewrite <- app_assoc. eapply Permutation_trans; [apply Permutation_app_comm|].
    rewrite <- !app_assoc. do 4 apply Permutation_app_head. apply Permutation_app_comm. }
  assert (L2 : live s2 (concat [ra; rb; rm; rp; rt; rc])) by (eapply live_perm; eassumption).
  assert (N6 : NoDup (concat [ra; rb; rm; rp; rt; rc])) by apply L2.
  pose proof (loops_touch ra rb rm rp rt rc Hm Hb La Lp Lt Lc N6 s2 (at_depth_conds 0 s s2 ltac:(congruence) Ad) G6 L2) as W.
  destruct W as (s3 & p & D1' & D2' & D3 & D4 & D5 & D6 & D7 & D8 & D9 & D10 & D11).
  assert (Hrc' : rc <> []) by (intros E; rewrite E in Lc; cbn in Lc; lia). assert (Hrt' : rt <> []) by (intros E; rewrite E in Lt; cbn in Lt; lia).
  assert (L3 : live s3 (rc ++ rt ++ L)) by (eapply live_perm; [exact D9|symmetry; exact P]).
  destruct (quiet_return s3 rc _ D8 L3 Hrc') as (s4 & R1 & R2 & R3 & R4 & R5 & R6 & R7 & R8).
  destruct (quiet_return s4 rt _ R6 R7 Hrt') as (s5 & Q1 & Q2 & Q3 & Q4 & Q5 & Q6 & Q7 & Q8).
  exists s5, p. split.
  { unfold times_mod. rewrite La, Lp, !Nat.add_1_r, !Nat.eqb_refl. cbn [negb]. unfold mbind at 1. rewrite H1. unfold mbind at 1. rewrite G1.
    revert D1'. unfold mbind. destruct (mfold (fun rs i => times_first 0 (length rm) i rs) (seq 0 (length rb)) _ s2) as [rs' s'|e s'|e s']; try discriminate.
    intros ->. rewrite R1, Q1. reflexivity. }
  split; [congruence|]. destruct D11 as (e & He & Hj).
  - intros X. destruct L2 as (_ & Y). apply (Y (nth (length rm) ra 0)); [|exact X]. cbn [concat]. apply in_or_app. left. apply nth_In. lia.
  - exists e, (nth 0 rt 0). split; [exact He|]. split; [exact Hj|]. apply (Hrt (nth 0 rt 0)). apply nth_In. lia.
Qed.
Lemma square_touch ra rm rs s : length ra = S (length rm) -> length rs = S (length rm) -> rm <> [] -> at_depth 0 s -> tidy s -> live s (concat [ra; rm; rs]) ->
  exists s' p, square_mod 0 [ra; rm; rs] s = Ret [ra; rm; rs] s' /\ pipeline (bld s') = pipeline (bld s) ++ p /\ touching (idle s) p.
Proof.
  intros La Ls Hm Ad T Lv. destruct (square_xacts 0 ra rm rs La Ls Hm s Ad T Lv) as (s' & p & E & _ & _ & _ & Ep & _ & _ & _ & _ & _ & Q).
  exists s', p. split; [exact E|]. split; [exact Ep|]. destruct Q as (_ & _ & rt & s1 & s4 & Lt & N & It & Ib & I1 & _ & s2 & p1 & p2 & -> & Q1 & _). cbn [cqs app] in *.
  set (n := length rm) in *. assert (Hn : 0 < n) by (unfold n; destruct rm; [congruence|cbn; lia]).
  assert (Hl : length (low ra n) = length rt) by (unfold low; rewrite map_length, seq_length; lia).
  assert (N1 : NoDup (low ra n ++ rt)).
  { cbn [concat] in N. rewrite app_nil_r, !NoDup_app_iff in N. apply NoDup_app_iff. split; [|split; [apply N|]].
    - unfold low. apply NoDup_map_nth; [apply N|apply seq_NoDup|]. intros i Hi. apply in_seq in Hi. lia.
    - intros q Hq X. apply low_in in Hq; [|lia]. destruct N as (_ & _ & N). apply (N q Hq). rewrite !in_app_iff. tauto. }
  set (a := nth 0 (low ra n) 0). set (t := nth 0 rt 0). assert (Ia : In a (low ra n)) by (apply nth_In; lia). assert (Itt : In t rt) by (apply nth_In; lia).
  assert (Ne : a <> t) by (apply NoDup_app_iff in N1; destruct N1 as (_ & _ & X); intros E'; apply (X a Ia); rewrite E'; exact Itt).
  assert (Hl' : low ra n <> []) by (unfold low; destruct n; [lia|discriminate]).
  destruct (copy_acts 0 (low ra n) rt Hl Hl' N1) as (_ & Ck). destruct (run_copy (low ra n) rt (fun q => q =? a) Hl N1) as (Rc & _). specialize (Rc 0 ltac:(lia)). fold a t in Rc.
  destruct (tr_touch _ s1 s2 p1 (fun q => q =? a) (run (copy_c (low ra n) rt) (fun q => q =? a)) t Q1) as (e & He & Hj).
  - intros q Iq. apply Nat.eqb_neq. intros ->. destruct Lv as (_ & X). apply (X a); [|apply I1; exact Iq]. cbn [concat]. apply in_or_app. left. apply low_in in Ia; [exact Ia|lia].
  - apply Nat.eqb_neq. congruence.
  - rewrite Rc, Nat.eqb_refl. destruct (t =? a) eqn:E'; [apply Nat.eqb_eq in E'; congruence|reflexivity].
  - intros B. rewrite controlled_nil. unfold eff. rewrite (run_rev _ _ _ Ck). apply ket_eq. reflexivity.
  - exists e, t. split; [apply in_or_app; left; exact He|]. split; [exact Hj|]. apply It. exact Itt.
Qed.

(** *** The inverse *)
Section Inv.
Context (f : nat -> list reg -> M (list reg)) (rs : list reg).
Notation k := (length (concat rs)).
Notation R := (ranges 0 (map (@length nat) rs)).
Context (s1 : st) (p : pipe) (a : list reg) (L' : list nat) (Kn : knd (f 0 R)) (E : f 0 R (fresh k) = Ret a s1)
  (Hx : xdoes any (fresh k) (seq 0 k) (f 0 R) a L') (Tc : touching (fun j => k <= S j) (pipeline (bld s1))) (Hrs : rs <> []) (Hne : Forall (fun r => r <> []) rs).
Lemma inverse_x : exists N q, invert_subcircuit (pipeline (bld s1)) = Ok q /\ k <= N /\ Forall (wf_entry N) (pipeline (bld s1)) /\ Forall proper_entry (pipeline (bld s1)) /\ Forall (wf_entry N) q /\ Forall proper_entry q /\ inverses (den (pipeline (bld s1))) (den q) /\
  forall d, xacts d (fun d rs => inv_macro d rs (f 0)) rs (tr_steps act_under N q (concat rs)).
Proof.
  destruct Hx as (s' & p' & H1 & H2 & H3 & H4 & H5 & H6 & H7 & H8 & H9 & H10 & _). rewrite E in H1. injection H1 as <-. cbn [fresh bld pipeline app] in H5. subst p'.
  destruct Tc as (e & j & He & Hj & Hk). destruct (top_exists (pipeline (bld s1))) as (m & (e1 & He1 & Hm) & G); [eauto|].
  assert (W : Forall (wf_entry (S m)) (pipeline (bld s1))).
  { rewrite Forall_forall in *. intros x Hi. destruct (H6 x Hi) as (N & _ & W). split; [exact N|]. split; [|exact W]. intros q Hq. specialize (G x q Hi Hq). lia. }
  assert (Kp : Forall kept (pipeline (bld s1))) by (pose proof (Kn (fresh k) ltac:(constructor)) as X; rewrite E in X; exact X).
  destruct (invert_ok (S m) (pipeline (bld s1)) W H7) as (q & Eq & Wq & Pq & Iq & Jq).
  assert (Kq := invert_kept _ _ Kp Eq). exists (S m), q. split; [exact Eq|]. assert (Hkm : k <= S m) by (specialize (G e j He Hj); lia). split; [exact Hkm|].
  do 5 (split; [assumption|]). intros d s (Ad & Wr) T Lv. rewrite Forall_forall in Hne.
  assert (Hc : concat rs <> []).
  { destruct rs as [|r0 rs0]; [congruence|]. cbn. assert (X : r0 <> []) by (apply Hne; left; reflexivity). destruct r0; [congruence|discriminate]. }
  assert (Ncr : NoDup (concat rs)) by (destruct Lv as (X & _); apply NoDup_app_iff in X; apply X).
  destruct (sub_x (S m) (concat rs) q d s Hkm Wq Pq) as (s2 & p2 & G1 & G2); try assumption.
  { apply Jq. exists e1. cbn [Nat.sub]. rewrite Nat.sub_0_r. auto. }
  exists s2, p2. split; [|exact G2]. unfold inv_macro. unfold mbind at 1. unfold on_new, empty_builder. unfold mbind at 1. rewrite registers_new by exact Hne. cbn [Nat.add]. unfold mbind at 1. unfold fresh in E. rewrite E. cbn [make_subcircuit mbind get ret].
  unfold mbind at 1. rewrite merge_registers_ok by exact Hne. cbn [lift]. unfold mbind at 1. rewrite unwrap_new_reg by exact Hc. cbn [lift]. unfold mbind at 1. unfold apply_inverted_subcircuit, mbind at 1. 
  change (match make_subcircuit s1 with Ret a0 _ => _ | Fail e0 _ => _ | Crash p0 => _ end) with (@Ret pipe (pipeline (bld s1)) s). cbv beta iota. rewrite Eq. cbn [lift]. rewrite G1. unfold mbind. rewrite split_groups_ranges by assumption. reflexivity.
Qed.
End Inv.
