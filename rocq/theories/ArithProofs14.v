(** square_mod: what it appends, and its amplitude at a right answer. *)
From Coq Require Import Reals Lra FunctionalExtensionality Permutation.
From Coquelicot Require Import Complex.
From Verif Require Import Base BitsSpec BitsProofs OpsModel OpsSpec OpsProofs Instances ConjSpec BuilderModel RegProofs DenSpec DenProofs LocalProofs
  RunSpec RunProofs GateProofs ToffoliProofs CondProofs SubSpec SubProofs SubProofs2 SubProofs3 ProgramModel ProgramSpec ProgramProofs ProgramProofs2 CircProofs CircProofs2
  ArithModel ArithSpec ArithProofs ArithProofs2 ArithProofs3 ArithProofs4 LinkProofs SimModel SimSpec SimProofs ArithProofs5 ArithProofs6 ArithProofs7 ArithProofs8 WeakProofs ArithProofs9 ArithProofs10 ArithProofs11 ArithProofs12 TraceProofs.
Local Open Scope nat_scope.
Local Open Scope mon_scope.

(** *** Reading an amplitude back through an isometry *)
Lemma ip_ket n y f : (forall q, n <= q -> y q = false) -> ip CN Cconj n (ket n y) f = f y.
Proof.
  intros Y. unfold ip, bsum. cbn [nmul CN]. rewrite (big_single CN CN_laws _ _ (enc n y)).
  - assert (E : dec n (enc n y) = y) by (extensionality q; rewrite dec_enc; destruct (Nat.ltb_spec q n); [reflexivity|rewrite Y by assumption; reflexivity]).
    rewrite E, ket_eq by reflexivity. unfold Cconj. cbn. change (Cmult (1%R, (- 0)%R) (f y) = f y). rewrite Ropp_0. change (Cmult (RtoC 1) (f y) = f y). ring.
  - apply seq_NoDup.
  - apply in_seq. pose proof (enc_lt n y). lia.
  - intros i Hi Ne. apply in_seq in Hi. unfold ket. rewrite enc_dec by lia. destruct (Nat.eqb_spec (enc n y) i); [congruence|].
    unfold Cconj. cbn. change (Cmult (0%R, (- 0)%R) (f (dec n i)) = RtoC 0). rewrite Ropp_0. change (Cmult (RtoC 0) (f (dec n i)) = RtoC 0). ring.
Qed.
Lemma proper_unitary p : Forall proper_entry p -> Forall unitary_entry p.
Proof.
  intros H. eapply Forall_impl; [|exact H]. intros e (_ & U & _). unfold unitary2_entry in U. unfold unitary_entry. destruct (co_obj (snd e)) as [[]|]; try exact I. apply U.
Qed.
Lemma read_back n p x y phi : Forall (wf_entry n) p -> Forall proper_entry p -> (forall q, n <= q -> x q = false) -> (forall q, n <= q -> y q = false) ->
  den p (ket n x) = ket n y -> den p phi y = phi x.
Proof.
  intros W Pr X Y E. rewrite <- (ip_ket n y (den p phi) Y), <- E, (den_isometry n p W (proper_unitary p Pr)). apply ip_ket. exact X.
Qed.

(** *** times_mod *)
Definition tr_times (d : nat) (ra rb rm rp : list nat) (K : list nat) : tr := fun s s' p =>
  bn (bld s) <= bn (bld s') /\ (forall q, idle s' q <-> idle s q) /\ Forall (wf_entry (bn (bld s'))) p /\ Forall proper_entry p /\
  exists rt rc, length rt = length rb /\ length rc = length rm /\ NoDup (K ++ concat [ra; rb; rm; rp; rt; rc]) /\ (forall q, In q (rt ++ rc) -> idle s q /\ q < bn (bld s')) /\
    forall B psi, bn (bld s') <= B -> (forall q, idle s q -> q < B -> clean [q] psi) -> clean rb psi -> den p psi = times_d d ra rb rm rt rc K psi.
Lemma times_xacts d ra rb rm rp : length ra = S (length rm) -> length rp = S (length rm) -> rm <> [] -> rb <> [] ->
  xacts d times_mod [ra; rb; rm; rp] (tr_times d ra rb rm rp).
Proof.
  intros La Lp Hm Hb s Ad T Lv.
  destruct (times_run d ra rb rm rp s La Lp Hm Hb Ad T Lv) as (rt & rc & s' & p & Lt & Lc & N & It & E & Ec & Em & Eb & Ep & W & Pr & T' & Lv' & Id & D).
  exists s', p. do 10 (split; [assumption|]). split; [exact Eb|]. split; [eapply same_idle; eassumption|]. split; [exact W|]. split; [exact Pr|]. exists rt, rc. auto 10.
Qed.

(** *** copy with a source that is 0 *)
Lemma run_copy_zero : forall ra rb x, NoDup (ra ++ rb) -> zero_in ra x -> run (copy_c ra rb) x = x /\ run (rev (copy_c ra rb)) x = x.
Proof.
  induction ra as [|a ra IH]; intros [|b rb] x N Z; try (split; reflexivity).
  assert (E : run (cnot_c a b) x = x) by (unfold cnot_c, run; cbn [fold_left]; unfold step, sat; cbn [fst snd forallb]; rewrite (Z a) by (left; reflexivity); reflexivity).
  assert (N' : NoDup (ra ++ rb)) by (inversion N as [|? ? _ N1]; eapply NoDup_remove_1; exact N1).
  assert (Z' : zero_in ra x) by (intros q Hq; apply Z; right; exact Hq).
  destruct (IH rb x N' Z') as (H1 & H2). change (copy_c (a :: ra) (b :: rb)) with (cnot_c a b ++ copy_c ra rb). rewrite rev_app_distr, !run_app. split; [rewrite E; exact H1|].
  rewrite H2. exact E.
Qed.
Lemma copy_zero_keeps ra rb (psi : state) : NoDup (ra ++ rb) -> (forall x, psi x = RtoC 0 \/ zero_in ra x) -> length ra = length rb -> ra <> [] -> eff (copy_c ra rb) psi = psi /\ eff (rev (copy_c ra rb)) psi = psi.
Proof.
  intros N H E Hne. destruct (copy_acts 0 ra rb E Hne N) as (_ & Ck).
  assert (G : forall c, (c = copy_c ra rb \/ c = rev (copy_c ra rb)) -> forall x, psi (run c x) = psi x).
  { intros c Hc x.
    assert (Rc : forall y, zero_in ra y -> run c y = y) by (intros y Z; destruct (run_copy_zero ra rb y N Z); destruct Hc as [->| ->]; assumption).
    assert (Bk : exists c', (c' = copy_c ra rb \/ c' = rev (copy_c ra rb)) /\ run c' (run c x) = x).
    { destruct Hc as [->| ->].
      - exists (rev (copy_c ra rb)). split; [right; reflexivity|]. apply (run_rev _ _ x Ck).
      - exists (copy_c ra rb). split; [left; reflexivity|]. pose proof (run_rev _ _ x (cok_rev _ _ Ck)) as X. rewrite rev_involutive in X. exact X. }
    destruct Bk as (c' & Hc' & Bk).
    assert (Rc' : forall y, zero_in ra y -> run c' y = y) by (intros y Z; destruct (run_copy_zero ra rb y N Z); destruct Hc' as [->| ->]; assumption).
    destruct (H x) as [Hx|Hx]; [|rewrite Rc by exact Hx; reflexivity].
    destruct (H (run c x)) as [Hy|Hy]; [congruence|]. rewrite (Rc' _ Hy) in Bk. rewrite Bk. reflexivity. }
  split; extensionality x; unfold eff; [|rewrite rev_involutive]; apply G; auto.
Qed.

(** *** square_mod *)
Definition low (r : list nat) (n : nat) : list nat := map (fun i => nth i r 0) (seq 0 n).
Lemma low_in r n q : n <= length r -> In q (low r n) -> In q r.
Proof. intros Hn H. apply in_map_iff in H. destruct H as (i & <- & Hi). apply in_seq in Hi. apply nth_In. lia. Qed.
Definition tr_square (d : nat) (ra rm rs : list nat) (K : list nat) : tr := fun s s' p => bn (bld s) <= bn (bld s') /\ (forall q, idle s' q <-> idle s q) /\
  exists rt s1 s4, length rt = length rm /\ NoDup (K ++ concat [ra; rm; rs; rt]) /\ (forall q, In q rt -> idle s q) /\ (forall q, In q rt -> q < bn (bld s1)) /\ (forall q, idle s1 q -> idle s q) /\ bn (bld s4) <= bn (bld s') /\
    chain_tr K [fun K => tr_does (controlled K (eff (copy_c (low ra (length rm)) rt))); tr_times d ra rt rm rs; fun K => tr_does (controlled K (eff (rev (copy_c (low ra (length rm)) rt))))] s1 s4 p.
Lemma square_xacts d ra rm rs : length ra = S (length rm) -> length rs = S (length rm) -> rm <> [] -> xacts d square_mod [ra; rm; rs] (tr_square d ra rm rs).
Proof.
  intros La Ls Hm s Ad T Lv. set (K := cqs d (conds s)) in *. set (L := K ++ concat [ra; rm; rs]) in *. set (n := length rm) in *.
  assert (Hn : 0 < n) by (unfold n; destruct rm; [congruence|cbn; lia]).
  destruct (quiet_make_reg s _ n T Lv Hn) as (rt & Lt & Hrt & s1 & H1 & H2 & H3 & H4 & H5 & H6 & H7 & H8).
  assert (P : Permutation (rt ++ L) (K ++ concat [ra; rm; rs; rt])).
  { unfold L. cbn [concat]. rewrite !app_nil_r. eapply Permutation_trans; [apply Permutation_app_comm|]. rewrite <- !app_assoc. reflexivity. }
  assert (L2 : live s1 (K ++ concat [ra; rm; rs; rt])) by (eapply live_perm; eassumption).
  assert (N : NoDup (K ++ concat [ra; rm; rs; rt])) by apply L2.
  assert (Nd : NoDup (concat [ra; rm; rs; rt])) by (apply NoDup_app_iff in N; apply N).
  assert (EK : cqs d (conds s1) = K) by (rewrite H2; reflexivity).
  assert (Hrt' : rt <> []) by (intros E; rewrite E in Lt; cbn in Lt; lia).
  assert (Ne : Forall (fun r : reg => r <> []) [ra; rm; rs; rt]) by (repeat apply Forall_cons; try apply Forall_nil; try assumption; intros X; [rewrite X in La|rewrite X in Ls]; discriminate).
  set (rs4 := [ra; rm; rs; rt] : list reg) in *.
  set (ls := [(call copy [part 0 (seq 0 n); whole 3], (fun K => tr_does (controlled K (eff (copy_c (low ra n) rt)))) : list nat -> tr);
    (call times_mod [whole 0; whole 3; whole 1; whole 2], tr_times d ra rt rm rs);
    (call copy_inv [part 0 (seq 0 n); whole 3], fun K => tr_does (controlled K (eff (rev (copy_c (low ra n) rt)))))]).
  assert (O1 : forall f, line_ok rs4 (call f [part 0 (seq 0 n); whole 3])).
  { intros f. apply line_ok_set; [exact Nd|exact Ne|repeat constructor; discriminate| | |].
    - repeat apply Forall_cons; try apply Forall_nil; split; cbn [fst snd length nth]; try (cbn; lia); try exact I. intros i Hi. apply in_seq in Hi. cbn. lia.
    - repeat apply Forall_cons; try apply Forall_nil; unfold arg_set; cbn [snd]; try exact I. split; [apply seq_NoDup|]. destruct n; [lia|discriminate].
    - repeat constructor; cbn; intuition discriminate. }
  assert (E1 : forall f, line_regs rs4 (call f [part 0 (seq 0 n); whole 3]) = [low ra n; rt]) by (intros f; unfold line_regs, gather; cbn; rewrite !app_nil_r; reflexivity).
  assert (N1 : NoDup (low ra n ++ rt)) by (destruct (O1 copy) as (_ & _ & X); rewrite E1 in X; cbn [concat] in X; rewrite app_nil_r in X; exact X).
  assert (Hl : length (low ra n) = length rt) by (unfold low; rewrite map_length, seq_length; lia). assert (Hl' : low ra n <> []) by (unfold low; destruct n; [lia|discriminate]).
  assert (F : Forall (fun p => xline d rs4 (fst p) (snd p)) ls).
  { unfold ls. repeat apply Forall_cons; try apply Forall_nil; cbn [fst snd]; left.
    - split; [apply O1|]. cbn [call l_ctl l_fun]. rewrite E1. apply acts_xacts, copy_acts; assumption.
    - split.
      + apply line_ok_set; [exact Nd|exact Ne|repeat constructor; discriminate| | |].
        * repeat apply Forall_cons; try apply Forall_nil; split; cbn [fst snd length nth]; try (cbn; lia); exact I.
        * repeat apply Forall_cons; try apply Forall_nil; exact I.
        * repeat constructor; cbn; intuition discriminate.
      + cbn [call l_ctl l_fun]. unfold line_regs, gather. cbn [call l_args map concat arg_qubits whole fst snd nth app]. unfold arg_qubits. cbn. rewrite !app_nil_r. apply times_xacts; assumption.
    - split; [apply O1|]. cbn [call l_ctl l_fun]. rewrite E1. apply acts_xacts, copy_inv_acts; assumption. }
  pose proof (program_x d rs4 ls Nd Ne F s1 (at_depth_conds d s s1 H2 Ad) H6) as X. cbv zeta in X. rewrite EK in X. specialize (X L2).
  destruct X as (s4 & p & D1' & D2' & D3 & D4 & D5 & D6 & D7 & D8 & D9 & D10 & D11).
  assert (L4 : live s4 (rt ++ L)) by (eapply live_perm; [exact D9|symmetry; exact P]).
  destruct (quiet_return s4 rt _ D8 L4 Hrt') as (s5 & R1 & R2 & R3 & R4 & R5 & R6 & R7 & R8).
  assert (I1 : forall q, idle s1 q -> idle s q).
  { intros q Iq. destruct (proj1 (H8 q) (or_introl Iq)) as [X|X]; [exact X|]. exfalso. destruct H7 as (_ & Y). apply (Y q); [apply in_or_app; right; exact X|exact Iq]. }
  assert (Id : forall q, idle s5 q \/ In q L <-> idle s q \/ In q L).
  { intros q. assert (X : In q (rt ++ L) <-> In q (K ++ concat rs4)) by (split; apply Permutation_in; [exact P|symmetry; exact P]).
    assert (Z : idle s4 q \/ In q (rt ++ L) <-> idle s1 q \/ In q (rt ++ L)) by (rewrite X; exact (D10 q)).
    eapply iff_trans; [exact (R8 q)|]. eapply iff_trans; [exact Z|]. exact (H8 q). }
  exists s5, p. split.
  { unfold square_mod. fold n. rewrite La, Ls, !Nat.add_1_r, !Nat.eqb_refl. cbn [negb]. unfold mbind at 1. rewrite H1.
    change (program d [ra; rm; rs; rt] _) with (program d rs4 (map fst ls)). unfold mbind at 1. rewrite D1'. cbn [rs4]. unfold mbind. rewrite R1. reflexivity. }
  split; [congruence|]. split; [congruence|]. split; [lia|]. split; [congruence|]. split; [eapply wf_entries_mono; [|exact D6]; lia|]. split; [exact D7|]. split; [exact R6|]. split; [exact R7|]. split; [exact Id|].
  split; [lia|]. split; [eapply same_idle; eassumption|]. exists rt, s1, s4. split; [exact Lt|]. split; [exact N|]. split; [intros q Hq; apply (Hrt q Hq)|]. split.
  { intros q Hq. destruct L2 as (_ & X). destruct (Nat.lt_ge_cases q (bn (bld s1))) as [Y|Y]; [exact Y|]. exfalso. apply (X q); [cbn [concat rs4]; rewrite !in_app_iff; tauto|]. left. exact Y. }
  split; [exact I1|]. split; [lia|]. exact D11.
Qed.

Lemma square_amp ra rm rs s s' p x : length ra = S (length rm) -> length rs = S (length rm) -> rm <> [] -> tr_square 0 ra rm rs [] s s' p -> Forall (wf_entry (bn (bld s'))) p -> Forall proper_entry p ->
  (forall q, In q (concat [ra; rm; rs]) -> q < bn (bld s')) -> zero_in ra x -> val rm x = 2 ^ (length rm - 1) -> (forall q, idle s q -> x q = false) ->
  den p (ket (bn (bld s')) x) x = cpow sh (length rm).
Proof.
  intros La Ls Hm (Eb & Id & rt & s1 & s4 & Lt & N & It & Ib & I1 & E4 & s2 & p1 & p23 & -> & Q1 & s3 & p2 & p3' & -> & Q2 & s4' & p3 & p4 & -> & Q3 & B4 & ->) W Pr Hlt Za Vm Z. cbn [app] in N.
  rewrite app_nil_r in *.
  destruct Q1 as (B1 & J1 & W1 & P1 & D1). destruct Q2 as (B2 & J2 & W2 & P2 & rt' & rc & Lt' & Lc & N' & It' & D2). destruct Q3 as (B3 & J3 & W3 & P3 & D3). cbn [app] in N'.
  set (B := bn (bld s')) in *. set (n := length rm) in *. assert (Hn : 0 < n) by (unfold n; destruct rm; [congruence|cbn; lia]).
  assert (Hrt : rt <> []) by (intros E; rewrite E in Lt; cbn in Lt; lia).
  assert (Hx : forall q, B <= q -> x q = false) by (intros q Hq; apply Z; left; lia).
  set (psi := ket B x) in *.
  assert (Se : forall q y, q < B -> y q <> x q -> psi y = RtoC 0) by (intros q y Hq Hy; apply (ket_ne _ x y q); [exact Hq|congruence]).
  assert (Cl : forall q, q < B -> x q = false -> clean [q] psi).
  { intros q Hq Hxq z q' [<-|[]] Hz. apply (Se q); [exact Hq|congruence]. }
  assert (Hl : length (low ra n) = length rt) by (unfold low; rewrite map_length, seq_length; lia). assert (Hl' : low ra n <> []) by (unfold low; destruct n; [lia|discriminate]).
  assert (Hb : forall q, In q rt -> q < B) by (intros q Hq; specialize (Ib q Hq); lia).
  assert (N1 : NoDup (low ra n ++ rt)).
  { cbn [concat] in N. rewrite app_nil_r, !NoDup_app_iff in N. apply NoDup_app_iff. split; [|split; [apply N|]].
    - unfold low. apply NoDup_map_nth; [apply N|apply seq_NoDup|]. intros i Hi. apply in_seq in Hi. lia.
    - intros q Hq X. apply low_in in Hq; [|lia]. destruct N as (_ & _ & N). apply (N q Hq). rewrite !in_app_iff. tauto. }
  assert (Kp : eff (copy_c (low ra n) rt) psi = psi /\ eff (rev (copy_c (low ra n) rt)) psi = psi).
  { apply copy_zero_keeps; try assumption. intros y. destruct (existsb (fun q => y q) (low ra n)) eqn:Ey.
    - left. apply existsb_exists in Ey. destruct Ey as (q & Hq & Hy). apply low_in in Hq; [|lia]. apply (Se q); [apply Hlt; cbn [concat]; rewrite !in_app_iff; tauto|rewrite Hy, (Za q Hq); discriminate].
    - right. intros q Hq. destruct (y q) eqn:Hy; [|reflexivity]. rewrite <- Ey. symmetry. apply existsb_exists. exists q. split; assumption. }
  assert (Ci : forall q, idle s q -> q < B -> clean [q] psi) by (intros q Iq Hq; apply Cl; [exact Hq|apply Z; exact Iq]).
  assert (R1 : den p1 psi = psi).
  { rewrite D1; [rewrite controlled_nil; apply Kp|]. intros q Iq Hq. apply Ci; [apply I1; exact Iq|lia]. }
  assert (R3 : den p3 psi = psi).
  { rewrite D3; [rewrite controlled_nil; apply Kp|]. intros q Iq Hq. apply Ci; [apply I1, J1, J2; exact Iq|lia]. }
  rewrite !den_app, R1. rewrite !Forall_app in W, Pr. rewrite (read_back B p3 x x (den p2 psi)); [|tauto|tauto|exact Hx|exact Hx|exact R3].
  rewrite (D2 B psi).
  - rewrite (times_amp ra rt rm rs rt' rc psi x La Ls Hm Hrt Lt' Lc N').
    + unfold psi. rewrite ket_eq by reflexivity. rewrite Lt. ring.
    + intros q Hq. apply Z, I1, J1. apply It'. apply in_or_app; left; exact Hq.
    + intros q Hq. apply Z, I1, J1. apply It'. apply in_or_app; right; exact Hq.
    + exact Vm.
    + exact Za.
    + intros y (q & Hq & X). apply (Se q); [|exact X]. rewrite !in_app_iff in Hq. destruct (in_dec Nat.eq_dec q (rt' ++ rc)) as [I|I]; [specialize (It' q I); lia|].
      rewrite in_app_iff in I. apply Hlt. cbn [concat]. rewrite !in_app_iff. tauto.
  - lia.
  - intros q Iq Hq. apply Ci; [apply I1, J1; exact Iq|exact Hq].
  - intros z q Hq Hz. apply (Cl q) with (t := q); [apply Hb; exact Hq|apply Z, It; exact Hq|left; reflexivity|exact Hz].
Qed.
