(** Diagonal values of inverses; the inverse of exp_mod. *)
From Coq Require Import Reals Lra FunctionalExtensionality Permutation.
From Coquelicot Require Import Complex.
From Verif Require Import Base BitsSpec BitsProofs OpsModel OpsSpec ConjSpec Instances BuilderModel RegProofs DenSpec DenProofs LocalProofs LinkProofs
  RunSpec RunProofs GateProofs ToffoliProofs CondProofs SubSpec InvertProofs SubProofs SubProofs2 SubProofs3 SubProofs5 SubProofs6 SimSpec SimProofs ProgramModel ProgramSpec ProgramProofs ProgramProofs2 CircProofs CircProofs2
  ArithModel ArithSpec ArithProofs ArithProofs2 ArithProofs3 ArithProofs4 ArithProofs5 ArithProofs6 ArithProofs7 ArithProofs8 WeakProofs TraceProofs ArithProofs9 ArithProofs10 ArithProofs11 ArithProofs12 ArithProofs14 KindProofs ArithProofs15 ArithProofs17
  InvValueProofs ExpInvModel.
Local Open Scope nat_scope.
Local Open Scope mon_scope.

(** A circuit on n qubits does not see the other places of a ket. *)
Lemma ket_wider n B p x : n <= B -> Forall (wf_entry n) p -> den p (ket B x) x = den p (ket n x) x.
Proof.
  intros HB W. apply (within_wf n p W). intros y Hy. unfold ket.
  assert (X : enc B x = enc B y <-> enc n x = enc n y).
  { split; intros E; apply enc_ext; intros j Hj.
    - apply (enc_inj _ _ _ E). lia.
    - destruct (Nat.lt_ge_cases j n) as [L|L]; [apply (enc_inj _ _ _ E); exact L|]. symmetry. apply Hy. rewrite in_seq. lia. }
  destruct (Nat.eqb_spec (enc B x) (enc B y)) as [F|F], (Nat.eqb_spec (enc n x) (enc n y)) as [G|G]; try reflexivity; tauto.
Qed.

(** A function that succeeds on a new builder, touching the last qubit or a temporary one; its inverse has the
    conjugate amplitudes. *)
Section Diag.
Context (f : nat -> list reg -> M (list reg)) (rs : list reg).
Notation k := (length (concat rs)).
Notation R := (ranges 0 (map (@length nat) rs)).
Context (Hrs : rs <> []) (Hne : Forall (fun r => r <> []) rs) (Kn : forall r, knd (f 0 r)) (Hx : xacts 0 f R (fun _ => any)).
Context (s1 : st) (E : f 0 R (fresh k) = Ret R s1) (Tc : touching (fun j => k <= S j) (pipeline (bld s1))).
Lemma ranges_live : live (fresh k) (cqs 0 (conds (fresh k)) ++ concat R).
Proof. cbn [cqs fresh conds app]. rewrite (proj1 (ranges_spec rs)). apply live_seq. Qed.
Lemma fresh_x : xdoes any (fresh k) (seq 0 k) (f 0 R) R (concat R).
Proof. pose proof (Hx (fresh k) (fresh_depth k) (fresh_tidy k) ranges_live) as X. cbn [cqs fresh conds app] in X. rewrite (proj1 (ranges_spec rs)) in X at 1. exact X. Qed.
Lemma diag_total d : xacts d (fun d rs => inv_macro d rs (f 0)) rs (fun _ => any).
Proof.
  destruct (inverse_x f rs s1 R (concat R) (Kn R) E fresh_x Tc Hrs Hne) as (N & q & _ & _ & _ & _ & _ & _ & _ & A). eapply xacts_any. apply A.
Qed.
Lemma diag_value s : at_depth 0 s -> tidy s -> live s (concat rs) ->
  exists s' p, inv_macro 0 rs (f 0) s = Ret rs s' /\ conds s' = conds s /\ tidy s' /\ live s' (concat rs) /\ bn (bld s) <= bn (bld s') /\
    pipeline (bld s') = pipeline (bld s) ++ p /\ Forall (wf_entry (bn (bld s'))) p /\ Forall proper_entry p /\
    forall x c, (forall q, idle s q -> q < bn (bld s') -> x q = false) -> (forall q, bn (bld s') <= q -> x q = false) ->
      den (pipeline (bld s1)) (ket (bn (bld s1)) (at_regs (concat rs) x)) (at_regs (concat rs) x) = c -> den p (ket (bn (bld s')) x) x = Cconj c.
Proof.
  intros Ad T Lv. pose proof fresh_x as X0. destruct X0 as (s1' & p0 & E' & _ & _ & _ & Ep & W & _). rewrite E in E'. injection E' as <-. cbn [fresh bld pipeline app] in Ep. subst p0.
  destruct (inv_value f rs s1 R (concat R) (Kn R) E fresh_x Tc Hrs Hne s Ad T Lv) as (s' & p & H1 & H2 & H3 & H4 & H5 & H6 & H7 & H8 & H9).
  exists s', p. do 8 (split; [assumption|]). intros x c Z Zb Hc. destruct (H9 x x) as (G & _); [intros q _; reflexivity|exact Z|exact Zb|]. apply G.
  intros B HB _. rewrite <- Hc. apply ket_wider; [exact HB|exact W].
Qed.
End Diag.

(** The first line of exp_mod copies to a temporary qubit or, with one exponent qubit, to the last qubit of re. *)
Lemma copy_touch b (rp re : list nat) s s' p : length rp = length re -> rp <> [] -> NoDup (rp ++ re) -> ~ In b (rp ++ re) -> (forall q, In q rp -> ~ idle s q) ->
  tr_does (controlled [] (selected [b] 0 (eff (copy_c rp re)))) s s' p -> exists e, In e p /\ In (nth (length rp - 1) re 0) (fst e).
Proof.
  intros L H N Nb Ni Q. assert (Hp : 0 < length rp) by (apply ne_length; exact H).
  set (i := length rp - 1). set (a := nth i rp 0). set (t := nth i re 0). assert (Ia : In a rp) by (apply nth_In; unfold i; lia). assert (It : In t re) by (apply nth_In; unfold i; lia).
  assert (Ne : a <> t) by (apply NoDup_app_iff in N; destruct N as (_ & _ & X); intros E'; apply (X a Ia); rewrite E'; exact It).
  destruct (copy_acts 0 rp re L H N) as (_ & Ck). destruct (run_copy rp re (fun q => q =? a) L N) as (Rc & Rk). specialize (Rc i ltac:(unfold i; lia)). fold a t in Rc.
  apply (tr_touch _ s s' p (fun q => q =? a) (run (copy_c rp re) (fun q => q =? a)) t Q).
  - intros q Iq. apply Nat.eqb_neq. intros ->. apply (Ni a Ia Iq).
  - apply Nat.eqb_neq. congruence.
  - rewrite Rc, Nat.eqb_refl. destruct (t =? a) eqn:E'; [apply Nat.eqb_eq in E'; congruence|reflexivity].
  - intros B. rewrite controlled_nil. assert (Zb : run (copy_c rp re) (fun q => q =? a) b = false).
    { rewrite (run_out _ _ _ Ck Nb). apply Nat.eqb_neq. intros ->. apply Nb. apply in_or_app. left. exact Ia. }
    unfold selected. unfold matches. cbn [length seq map forallb nth]. rewrite Zb. cbn. unfold eff. rewrite (run_rev _ _ _ Ck). apply ket_eq. reflexivity.
Qed.
Lemma exp_touch fuel ra rb rm rp re s : length ra = S (length rm) -> length rp = S (length rm) -> length re = S (length rm) -> rm <> [] -> rb <> [] -> length rb <= S fuel ->
  at_depth 0 s -> tidy s -> live s (cqs 0 (conds s) ++ concat [ra; rb; rm; rp; re]) ->
  exists s' p, exp_mod_fuel (S fuel) 0 [ra; rb; rm; rp; re] s = Ret [ra; rb; rm; rp; re] s' /\ pipeline (bld s') = pipeline (bld s) ++ p /\
    touching (fun j => idle s j \/ j = nth (length rm) re 0) p.
Proof.
  intros La Lp Le Hm Hb Hf Ad T Lv.
  destruct (Nat.eq_dec (length rb) 1) as [K1|K1].
  { destruct rb as [|b [|]]; try discriminate. destruct (exp_one ra [b] rm rp re La Lp Le Hm Hb fuel 0 b eq_refl s Ad T Lv) as (s' & p & E & _ & _ & _ & Ep & _ & _ & _ & _ & _ & Q).
    exists s', p. split; [exact E|]. split; [exact Ep|]. destruct Q as (s2 & p1 & p2 & -> & Q1 & _). cbn [cqs] in Q1.
    destruct Lv as (N & F). cbn [cqs app concat] in N, F. rewrite app_nil_r in N, F.
    assert (Dj : NoDup (rp ++ re) /\ ~ In b (rp ++ re)).
    { apply NoDup_app_iff in N. destruct N as (_ & N & _). apply NoDup_cons_iff in N. destruct N as (N1 & N). apply NoDup_app_iff in N. destruct N as (_ & N & _). split; [exact N|]. intros I. apply N1. rewrite !in_app_iff in *. tauto. }
    destruct Dj as (Dj1 & Dj2).
    destruct (copy_touch b rp re s s2 p1) as (e & He & Hj); [lia|apply ne_length; lia|exact Dj1|exact Dj2| |exact Q1|].
    - intros q Hq. apply F. rewrite !in_app_iff. cbn. rewrite !in_app_iff. tauto.
    - exists e, (nth (length rm) re 0). split; [apply in_or_app; left; exact He|]. split; [|right; reflexivity]. rewrite Lp in Hj. replace (S (length rm) - 1) with (length rm) in Hj by lia. exact Hj. }
  destruct (e_ne ra rb rm rp re La Lp Le Hm Hb) as (Ha & Hp & He & Hk). set (n := length rm) in *. set (K := cqs 0 (conds s)) in *.
  set (L := K ++ concat [ra; rb; rm; rp; re]) in *.
  destruct (quiet_make_reg s _ (n + 1) T Lv ltac:(lia)) as (ru & Lu & Hru & s1 & H1 & H2 & H3 & H4 & H5 & H6 & H7 & H8).
  destruct (quiet_make_reg s1 _ (n + 1) H6 H7 ltac:(lia)) as (rv & Lw & Hrv & s2 & G1 & G2 & G3 & G4 & G5 & G6 & G7 & G8).
  set (rs7 := [ra; rb; rm; rp; re; ru; rv] : list reg).
  assert (P : Permutation (rv ++ ru ++ L) (K ++ concat rs7)).
  { unfold L, rs7. cbn [concat]. rewrite !app_nil_r. eapply Permutation_trans; [apply Permutation_app_comm|]. rewrite <- app_assoc. eapply Permutation_trans; [apply Permutation_app_comm|].
    rewrite <- !app_assoc. do 6 apply Permutation_app_head. apply Permutation_app_comm. }
  assert (L2 : live s2 (K ++ concat rs7)) by (eapply live_perm; eassumption).
  assert (N : NoDup (concat rs7)) by (destruct L2 as (X & _); apply NoDup_app_iff in X; apply X).
  assert (Hu : ru <> [] /\ rv <> []) by (rewrite !ne_length; lia). destruct Hu as (Hu & Hv).
  assert (Ne : Forall (fun r => r <> []) rs7) by (repeat constructor; assumption).
  assert (Nc : NoDup (rp ++ rv)).
  { cbn [concat rs7] in N. rewrite app_nil_r in N. do 3 (apply NoDup_app_iff in N; destruct N as (_ & N & _)). apply NoDup_app_iff in N. destruct N as (N1 & N & N2). do 2 (apply NoDup_app_iff in N; destruct N as (_ & N & _)).
    apply NoDup_app_iff. split; [exact N1|]. split; [exact N|]. intros q Hq X. apply (N2 q Hq). rewrite !in_app_iff. tauto. }
  assert (EK : cqs 0 (conds s2) = K) by (rewrite G2, H2; reflexivity).
  set (ls := [(control_mask 0 copy [part 1 [0]; whole 3; whole 6], (fun K => tr_does (controlled K (selected [nth 0 rb 0] 0 (eff (copy_c rp rv))))) : list nat -> tr);
     (control times_mod [part 1 [0]; whole 0; whole 3; whole 2; whole 4], fun _ => any);
     (call square_mod [whole 0; whole 2; whole 5], fun _ => any);
     (call (exp_mod_fuel fuel) [whole 5; part 1 (seq 1 (length rb - 1)); whole 2; whole 6; whole 4], fun _ => any);
     (call square_mod_inv [whole 0; whole 2; whole 5], fun _ => any);
     (control times_mod_inv [part 1 [0]; whole 0; whole 3; whole 2; whole 4], fun _ => any);
     (control_mask 0 copy_inv [part 1 [0]; whole 3; whole 6], fun _ => any)]).
  assert (Ob : forall f, line_ok rs7 (control_mask 0 f [part 1 [0]; whole 3; whole 6])).
  { intros f. set_ok N Ne; split; [repeat constructor; intros []|discriminate]. }
  assert (Ot : forall f, line_ok rs7 (control f [part 1 [0]; whole 0; whole 3; whole 2; whole 4])).
  { intros f. set_ok N Ne; split; [repeat constructor; intros []|discriminate]. }
  assert (Os : forall f, line_ok rs7 (call f [whole 0; whole 2; whole 5])) by (intros f; set_ok N Ne).
  assert (Oe : forall f, line_ok rs7 (call f [whole 5; part 1 (seq 1 (length rb - 1)); whole 2; whole 6; whole 4])).
  { intros f. set_ok N Ne; [intros i Hi; apply in_seq in Hi; cbn; lia|split; [apply seq_NoDup|]]. destruct (length rb - 1) eqn:E; [lia|discriminate]. }
  assert (Eb0 : line_regs rs7 (control_mask 0 copy [part 1 [0]; whole 3; whole 6]) = [[nth 0 rb 0]; rp; rv]) by (unfold line_regs, gather; cbn; rewrite !app_nil_r; reflexivity).
  assert (Eb : forall f, tl (line_regs rs7 (control_mask 0 f [part 1 [0]; whole 3; whole 6])) = [rp; rv]) by (intros f; unfold line_regs, gather; cbn; rewrite !app_nil_r; reflexivity).
  assert (Et : forall f, tl (line_regs rs7 (control f [part 1 [0]; whole 0; whole 3; whole 2; whole 4])) = [ra; rp; rm; re]) by (intros f; unfold line_regs, gather; cbn; rewrite !app_nil_r; reflexivity).
  assert (Es : forall f, line_regs rs7 (call f [whole 0; whole 2; whole 5]) = [ra; rm; ru]) by (intros f; unfold line_regs, gather; cbn; rewrite !app_nil_r; reflexivity).
  assert (Ee : forall f, line_regs rs7 (call f [whole 5; part 1 (seq 1 (length rb - 1)); whole 2; whole 6; whole 4]) = [ru; map (fun i => nth i rb 0) (seq 1 (length rb - 1)); rm; rv; re]) by (intros f; unfold line_regs, gather; cbn; rewrite !app_nil_r; reflexivity).
  assert (X : xacts 0 (fun d rs => program d rs (map fst ls)) rs7 (fun K => chain_tr K (map snd ls))).
  { apply program_x; [exact N|exact Ne|]. unfold ls. repeat apply Forall_cons; try apply Forall_nil; cbn [fst snd].
    - right. exists (eff (copy_c rp rv)). split; [|intros K0 s0 s0' p0 H0; unfold line_op, call_op in H0; rewrite Eb0 in H0; exact H0]. split; [apply Ob|]. split; [intros _; discriminate|]. unfold call_targets, call_depth. cbn [control_mask l_ctl l_fun]. rewrite Eb. apply copy_acts; [lia|exact Hp|exact Nc].
    - left. split; [apply Ot|]. cbn [control l_ctl]. split; [discriminate|]. exists (fun _ => any). split; [|intros; exact Logic.I]. rewrite Et. eapply xacts_any. apply times_xacts; assumption.
    - left. split; [apply Os|]. cbn [call l_ctl l_fun]. rewrite Es. eapply xacts_any. apply square_xacts; [assumption|fold n; lia|assumption].
    - left. split; [apply Oe|]. cbn [call l_ctl l_fun]. rewrite Ee. apply exp_total; rewrite ?map_length, ?seq_length; try assumption; try (fold n; lia). apply ne_length. rewrite map_length, seq_length. lia.
    - left. split; [apply Os|]. cbn [call l_ctl l_fun]. rewrite Es. apply square_inv_total; [assumption|fold n; lia|assumption].
    - left. split; [apply Ot|]. cbn [control l_ctl]. split; [discriminate|]. exists (fun _ => any). split; [|intros; exact Logic.I]. rewrite Et. apply times_inv_total; assumption.
    - right. exists (eff (rev (copy_c rp rv))). split; [|intros; exact Logic.I]. split; [apply Ob|]. split; [intros _; discriminate|]. unfold call_targets, call_depth. cbn [control_mask l_ctl l_fun]. rewrite Eb. apply copy_inv_acts; [lia|exact Hp|exact Nc]. }
  specialize (X s2 (at_depth_conds 0 s s2 ltac:(congruence) Ad) G6). cbv zeta in X. rewrite EK in X. specialize (X L2).
  destruct X as (s4 & p & D1' & D2' & D3 & D4 & D5 & D6 & D7 & D8 & D9 & D10 & D11).
  assert (Pu : Permutation (rv ++ ru ++ L) (ru ++ rv ++ L)) by (rewrite !app_assoc; apply Permutation_app_tail, Permutation_app_comm).
  assert (L4 : live s4 (ru ++ rv ++ L)) by (eapply live_perm; [eapply live_perm; [exact D9|symmetry; exact P]|exact Pu]).
  destruct (quiet_return s4 ru _ D8 L4 Hu) as (s5 & R1 & R2 & R3 & R4 & R5 & R6 & R7 & R8).
  destruct (quiet_return s5 rv _ R6 R7 Hv) as (s6 & Q1 & Q2 & Q3 & Q4 & Q5 & Q6 & Q7 & Q8).
  exists s6, p. split.
  { cbn [exp_mod_fuel]. fold n. rewrite La, Lp, Le, !Nat.add_1_r, !Nat.eqb_refl. cbn [negb]. replace (length rb =? 1) with false by (symmetry; apply Nat.eqb_neq; exact K1).
    rewrite <- Nat.add_1_r. unfold mbind at 1. rewrite H1. unfold mbind at 1. rewrite G1. unfold mbind at 1.
    change (program 0 [ra; rb; rm; rp; re; ru; rv] _) with (program 0 rs7 (map fst ls)). rewrite D1'. cbn [rs7]. unfold mbind. rewrite R1, Q1. reflexivity. }
  split; [congruence|]. destruct D11 as (s3 & p1 & p2 & -> & X1 & _). unfold K in X1. cbn [cqs] in X1.
  assert (Nb : ~ In (nth 0 rb 0) (rp ++ rv)).
  { assert (Ib : In (nth 0 rb 0) rb) by (apply nth_In; lia). cbn [concat rs7] in N. apply NoDup_app_iff in N. destruct N as (_ & N & _). apply NoDup_app_iff in N. destruct N as (_ & _ & N). intros I. apply (N _ Ib). rewrite !in_app_iff in *. tauto. }
  destruct (copy_touch (nth 0 rb 0) rp rv s2 s3 p1) as (e & He' & Hj); [lia|exact Hp|exact Nc|exact Nb| |exact X1|].
  - intros q Hq. destruct L2 as (_ & F). apply F. apply in_or_app. right. unfold rs7. cbn [concat]. rewrite !in_app_iff. tauto.
  - exists e, (nth (length rp - 1) rv 0). split; [apply in_or_app; left; exact He'|]. split; [exact Hj|]. left.
    assert (I : In (nth (length rp - 1) rv 0) rv) by (apply nth_In; lia). destruct (Hrv _ I) as (X & Y).
    destruct (proj1 (H8 _) (or_introl X)) as [Z|Z]; [exact Z|]. exfalso. apply Y. apply in_or_app. right. exact Z.
Qed.
