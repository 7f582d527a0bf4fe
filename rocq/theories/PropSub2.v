(** Properties C66 (every circuit of gates and rotations) and C73: conditioned global phases. *)
From Coq Require Import Reals QArith Qreals ZArith Lra FunctionalExtensionality Permutation.
From Coquelicot Require Import Complex.
From Verif Require Import Base BitsSpec BitsProofs OpsModel OpsSpec Instances BuilderModel RegProofs SimModel HistorySpec DenSpec DenProofs SimSpec SimProofs LocalProofs
  RunSpec RunProofs GateProofs ToffoliProofs SwapProofs LinkProofs RotProofs CondProofs SubSpec InvertProofs SubProofs SubProofs2 SubProofs3 SubProofs4 SubProofs5 TraceProofs SubProofs6
  PropGates PropCond PropSub PhaseProofs.
Local Open Scope nat_scope.
Local Open Scope mon_scope.

Local Ltac nd := repeat constructor; cbn; intuition lia.

(** *** C66 *)
(** Every circuit of X, Y, Z, H, S, T, CNOT and Rz objects, at every depth, on however many
    temporaries: the call succeeds, gives everything back, and what it appends acts, on states
    whose unowned qubits are 0, object by object as [act_under] says.  Nothing is asked of the
    circuit beyond being made of such objects. *)
Theorem C66_any_circuit_exact : forall n r sc d s, length r <= n -> Forall (wf_entry n) sc -> Forall proper_entry sc -> (exists e, In e sc /\ In (n - 1) (fst e)) -> Forall kept sc ->
  wrapped d (conds s) -> tidy s -> let K := cqs d (conds s) in live s (K ++ r) -> r <> [] ->
  exists ts s' p, apply_subcircuit d sc r s = Ret r s' /\ conds s' = conds s /\ meas (bld s') = meas (bld s) /\ bn (bld s) <= bn (bld s') /\
    pipeline (bld s') = pipeline (bld s) ++ p /\ Forall (wf_entry (bn (bld s'))) p /\ Forall proper_entry p /\ tidy s' /\ live s' (K ++ r) /\ (forall q, idle s' q <-> idle s q) /\
    length r + length ts = n /\ NoDup (K ++ r ++ ts) /\ (forall q, In q ts -> idle s q /\ q < bn (bld s')) /\
    forall psi, (forall q, idle s q -> q < bn (bld s') -> clean [q] psi) -> den p psi = steps (act_under K) (ren (r ++ ts) sc) psi.
Proof.
  intros n r sc d s H1 H2 H3 H4 H5 H6 H7 K H8 H9.
  destruct (sub_x n r sc d s H1 H2 H3 H4 H5 H6 H7 H8 H9) as (s' & p & A1 & A2 & A3 & A4 & A5 & A6 & A7 & A8 & A9 & A10 & (B1 & B2 & B3 & B4 & ts & C1 & C2 & C3 & C4)).
  exists ts, s', p. auto 20.
Qed.
Print Assumptions C66_any_circuit_exact.
Definition ex_any : pipe := [([0], mkCO 1 (OUnit UH)); ([0; 2], mkCO 2 (OUnit UCNOT)); ([2], mkCO 1 (OUnit (URz (Floating 1)))); ([1], mkCO 1 (OUnit UY))].
Example C66_any_example : Forall (wf_entry 3) ex_any /\ Forall proper_entry ex_any /\ (exists e, In e ex_any /\ In 2 (fst e)) /\ Forall kept ex_any /\
  wrapped 2 (conds ex_cond) /\ tidy ex_cond /\ live ex_cond (cqs 2 (conds ex_cond) ++ [2; 4]).
Proof.
  destruct ex_cond_ok as (Wc & T & E & Lv). rewrite E. split; [|split; [repeat constructor|split; [exists ([0; 2], mkCO 2 (OUnit UCNOT)); cbn; tauto|split; [repeat constructor|tauto]]]].
  unfold wf_entry, ex_any. repeat apply Forall_cons; try apply Forall_nil; cbn; (split; [repeat constructor; cbn; intuition lia|split; [intuition lia|reflexivity]]).
Qed.

(** A conditioned SWAP object always fails: it hands condition and qubit to cnot, which takes
    one control.  The builder is as before except that the condition register is lost. *)
Lemma split_pairs (r : list nat) k : length r = k + k -> 0 < k -> exists a ra b rb, firstn k (singles r) = [a] :: ra /\ skipn k (singles r) = [b] :: rb.
Proof.
  intros Hl Hk. unfold singles. rewrite firstn_map, skipn_map. destruct (firstn k r) as [|a ra] eqn:E1; [apply (f_equal (@length nat)) in E1; rewrite firstn_length in E1; cbn in E1; lia|].
  destruct (skipn k r) as [|b rb] eqn:E2; [apply (f_equal (@length nat)) in E2; rewrite skipn_length in E2; cbn in E2; lia|]. do 4 eexists. split; reflexivity.
Qed.
Lemma try_swap_fails (cr r : reg) k c s : cr <> [] -> NoDup r -> length r = k + k -> 0 < k -> local_try cr r (mkCO c (OUnit USWAP)) s = Fail (EOther 1) s.
Proof.
  intros Hc N Hl Hk. cbn [local_try co_obj]. cbv zeta. unfold mbind at 1. replace (length r mod 2 =? 0) with true.
  2:{ symmetry. apply Nat.eqb_eq. rewrite Hl. replace (k + k) with (k * 2) by lia. apply Nat.mod_mul. lia. }
  cbn [massert]. unfold ret at 1. unfold mbind at 1. unfold lift at 1. rewrite split_all_ok; [|exact N|destruct r; [cbn in Hl; lia|discriminate]].
  assert (Eh : length r / 2 = k) by (rewrite Hl; replace (k + k) with (k * 2) by lia; apply Nat.div_mul; lia). rewrite Eh.
  destruct (split_pairs r k Hl Hk) as (a & ra & b & rb & E1 & E2).
  assert (Sp : forall s0, split_vector_at (singles r) k s0 = Ret ([a] :: ra, [b] :: rb) s0).
  { intros s0. unfold split_vector_at. rewrite length_singles. destruct (Nat.leb_spec k (length r)); [|lia]. cbn. rewrite E1, E2. reflexivity. }
  unfold mbind at 1. rewrite Sp. cbn [combine mfold]. unfold mbind at 1. unfold mbind at 1. unfold cond_swap_step at 1. cbn [length Nat.eqb massert]. unfold mbind at 1. cbn [ret].
  unfold mbind at 1. cbn [ret]. unfold mbind at 1. unfold cond_swap_half at 1. unfold mbind at 1. unfold lift at 1. rewrite merge2_ok by exact Hc. unfold mbind at 1.
  unfold cnot. replace (1 <? length (cr ++ [a])) with true; [reflexivity|]. symmetry. apply Nat.ltb_lt. rewrite app_length. destruct cr; [congruence|cbn; lia].
Qed.
Theorem C66_swap_object_fails : forall r k c d s, NoDup r -> length r = k + k -> 0 < k -> wrapped (S d) (conds s) ->
  exists s', aco (S d) r (mkCO c (OUnit USWAP)) s = Fail (EOther 1) s' /\ bld s' = bld s /\ nth_error (conds s') d = Some None.
Proof.
  intros r k c d s N Hl Hk Wr.
  assert (G : forall d s (cr : reg), cr <> [] -> wrapped d (conds s) -> exists s', try_cond d cr r (mkCO c (OUnit USWAP)) s = Fail (EOther 1) s' /\ bld s' = bld s /\
    (forall j, d <= j -> nth_error (conds s') j = nth_error (conds s) j)).
  { clear d s Wr. induction d as [|d IH]; intros s cr Hc Wr.
    - exists s. split; [apply (try_swap_fails cr r k); assumption|auto].
    - destruct (Wr d (Nat.lt_succ_diag_r d)) as (cc & E & Hcc). cbn [try_cond]. unfold mbind at 1. unfold take_cr. rewrite E. unfold mbind at 1. unfold lift at 1. rewrite merge2_ok by exact Hc.
      destruct (IH (mkSt (bld s) (upd_nth d None (conds s))) (cr ++ cc)) as (s' & E1 & E2 & E3); [destruct cr; [congruence|discriminate]|apply wrapped_upd; [lia|]; eapply wrapped_le; [|exact Wr]; lia|].
      exists s'. unfold mbind. rewrite E1. split; [reflexivity|]. split; [exact E2|]. intros j Hj. rewrite E3 by lia. cbn [conds]. rewrite nth_error_upd_nth. destruct (Nat.eqb_spec j d); [lia|reflexivity]. }
  destruct (Wr d (Nat.lt_succ_diag_r d)) as (cc & E & Hcc). cbn [aco]. unfold mbind at 1. unfold take_cr. rewrite E.
  destruct (G d (mkSt (bld s) (upd_nth d None (conds s))) cc Hcc) as (s' & E1 & E2 & E3); [apply wrapped_upd; [lia|]; eapply wrapped_le; [|exact Wr]; lia|].
  exists s'. unfold mbind. rewrite E1. split; [reflexivity|]. split; [exact E2|]. rewrite E3 by lia. cbn [conds]. rewrite nth_error_upd_nth, Nat.eqb_refl. replace (d <? length (conds s)) with true; [reflexivity|]. symmetry. apply Nat.ltb_lt, nth_error_Some. congruence.
Qed.
Print Assumptions C66_swap_object_fails.
Example C66_swap_example : NoDup [2; 4] /\ length [2; 4] = 1 + 1 /\ wrapped 2 (conds ex_cond).
Proof. destruct ex_cond_ok as (W & _). split; [nd|]. split; [reflexivity|exact W]. Qed.

(** *** C73: conditioned global phases *)
(** The circuit "global phase th", applied under the conditions [K], should multiply the
    amplitudes where [K] holds by e^(i th).  What is appended, not counting the global phase
    object in it, gives the states where [K] holds a phase of th/2 relative to the others; the
    global phase object is by th/2 as well. *)
Definition phase_circuit (th : rot) : pipe := [([0], mkCO 1 (OUnit (UPhase th)))].
Theorem C73_conditioned_phase_exact : forall th t d s, 0 < d -> wrapped d (conds s) -> tidy s -> let K := cqs d (conds s) in live s (K ++ [t]) ->
  exists s' p, apply_subcircuit d (phase_circuit th) [t] s = Ret [t] s' /\ conds s' = conds s /\ meas (bld s') = meas (bld s) /\
    pipeline (bld s') = pipeline (bld s) ++ p /\ tidy s' /\ live s' (K ++ [t]) /\ (forall q, idle s' q <-> idle s q) /\ gphase p = (angle th / 2)%R /\
    forall psi, (forall q, idle s q -> q < bn (bld s') -> clean [q] psi) ->
      den p psi = fun x => Cmult (if forallb x K then expi (angle th / 4) else expi (- (angle th / 4))) (psi x).
Proof.
  intros th t d s Hd W T K Lv.
  destruct (sub_depth_leaves (fun cr => phased th (cr ++ [t]) cr) (phase_circuit th) [t] (one_cond_leaves (fun cr => phased th (cr ++ [t]) cr) _ t (try_phase 1 th [t])) d s Hd W T Lv)
    as (s' & E1 & E2 & (tq & a & h & p1 & p3 & F1 & F2 & F3 & F4 & F5 & F6 & F7 & F8 & F9 & F10 & F11 & F12 & F13 & F14 & F15)).
  exists s', (p1 ++ [([tq], mkCO 1 (OUnit (URz a))); ([tq], mkCO 1 (OUnit (UPhase h)))] ++ p3).
  do 4 (split; [assumption|]). split; [exact F12|]. split; [exact F13|]. split; [exact F14|]. split; [|intros psi Hp; apply F15; exact Hp].
  assert (G0 : forall p, Forall proper_entry p -> gphase p = 0%R).
  { clear. induction p as [|e p IH]; intros H; [reflexivity|]. inversion_clear H as [|? ? (Pl & _) H2]. cbn [gphase fold_right]. fold (gphase p). rewrite IH by assumption.
    unfold plain_entry in Pl. destruct (co_obj (snd e)) as [[| | | | | | | | | |]|]; try reflexivity; destruct Pl. }
  assert (Ga : forall p q, gphase (p ++ q) = (gphase p + gphase q)%R).
  { clear. induction p as [|e p IH]; intros q; [change (gphase q = (0 + gphase q)%R); lra|]. cbn [app]. change (gphase (e :: p ++ q)) with (match co_obj (snd e) with OUnit (UPhase t) => (angle t + gphase (p ++ q))%R | _ => gphase (p ++ q) end).
    change (gphase (e :: p)) with (match co_obj (snd e) with OUnit (UPhase t) => (angle t + gphase p)%R | _ => gphase p end). rewrite IH. destruct (co_obj (snd e)) as [[| | | | | | | | | |]|]; lra. }
  rewrite !Ga, (G0 p1 F7), (G0 p3 F9). change (gphase (_ :: _)) with (angle h + 0)%R. rewrite F5.
  lra.
Qed.
Print Assumptions C73_conditioned_phase_exact.
(** Simulated, it has no effect at all: the global phase object discards the Rz before it (C38). *)
Theorem C73_simulated_no_effect : forall th t d s it x draws, 0 < d -> wrapped d (conds s) -> tidy s -> let K := cqs d (conds s) in live s (K ++ [t]) ->
  Forall (wf_entry (bn (bld s))) (pipeline (bld s)) -> Forall plain_entry (pipeline (bld s)) ->
  (forall r v, In (r, v) it -> in_range (bn (bld s)) r) -> loads it x ->
  (forall n q, idle s q -> q < n -> clean [q] (den (pipeline (bld s)) (ket n x))) ->
  exists s' v, apply_subcircuit d (phase_circuit th) [t] s = Ret [t] s' /\ calculate_state_with_init (bld s') it draws = Ok (v, []) /\
    st_of CN (bn (bld s')) v = den (pipeline (bld s)) (ket (bn (bld s')) x).
Proof.
  intros th t d s it x draws Hd W T K Lv Wp Pp Ri Lo Cl.
  destruct (sub_depth_leaves (fun cr => phased th (cr ++ [t]) cr) (phase_circuit th) [t] (one_cond_leaves (fun cr => phased th (cr ++ [t]) cr) _ t (try_phase 1 th [t])) d s Hd W T Lv)
    as (s' & E1 & E2 & (tq & a & h & p1 & p3 & F1 & F2 & F3 & F4 & F5 & F6 & F7 & F8 & F9 & F10 & F11 & F12 & F13 & F14 & F15)).
  assert (Pl : forall p, Forall proper_entry p -> Forall plain_entry p) by (intros p H; eapply Forall_impl; [|exact H]; intros e He; apply He).
  assert (Wp' : Forall (wf_entry (bn (bld s'))) (pipeline (bld s))) by (eapply Forall_impl; [|exact Wp]; intros e (? & X & ?); split; [assumption|split; [intros q Hq; specialize (X q Hq); lia|assumption]]).
  assert (Ri' : forall r v, In (r, v) it -> in_range (bn (bld s')) r) by (intros r v Hr q Hq; specialize (Ri r v Hr q Hq); lia).
  set (v0 := upd_nth (enc (bn (bld s')) x) (RtoC 1) (repeat (RtoC 0) (2 ^ bn (bld s')))).
  destruct (sim_plain (bn (bld s')) draws (pipeline (bld s) ++ p1) v0 (repeat (RtoC 0) (2 ^ bn (bld s'))) []) as (v1 & a1 & S1 & Lv1 & La1 & D1);
    [apply Forall_app; auto|apply Forall_app; auto|unfold v0; rewrite upd_nth_length; apply repeat_length|apply repeat_length|].
  set (e := ([tq], mkCO 1 (OUnit (URz a)))) in *. assert (We : wf_entry (bn (bld s')) e) by (split; [repeat constructor; intros []|split; [intros q [<-|[]]; exact F10|reflexivity]]).
  destruct (sim_step_plain (bn (bld s')) draws v1 a1 [] e We Logic.I Lv1 La1) as (v2 & S2 & Lv2 & _).
  destruct (sim_plain (bn (bld s')) draws p3 v1 v2 [] F8 (Pl p3 F9) Lv1 Lv2) as (v3 & a3 & S3 & Lv3 & _ & D3).
  exists s', v3. split; [exact E1|]. split.
  - assert (Eb : bld s' = with_pipeline (bld s') (pipeline (bld s'))) by (destruct (bld s'); reflexivity). rewrite Eb.
    apply (calculate_from_fold (bld s') _ it x draws v3 a3 [] Ri' Lo). fold v0. rewrite F3, app_assoc, foldM_app, S1. cbn [bind app foldM]. rewrite S2. cbn [bind]. rewrite sim_step_phase. cbn [bind]. exact S3.
  - rewrite D3, D1, <- den_app, <- app_assoc, den_app.
    assert (E0 : st_of CN (bn (bld s')) v0 = ket (bn (bld s')) x) by (unfold v0; rewrite st_of_basis, dec_enc_ket by apply enc_lt; reflexivity).
    rewrite E0. apply F15. intros q Hq Hl. apply Cl; assumption.
Qed.
Print Assumptions C73_simulated_no_effect.
(** So the phase is wrong: condition 1, phase pi, amplitude 1 instead of -1. *)
Theorem C73_refuted : exists s' v draws,
  under [0] (apply_subcircuit 1 (phase_circuit (Floating PI)) [1]) (mkSt (mkB [] 2 [] 0) []) = Ret ([0], [1]) s' /\
  calculate_state_with_init (bld s') [([0], 1)] draws = Ok (v, []) /\
  nth (enc (bn (bld s')) (fun q => q =? 0)) v (RtoC 0) = RtoC 1 /\ expi (angle (Floating PI)) = RtoC (-1).
Proof.
  assert (Lf : live (fresh 2) ([0] ++ [1])) by (apply fresh_live; [nd|intros q Hq; cbn in Hq; intuition lia]).
  destruct (under_hyps (fresh 2) [0] [1] eq_refl) as (W & T2 & EK & L2); [discriminate|apply fresh_tidy|exact Lf|].
  pose proof (C73_simulated_no_effect (Floating PI) 1 1 (mkSt (bld (fresh 2)) (conds (fresh 2) ++ [Some [0]])) [([0], 1)] (fun q => q =? 0) (fun _ => R0)) as H. cbv zeta in H. rewrite EK in H.
  pose proof (C73_conditioned_phase_exact (Floating PI) 1 1 (mkSt (bld (fresh 2)) (conds (fresh 2) ++ [Some [0]]))) as H'. cbv zeta in H'. rewrite EK in H'.
  destruct H' as (s1' & p' & A1 & A2 & _); [lia|exact W|exact T2|exact L2|].
  destruct H as (s' & v & E1 & E2 & E3); [lia|exact W|exact T2|exact L2|constructor|constructor| |apply loads_one| |].
  - apply range_one. cbn. lia.
  - intros n q Hq Hl. cbn [fresh bld pipeline den fold_left]. apply clean1. intros y Hy. apply (ket_ne n _ _ q Hl). destruct Hq as [Hq|[]]. cbn in Hq. rewrite Hy. destruct q as [|q]; [lia|discriminate].
  - rewrite A1 in E1. injection E1 as <-. exists (mkSt (bld s1') []), v, (fun _ => R0). split; [|split; [exact E2|split]].
    + unfold under, mbind. unfold condition_with. cbn [conds bld]. change (mkSt (bld (fresh 2)) (conds (fresh 2) ++ [Some [0]])) with (mkSt (mkB [] 2 [] 0) ([] ++ [Some ([0] : reg)])) in A1. rewrite A1.
      unfold dissolve. rewrite A2. reflexivity.
    + cbn [bld] in E3 |- *. change (nth (enc (bn (bld s1')) (fun q => q =? 0)) v (RtoC 0)) with (st_of CN (bn (bld s1')) v (fun q => q =? 0)). rewrite E3. cbn [fresh bld pipeline den fold_left]. apply ket_eq. reflexivity.
    + unfold expi, angle. rewrite cos_PI, sin_PI. reflexivity.
Qed.
Print Assumptions C73_refuted.
Example C73_example : wrapped 2 (conds ex_cond) /\ tidy ex_cond /\ live ex_cond (cqs 2 (conds ex_cond) ++ [2]) /\ Forall plain_entry (pipeline (bld ex_cond)).
Proof.
  destruct ex_cond_ok as (W & T & E & Lv). split; [exact W|]. split; [exact T|]. split; [|repeat constructor]. eapply live_incl; [exact Lv| |].
  - rewrite E. nd.
  - rewrite E. intros q Hq. rewrite in_app_iff in *. cbn in *. tauto.
Qed.
