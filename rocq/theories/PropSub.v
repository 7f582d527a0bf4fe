(** Properties C51-C54, C66: subcircuits and inverses. *)
From Coq Require Import Reals QArith Qreals ZArith Lra FunctionalExtensionality Permutation.
From Coquelicot Require Import Complex.
From Verif Require Import Base BitsSpec BitsProofs OpsModel OpsSpec Instances BuilderModel RegProofs SimModel HistorySpec DenSpec DenProofs SimSpec SimProofs LocalProofs
  RunSpec RunProofs GateProofs ToffoliProofs SwapProofs LinkProofs RotProofs CondProofs SubSpec InvertProofs SubProofs SubProofs2 SubProofs3 SubProofs4 SubProofs5 PropGates PropCond.
Local Open Scope nat_scope.
Local Open Scope mon_scope.

Local Ltac nd := repeat constructor; cbn; intuition lia.

(** *** C51 *)
Theorem C51_inverse : forall n p, Forall (wf_entry n) p -> Forall proper_entry p -> exists q, invert_subcircuit p = Ok q /\
  Forall (wf_entry n) q /\ Forall proper_entry q /\ forall psi, den q (den p psi) = psi /\ den p (den q psi) = psi.
Proof. intros n p W Pr. destruct (invert_ok n p W Pr) as (q & E & A & B & C & _). exists q. auto. Qed.
Print Assumptions C51_inverse.
(** Simulating a circuit followed by its inverse gives the state loaded. *)
Theorem C51_simulated : forall b it x draws, (forall r v, In (r, v) it -> in_range (bn b) r) -> loads it x ->
  Forall (wf_entry (bn b)) (pipeline b) -> Forall proper_entry (pipeline b) ->
  exists q v, invert_subcircuit (pipeline b) = Ok q /\ calculate_state_with_init (mkB (pipeline b ++ q) (bn b) (zeroed b) (meas b)) it draws = Ok (v, []) /\
    st_of CN (bn b) v = ket (bn b) x.
Proof.
  intros b it x draws R L W Pr. destruct (invert_ok (bn b) (pipeline b) W Pr) as (q & E & Wq & Pq & I & _).
  destruct (simulate_ok (mkB (pipeline b ++ q) (bn b) (zeroed b) (meas b)) it x draws) as (v & Ev & _ & Hv); [exact R|exact L|apply Forall_app; auto| |].
  - apply Forall_app. split; (eapply Forall_impl; [|eassumption]); intros e He; apply He.
  - exists q, v. split; [exact E|]. split; [exact Ev|]. etransitivity; [exact Hv|]. cbn [pipeline bn]. rewrite den_app. apply I.
Qed.
Print Assumptions C51_simulated.
Theorem C51_measurement_is_error : forall p, Forall sized_matrix p -> (exists e m, In e p /\ co_obj (snd e) = OMeas m) ->
  invert_subcircuit p = Err EMeasureInvert.
Proof. exact invert_measure. Qed.
Print Assumptions C51_measurement_is_error.
(** With global phases the objects are right: everything else is undone and the phases add up to 0 ... *)
Theorem C51_with_phases_partial : forall n p, Forall (wf_entry n) p -> Forall (fun e => proper_entry e \/ phase_entry e) p ->
  exists q, invert_subcircuit p = Ok q /\ inverses (den p) (den q) /\ (gphase p + gphase q = 0)%R.
Proof. intros n p W H. destruct (invert_phase n p W H) as (q & E & I & G). exists q. split; [exact E|]. split; [exact I|]. rewrite G. lra. Qed.
Print Assumptions C51_with_phases_partial.
(** ... but the simulator does not return the initial state: it is the zero vector. *)
Theorem C51_phases_simulated_refuted : exists q v draws,
  let p := [([0], mkCO 1 (OUnit (UPhase (Floating PI)))); ([0], mkCO 1 (OUnit UX))] in
  invert_subcircuit p = Ok q /\ calculate_state (mkB (p ++ q) 1 [] 0) draws = Ok (v, []) /\ nth 0 v (RtoC 0) = RtoC 0 /\
  calculate_state (mkB [] 1 [] 0) draws = Ok ([RtoC 1; RtoC 0], []).
Proof.
  set (X := ([0], mkCO 1 (OUnit UX))). assert (WX : wf_entry 1 X) by (split; [cbn; repeat constructor; intros []|split; [intros q [<-|[]]; lia|reflexivity]]).
  set (v0 := upd_nth 0 (RtoC 1) (repeat (RtoC 0) (2 ^ 1))).
  destruct (sim_step_plain 1 (fun _ => R0) (repeat (RtoC 0) (2 ^ 1)) v0 [] X WX Logic.I) as (w1 & E1 & L1 & S1); [reflexivity|reflexivity|].
  destruct (sim_step_plain 1 (fun _ => R0) w1 (repeat (RtoC 0) (2 ^ 1)) [] X WX Logic.I) as (w2 & E2 & L2 & S2); [exact L1|reflexivity|].
  exists [X; ([0], mkCO 1 (OUnit (UPhase (Floating (- PI)))))], w1, (fun _ => R0). cbv zeta. split; [reflexivity|]. split; [|split; [|reflexivity]].
  - unfold calculate_state. change (mkB (_ ++ _) 1 [] 0) with (with_pipeline (mkB [] 1 [] 0)
      [([0], mkCO 1 (OUnit (UPhase (Floating PI)))); X; X; ([0], mkCO 1 (OUnit (UPhase (Floating (- PI)))))]).
    apply (calculate_from_fold (mkB [] 1 [] 0) _ [] (fun _ => false) (fun _ => R0) w1 w2 []); [intros ? ? []|split; [intros ? ? []|reflexivity]|].
    cbn [bn foldM]. rewrite sim_step_phase. cbn [bind]. change (enc 1 (fun _ => false)) with 0. fold v0. rewrite E1. cbn [bind]. rewrite E2. cbn [bind]. reflexivity.
  - change (nth 0 w1 (RtoC 0)) with (st_of CN 1 w1 (fun _ => false)). rewrite S1. unfold oden, X. cbn [fst snd co_obj uden]. unfold on1, st_of, mX. cbn. ring.
Qed.
Print Assumptions C51_phases_simulated_refuted.
Definition ex_pipe : pipe := [([0], mkCO 1 (OUnit UH)); ([0; 2], mkCO 2 (OUnit UCNOT)); ([2], mkCO 1 (OUnit UT)); ([1], mkCO 1 (OUnit (URz (PiRational (1 # 3)))))].
Example C51_example : Forall (wf_entry 3) ex_pipe /\ Forall proper_entry ex_pipe /\
  invert_subcircuit ex_pipe = Ok [([1], mkCO 1 (OUnit (URz (PiRational (-1 # 3))))); ([2], mkCO 1 (OUnit UZ)); ([2], mkCO 1 (OUnit US)); ([2], mkCO 1 (OUnit UT));
    ([0; 2], mkCO 2 (OUnit UCNOT)); ([0], mkCO 1 (OUnit UH))].
Proof.
  split; [|split; [repeat constructor|reflexivity]].
  unfold wf_entry, ex_pipe. repeat apply Forall_cons; try apply Forall_nil; cbn; (split; [repeat constructor; cbn; intuition lia|split; [intuition lia|reflexivity]]).
Qed.

(** *** C52 *)
(** [n] is the number of qubits the circuit uses; [ts] are the temporaries standing for those
    beyond the register. *)
Theorem C52_objects_replayed : forall n r sc s, length r <= n -> Forall (sized_entry n) sc -> (exists e, In e sc /\ In (n - 1) (fst e)) -> tidy s -> live s r -> r <> [] ->
  exists ts s', length r + length ts = n /\ NoDup (r ++ ts) /\ (forall t, In t ts -> idle s t) /\
    apply_subcircuit 0 sc r s = Ret r s' /\ pipeline (bld s') = pipeline (bld s) ++ ren (r ++ ts) sc /\
    conds s' = conds s /\ meas (bld s') = meas (bld s) /\ tidy s' /\ live s' r /\ (forall q, idle s' q \/ In q r <-> idle s q \/ In q r).
Proof.
  intros n r sc s H1 H2 H3 H4 H5 H6. destruct (pipe_logs n r sc s H1 H2 H3 H4 H5 H6) as (ts & A & B & C & s' & G1 & G2 & G3 & G4 & G5 & G6 & G7 & G8).
  exists ts, s'. auto 15.
Qed.
Print Assumptions C52_objects_replayed.
(** What that does to states: [D] carried out on the register. *)
Theorem C52_effect : forall n r sc D s, realizes n (length r) sc D -> tidy s -> live s r -> r <> [] ->
  does s r (apply_subcircuit 0 sc r) r r (embed r D).
Proof. exact sub_does. Qed.
Print Assumptions C52_effect.
(** Exporting a circuit and applying it: what the calls on the other builder did to its first
    [length r] qubits happens to [r]. *)
Theorem C52_export_and_apply : forall A (m : M A) a L' D r s s1, r <> [] -> does (fresh (length r)) (seq 0 (length r)) m a L' D -> within (seq 0 (length r)) D ->
  m (fresh (length r)) = Ret a s1 -> (exists e j, In e (pipeline (bld s1)) /\ In j (fst e) /\ length r <= S j) -> tidy s -> live s r ->
  does s r (sc <- on_new (r0 <- register (length r) ;; _ <- m ;; make_subcircuit) ;; apply_subcircuit 0 sc r) r r (embed r D).
Proof.
  intros A m a L' D r s s1 Hr Hm W E Top T Lv. destruct (does_realizes _ m a L' D s1 Hm W E Top) as (N & Re).
  eapply quiet_then_does with (a := pipeline (bld s1)) (L1 := r); [|apply incl_refl|apply incl_refl|].
  - exists s. split; [|do 5 (split; [reflexivity || exact T|]); split; [exact Lv|tauto]].
    unfold on_new, register. unfold mbind at 1 2. cbn [get empty_builder bld]. unfold mbind at 1, lift. rewrite unwrap_new_reg by (destruct r; [congruence|discriminate]).
    unfold mbind at 1, put, ret. cbn [pipeline bn zeroed meas conds empty_builder]. unfold mbind at 1. unfold fresh in E. cbn [Nat.add]. rewrite E. reflexivity.
  - intros s2 C2 T2 L2. eapply sub_does; eassumption.
Qed.
Print Assumptions C52_export_and_apply.
Example C52_example : Forall (sized_entry 3) ex_pipe /\ (exists e, In e ex_pipe /\ In (3 - 1) (fst e)) /\ tidy ex_cond /\ live ex_cond [4; 2] /\ length [4; 2] <= 3 /\
  realizes 3 3 ex_pipe (den ex_pipe) /\
  match apply_subcircuit 0 ex_pipe [4; 2] ex_cond with Ret r s' => r = [4; 2] /\ pipeline (bld s') = ren ([4; 2] ++ [1]) ex_pipe /\ zeroed (bld s') = [[1]] | _ => False end.
Proof.
  destruct C51_example as (W & Pr & _). destruct ex_cond_ok as (_ & T & _ & Lv).
  split; [|split; [exists ([0; 2], mkCO 2 (OUnit UCNOT)); cbn; tauto|split; [exact T|split; [|split; [cbn; lia|split; [|repeat split]]]]]].
  - unfold sized_entry, ex_pipe. repeat apply Forall_cons; try apply Forall_nil; cbn; (split; [repeat constructor; cbn; intuition lia|split; [intuition lia|split; [discriminate|reflexivity]]]).
  - eapply live_incl; [exact Lv|nd|]. intros q Hq. cbn in *. tauto.
  - split; [lia|]. split; [exact W|]. split; [exact Pr|]. split; [exists ([0; 2], mkCO 2 (OUnit UCNOT)); cbn; tauto|]. split; [|exists 3; split; [lia|reflexivity]].
    apply within_den. intros e He q Hq. rewrite Forall_forall in W. apply in_seq. split; [lia|]. apply (W e He). exact Hq.
Qed.

(** *** C53: false *)
(** The empty circuit panics, at any size. *)
Theorem C53_empty_refuted : forall r s, NoDup r -> r <> [] -> apply_subcircuit 0 [] r s = Crash PUnwrap.
Proof. intros r s N H. cbn [apply_subcircuit]. unfold apply_pipeline_objects. cbv zeta. unfold mbind at 1, lift at 1. rewrite split_all_ok by assumption. reflexivity. Qed.
Print Assumptions C53_empty_refuted.
(** So does every circuit that does not touch the last qubit of the register. *)
Theorem C53_last_untouched_refuted : forall n r sc s, n < length r -> 0 < n -> Forall (sized_entry n) sc -> (exists e, In e sc /\ In (n - 1) (fst e)) -> NoDup r ->
  apply_subcircuit 0 sc r s = Crash PUnderflow.
Proof.
  intros n r sc s Hn H0 W Top N. cbn [apply_subcircuit]. unfold apply_pipeline_objects. cbv zeta. unfold mbind at 1, lift at 1. rewrite split_all_ok; [|exact N|destruct r; [cbn in Hn; lia|discriminate]].
  unfold ret at 1. unfold mbind at 1, lift at 1. rewrite (top_index_sized n sc W Top). cbn [unwrap_opt]. unfold mbind at 1, lift at 1. unfold chk_sub.
  destruct (Nat.leb_spec (length r) (1 + (n - 1))); [lia|reflexivity].
Qed.
Print Assumptions C53_last_untouched_refuted.
(** The inverter with a function that does nothing, and with one that leaves the last register alone. *)
Theorem C53_inverter_refuted :
  inverter 0 [[0]] (fun rs => ret rs) (fresh 1) = Crash PUnwrap /\
  inverter 0 [[0]; [1]] (fun rs => match rs with [a; b] => a <- g_x local_aco a ;; ret [a; b] | _ => ret rs end) (fresh 2) = Crash PUnderflow.
Proof. split; reflexivity. Qed.
Print Assumptions C53_inverter_refuted.
Theorem C53_applies_partial : forall n r sc s, length r <= n -> Forall (sized_entry n) sc -> (exists e, In e sc /\ In (n - 1) (fst e)) -> tidy s -> live s r -> r <> [] ->
  exists s', apply_subcircuit 0 sc r s = Ret r s'.
Proof. intros n r sc s H1 H2 H3 H4 H5 H6. destruct (C52_objects_replayed n r sc s H1 H2 H3 H4 H5 H6) as (ts & s' & _ & _ & _ & E & _). exists s'. exact E. Qed.
Print Assumptions C53_applies_partial.
Example C53_example : Forall (sized_entry 3) ex_pipe /\ (exists e, In e ex_pipe /\ In (3 - 1) (fst e)) /\ apply_subcircuit 0 ex_pipe [4; 2; 0; 1] (fresh 5) = Crash PUnderflow.
Proof. destruct C52_example as (A & B & _). split; [exact A|]. split; [exact B|reflexivity]. Qed.

(** *** C54 *)
(** [f] carries out [D] on new registers of the same sizes, and [E] undoes [D]; then both
    inverters carry out [E] on the registers given and give them back. *)
Theorem C54_inverter : forall rs f a L' D E s s1,
  let k := length (concat rs) in
  does (fresh k) (seq 0 k) (f (ranges 0 (map (@length nat) rs))) a L' D -> inverses D E -> within (seq 0 k) D -> within (seq 0 k) E ->
  f (ranges 0 (map (@length nat) rs)) (fresh k) = Ret a s1 -> (exists e j, In e (pipeline (bld s1)) /\ In j (fst e) /\ k <= S j) ->
  tidy s -> live s (concat rs) -> rs <> [] -> (forall r, In r rs -> r <> []) ->
  does s (concat rs) (inverter 0 rs f) rs (concat rs) (embed (concat rs) E) /\ does s (concat rs) (inv_macro 0 rs f) rs (concat rs) (embed (concat rs) E).
Proof.
  intros rs f a L' D E s s1 k Hf I WD WE Ef Top T Lv Hrs Hne.
  destruct (inverter_does 0 rs f a L' D E s s1 Hf I WD WE Ef Top (or_introl eq_refl)) as (A & B); [intros i Hi; lia|exact T|exact Lv|exact Hrs|exact Hne|].
  cbn [cqs app] in A, B. split; (eapply does_eq; [eassumption|]; intros psi; apply controlled_nil).
Qed.
Print Assumptions C54_inverter.
Theorem C54_undoes : forall rs f a L' D E s s1,
  let k := length (concat rs) in
  does (fresh k) (seq 0 k) (f (ranges 0 (map (@length nat) rs))) a L' D -> inverses D E -> within (seq 0 k) D -> within (seq 0 k) E ->
  f (ranges 0 (map (@length nat) rs)) (fresh k) = Ret a s1 -> (exists e j, In e (pipeline (bld s1)) /\ In j (fst e) /\ k <= S j) ->
  tidy s -> live s (concat rs) -> rs <> [] -> (forall r, In r rs -> r <> []) ->
  does s (concat rs) (f rs) rs (concat rs) (embed (concat rs) D) ->
  does s (concat rs) (rs <- f rs ;; inverter 0 rs f) rs (concat rs) (fun psi => psi).
Proof.
  intros rs f a L' D E s s1 k Hf I WD WE Ef Top T Lv Hrs Hne Hs. assert (N : NoDup (concat rs)) by apply Lv. eapply does_eq.
  - eapply does_bind; [exact Hs|apply incl_refl|apply incl_refl|]. intros s2 C2 T2 L2.
    apply (C54_inverter rs f a L' D E s2 s1); assumption.
  - intros psi. cbn beta. rewrite embed_comp by assumption. extensionality x. unfold embed. rewrite (proj1 (I _)). f_equal. apply (put_self (concat rs) N x).
Qed.
Print Assumptions C54_undoes.
(** h and t on one register, cnot from it to another: undone on any two qubits. *)
Definition ex_f (rs : list reg) : M (list reg) :=
  match rs with [a; b] => a <- g_h local_aco a ;; a <- g_t local_aco a ;; '(a, b) <- cnot local_aco a b ;; ret [a; b] | _ => ret rs end.
Lemma cflip_invol cs t x : ~ In t cs -> cflip cs t (cflip cs t x) = x.
Proof.
  intros H. unfold cflip at 2. destruct (forallb x cs) eqn:E; [|unfold cflip; rewrite E; reflexivity].
  unfold cflip. replace (forallb (flip x t) cs) with true.
  - extensionality q. unfold flip, upd. destruct (Nat.eqb_spec q t) as [->|]; [rewrite Nat.eqb_refl; apply negb_involutive|reflexivity].
  - symmetry. rewrite forallb_forall in *. intros q Hq. unfold flip, upd. destruct (Nat.eqb_spec q t) as [->|]; [contradiction|apply E; exact Hq].
Qed.
Definition ex_D (a b : nat) (psi : state) : state := ctl_not [a] b (on1 mT a (on1 mH a psi)).
Definition ex_E (a b : nat) (psi : state) : state := on1 mH a (on1 mTd a (ctl_not [a] b psi)).
Lemma ex_f_does a b L s : tidy s -> live s L -> incl [a; b] L -> a <> b -> does s L (ex_f [[a]; [b]]) [[a]; [b]] L (ex_D a b).
Proof.
  intros T Lv I Hab. cbn [ex_f]. unfold ex_D.
  assert (Ia : incl [a] L) by (intros q [<-|[]]; apply I; left; reflexivity).
  assert (Na : NoDup [a]) by (repeat constructor; intros []).
  eapply (does_bind s L _ [a] L (on1 mH a) _ [[a]; [b]] L (fun psi => ctl_not [a] b (on1 mT a psi)));
    [apply (gate_does UH [a] L s); [reflexivity|exact T|exact Lv|exact Ia|exact Na|discriminate]|apply incl_refl|apply incl_refl|]. intros s1 C1 T1 L1.
  eapply (does_bind s1 L _ [a] L (on1 mT a) _ [[a]; [b]] L (ctl_not [a] b));
    [apply (gate_does UT [a] L s1); [reflexivity|exact T1|exact L1|exact Ia|exact Na|discriminate]|apply incl_refl|apply incl_refl|]. intros s2 C2 T2 L2.
  assert (N2 : NoDup [a; b]) by (repeat constructor; cbn; intuition congruence).
  destruct (part_of [a; b] L N2 (proj1 L2) I) as (rest & Pm).
  eapply does_then_quiet with (a := ([a], [b])) (L1 := L); [|intros s3 C3 T3 L3; apply quiet_ret; assumption].
  eapply does_perm; [exact Pm|exact Pm|]. apply does_frame; [eapply live_perm; [exact L2|symmetry; exact Pm]|].
  eapply does_eq; [apply C40_cnot; [exact T2| |discriminate]|intros psi; apply ctl_not_nots]. eapply live_incl; [exact L2|exact N2|exact I].
Qed.
Example C54_example : does (fresh 2) [0; 1] (ex_f [[0]; [1]]) [[0]; [1]] [0; 1] (ex_D 0 1) /\ inverses (ex_D 0 1) (ex_E 0 1) /\
  within (seq 0 2) (ex_D 0 1) /\ within (seq 0 2) (ex_E 0 1) /\
  (exists s1, ex_f [[0]; [1]] (fresh 2) = Ret [[0]; [1]] s1 /\ exists e j, In e (pipeline (bld s1)) /\ In j (fst e) /\ 2 <= S j) /\
  does ex_cond [4; 2] (ex_f [[4]; [2]]) [[4]; [2]] [4; 2] (ex_D 4 2) /\ ex_D 4 2 = embed [4; 2] (ex_D 0 1).
Proof.
  assert (Wf : Forall (wf_entry 2) [([0], mkCO 1 (OUnit UH)); ([0], mkCO 1 (OUnit UT)); ([0; 1], mkCO 2 (OUnit UCNOT))]).
  { unfold wf_entry. repeat apply Forall_cons; try apply Forall_nil; cbn; (split; [repeat constructor; cbn; intuition lia|split; [intuition lia|reflexivity]]). }
  assert (Lf : live (fresh 2) [0; 1]) by (apply fresh_live; [nd|intros q Hq; cbn in Hq; intuition lia]).
  split; [apply ex_f_does; [apply fresh_tidy|exact Lf|apply incl_refl|discriminate]|].
  split; [|split; [|split; [|split; [|split]]]].
  - intros psi. unfold ex_D, ex_E. split.
    + assert (X : forall phi, ctl_not [0] 1 (ctl_not [0] 1 phi) = phi).
      { intros phi. extensionality x. unfold ctl_not. f_equal. apply (cflip_invol [0] 1 x). cbn. intuition lia. }
      rewrite X, (on1_inv mTd mT) by apply mT_inv. apply on1_inv, mH_inv.
    + rewrite (on1_inv mH mH) by apply mH_inv. rewrite (on1_inv mT mTd) by apply mT_inv2. extensionality x. unfold ctl_not. f_equal. apply (cflip_invol [0] 1 x). cbn. intuition lia.
  - change (within (seq 0 2) (den [([0], mkCO 1 (OUnit UH)); ([0], mkCO 1 (OUnit UT)); ([0; 1], mkCO 2 (OUnit UCNOT))])).
    apply within_den. intros e [<-|[<-|[<-|[]]]] q Hq; cbn in *; intuition lia.
  - unfold ex_E. apply (within_comp _ (fun psi => on1 mTd 0 (ctl_not [0] 1 psi)) (on1 mH 0)); [apply (within_comp _ (ctl_not [0] 1) (on1 mTd 0))|].
    + apply (within_incl [0; 1]); [intros q Hq; cbn in *; tauto|]. apply (within_oden ([0; 1], mkCO 2 (OUnit UCNOT))).
    + apply (within_incl [0]); [intros q Hq; cbn in *; tauto|]. apply within_on1.
    + apply (within_incl [0]); [intros q Hq; cbn in *; tauto|]. apply within_on1.
  - eexists. split; [reflexivity|]. exists ([0; 1], mkCO 2 (OUnit UCNOT)), 1. cbn. intuition lia.
  - destruct ex_cond_ok as (_ & T & _ & Lv). apply ex_f_does; [exact T| |apply incl_refl|discriminate].
    eapply live_incl; [exact Lv|nd|]. intros q Hq. cbn in *. tauto.
  - extensionality psi. assert (N : NoDup [4; 2]) by nd.
    exact (den_ren [4; 2] N _ Wf psi).
Qed.

(** *** C66: conditioned subcircuits *)
(** Circuits of x, z, s, t and cnot objects. *)
Theorem C66_conditioned_subcircuit_partial : forall n r sc D d s, realizes n (length r) sc D -> Forall friendly sc -> 0 < d -> wrapped d (conds s) -> tidy s ->
  let K := cqs d (conds s) in live s (K ++ r) -> r <> [] ->
  does s (K ++ r) (apply_subcircuit d sc r) r (K ++ r) (controlled K (embed r D)).
Proof. intros n r sc D d s Re F Hd W T K Lv Hr. eapply cond_depth_does; eassumption. Qed.
Print Assumptions C66_conditioned_subcircuit_partial.
(** With its condition register given explicitly. *)
Theorem C66_apply_conditioned_partial : forall n r sc D d s cr, realizes n (length r) sc D -> Forall friendly sc -> wrapped d (conds s) -> tidy s -> cr <> [] ->
  let K := cr ++ cqs d (conds s) in live s (K ++ r) -> r <> [] ->
  does s (K ++ r) (apply_cond_subcircuit d sc cr r) (cr, r) (K ++ r) (controlled K (embed r D)).
Proof.
  intros n r sc D d s cr Re F W T Hc K Lv Hr. apply (cond_sub_does sc r (fun cr => controlled cr (embed r D))); try assumption.
  intros s0 cr0 Hc0 T0 L0. eapply local_cond_does; eassumption.
Qed.
Print Assumptions C66_apply_conditioned_partial.
Theorem C66_inverter_partial : forall d rs f a L' D E s s1,
  let k := length (concat rs) in let K := cqs d (conds s) in
  does (fresh k) (seq 0 k) (f (ranges 0 (map (@length nat) rs))) a L' D -> inverses D E -> within (seq 0 k) D -> within (seq 0 k) E ->
  f (ranges 0 (map (@length nat) rs)) (fresh k) = Ret a s1 -> (exists e j, In e (pipeline (bld s1)) /\ In j (fst e) /\ k <= S j) ->
  Forall friendly (pipeline (bld s1)) -> wrapped d (conds s) -> tidy s -> live s (K ++ concat rs) -> rs <> [] -> (forall r, In r rs -> r <> []) ->
  does s (K ++ concat rs) (inverter d rs f) rs (K ++ concat rs) (controlled K (embed (concat rs) E)) /\
  does s (K ++ concat rs) (inv_macro d rs f) rs (K ++ concat rs) (controlled K (embed (concat rs) E)).
Proof. intros. eapply inverter_does; try eassumption. right. assumption. Qed.
Print Assumptions C66_inverter_partial.

(** What is done for every circuit of x, y, z, h, s, t and cnot objects: the circuit with H
    replaced by [[sin 1/4, cos 1/4], [cos 1/4, - sin 1/4]] and Y by -Y, on the states where the
    condition holds. *)
Theorem C66_conditioned_subcircuit_exact : forall n r sc D d s, realizes n (length r) (cond_pipe sc) D -> Forall carried sc -> 0 < d -> wrapped d (conds s) -> tidy s ->
  let K := cqs d (conds s) in live s (K ++ r) -> r <> [] ->
  does s (K ++ r) (apply_subcircuit d sc r) r (K ++ r) (controlled K (embed r D)).
Proof. intros n r sc D d s Re F Hd W T K Lv Hr. eapply carried_depth_does; eassumption. Qed.
Print Assumptions C66_conditioned_subcircuit_exact.
Theorem C66_apply_conditioned_exact : forall n r sc D d s cr, realizes n (length r) (cond_pipe sc) D -> Forall carried sc -> wrapped d (conds s) -> tidy s -> cr <> [] ->
  let K := cr ++ cqs d (conds s) in live s (K ++ r) -> r <> [] ->
  does s (K ++ r) (apply_cond_subcircuit d sc cr r) (cr, r) (K ++ r) (controlled K (embed r D)).
Proof.
  intros n r sc D d s cr Re F W T Hc K Lv Hr. apply (cond_sub_does sc r (fun cr => controlled cr (embed r D))); try assumption.
  intros s0 cr0 Hc0 T0 L0. eapply local_carried_does; eassumption.
Qed.
Print Assumptions C66_apply_conditioned_exact.
Definition ex_carried : pipe := [([0], mkCO 1 (OUnit UH)); ([0; 1], mkCO 2 (OUnit UCNOT)); ([1], mkCO 1 (OUnit UY)); ([0], mkCO 1 (OUnit UT))].
Example C66_exact_example : realizes 2 2 (cond_pipe ex_carried) (den (cond_pipe ex_carried)) /\ Forall carried ex_carried /\
  den (cond_pipe ex_carried) = (fun psi => on1 mT 0 (on1 mnY 1 (ctl_not [0] 1 (on1 (mTilt (/ 4)) 0 psi)))) /\
  wrapped 2 (conds ex_cond) /\ tidy ex_cond /\ live ex_cond (cqs 2 (conds ex_cond) ++ [2; 4]).
Proof.
  destruct ex_cond_ok as (Wc & T & E & Lv). rewrite E.
  assert (W0 : Forall (wf_entry 2) ex_carried).
  { unfold wf_entry, ex_carried. repeat apply Forall_cons; try apply Forall_nil; cbn; (split; [repeat constructor; cbn; intuition lia|split; [intuition lia|reflexivity]]). }
  assert (F : Forall carried ex_carried) by (repeat constructor).
  destruct (cond_pipe_proper 2 ex_carried W0 F) as (W & Pr); [repeat constructor|].
  split; [|split; [exact F|split; [|tauto]]].
  - split; [lia|]. split; [exact W|]. split; [exact Pr|]. split; [exists ([0; 1], mkCO 2 (OUnit UCNOT)); cbn; tauto|]. split; [|exists 2; split; [lia|reflexivity]].
    apply within_den. intros e He q Hq. rewrite Forall_forall in W. apply in_seq. split; [lia|]. apply (W e He). exact Hq.
  - extensionality psi. cbn [cond_pipe ex_carried map fst snd cond_obj co_obj]. unfold den. cbn [fold_left fst snd]. unfold oden. cbn [co_obj].
    rewrite tilt_den, negy_den. reflexivity.
Qed.

(** One object on one qubit: the subcircuit is the object. *)
Lemma one_entry ac co t s L D : does s L (ac [t] co) [t] L D -> does s L (apply_pipeline_objects ac [([0], co)] [t]) [t] L D.
Proof.
  intros (s1 & p & H1 & H). exists s1, p. split; [|exact H].
  assert (S1 : forall s, lift (split_all [t]) s = Ret [[t]] s).
  { intros s0. unfold lift. rewrite split_all_ok; [reflexivity|repeat constructor; intros []|discriminate]. }
  unfold apply_pipeline_objects. cbv zeta. unfold mbind at 1. rewrite S1. do 7 (cbn -[split_all]; unfold mbind at 1). cbn -[split_all].
  repeat (unfold mbind at 1; cbn -[split_all lift]; rewrite ?H1, ?S1). reflexivity.
Qed.
Lemma one_cond co t D : cond_ok co [t] D -> forall s (cr : reg), cr <> [] -> tidy s -> live s (cr ++ [t]) ->
  does s (cr ++ [t]) (local_cond_subcircuit [([0], co)] cr [t]) (cr, [t]) (cr ++ [t]) (D cr).
Proof.
  intros H s cr Hc T Lv. unfold local_cond_subcircuit.
  pose proof (aco_does co [t] D H 1 (mkSt (bld s) [Some cr])) as G. cbn [conds cqs nth_error] in G. rewrite app_nil_r in G.
  destruct (one_entry (aco 1) co t (mkSt (bld s) [Some cr]) (cr ++ [t]) (D cr)) as (s1 & p & H1 & H2 & H3 & H4 & H5 & H6 & H7 & H8 & H9 & H10 & H11 & H12).
  - apply G; [lia| |exact T|exact Lv]. intros [|k] Hk; [exists cr; auto|lia].
  - exists (mkSt (bld s1) (conds s)), p. split.
    + unfold with_conds, mbind. rewrite H1. cbn [conds] in H2. unfold dissolve. rewrite H2. reflexivity.
    + split; [reflexivity|]. do 9 (split; [assumption|]). assumption.
Qed.
(** A conditioned subcircuit holding one H: condition 1, target 0, amplitude sin(1/4) instead of 1/sqrt 2. *)
Theorem C66_conditioned_h_refuted : exists s' v draws,
  under [0] (apply_subcircuit 1 [([0], mkCO 1 (OUnit UH))] [1]) (mkSt (mkB [] 2 [] 0) []) = Ret ([0], [1]) s' /\
  calculate_state_with_init (bld s') [([0], 1)] draws = Ok (v, []) /\
  nth (enc (bn (bld s')) (fun q => q =? 0)) v (RtoC 0) = RtoC (sin (/ 4)) /\ mH false false = RtoC (/ sqrt 2) /\ (sin (/ 4) < / sqrt 2)%R.
Proof.
  assert (Lf : live (fresh 2) ([0] ++ [1])) by (apply fresh_live; [nd|intros q Hq; cbn in Hq; intuition lia]).
  destruct (does_amplitudes 2 ([0] ++ [1]) (under [0] (apply_subcircuit 1 [([0], mkCO 1 (OUnit UH))] [1])) ([0], [1]) ([0] ++ [1])
    (controlled [0] (each (mTilt (/ 4)) [1])) [([0], 1)] (fun q => q =? 0) (fun _ => R0)) as (s' & v & E1 & Hn & E2 & E3).
  - apply under_does. destruct (under_hyps (fresh 2) [0] [1] eq_refl) as (W & T2 & EK & L2); [discriminate|apply fresh_tidy|exact Lf|].
    pose proof (sub_depth [([0], mkCO 1 (OUnit UH))] [1] _ (one_cond _ 1 _ (try_H 1 1)) 1 (mkSt (bld (fresh 2)) (conds (fresh 2) ++ [Some [0]]))) as H.
    rewrite EK in H. apply H; [lia|exact W|exact T2|exact L2].
  - apply range_one. lia.
  - apply loads_one.
  - exists s', v, (fun _ => R0). split; [exact E1|]. split; [exact E2|]. rewrite !E3. unfold controlled, each, on1. cbn [fold_left forallb andb Nat.eqb].
    split; [|split; [reflexivity|exact sin_quarter]].
    rewrite (ket_eq _ _ (upd _ 1 false)), (ket_ne _ _ (upd _ 1 true) 1); [|lia|discriminate|intros [|[|q]]; reflexivity]. unfold mTilt. cbn. ring.
Qed.
Print Assumptions C66_conditioned_h_refuted.
(** An Rz object turns the phase of the states where the condition is 0, too. *)
Theorem C66_conditioned_rz_exact : forall th t d s, 0 < d -> wrapped d (conds s) -> tidy s ->
  let K := cqs d (conds s) in live s (K ++ [t]) ->
  does s (K ++ [t]) (apply_subcircuit d [([0], mkCO 1 (OUnit (URz th)))] [t]) [t] (K ++ [t])
    (fun psi x => Cmult (if forallb x (K ++ [t]) then expi (angle th / 2) else expi (- (angle th / 2))) (psi x)).
Proof.
  intros th t d s Hd W T K Lv. assert (Ht : [t] <> []) by discriminate.
  apply (sub_depth _ [t] _ (one_cond _ t _ (try_Rz 1 th [t] Ht))); assumption.
Qed.
Print Assumptions C66_conditioned_rz_exact.
Example C66_example : realizes 2 2 [([1], mkCO 1 (OUnit US)); ([1; 0], mkCO 2 (OUnit UCNOT))] (den [([1], mkCO 1 (OUnit US)); ([1; 0], mkCO 2 (OUnit UCNOT))]) /\
  Forall friendly [([1], mkCO 1 (OUnit US)); ([1; 0], mkCO 2 (OUnit UCNOT))] /\ wrapped 2 (conds ex_cond) /\ tidy ex_cond /\ live ex_cond (cqs 2 (conds ex_cond) ++ [2; 4]).
Proof.
  destruct ex_cond_ok as (W & T & E & Lv). rewrite E. split; [|split; [repeat constructor|tauto]].
  assert (Wf : Forall (wf_entry 2) [([1], mkCO 1 (OUnit US)); ([1; 0], mkCO 2 (OUnit UCNOT))]).
  { unfold wf_entry. repeat apply Forall_cons; try apply Forall_nil; cbn; (split; [repeat constructor; cbn; intuition lia|split; [intuition lia|reflexivity]]). }
  split; [lia|]. split; [exact Wf|]. split; [repeat constructor|]. split; [exists ([1], mkCO 1 (OUnit US)); cbn; tauto|]. split; [|exists 2; split; [lia|reflexivity]].
  apply within_den. intros e [<-|[<-|[]]] q Hq; cbn in *; intuition lia.
Qed.
