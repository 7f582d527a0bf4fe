(** The programs of the documentation: C88-C91. *)
From Coq Require Import Reals Lra FunctionalExtensionality Permutation.
From Coquelicot Require Import Complex.
From Verif Require Import Base BitsSpec BitsProofs OpsModel OpsSpec Instances MeasureSpec BuilderModel RegProofs SimModel DenSpec DenProofs LocalProofs LinkProofs
  RunSpec RunProofs GateProofs ToffoliProofs CondProofs SubSpec SubProofs SubProofs2 SubProofs3 SubProofs5 ProgramModel ProgramSpec ProgramProofs ProgramProofs2 CircProofs CircProofs2
  ArithModel ArithSpec ArithProofs ArithProofs5 PropGates PropCond PropProgram ExampleModel CondToffProofs EndProofs3 ProjSpec WholeSpec WholeProofs WholeProofs2 WholeProofs3 EndProofs4.
Local Open Scope nat_scope.
Local Open Scope mon_scope.
Local Ltac nd := repeat constructor; cbn; intuition lia.

(** *** C88: toffoli under conditions: false with two controls; exactly: *)
Theorem C88_conditioned_toffoli_exact : forall d s a b t, 0 < d -> wrapped d (conds s) -> tidy s -> live s (cqs d (conds s) ++ [a; b; t]) ->
  let K := cqs d (conds s) in
  does s (K ++ [a; b; t]) (toffoli (aco d) [a; b] [t]) ([a; b], [t]) (K ++ [a; b; t])
    (controlled (K ++ [a; b]) (each (fun r c => Cminus (Cmult (RtoC (sin (/ 2))) (mX r c)) (Cmult (RtoC (cos (/ 2))) (mZ r c))) [t])).
Proof.
  intros d s a b t Hd W T Lv K. unfold toffoli. cbn [length toffoli_fuel Nat.eqb]. eapply does_eq; [apply basic_toffoli_cond; assumption|]. intros psi. extensionality x. fold K.
  unfold controlled, each. cbn [fold_left]. rewrite forallb_app. cbn [forallb]. rewrite andb_true_r. destruct (forallb x K); [|reflexivity]. cbn [andb]. destruct (x a && x b); [|reflexivity].
  unfold on1. f_equal; f_equal; unfold mV, mX, mZ, diag; destruct (x t); cbn; rewrite ?rn_1, ?RtoC_opp; ring.
Qed.
Print Assumptions C88_conditioned_toffoli_exact.
(** With one control it is right, at every depth. *)
Theorem C88_conditioned_toffoli_partial : forall d s c ts, 0 < d -> wrapped d (conds s) -> tidy s -> live s (cqs d (conds s) ++ c :: ts) -> ts <> [] ->
  let K := cqs d (conds s) in
  does s (K ++ c :: ts) (toffoli (aco d) [c] ts) ([c], ts) (K ++ c :: ts) (ctl_nots (K ++ [c]) ts).
Proof. intros d s c ts Hd W T Lv Hts. unfold toffoli. cbn [length toffoli_fuel Nat.eqb]. apply C47_conditioned_cnot; assumption. Qed.
Print Assumptions C88_conditioned_toffoli_partial.
(** Condition and both controls 1: the target should be flipped; it stays 0 with probability
    cos(1/2)^2, more than 3/4. *)
Lemma cos_half : (3 / 4 < cos (/ 2) * cos (/ 2))%R.
Proof.
  assert (H : (7 / 8 <= cos (/ 2))%R).
  { pose proof (pre_cos_bound (/ 2) 0) as X. destruct X as (X & _); [lra|lra|]. unfold cos_approx, cos_term in X. cbn in X. lra. }
  nra.
Qed.
Theorem C88_conditioned_toffoli_refuted : exists s' v draws,
  under [0] (toffoli (aco 1) [1; 2] [3]) (mkSt (mkB [] 4 [] 0) []) = Ret ([0], ([1; 2], [3])) s' /\
  calculate_state_with_init (bld s') [([0; 1; 2], 7)] draws = Ok (v, []) /\
  nth (enc (bn (bld s')) (fun q => q <? 3)) v (RtoC 0) = RtoC (- cos (/ 2)) /\ (3 / 4 < cos (/ 2) * cos (/ 2))%R.
Proof.
  assert (Lf : live (fresh 4) ([0] ++ [1; 2; 3])) by (apply fresh_live; [nd|intros q Hq; cbn in Hq; intuition lia]).
  destruct (does_amplitudes 4 ([0] ++ [1; 2; 3]) (under [0] (toffoli (aco 1) [1; 2] [3])) ([0], ([1; 2], [3])) ([0] ++ [1; 2; 3])
    (controlled [0] (tilted 1 2 3)) [([0; 1; 2], 7)] (fun q => q <? 3) (fun _ => R0)) as (s' & v & E1 & Hn & E2 & E3).
  - apply under_does. destruct (under_hyps (fresh 4) [0] [1; 2; 3] eq_refl) as (W & T2 & EK & L2); [discriminate|apply fresh_tidy|exact Lf|].
    pose proof (basic_toffoli_cond 1 (mkSt (bld (fresh 4)) (conds (fresh 4) ++ [Some [0]])) 1 2 3) as H. rewrite EK in H. apply H; [lia|exact W|exact T2|exact L2].
  - intros r v [E|[]]; inversion E; subst. intros p Hp. cbn in Hp. intuition lia.
  - split.
    + intros r v [E|[]]; inversion E; subst. intros [|[|[|j]]] Hj; cbn in *; try reflexivity; lia.
    + intros p Hp. destruct (Nat.ltb_spec p 3) as [X|X]; [|reflexivity]. exfalso. apply (Hp [0; 1; 2] 7); [left; reflexivity|]. cbn. lia.
  - exists s', v, (fun _ => R0). split; [exact E1|]. split; [exact E2|]. split; [|exact cos_half]. rewrite !E3. unfold controlled, tilted, on1.
    change (forallb (fun q => q <? 3) [0]) with true. change ((1 <? 3) && (2 <? 3)) with true. cbv iota. change (3 <? 3) with false.
    rewrite (ket_eq _ _ (upd _ 3 false)), (ket_ne _ _ (upd _ 3 true) 3); [|lia|discriminate|intros [|[|[|[|q]]]]; reflexivity]. unfold mV. cbn. ring.
Qed.
Print Assumptions C88_conditioned_toffoli_refuted.
Definition ex8 : st := mkSt (mkB [] 8 [[1]] 0) [Some [0; 3]; Some [5]].
Example C88_example : 0 < 2 /\ wrapped 2 (conds ex8) /\ tidy ex8 /\ cqs 2 (conds ex8) = [5; 0; 3] /\ live ex8 (cqs 2 (conds ex8) ++ [2; 4; 7]).
Proof.
  split; [lia|]. split; [intros [|[|k]] Hk; [exists [0; 3]; split; [reflexivity|discriminate]|exists [5]; split; [reflexivity|discriminate]|lia]|].
  split; [split; [repeat constructor|]; split; [nd|intros q [<-|[]]; cbn; lia]|]. split; [reflexivity|].
  split; [nd|]. intros q Hq [X|[<-|[]]]; cbn in *; intuition lia.
Qed.

(** *** C89: the program of the documentation *)
Section Doc.
Context (a0 a1 a2 : nat) (ra' : list nat) (b0 : nat) (rb' : list nat).
Notation ra := (a0 :: a1 :: a2 :: ra').
Notation rb := (b0 :: rb').
Context (N : NoDup (ra ++ rb)).
Lemma N5 : NoDup ([a0; a1; a2] ++ rb).
Proof.
  eapply Permutation_NoDup with (l := rb ++ [a0; a1; a2]); [apply Permutation_app_comm|].
  assert (X : NoDup ((rb ++ [a0; a1; a2]) ++ ra')); [|apply NoDup_app_iff in X; apply X].
  eapply Permutation_NoDup; [|exact N]. rewrite <- app_assoc. rewrite (Permutation_app_comm ra rb). reflexivity.
Qed.
Lemma N3 : NoDup [a0; a1; a2].
Proof. pose proof N5 as X. apply NoDup_app_iff in X. apply X. Qed.
Lemma N4 : NoDup [a0; a1; a2; b0].
Proof.
  pose proof N5 as X. change (NoDup ([a0; a1; a2] ++ [b0] ++ rb')) in X. rewrite app_assoc in X. apply NoDup_app_iff in X. apply X.
Qed.
Lemma ok_two f : line_ok [ra; rb] (on_two f).
Proof.
  pose proof N3 as X. split; [|split].
  - cbn [on_two l_args]. repeat apply Forall_cons; try apply Forall_nil; split; cbn; try lia; intros i Hi; intuition lia.
  - cbn. repeat constructor; discriminate.
  - cbn. exact X.
Qed.
Lemma doc_acts : Forall (fun p => line_acts 0 [ra; rb] (fst p) (snd p))
  [(on_two gamma, gam [a0; a1] [a2]); (mkLine None gamma [[(0, Some [0]); (1, Some [0])]; [(0, Some [2])]], gam [a0; b0] [a2]);
   (mkLine None gamma [[(0, Some [0])]; [(1, Some [0]); (0, Some [2])]], gam [a0] [b0; a2]); (doc_control, gamT a0 a1 a2); (doc_control_mask, gamT a0 a1 a2)].
Proof.
  pose proof N3 as X3. pose proof N4 as X4. pose proof N5 as X5.
  assert (P1 : NoDup [a0; b0; a2]) by (clear - X4; rewrite !NoDup_cons_iff in *; cbn [In] in *; intuition congruence).
  assert (P2 : NoDup [a0; b0; a2]) by exact P1.
  assert (P5 : NoDup (rb ++ [a0; a1; a2])) by (eapply Permutation_NoDup; [|exact X5]; apply Permutation_app_comm).
  repeat apply Forall_cons; try apply Forall_nil; cbn [fst snd]; (split; [|split; [cbn; congruence|]]).
  - apply ok_two.
  - cbn. apply gamma_acts0; [exact X3|discriminate|discriminate|right; reflexivity].
  - split; [|split; [cbn; repeat constructor; discriminate|cbn; exact P1]]. cbn [l_args]. repeat apply Forall_cons; try apply Forall_nil; split; cbn; try lia; intros i Hi; intuition lia.
  - cbn. apply gamma_acts0; [exact P1|discriminate|discriminate|right; reflexivity].
  - split; [|split; [cbn; repeat constructor; discriminate|cbn; exact P1]]. cbn [l_args]. repeat apply Forall_cons; try apply Forall_nil; split; cbn; try lia; intros i Hi; intuition lia.
  - cbn. apply gamma_acts0; [exact P1|discriminate|discriminate|left; reflexivity].
  - split; [|split; [cbn; repeat constructor; discriminate|cbn; rewrite app_nil_r; exact P5]]. cbn [doc_control l_args]. repeat apply Forall_cons; try apply Forall_nil; split; cbn; try lia; try exact I; intros i Hi; intuition lia.
  - cbn. apply gamma_actsS; [lia|exact X3].
  - split; [|split; [cbn; repeat constructor; discriminate|cbn; rewrite app_nil_r; exact P5]]. cbn [doc_control_mask l_args]. repeat apply Forall_cons; try apply Forall_nil; split; cbn; try lia; try exact I; intros i Hi; intuition lia.
  - cbn. apply gamma_actsS; [lia|exact X3].
Qed.
End Doc.

(** [gamma] on [ra] and [rb]: flip [rb] where [ra] is all ones, then [ra] where [rb] is. *)
Definition gamma_of (ra rb : list nat) (psi : state) : state := ctl_nots rb ra (ctl_nots ra rb psi).
(** What is done under a condition instead. *)
Definition gamma_tilted (a b t : nat) (psi : state) : state :=
  ctl_nots [t] [a; b] (controlled [a; b] (each (fun r c => Cminus (Cmult (RtoC (sin (/ 2))) (mX r c)) (Cmult (RtoC (cos (/ 2))) (mZ r c))) [t]) psi).
Lemma gamT_tilted a b t psi : gamT a b t psi = gamma_tilted a b t psi.
Proof.
  unfold gamT, gamma_tilted. f_equal. extensionality x. unfold tilted, controlled, each. cbn [forallb fold_left]. rewrite andb_true_r. destruct (x a && x b); [|reflexivity].
  unfold on1. f_equal; f_equal; unfold mV, mX, mZ, diag; destruct (x t); cbn; rewrite ?rn_1, ?RtoC_opp; ring.
Qed.
(** The lines without control do what the comments say, for registers of any sizes. *)
Theorem C89_documented_lines_partial : forall a0 a1 a2 ra' b0 rb' s, let ra := a0 :: a1 :: a2 :: ra' in let rb := b0 :: rb' in
  conds s = [] -> tidy s -> live s (ra ++ rb) ->
  does s (ra ++ rb) (program 0 [ra; rb] doc_plain) [ra; rb] (ra ++ rb)
    (fun psi => gamma_of [a0] [b0; a2] (gamma_of [a0; b0] [a2] (gamma_of [a0; a1] [a2] psi))).
Proof.
  intros a0 a1 a2 ra' b0 rb' s ra rb E T Lv. pose proof (doc_acts a0 a1 a2 ra' b0 rb' (proj1 Lv)) as F. fold ra rb in F.
  assert (EC : concat [ra; rb] = ra ++ rb) by (cbn [concat]; rewrite app_nil_r; reflexivity).
  assert (F3 : Forall (fun p => line_acts 0 [ra; rb] (fst p) (snd p)) [(on_two gamma, gam [a0; a1] [a2]); (mkLine None gamma [[(0, Some [0]); (1, Some [0])]; [(0, Some [2])]], gam [a0; b0] [a2]);
    (mkLine None gamma [[(0, Some [0])]; [(1, Some [0]); (0, Some [2])]], gam [a0] [b0; a2])]).
  { rewrite Forall_forall in *. intros l Hl. apply F. cbn [In] in *. tauto. }
  match type of F3 with Forall _ ?l => pose proof (C60_program 0 [ra; rb] l s) as X end. cbn [cqs app] in X. rewrite EC in X. eapply does_eq; [apply X; [| |exact F3| | |]|].
  - apply Lv.
  - repeat constructor; discriminate.
  - split; [rewrite E; reflexivity|intros j Hj; lia].
  - exact T.
  - exact Lv.
  - intros psi. rewrite controlled_nil. reflexivity.
Qed.
Print Assumptions C89_documented_lines_partial.
(** The whole program, exactly. *)
Theorem C89_documented_program_exact : forall a0 a1 a2 ra' b0 rb' s, let ra := a0 :: a1 :: a2 :: ra' in let rb := b0 :: rb' in
  conds s = [] -> tidy s -> live s (ra ++ rb) ->
  does s (ra ++ rb) (doc_program ra rb) [ra; rb] (ra ++ rb)
    (fun psi => selected rb 6 (gamma_tilted a0 a1 a2) (controlled rb (gamma_tilted a0 a1 a2)
      (gamma_of [a0] [b0; a2] (gamma_of [a0; b0] [a2] (gamma_of [a0; a1] [a2] psi))))).
Proof.
  intros a0 a1 a2 ra' b0 rb' s ra rb E T Lv. pose proof (doc_acts a0 a1 a2 ra' b0 rb' (proj1 Lv)) as F. fold ra rb in F.
  assert (EC : concat [ra; rb] = ra ++ rb) by (cbn [concat]; rewrite app_nil_r; reflexivity).
  match type of F with Forall _ ?l => pose proof (C60_program 0 [ra; rb] l s) as X end. cbn [cqs app] in X. rewrite EC in X.
  eapply does_eq; [apply X; [| |exact F| | |]|].
  - apply Lv.
  - repeat constructor; discriminate.
  - split; [rewrite E; reflexivity|intros j Hj; lia].
  - exact T.
  - exact Lv.
  - intros psi. rewrite controlled_nil. replace (gamma_tilted a0 a1 a2) with (gamT a0 a1 a2) by (extensionality phi; apply gamT_tilted).
    cbn [lines_op line_op call_op doc_control doc_control_mask l_ctl l_args line_regs map gather concat arg_qubits hd fst snd nth]. unfold line_op, call_op, line_regs, gather, arg_qubits. cbn [l_ctl l_args doc_control doc_control_mask on_two map concat hd fst snd nth].
    rewrite app_nil_r. reflexivity.
Qed.
Print Assumptions C89_documented_program_exact.
(** "Applies gamma to |ra[0] ra[1]>|ra[2]> if rb == |111>": from |110>|111> this gives |001>|111>; the
    simulation gives it with probability below 1/4. *)
Lemma sin_half : (sin (/ 2) * sin (/ 2) < / 4)%R.
Proof. pose proof cos_half. pose proof (sin2_cos2 (/ 2)) as S. unfold Rsqr in S. lra. Qed.
Theorem C89_documented_control_refuted : exists s' v draws,
  program 0 [[0; 1; 2]; [3; 4; 5]] [doc_control] (mkSt (mkB [] 6 [] 0) []) = Ret [[0; 1; 2]; [3; 4; 5]] s' /\
  calculate_state_with_init (bld s') [([0; 1; 2], 3); ([3; 4; 5], 7)] draws = Ok (v, []) /\
  nth (enc (bn (bld s')) (fun q => (2 <=? q) && (q <? 6))) v (RtoC 0) = RtoC (sin (/ 2)) /\ (sin (/ 2) * sin (/ 2) < / 4)%R.
Proof.
  assert (Lf : live (fresh 6) ([0; 1; 2] ++ [3; 4; 5])) by (apply fresh_live; [nd|intros q Hq; cbn in Hq; intuition lia]).
  set (x := fun q => (q <? 6) && negb (q =? 2)).
  destruct (does_amplitudes 6 ([0; 1; 2] ++ [3; 4; 5]) (program 0 [[0; 1; 2]; [3; 4; 5]] [doc_control]) [[0; 1; 2]; [3; 4; 5]] ([0; 1; 2] ++ [3; 4; 5])
    (controlled [3; 4; 5] (gamT 0 1 2)) [([0; 1; 2], 3); ([3; 4; 5], 7)] x (fun _ => R0)) as (s' & v & E1 & Hn & E2 & E3).
  - pose proof (doc_acts 0 1 2 [] 3 [4; 5] (proj1 Lf)) as F. rewrite Forall_forall in F. specialize (F (doc_control, gamT 0 1 2) ltac:(cbn [In]; tauto)). cbn [fst snd] in F.
    pose proof (C60_program 0 [[0; 1; 2]; [3; 4; 5]] [(doc_control, gamT 0 1 2)] (fresh 6)) as X. cbn [cqs concat app map fst] in X. eapply does_eq; [apply X|].
    + nd.
    + repeat constructor; discriminate.
    + apply Forall_cons; [exact F|apply Forall_nil].
    + apply fresh_depth.
    + apply fresh_tidy.
    + exact Lf.
    + intros psi. rewrite controlled_nil. reflexivity.
  - intros r v [E|[E|[]]]; inversion E; subst; intros p Hp; cbn in Hp; intuition lia.
  - split.
    + intros r v [E|[E|[]]]; inversion E; subst; intros [|[|[|j]]] Hj; cbn in *; try reflexivity; lia.
    + intros p Hp. unfold x. destruct (Nat.ltb_spec p 6) as [X|X]; [|reflexivity]. exfalso. destruct (Nat.lt_ge_cases p 3).
      * apply (Hp [0; 1; 2] 3); [left; reflexivity|]. cbn. lia.
      * apply (Hp [3; 4; 5] 7); [right; left; reflexivity|]. cbn. lia.
  - exists s', v, (fun _ => R0). split; [exact E1|]. split; [exact E2|]. split; [|exact sin_half]. rewrite !E3. set (y := fun q => (2 <=? q) && (q <? 6)).
    unfold controlled. change (forallb y [3; 4; 5]) with true. cbv iota. unfold gamT, ctl_nots. change (forallb y [2]) with true. cbv iota. unfold tilted. change (flips [0; 1] y 0 && flips [0; 1] y 1) with true. cbv iota.
    unfold on1. change (flips [0; 1] y 2) with true.
    rewrite (ket_eq _ _ (upd _ 2 false)), (ket_ne _ _ (upd _ 2 true) 2); [|lia|discriminate|intros [|[|[|[|[|[|q]]]]]]; reflexivity]. unfold mV. cbn. ring.
Qed.
Print Assumptions C89_documented_control_refuted.
Example C89_example : conds (fresh 6) = [] /\ tidy (fresh 6) /\ live (fresh 6) ([0; 1; 2] ++ [3; 4; 5]).
Proof. split; [reflexivity|]. split; [apply fresh_tidy|]. apply fresh_live; [nd|intros q Hq; cbn in Hq; intuition lia]. Qed.

(** *** C90: the inverse example, and the extra argument *)
Lemma two_lines a0 a1 a2 ra' rb s f g D E : let ra := a0 :: a1 :: a2 :: ra' in rb <> [] ->
  conds s = [] -> tidy s -> live s (ra ++ rb) -> acts 0 f [[a0; a1]; [a2]] D -> acts 0 g [[a0; a1]; [a2]] E ->
  does s (ra ++ rb) (program 0 [ra; rb] [on_two f; on_two g]) [ra; rb] (ra ++ rb) (fun psi => E (D psi)).
Proof.
  intros ra Hb Ec T Lv A B. destruct rb as [|b0 rb']; [congruence|]. set (rb := b0 :: rb') in *.
  assert (EC : concat [ra; rb] = ra ++ rb) by (cbn [concat]; rewrite app_nil_r; reflexivity).
  pose proof (C60_program 0 [ra; rb] [(on_two f, D); (on_two g, E)] s) as X. cbn [cqs app] in X. rewrite EC in X. eapply does_eq; [apply X|].
  - apply Lv.
  - repeat constructor; discriminate.
  - pose proof (ok_two a0 a1 a2 ra' b0 rb' (proj1 Lv)) as O. repeat apply Forall_cons; try apply Forall_nil; cbn [fst snd]; (split; [apply O|split; [cbn; congruence|assumption]]).
  - split; [rewrite Ec; reflexivity|intros j Hj; lia].
  - exact T.
  - exact Lv.
  - intros psi. rewrite controlled_nil. reflexivity.
Qed.
Lemma nd3 a0 a1 a2 (ra' rb : list nat) : NoDup ((a0 :: a1 :: a2 :: ra') ++ rb) -> NoDup ([a0; a1] ++ [a2]).
Proof. intros N. change (NoDup ([a0; a1; a2] ++ (ra' ++ rb))) in N. apply NoDup_app_iff in N. apply N. Qed.
Theorem C90_inverse : forall a0 a1 a2 ra' rb s, let ra := a0 :: a1 :: a2 :: ra' in rb <> [] -> conds s = [] -> tidy s -> live s (ra ++ rb) ->
  does s (ra ++ rb) (doc_inverse ra rb) [ra; rb] (ra ++ rb) (fun psi => psi) /\
  does s (ra ++ rb) (doc_skip_inverse ra rb) [ra; rb] (ra ++ rb) (fun psi => psi).
Proof.
  intros a0 a1 a2 ra' rb s ra Hb Ec T Lv. pose proof (nd3 a0 a1 a2 ra' rb (proj1 Lv)) as N.
  assert (A1 : acts 0 (gamma_skip true) [[a0; a1]; [a2]] (eff (gam_c true [[a0; a1]; [a2]]))).
  { eapply acts_eq; [apply gamma_skip_acts; [exact N|discriminate|discriminate|right; reflexivity]|]. intros psi. symmetry. apply eff_gam. exact N. }
  assert (A2 : acts 0 (gamma_skip_inv true) [[a0; a1]; [a2]] (eff (rev (gam_c true [[a0; a1]; [a2]])))) by (apply gamma_skip_inv_acts; [exact N|discriminate|discriminate|right; reflexivity]).
  assert (Ck : cok [a0; a1; a2] (gam_c true [[a0; a1]; [a2]])).
  { destruct (dj_sym _ _ N) as (D1 & D2). cbn [gam_c]. apply cok_app; apply cok_nots; try assumption; intros q; cbn [app In]; tauto. }
  assert (Id : forall psi, eff (rev (gam_c true [[a0; a1]; [a2]])) (eff (gam_c true [[a0; a1]; [a2]]) psi) = psi).
  { intros psi. extensionality y. unfold eff. rewrite rev_involutive. f_equal. eapply run_rev. exact Ck. }
  split; (eapply does_eq; [apply two_lines; try assumption|exact Id]).
  - exact (acts_fun 0 (gamma_skip true) gamma _ _ (fun _ => eq_refl) A1).
  - exact (acts_fun 0 (gamma_skip_inv true) gamma_inv _ _ (fun _ => eq_refl) A2).
  - exact A1.
  - exact A2.
Qed.
Print Assumptions C90_inverse.
(** [gamma(true)], then [gamma(0 == 1)]: the argument reaches the function. *)
Theorem C90_arguments : forall a0 a1 a2 ra' rb s, let ra := a0 :: a1 :: a2 :: ra' in rb <> [] -> conds s = [] -> tidy s -> live s (ra ++ rb) ->
  does s (ra ++ rb) (doc_skip ra rb) [ra; rb] (ra ++ rb) (fun psi => ctl_nots [a0; a1] [a2] (gamma_of [a0; a1] [a2] psi)).
Proof.
  intros a0 a1 a2 ra' rb s ra Hb Ec T Lv. pose proof (nd3 a0 a1 a2 ra' rb (proj1 Lv)) as N.
  apply (two_lines a0 a1 a2 ra' rb s (gamma_skip true) (gamma_skip false) (gamma_of [a0; a1] [a2]) (ctl_nots [a0; a1] [a2])); try assumption.
  - apply (gamma_skip_acts true); [exact N|discriminate|discriminate|right; reflexivity].
  - apply (gamma_skip_acts false); [exact N|discriminate|discriminate|right; reflexivity].
Qed.
Print Assumptions C90_arguments.
(** The inverse is not trivial: gamma changes states, and all registers where one part has one
    qubit are undone. *)
Theorem C90_inverse_any_split : forall skip ra rb s, conds s = [] -> tidy s -> live s (ra ++ rb) -> ra <> [] -> rb <> [] -> length ra = 1 \/ length rb = 1 ->
  does s (ra ++ rb) (gamma_skip skip 0 [ra; rb]) [ra; rb] (ra ++ rb) (if skip then gamma_of ra rb else ctl_nots ra rb) /\
  does s (ra ++ rb) (rs <- gamma_skip skip 0 [ra; rb] ;; gamma_skip_inv skip 0 rs) [ra; rb] (ra ++ rb) (fun psi => psi).
Proof.
  intros skip ra rb s Ec T Lv Ha Hb H. pose proof (proj1 Lv) as N. destruct (gamma_skip_acts skip ra rb N Ha Hb H) as (_ & A). destruct (gamma_skip_inv_acts skip ra rb N Ha Hb H) as (_ & B).
  cbn [concat cqs app] in A, B. rewrite app_nil_r in A, B.
  assert (D0 : forall s, conds s = [] -> at_depth 0 s) by (intros s1 C; split; [rewrite C; reflexivity|intros j Hj; lia]).
  split.
  - eapply does_eq; [apply A; [apply D0; exact Ec|exact T|exact Lv]|]. intros psi. rewrite controlled_nil. destruct skip; reflexivity.
  - eapply does_eq; [eapply does_bind; [apply A; [apply D0; exact Ec|exact T|exact Lv]|apply incl_refl|apply incl_refl|]|].
    + intros s1 C1 T1 L1. apply B; [apply D0; congruence|exact T1|exact L1].
    + intros psi. cbv beta. rewrite !controlled_nil. rewrite <- (eff_gam skip ra rb psi N). extensionality y. unfold eff. rewrite rev_involutive. f_equal. eapply (run_rev (ra ++ rb)).
      destruct (dj_sym _ _ N) as (D1 & D2). cbn [gam_c]. apply cok_app; [apply cok_nots; [apply incl_refl|exact D1]|]. destruct skip; [apply cok_nots; [apply in_swap|exact D2]|constructor].
Qed.
Print Assumptions C90_inverse_any_split.
Example C90_example : tidy (fresh 6) /\ live (fresh 6) ([0; 1; 2] ++ [3; 4; 5]) /\ gamma_of [0; 1] [2] (ket 3 (fun q => q <? 2)) <> ket 3 (fun q => q <? 2).
Proof.
  split; [apply fresh_tidy|]. split; [apply fresh_live; [nd|intros q Hq; cbn in Hq; intuition lia]|]. intros E. apply (f_equal (fun f => f (fun q => q <? 2))) in E. revert E.
  change (gamma_of [0; 1] [2] (ket 3 (fun q => q <? 2)) (fun q => q <? 2)) with (ket 3 (fun q => q <? 2) (flips [2] (fun q => q <? 2))).
  rewrite (ket_eq _ _ (fun q => q <? 2)), (ket_ne _ _ (flips [2] _) 2); [|lia|discriminate|reflexivity]. intros E. apply (f_equal fst) in E. cbn in E. lra.
Qed.

(** *** C91: examples/simple.rs.  The probabilities printed are those of the Bell state. *)
Definition simple_pipe : pipe := [([0], mkCO 1 (OUnit UH)); ([0; 1], mkCO 2 (OUnit UCNOT)); ([0; 1], mkCO 2 (OMeas MStoch))].
Definition simple_end : st := mkSt (mkB simple_pipe 2 [] 1) [].
Lemma simple_ends : simple (mkSt empty_builder []) = Ret ([0; 1], 0) simple_end.
Proof. vm_compute. reflexivity. Qed.
Definition plus : state := on1 mH 0 (ket 2 (fun _ => false)).
Lemma plus_at x : plus x = (if x 1 then RtoC 0 else RtoC (/ sqrt 2)).
Proof.
  assert (K : forall y : bs, ket 2 (fun _ => false) y = (if y 0 || y 1 then RtoC 0 else RtoC 1)).
  { intros y. unfold ket, enc, be. cbn. destruct (y 0), (y 1); reflexivity. }
  unfold plus, on1. rewrite !K. cbn. unfold mH. cbn. destruct (x 0), (x 1); cbn; ring.
Qed.
Lemma simple_run draws : exists v, calculate_state (bld simple_end) draws = Ok (v, [RStochastic [/ 2; 0; 0; / 2]%R]) /\ length v = 4 /\ st_of CN 2 v = plus.
Proof.
  destruct (run_exact (bld simple_end) [] (fun _ => false) draws) as (v & ms & last & Ec & Lv & St).
  - intros ? ? [].
  - split; [intros ? ? []|reflexivity].
  - assert (N1 : NoDup [0]) by nd. assert (N2 : NoDup [0; 1]) by nd. assert (R1 : in_range 2 [0]) by (intros q [<-|[]]; lia). assert (R2 : in_range 2 [0; 1]) by (intros q [<-|[<-|[]]]; lia).
    cbn. constructor; [split; [exact N1|split; [exact R1|reflexivity]]|]. constructor; [split; [exact N2|split; [exact R2|reflexivity]]|]. constructor; [split; [exact N2|split; [exact R2|exact I]]|]. constructor.
  - cbn [bld simple_end bn pipeline] in *. set (bell := ctl_not [0] 1 plus).
    assert (S2 : steps 2 draws (mkSim (ket 2 (fun _ => false)) (fun _ => RtoC 0) []) simple_pipe
      (mkSim plus bell ([] ++ [RStochastic (map (fun m => prob_of 2 [0; 1] m bell) (seq 0 (2 ^ length [0; 1])))]))).
    { econstructor; [apply step_gate; discriminate|]. econstructor; [apply step_gate; discriminate|]. econstructor; [apply step_stoch|]. constructor. }
    pose proof (steps_det 2 draws _ _ _ St _ S2) as X. injection X as X1 _ X2. exists v. split; [|split; [exact Lv|exact X1]].
    refine (eq_trans Ec _). rewrite X2. do 2 f_equal. cbn [app]. do 2 f_equal.
    assert (B : forall x, bell x = (if Bool.eqb (x 0) (x 1) then RtoC (/ sqrt 2) else RtoC 0)).
    { intros x. unfold bell, ctl_not. rewrite !plus_at. unfold cflip. cbn [forallb]. destruct (x 0); unfold flip, upd; cbn; destruct (x 1); reflexivity. }
    assert (Q : (Cmod (RtoC (/ sqrt 2)) ^ 2 = / 2)%R).
    { rewrite Cmod_R, <- Rsqr_pow2, <- Rsqr_abs, Rsqr_inv', Rsqr_sqrt by (try lra; apply Rgt_not_eq, sqrt_lt_R0; lra). reflexivity. }
    assert (Q0 : (Cmod (RtoC 0) ^ 2 = 0)%R) by (rewrite Cmod_0; ring).
    unfold prob_of. cbn [length Nat.pow Nat.mul Nat.add seq map rsum fold_right]. rewrite !B. unfold shows, dec. cbn -[pow Cmod RtoC sqrt Rinv Rplus]. change (0 <? 2) with true. change (1 <? 2) with true. cbn -[pow Cmod RtoC sqrt Rinv Rplus]. rewrite Q, ?Q0. repeat f_equal; ring.
Qed.
Theorem C91_simple_probabilities : exists s, simple (mkSt empty_builder []) = Ret ([0; 1], 0) s /\
  forall draws, exists v ms, calculate_state (bld s) draws = Ok (v, ms) /\ get_stochastic_measurement ms 0 = Ok [/ 2; 0; 0; / 2]%R.
Proof. exists simple_end. split; [exact simple_ends|]. intros draws. destruct (simple_run draws) as (v & E & _). exists v. eexists. split; [exact E|reflexivity]. Qed.
Print Assumptions C91_simple_probabilities.
(** The state printed is not the Bell state those probabilities are from: the controlled not is
    undone, whatever the draws. *)
Theorem C91_simple_state_refuted : exists s, simple (mkSt empty_builder []) = Ret ([0; 1], 0) s /\
  forall draws, exists ms, calculate_state (bld s) draws = Ok ([RtoC (/ sqrt 2); RtoC 0; RtoC (/ sqrt 2); RtoC 0], ms).
Proof.
  exists simple_end. split; [exact simple_ends|]. intros draws. destruct (simple_run draws) as (v & E & Lv & Es). eexists. rewrite E. do 2 f_equal.
  assert (V : forall i, i < 4 -> nth i v (RtoC 0) = plus (dec 2 i)).
  { intros i Hi. rewrite <- Es. unfold st_of. rewrite enc_dec by exact Hi. reflexivity. }
  destruct v as [|v0 [|v1 [|v2 [|v3 [|? ?]]]]]; cbn in Lv; try discriminate. pose proof (V 0) as V0. pose proof (V 1) as V1. pose proof (V 2) as V2. pose proof (V 3) as V3.
  rewrite plus_at in V0, V1, V2, V3. cbn in V0, V1, V2, V3. rewrite V0, V1, V2, V3 by lia. reflexivity.
Qed.
Print Assumptions C91_simple_state_refuted.
(** Without the last line the state is the Bell state. *)
Example C91_example : forall x, den (removelast simple_pipe) (ket 2 (fun _ => false)) x = (if Bool.eqb (x 0) (x 1) then RtoC (/ sqrt 2) else RtoC 0).
Proof.
  intros x. change (den (removelast simple_pipe) (ket 2 (fun _ => false))) with (ctl_not [0] 1 plus). unfold ctl_not. rewrite !plus_at. unfold cflip. cbn [forallb].
  destruct (x 0); unfold flip, upd; cbn; destruct (x 1); reflexivity.
Qed.
