(** Temporaries: C100, and toffoli with three controls under conditions (C88). *)
From Coq Require Import Reals Lra FunctionalExtensionality Permutation.
From Coquelicot Require Import Complex.
From Verif Require Import Base BitsSpec BitsProofs OpsModel OpsSpec Instances BuilderModel HistorySpec MeasureSpec RunSpec RunProofs SimModel DenSpec SimSpec SimProofs DenProofs LinkProofs GateProofs CondProofs TraceProofs ProjSpec WholeSpec
  ShapeSpec AwaySpec ArithSpec EndProofs3 PropCond PropDoc PropHist TempSpec TempProofs TempProofs2 TempProofs3 TempProofs4 Toff3Proofs.
Local Open Scope nat_scope.
Local Ltac nd := repeat constructor; cbn; intuition lia.

(** *** C88 with three controls: exactly what is done to the controls, the target and the temporary, which goes
    to the pool with whatever state it has then. *)
Definition tilt1 (K : list nat) (t : nat) : state -> state :=
  controlled K (each (fun r c => Cminus (Cmult (RtoC (sin (/ 2))) (mX r c)) (Cmult (RtoC (cos (/ 2))) (mZ r c))) [t]).
Theorem C88_conditioned_toffoli_three_exact : forall d s a b c t, 0 < d -> wrapped d (conds s) -> tidy s -> live s (cqs d (conds s) ++ [a; b; c; t]) ->
  let K := cqs d (conds s) in
  exists q s0 s' p, make_zeroed_temp_qubit s = Ret [q] s0 /\ ~ In q (K ++ [a; b; c; t]) /\ toffoli (aco d) [a; b; c] [t] s = Ret ([a; b; c], [t]) s' /\
    conds s' = conds s /\ pipeline (bld s') = pipeline (bld s) ++ p /\ In q (pool s') /\
    forall psi, (forall i, idle s i -> i < bn (bld s') -> clean [i] psi) -> den p psi = tilt1 (K ++ [a; b]) q (tilt1 (K ++ [c; q]) t (tilt1 (K ++ [a; b]) q psi)).
Proof.
  intros d s a b c t Hd W T Lv K. destruct (toffoli3_cond d s a b c t Hd W T Lv) as (q & (Iq & s0 & E0) & Nq & s' & p & E & C & _ & _ & Ep & _ & _ & _ & _ & _ & Hq & H).
  exists q, s0, s', p. do 6 (split; [assumption|]). intros psi Hp. rewrite (H psi Hp). unfold toff3. fold K.
  assert (X : forall i j k, controlled K (tilted i j k) = tilt1 (K ++ [i; j]) k).
  { intros i j k. extensionality f. extensionality x. unfold tilt1, controlled, each, tilted. cbn [fold_left]. rewrite forallb_app. cbn [forallb]. rewrite andb_true_r. destruct (forallb x K); [|reflexivity]. cbn [andb].
    destruct (x i && x j); [|reflexivity]. unfold on1. f_equal; f_equal; unfold mV, mX, mZ, diag; destruct (x k); cbn; rewrite ?rn_1, ?RtoC_opp; ring. }
  rewrite !X. reflexivity.
Qed.
Print Assumptions C88_conditioned_toffoli_three_exact.
Example C88_three_example : 0 < 2 /\ wrapped 2 (conds ex8) /\ tidy ex8 /\ live ex8 (cqs 2 (conds ex8) ++ [2; 4; 7; 6]).
Proof. destruct C88_example as (A & B & C & _). do 3 (split; [assumption|]). split; [nd|]. intros q Hq [X|[<-|[]]]; cbn in *; intuition lia. Qed.

(** *** C100 *)
Theorem C100_temporaries_zero_partial : forall cl c cl' t it x, let n := bn (bld (fst cl')) in
  honest n x cl -> c = CMakeTemp \/ (exists k, c = CMakeTemps k) -> do_call cl c [] = Some cl' -> snd cl' = snd cl ++ [t] ->
  (forall i, bn (bld (fst cl)) <= i < n -> x i = false) -> (forall r v, In (r, v) it -> in_range n r) -> loads it x ->
  Forall unitary_entry (pipeline (bld (fst cl'))) -> Forall gate_or_meas (pipeline (bld (fst cl'))) ->
  (forall draws, (forall j, (0 < draws j <= 1)%R) -> exists v out, calculate_state_with_init (bld (fst cl')) it draws = Ok (v, out) /\
     forall y q, In q t -> y q = true -> nth (enc n y) v (RtoC 0) = RtoC 0) /\
  exists h s, measure_single t (fst cl') = Ret (t, h) s /\
    forall ms m, Forall2 (fun qs m => m < 2 ^ length qs) (measured (pipeline (bld (fst cl')))) ms -> 0 < m < 2 ^ length t ->
      over_draws (length (ms ++ [m])) (fun d => gives (calculate_state_with_init (bld s) it d) (ms ++ [m])) 0%R.
Proof.
  intros cl c cl' t it x n H Hc HC E Hx R Lo U G. pose proof (zero_given n x cl c cl' t H Hc HC E (le_n _) Hx) as Z.
  assert (H' : history cl').
  { eapply history_call; [eapply honest_history; exact H| | |exact HC]; [split; [constructor|intros p []]|]. destruct Hc as [->|(k & ->)]; (split; exact I). }
  split.
  - intros draws D. destruct (zero_run cl' it x t draws H' U G R Lo D Z) as (v & out & Ev & C). exists v, out. split; [exact Ev|]. intros y q Hq Hy. exact (C y q Hq Hy).
  - apply (zero_measured cl' it x t H' U G R Lo); [rewrite E; apply in_or_app; right; left; reflexivity|exact Z].
Qed.
Print Assumptions C100_temporaries_zero_partial.

(** A toffoli with three controls leaves its temporary in the pool; the temporary is handed out, given back
    and handed out again. *)
Definition use_temps : list (call * list nat) := [(CRegister 3, []); (CRegister 1, []); (CToffoli, [0; 1]); (CMeasure, [1]); (CMakeTemp, []); (CReturnTemp, [2])].
Definition used4 : client := Eval vm_compute in played (firstn 4 use_temps) start.
Definition used5 : client := Eval vm_compute in played [(CMakeTemp, [])] used4.
Definition used_temps : client := Eval vm_compute in played use_temps start.
Definition with_temp : client := Eval vm_compute in played [(CMakeTemp, [])] used_temps.
Definition at_111 : bs := fun q => q <? 3.
Fixpoint all_used (N : nat) (x : bs) (l : list (call * list nat)) (cl : client) : Prop :=
  match l with
  | [] => True
  | (c, ps) :: l => legal (snd cl) ps /\ match do_call cl c ps with Some cl' => well_used N x cl c ps cl' /\ all_used N x l cl' | None => False end
  end.
Lemma honest_played N x l : forall cl, honest N x cl -> all_used N x l cl -> honest N x (played l cl).
Proof.
  induction l as [|[c ps] l IH]; intros cl H A; [exact H|]. cbn [all_used played] in *. destruct A as (L & A). destruct (do_call cl c ps) as [cl'|] eqn:E; [|destruct A]. destruct A as (W & A).
  apply IH; [|exact A]. eapply honest_call; eassumption.
Qed.
Example C100_example : used_temps = played use_temps start /\ do_call used_temps CMakeTemp [] = Some with_temp /\ snd with_temp = snd used_temps ++ [[4]] /\
  bn (bld (fst with_temp)) = 5 /\ honest 5 at_111 used_temps /\ loads [([0; 1; 2], 7)] at_111 /\ in_range 5 [0; 1; 2].
Proof.
  split; [vm_compute; reflexivity|]. split; [vm_compute; reflexivity|]. split; [reflexivity|]. split; [reflexivity|].
  assert (Z : forall n, 4 <= n -> at_111 n = false) by (intros n Hn; apply Nat.ltb_ge; lia).
  split; [|split; [split|]].
  - assert (H4 : honest 5 at_111 used4).
    { replace used4 with (played (firstn 4 use_temps) start) by (vm_compute; reflexivity). apply honest_played; [constructor|]. cbn [all_used firstn use_temps].
      repeat match goal with |- context[do_call ?a ?b ?c] => let v := eval vm_compute in (do_call a b c) in progress change (do_call a b c) with v; cbv iota beta end.
      unfold legal, well_used, careful. cbn -[at_111]. repeat match goal with
        | |- _ /\ _ => split
        | |- NoDup [] => constructor
        | |- NoDup (_ :: _) => constructor; [cbn; intuition lia|]
        | |- True => exact I
        | |- _ = [] \/ _ => left; reflexivity
        | |- _ => intros; solve [intuition (discriminate || lia) | apply Z; lia]
        end. }
    assert (C5 : do_call used4 CMakeTemp [] = Some used5) by (vm_compute; reflexivity).
    assert (L0 : forall rs, legal rs []) by (intros rs; split; [constructor|intros p []]).
    assert (Z5 : zero_now 5 at_111 used5 [4]) by (apply (zero_given 5 at_111 used4 CMakeTemp used5 [4] H4 (or_introl eq_refl) C5); [reflexivity|cbn; lia|intros i Hi; cbn in Hi; apply Z; lia]).
    assert (H5 : honest 5 at_111 used5).
    { eapply honest_call; [exact H4|apply L0|exact C5|]. split; [split; exact I|]. split; [exact I|]. intros i Hi. apply Z. cbn in Hi. lia. }
    apply (honest_call 5 at_111 used5 CReturnTemp [2]); [exact H5| |vm_compute; reflexivity|].
    + split; [constructor; [intros []|constructor]|intros p [<-|[]]; cbn; lia].
    + split; [split; exact I|]. split; [exact Z5|]. intros i Hi. apply Z. cbn in Hi. lia.
  - intros r v [E|[]]; inversion E; subst. intros [|[|[|j]]] Hj; cbn in *; try reflexivity; lia.
  - intros p Hp. destruct (Nat.ltb_spec p 3) as [X|X]; [|apply Nat.ltb_ge; exact X]. exfalso. apply (Hp [0; 1; 2] 7); [left; reflexivity|]. cbn. lia.
  - intros q Hq. cbn in Hq. intuition lia.
Qed.

(** *** False in general: under a condition, toffoli with three controls puts its temporary back while it is
    1 with probability more than 1/2. *)
Definition spoil : list (call * list nat) := [(CRegister 1, []); (CRegister 3, []); (CRegister 1, []); (CConditionWith, [0]); (CToffoli, [0; 1]); (CDissolve, [])].
Definition before : st := mkSt (mkB [] 5 [] 0) [Some [0]].
Definition spoiled : client := Eval vm_compute in played spoil start.
Definition reused : client := Eval vm_compute in played [(CMakeTemp, [])] spoiled.
Lemma sin_cos_half : (1 / 2 < (sin (/ 2) * cos (/ 2) * (1 + cos (/ 2))) ^ 2)%R.
Proof.
  assert (H : (7 / 8 <= cos (/ 2) <= 9 / 10)%R).
  { pose proof (pre_cos_bound (/ 2) 0) as X. destruct X as (X & Y); [lra|lra|]. unfold cos_approx, cos_term in X, Y. cbn in X, Y. lra. }
  pose proof (sin2_cos2 (/ 2)) as P. unfold Rsqr in P. set (c := cos (/ 2)) in *. set (s := sin (/ 2)) in *. clearbody c s.
  replace ((s * c * (1 + c)) ^ 2)%R with ((s * s) * ((c * (1 + c)) * (c * (1 + c))))%R by ring. replace (s * s)%R with (1 - c * c)%R by lra.
  assert (A : (105 / 64 <= c * (1 + c))%R) by nra. assert (B : (19 / 100 <= 1 - c * c)%R) by nra.
  assert (D : (11025 / 4096 <= (c * (1 + c)) * (c * (1 + c)))%R) by nra. nra.
Qed.
Definition at_1111 : bs := fun q => q <? 4.
Definition set_too : bs := fun q => (q <? 4) || (q =? 5).
Lemma spoiled_amplitude : toff3 [0] 1 2 3 5 4 (ket 7 at_1111) set_too = RtoC (- (sin (/ 2) * cos (/ 2) * (1 + cos (/ 2)))).
Proof.
  assert (K : forall y, (forall i, i <> 4 -> i <> 5 -> y i = at_1111 i) -> ket 7 at_1111 y = if y 4 || y 5 then RtoC 0 else RtoC 1).
  { intros y Hy. destruct (y 4) eqn:E4; [apply ket_ne with (q := 4); [lia|rewrite E4; discriminate]|]. destruct (y 5) eqn:E5; [apply ket_ne with (q := 5); [lia|rewrite E5; discriminate]|].
    apply ket_eq. intros i. destruct (Nat.eq_dec i 4) as [->|N4]; [rewrite E4; reflexivity|]. destruct (Nat.eq_dec i 5) as [->|N5]; [rewrite E5; reflexivity|]. symmetry. apply Hy; assumption. }
  unfold toff3, controlled, tilted, on1.
  repeat match goal with |- context[forallb ?f ?l] => let v := eval vm_compute in (forallb f l) in change (forallb f l) with v; cbv iota end.
  repeat match goal with |- context[if ?b && ?c then _ else _] => let v := eval vm_compute in (b && c) in change (b && c) with v; cbv iota end.
  rewrite !K by (intros i H4 H5; unfold upd, set_too, at_1111; repeat match goal with |- context[?a =? ?b] => destruct (Nat.eqb_spec a b); try lia end; reflexivity || (rewrite ?orb_false_r; reflexivity)).
  unfold upd, set_too. cbn. unfold mV. cbn -[cos sin Rinv]. change (5 <? 4) with false; change (4 <? 4) with false; cbn -[cos sin Rinv RtoC Cmult Cplus Copp]; rewrite ?RtoC_opp, ?RtoC_mult, ?RtoC_plus.
  ring.
Qed.
Theorem C100_temporaries_zero_refuted :
  spoiled = played spoil start /\ history spoiled /\ do_call spoiled CMakeTemp [] = Some reused /\ snd reused = snd spoiled ++ [[5]] /\
  bn (bld (fst reused)) = 7 /\ loads [([0; 1; 2; 3], 15)] at_1111 /\ set_too 5 = true /\
  forall draws, exists v, calculate_state_with_init (bld (fst reused)) [([0; 1; 2; 3], 15)] draws = Ok (v, []) /\
    (1 / 2 < Cmod (nth (enc 7 set_too) v (RtoC 0)) ^ 2)%R.
Proof.
  assert (Lo : loads [([0; 1; 2; 3], 15)] at_1111).
  { split.
    - intros r v [E|[]]; inversion E; subst. intros [|[|[|[|j]]]] Hj; cbn in *; try reflexivity; lia.
    - intros p Hp. destruct (Nat.ltb_spec p 4) as [X|X]; [|apply Nat.ltb_ge; exact X]. exfalso. apply (Hp [0; 1; 2; 3] 15); [left; reflexivity|]. cbn. lia. }
  split; [vm_compute; reflexivity|]. split; [|split; [vm_compute; reflexivity|split; [reflexivity|split; [reflexivity|split; [exact Lo|split; [reflexivity|]]]]]].
  - replace spoiled with (played spoil start) by (vm_compute; reflexivity). apply careful_history; [constructor|]. unfold spoil. cbn [all_careful].
    repeat match goal with |- context[do_call ?a ?b ?c] => let v := eval vm_compute in (do_call a b c) in progress change (do_call a b c) with v; cbv iota beta end.
    unfold legal, careful. cbn. repeat match goal with
        | |- _ /\ _ => split
        | |- NoDup [] => constructor
        | |- NoDup (_ :: _) => constructor; [cbn; intuition lia|]
        | |- True => exact I
        | |- _ \/ length _ = 1 => right; reflexivity
        | |- _ => intros; match goal with H : [_; _] = [_; _] |- _ => inversion H; subst; right; reflexivity | _ => intuition (discriminate || lia) end
        end.
  - intros draws.
    destruct (toffoli3_cond 1 before 1 2 3 4) as (q & (Iq & s0 & E0) & Nq & s' & p & E & C & _ & _ & Ep & W & Pr & _ & _ & _ & Hq & H).
    + lia.
    + intros [|k] Hk; [exists [0]; split; [reflexivity|discriminate]|lia].
    + split; [constructor|]. split; [constructor|intros q []].
    + split; [nd|]. intros q Hq [X|[]]. cbn in *. intuition lia.
    + assert (Eq : toffoli (aco 1) [1; 2; 3] [4] before = Ret ([1; 2; 3], [4]) (mkSt (bld (fst spoiled)) [Some [0]])) by (vm_compute; reflexivity).
      rewrite Eq in E. assert (Es : s' = mkSt (bld (fst spoiled)) [Some [0]]) by congruence. clear E Eq. subst s'.
      assert (q = 5) as -> by (vm_compute in E0; congruence).
      assert (Ep' : pipeline (bld (fst reused)) = p) by exact Ep. change (bn (bld (mkSt (bld (fst spoiled)) [Some [0]]))) with 7 in *.
      destruct (simulate_ok (bld (fst reused)) [([0; 1; 2; 3], 15)] at_1111 draws) as (v & Ev & _ & V).
      * intros r w [X|[]] i Hi; inversion X; subst. cbn in *. intuition lia.
      * exact Lo.
      * rewrite Ep'. exact W.
      * rewrite Ep'. apply does_plain, Pr.
      * exists v. split; [exact Ev|]. change (nth (enc 7 set_too) v (RtoC 0)) with (st_of CN (bn (bld (fst reused))) v set_too). rewrite V, Ep', H.
        -- change (bn (bld (fst reused))) with 7. change (cqs 1 (conds before)) with [0].
           replace (toff3 [0] 1 2 3 5 4 (ket 7 at_1111) set_too) with (RtoC (- (sin (/ 2) * cos (/ 2) * (1 + cos (/ 2))))).
           ++ rewrite Cmod_R, Rabs_Ropp. rewrite pow2_abs. exact sin_cos_half.
           ++ symmetry. exact spoiled_amplitude.
        -- intros i Hi Hlt. apply ket_clean; [exact Hlt|]. destruct Hi as [X|[]]. cbn in X. apply Nat.ltb_ge. lia.
Qed.
Print Assumptions C100_temporaries_zero_refuted.
