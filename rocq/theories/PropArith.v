(** The arithmetic circuits: C55, C56 and C57. *)
From Coq Require Import Reals Lra FunctionalExtensionality Permutation.
From Coquelicot Require Import Complex.
From Verif Require Import Base BitsSpec BitsProofs OpsModel OpsSpec Instances BuilderModel RegProofs DenSpec DenProofs LocalProofs
  RunSpec RunProofs GateProofs ToffoliProofs CondProofs SubSpec SubProofs SubProofs2 SubProofs3 ProgramModel ProgramSpec ProgramProofs ProgramProofs2 CircProofs CircProofs2
  ArithModel ArithSpec ArithProofs ArithProofs2 ArithProofs3 ArithProofs4 LinkProofs SimModel SimSpec ArithProofs5 ArithProofs6 ArithProofs8 ArithProofs13.
Local Open Scope nat_scope.
Local Open Scope mon_scope.
Local Ltac nd := repeat constructor; cbn; intuition lia.

(** *** C55: carry, sum, copy *)
(** At every depth of conditioning and for all placements. *)
Theorem C55_carry : forall d c a b p, NoDup [c; a; b; p] ->
  acts d carry [[c]; [a]; [b]; [p]] (fun psi x => psi (upd x p (xorb (x p) (maj (x a) (x b) (x c))))).
Proof.
  intros d c a b p N. pose proof (proj1 (carry_acts d c a b p N)) as A. eapply acts_eq; [exact A|]. intros psi. extensionality x. unfold eff. rewrite (proj2 (run_carry c a b p x N)). reflexivity.
Qed.
Print Assumptions C55_carry.
(** Taken back by the inverse, on a builder without conditions. *)
Theorem C55_carry_inv : forall c a b p, NoDup [c; a; b; p] ->
  acts 0 carry_inv [[c]; [a]; [b]; [p]] (fun psi x => psi (upd x p (xorb (x p) (maj (x a) (x b) (x c))))).
Proof.
  intros c a b p N. eapply acts_eq; [apply (carry_inv_acts c a b p N)|]. intros psi. extensionality x. unfold eff. rewrite rev_involutive, (proj1 (run_carry c a b p x N)). reflexivity.
Qed.
Print Assumptions C55_carry_inv.
(** On a conditioned builder the inverse does something else: where it should flip p it applies
    - cos (1/2) Z + sin (1/2) X, since the conditioned H (C47) is not H. *)
Theorem C55_carry_inv_conditioned_refuted : forall d c a b p, 0 < d -> NoDup [c; a; b; p] -> acts d carry_inv [[c]; [a]; [b]; [p]] (tilts c a b p) /\
  mV false false <> RtoC 0.
Proof.
  intros d c a b p Hd N. split; [apply carry_inv_tilts; assumption|]. unfold mV. cbn. intros X. apply (f_equal fst) in X. cbn in X.
  assert (0 < cos (/ 2))%R by (apply cos_gt_0; pose proof PI_4; pose proof PI2_3_2; lra). lra.
Qed.
Print Assumptions C55_carry_inv_conditioned_refuted.
Theorem C55_sum : forall d c a b, NoDup [c; a; b] -> acts d sum [[c]; [a]; [b]] (fun psi x => psi (upd x b (xorb (x b) (xorb (x a) (x c))))).
Proof.
  intros d c a b N. eapply acts_eq; [apply (sum_acts d c a b N)|]. intros psi. extensionality x. unfold eff.
  assert (H : a <> b /\ c <> b) by (inversion N as [|? ? Nc N1]; subst; inversion N1 as [|? ? Na N2]; subst; cbn in Nc, Na; intuition congruence). destruct H as (H1 & H2).
  change (rev (sum_c c a b)) with (sum_c a c b). rewrite run_sum by assumption. rewrite (xorb_comm (x c)). reflexivity.
Qed.
Print Assumptions C55_sum.
(** copy adds every qubit of the first register to its partner in the second; so does the inverse. *)
Theorem C55_copy : forall d ra rb, length ra = length rb -> ra <> [] -> NoDup (ra ++ rb) ->
  (exists D, acts d copy [ra; rb] D /\ takes (copies ra rb) D) /\ (exists D, acts d copy_inv [ra; rb] D /\ takes (copies ra rb) D /\ takes_back (copies ra rb) D).
Proof.
  intros d ra rb E Hne N. destruct (copy_acts d ra rb E Hne N) as (A & Ck). destruct (copy_inv_acts d ra rb E Hne N) as (A' & Ck'). split.
  - exists (eff (copy_c ra rb)). split; [exact A|]. intros psi x y (O & V). rewrite (rel_copy ra rb x y E N O V). eapply eff_run; exact Ck.
  - exists (eff (rev (copy_c ra rb))). split; [exact A'|].
    assert (B : takes_back (copies ra rb) (eff (rev (copy_c ra rb)))).
    { intros psi y x (O & V). rewrite (rel_copy ra rb x y E N O V). unfold eff. rewrite rev_involutive. reflexivity. }
    split; [|exact B]. intros psi x y (O & V). apply B. split; [intros q Hq; rewrite O by exact Hq; reflexivity|]. intros i Hi. rewrite V by exact Hi.
    rewrite (O (nth i ra 0)); [|intros X; apply NoDup_app_iff in N; destruct N as (_ & _ & Dj); exact (Dj (nth i ra 0) (nth_In _ _ Hi) X)].
    rewrite xorb_assoc, xorb_nilpotent, xorb_false_r. reflexivity.
Qed.
Print Assumptions C55_copy.
(** Every state has its copied state. *)
Theorem C55_copy_total : forall ra rb x, length ra = length rb -> NoDup (ra ++ rb) -> exists y, copies ra rb x y.
Proof. intros ra rb x E N. exists (run (copy_c ra rb) x). split; apply run_copy; assumption. Qed.
Print Assumptions C55_copy_total.
Theorem C55_copy_sizes : forall d ra rb s, length ra <> length rb -> copy d [ra; rb] s = Fail (EOther 13) s.
Proof. intros d ra rb s H. unfold copy. rewrite (proj2 (Nat.eqb_neq _ _) H). reflexivity. Qed.
Print Assumptions C55_copy_sizes.
Example C55_example : NoDup [4; 1; 3; 0] /\ NoDup ([5; 1] ++ [2; 0]) /\ length [5; 1] = length [2; 0] /\ maj true false true = true /\
  let s := mkSt (mkB [] 6 [[3]] 0) [Some [4]] in at_depth 1 s /\ tidy s /\ live s (cqs 1 (conds s) ++ concat [[5; 1]; [2; 0]]).
Proof.
  split; [nd|]. split; [nd|]. split; [reflexivity|]. split; [reflexivity|]. cbv zeta. split.
  { split; [reflexivity|]. intros [|k] Hk; [|lia]. exists [4]. split; [reflexivity|discriminate]. }
  split.
  - split; [repeat constructor|]. cbn. split; [nd|]. intros q [<-|[]]. lia.
  - cbn. split; [nd|]. intros q Hq [H|H]; unfold pool in H; cbn in Hq, H; lia.
Qed.

(** *** C56: add *)
(** For registers of every size: rb becomes ra + rb + carry in, modulo 2 to its size; nothing
    else changes.  No conditions on the builder. *)
Theorem C56_add : forall rc ra rb, length ra = length rc -> length rb = S (length rc) -> rc <> [] -> NoDup (rc ++ ra ++ rb) ->
  exists D, acts 0 add [rc; ra; rb] D /\ takes (adds rc ra rb) D.
Proof.
  intros rc ra rb La Lb Hne N. destruct (add_acts rc ra rb La Lb Hne N) as (A & Ck). exists (eff (add_c rc ra rb)). split; [exact A|].
  intros psi x y (Z & O & V). rewrite (add_relation rc ra rb x y La Lb Hne N Z O V). eapply eff_run; exact Ck.
Qed.
Print Assumptions C56_add.
Theorem C56_add_inv : forall rc ra rb, length ra = length rc -> length rb = S (length rc) -> rc <> [] -> NoDup (rc ++ ra ++ rb) ->
  exists D, acts 0 add_inv [rc; ra; rb] D /\ takes_back (adds rc ra rb) D.
Proof.
  intros rc ra rb La Lb Hne N. destruct (add_inv_acts rc ra rb La Lb Hne N) as (A & Ck). exists (eff (rev (add_c rc ra rb))). split; [exact A|].
  intros psi y x (Z & O & V). rewrite (add_relation rc ra rb x y La Lb Hne N Z O V). unfold eff. rewrite rev_involutive. reflexivity.
Qed.
Print Assumptions C56_add_inv.
(** Registers of one and two qubits: under any number of conditions. *)
Theorem C56_add_small : forall d c a b b1, NoDup [c; a; b; b1] -> exists D, acts d add [[c]; [a]; [b; b1]] D /\ takes (adds [c] [a] [b; b1]) D.
Proof.
  intros d c a b b1 N. destruct (add_one d c a b b1 1 N) as (A & Ck). exists (eff (add_c [c] [a] [b; b1])). split; [exact A|].
  intros psi x y (Z & O & V). rewrite (add_relation [c] [a] [b; b1] x y eq_refl eq_refl ltac:(discriminate) N Z O V). eapply eff_run; exact Ck.
Qed.
Print Assumptions C56_add_small.
(** Larger registers under conditions: the amplitude found at the right sum is sin (1/2) to the
    number of carries into the places 1 to n - 1. *)
Theorem C56_conditioned_exact : forall d rc ra rb, 0 < d -> length ra = length rc -> length rb = S (length rc) -> rc <> [] -> NoDup (rc ++ ra ++ rb) ->
  exists D, acts d add [rc; ra; rb] D /\ forall psi x y, adds rc ra rb x y -> settled (rc ++ ra ++ rb) x psi ->
    D psi y = Cmult (cpow (RtoC (sin (/ 2))) (inner_carries rc ra rb x)) (psi x).
Proof.
  intros d rc ra rb Hd La Lb Hne N. exists (addT rc ra rb). split; [apply (addT_acts d Hd rc ra rb (S (length rc)) La Lb Hne (Nat.le_succ_diag_r _) N)|].
  intros psi x y (Z & O & V) Se. rewrite (add_relation rc ra rb x y La Lb Hne N Z O V), <- kcar_count by assumption. apply addT_amp; assumption.
Qed.
Print Assumptions C56_conditioned_exact.
(** So [control add] in a program is wrong: 1 + 1 on registers of two qubits. *)
Theorem C56_conditioned_refuted : exists s' v draws,
  program 0 [[0]; [1; 2]; [3; 4]; [5; 6; 7]] [control add [whole 0; whole 1; whole 2; whole 3]] (fresh 8) = Ret [[0]; [1; 2]; [3; 4]; [5; 6; 7]] s' /\
  calculate_state_with_init (bld s') [([0], 1); ([3; 4], 1); ([5; 6; 7], 1)] draws = Ok (v, []) /\
  nth (enc (bn (bld s')) (fun q => existsb (Nat.eqb q) [0; 3; 6])) v (RtoC 0) = RtoC (sin (/ 2)) /\ (sin (/ 2) < 1)%R.
Proof.
  set (rs := [[0]; [1; 2]; [3; 4]; [5; 6; 7]] : list reg).
  assert (N : NoDup ([1; 2] ++ [3; 4] ++ [5; 6; 7])) by nd. assert (Nr : NoDup (concat rs)) by (unfold rs; cbn; nd).
  pose proof (addT_acts 1 Nat.lt_0_1 [1; 2] [3; 4] [5; 6; 7] 3 eq_refl eq_refl ltac:(discriminate) (Nat.le_succ_diag_r 2) N) as A.
  set (ls := [(control add [whole 0; whole 1; whole 2; whole 3], addT [1; 2] [3; 4] [5; 6; 7])]).
  assert (F : Forall (fun p => line_acts 0 rs (fst p) (snd p)) ls).
  { apply Forall_cons; [|apply Forall_nil]. cbn [fst snd]. split; [|split; [intros _; discriminate|exact A]]. split; [args_ok|]. split; [repeat constructor; discriminate|exact Nr]. }
  destruct (program_acts 0 rs ls Nr ltac:(repeat constructor; discriminate) F (only_lines 0 rs ls F)) as (_ & P).
  specialize (P (fresh 8) (fresh_depth 8) (fresh_tidy 8) (live_fresh 8)).
  set (x0 := fun q => existsb (Nat.eqb q) [0; 3; 5]).
  destruct (does_amplitudes 8 _ _ _ _ _ [([0], 1); ([3; 4], 1); ([5; 6; 7], 1)] x0 (fun _ => R0) P) as (s' & v & E1 & Hn & E2 & E3).
  - intros r w [X|[X|[X|[]]]]; injection X as <- <-; intros q Hq; cbn in Hq; intuition lia.
  - split.
    + intros r w [X|[X|[X|[]]]]; injection X as <- <-; intros j Hj; cbn [length] in Hj; destruct j as [|[|[|j]]]; try lia; reflexivity.
    + intros q Hq. unfold x0. assert (H1 := Hq [0] 1 (or_introl eq_refl)). assert (H2 := Hq [3; 4] 1 (or_intror (or_introl eq_refl))). assert (H3 := Hq [5; 6; 7] 1 (or_intror (or_intror (or_introl eq_refl)))).
      do 6 (destruct q as [|q]; [reflexivity || (exfalso; cbn in *; tauto)|]). reflexivity.
  - exists s', v, (fun _ => R0). split; [exact E1|]. split; [exact E2|]. split.
    + rewrite E3. set (n := bn (bld s')). set (y := fun q => existsb (Nat.eqb q) [0; 3; 6]). cbn [cqs conds fresh]. rewrite controlled_nil. unfold ls. cbn [lines_op]. unfold line_op, call_op. cbn [control l_ctl]. unfold controlled.
      change (hd [] (line_regs rs (control add [whole 0; whole 1; whole 2; whole 3]))) with [0]. change (forallb y [0]) with true. cbv iota.
      assert (Ad : adds [1; 2] [3; 4] [5; 6; 7] x0 y).
      { split; [intros q [<-|[]]; reflexivity|]. split; [|reflexivity]. intros q Hq. do 7 (destruct q as [|q]; [reflexivity || (exfalso; apply Hq; cbn; tauto)|]). reflexivity. }
      assert (Se : settled ([1; 2] ++ [3; 4] ++ [5; 6; 7]) x0 (ket n x0)).
      { intros z (q & Hq & E). apply (ket_ne n x0 z q); [cbn in Hq; unfold n; intuition lia|congruence]. }
      destruct Ad as (Z & O & V). rewrite (add_relation [1; 2] [3; 4] [5; 6; 7] x0 y eq_refl eq_refl ltac:(discriminate) N Z O V).
      rewrite (proj2 (addT_amp [1; 2] [3; 4] [5; 6; 7] x0 (ket n x0) eq_refl eq_refl ltac:(discriminate) N Se)).
      rewrite (kcar_count [1; 2] [3; 4] [5; 6; 7] x0 eq_refl eq_refl ltac:(discriminate) N Z). change (inner_carries [1; 2] [3; 4] [5; 6; 7] x0) with 1. cbn [cpow].
      rewrite (ket_eq n x0 x0) by reflexivity. unfold sh. ring.
    + assert (sin (/ 2) < / 2)%R by (apply sin_lt_x; lra). lra.
Qed.
Print Assumptions C56_conditioned_refuted.
(** add_inv under conditions, registers of every size: the amplitude of the sum [x] found at
    [y] is sin (1/2) to twice the number of those carries, and once more if there is a carry
    out of place n - 1. *)
Theorem C56_add_inv_conditioned_exact : forall d rc ra rb, 0 < d -> length ra = length rc -> length rb = S (length rc) -> rc <> [] -> NoDup (rc ++ ra ++ rb) ->
  exists D, acts d add_inv [rc; ra; rb] D /\ forall psi x y, adds rc ra rb y x -> settled (rc ++ ra ++ rb) x psi ->
    D psi y = Cmult (cpow (RtoC (sin (/ 2))) (2 * inner_carries rc ra rb y + b2n (carry_in ra rb (hd 0 rc) y (length rc)))) (psi x).
Proof.
  intros d rc ra rb Hd La Lb Hne N. exists (addInvT rc ra rb). split; [apply (add_inv_carried d rc ra rb Hd La Lb Hne N)|].
  intros psi x y (Z & O & V) Se. rewrite (add_relation rc ra rb y x La Lb Hne N Z O V) in *. fold sh.
  rewrite <- kcar_count by assumption. change (b2n ?b) with (if b then 1 else 0). rewrite <- kinv_count by assumption. apply addInvT_amp; try assumption.
  intros z Hz _ _ _ Zn. apply Se. destruct (existsb (fun q => xorb (z q) (run (add_c rc ra rb) y q)) (rc ++ ra ++ rb)) eqn:E.
  - apply existsb_exists in E. destruct E as (q & Hq & E). exists q. split; [exact Hq|]. intros X. rewrite X, xorb_nilpotent in E. discriminate.
  - exfalso. apply Zn. extensionality q. destruct (in_dec Nat.eq_dec q (rc ++ ra ++ rb)) as [Hq|Hq]; [|apply Hz; exact Hq].
    apply xorb_eq. apply not_true_is_false. intros X. apply not_true_iff_false in E. apply E. apply existsb_exists. exists q. split; assumption.
Qed.
Print Assumptions C56_add_inv_conditioned_exact.
(** So [control add_inv] is wrong already for one qubit: 2 is not taken back to 1 + 1. *)
Theorem C56_add_inv_conditioned_refuted : exists s' v draws,
  program 0 [[0]; [1]; [2]; [3; 4]] [control add_inv [whole 0; whole 1; whole 2; whole 3]] (fresh 5) = Ret [[0]; [1]; [2]; [3; 4]] s' /\
  calculate_state_with_init (bld s') [([0], 1); ([2], 1); ([3; 4], 2)] draws = Ok (v, []) /\
  nth (enc (bn (bld s')) (fun q => existsb (Nat.eqb q) [0; 2; 3])) v (RtoC 0) = RtoC (sin (/ 2)) /\ (sin (/ 2) < 1)%R.
Proof.
  set (rs := [[0]; [1]; [2]; [3; 4]] : list reg).
  assert (N : NoDup ([1] ++ [2] ++ [3; 4])) by nd. assert (Nr : NoDup (concat rs)) by (unfold rs; cbn; nd).
  destruct (C56_add_inv_conditioned_exact 1 [1] [2] [3; 4] Nat.lt_0_1 eq_refl eq_refl ltac:(discriminate) N) as (D & A & HD).
  set (ls := [(control add_inv [whole 0; whole 1; whole 2; whole 3], D)]).
  assert (F : Forall (fun p => line_acts 0 rs (fst p) (snd p)) ls).
  { apply Forall_cons; [|apply Forall_nil]. cbn [fst snd]. split; [|split; [intros _; discriminate|exact A]]. split; [args_ok|]. split; [repeat constructor; discriminate|exact Nr]. }
  destruct (program_acts 0 rs ls Nr ltac:(repeat constructor; discriminate) F (only_lines 0 rs ls F)) as (_ & P).
  specialize (P (fresh 5) (fresh_depth 5) (fresh_tidy 5) (live_fresh 5)).
  set (x0 := fun q => existsb (Nat.eqb q) [0; 2; 4]).
  destruct (does_amplitudes 5 _ _ _ _ _ [([0], 1); ([2], 1); ([3; 4], 2)] x0 (fun _ => R0) P) as (s' & v & E1 & Hn & E2 & E3).
  - intros r w [X|[X|[X|[]]]]; injection X as <- <-; intros q Hq; cbn in Hq; intuition lia.
  - split.
    + intros r w [X|[X|[X|[]]]]; injection X as <- <-; intros j Hj; cbn [length] in Hj; destruct j as [|[|[|j]]]; try lia; reflexivity.
    + intros q Hq. unfold x0. assert (H1 := Hq [0] 1 (or_introl eq_refl)). assert (H2 := Hq [2] 1 (or_intror (or_introl eq_refl))). assert (H3 := Hq [3; 4] 2 (or_intror (or_intror (or_introl eq_refl)))).
      do 5 (destruct q as [|q]; [reflexivity || (exfalso; cbn in *; tauto)|]). reflexivity.
  - exists s', v, (fun _ => R0). split; [exact E1|]. split; [exact E2|]. split.
    + rewrite E3. set (n := bn (bld s')). set (y := fun q => existsb (Nat.eqb q) [0; 2; 3]). cbn [cqs conds fresh]. rewrite controlled_nil. unfold ls. cbn [lines_op]. unfold line_op, call_op. cbn [control l_ctl]. unfold controlled.
      change (hd [] (line_regs rs (control add_inv [whole 0; whole 1; whole 2; whole 3]))) with [0]. change (forallb y [0]) with true. cbv iota.
      assert (Ad : adds [1] [2] [3; 4] y x0).
      { split; [intros q []|]. split; [|reflexivity]. intros q Hq. do 5 (destruct q as [|q]; [reflexivity || (exfalso; apply Hq; cbn; tauto)|]). reflexivity. }
      assert (Se : settled ([1] ++ [2] ++ [3; 4]) x0 (ket n x0)).
      { intros z (q & Hq & E). apply (ket_ne n x0 z q); [cbn in Hq; unfold n; intuition lia|congruence]. }
      rewrite (HD _ x0 y Ad Se). change (2 * inner_carries [1] [2] [3; 4] y + _) with 1. cbn [cpow]. rewrite (ket_eq n x0 x0) by reflexivity. ring.
    + assert (sin (/ 2) < / 2)%R by (apply sin_lt_x; lra). lra.
Qed.
Print Assumptions C56_add_inv_conditioned_refuted.
Theorem C56_total : forall rc ra rb x, length ra = length rc -> length rb = S (length rc) -> rc <> [] -> NoDup (rc ++ ra ++ rb) -> zero_in (tl rc) x -> exists y, adds rc ra rb x y.
Proof.
  intros rc ra rb x La Lb Hne N Z.
  assert (Nb : NoDup rb) by (apply NoDup_app_iff in N; destruct N as (_ & N & _); apply NoDup_app_iff in N; apply N).
  destruct (le_onto (length rb) ((val ra x + val rb x + b2n (x (hd 0 rc))) mod 2 ^ length rb)) as (l & Ll & El); [apply Nat.mod_upper_bound, Nat.pow_nonzero; lia|].
  exists (updl x rb l). split; [exact Z|]. split; [intros q Hq; apply updl_notin; exact Hq|]. unfold val at 1. rewrite updl_map by assumption. exact El.
Qed.
Print Assumptions C56_total.
Theorem C56_sizes : forall d rc ra rb s, ~ (length ra = length rc /\ length rb = S (length rc)) -> add d [rc; ra; rb] s = Fail (EOther 10) s.
Proof.
  intros d rc ra rb s H. unfold add. cbn [nth add_fuel].
  replace ((length rc =? 1) && (length ra =? 1) && (length rb =? 2)) with false.
  2:{ symmetry. apply not_true_is_false. intros X. apply andb_prop in X. destruct X as (X & X3). apply andb_prop in X. destruct X as (X1 & X2). apply Nat.eqb_eq in X1, X2, X3. apply H. lia. }
  replace ((length rc =? length ra) && (length rc + 1 =? length rb)) with false; [reflexivity|].
  symmetry. apply not_true_is_false. intros X. apply andb_prop in X. destruct X as (X1 & X2). apply Nat.eqb_eq in X1, X2. apply H. lia.
Qed.
Print Assumptions C56_sizes.
Example C56_example : NoDup ([0; 1; 2] ++ [3; 4; 5] ++ [6; 7; 8; 9]) /\
  (* 7 + 5 + 1 = 13 *)
  adds [0; 1; 2] [3; 4; 5] [6; 7; 8; 9] (fun q => existsb (Nat.eqb q) [0; 3; 4; 5; 6; 8]) (fun q => existsb (Nat.eqb q) [0; 3; 4; 5; 6; 8; 9]) /\
  ~ adds [0; 1; 2] [3; 4; 5] [6; 7; 8; 9] (fun q => existsb (Nat.eqb q) [0; 3; 4; 5; 6; 8]) (fun q => existsb (Nat.eqb q) [0; 3; 4; 5; 6; 7]).
Proof.
  split; [nd|]. split.
  - split; [intros q [<-|[<-|[]]]; reflexivity|]. split; [|reflexivity]. intros q Hq. do 9 (destruct q as [|q]; [reflexivity|]). destruct q as [|q]; [exfalso; apply Hq; cbn; tauto|reflexivity].
  - intros (_ & _ & V). cbv in V. discriminate.
Qed.

(** *** C57: rshift and lshift *)
Theorem C57_rshift : forall d r, r <> [] -> NoDup r -> exists D, acts d rshift [r] D /\ takes (rotates r) D.
Proof.
  intros d r Hne N. destruct (rshift_acts d r Hne N) as (A & Ck). exists (eff (rshift_c r)). split; [exact A|].
  intros psi x y (O & V0 & V). rewrite (rel_rshift r x y N Hne V0 V O). eapply eff_run; exact Ck.
Qed.
Print Assumptions C57_rshift.
Theorem C57_lshift : forall d r, 2 <= length r -> NoDup r -> exists D, acts d lshift [r] D /\ takes_back (rotates r) D.
Proof.
  intros d r L N. assert (Hne : r <> []) by (intros ->; cbn in L; lia). destruct (lshift_acts d r L N) as (A & Ck). exists (eff (rev (rshift_c r))). split; [exact A|].
  intros psi y x (O & V0 & V). rewrite (rel_rshift r x y N Hne V0 V O). unfold eff. rewrite rev_involutive. reflexivity.
Qed.
Print Assumptions C57_lshift.
Theorem C57_total : forall r x, r <> [] -> NoDup r -> (exists y, rotates r x y) /\ (2 <= length r -> exists y, rotates r y x).
Proof.
  intros r x Hne N. split; [exists (run (rshift_c r) x); destruct (run_rshift r x N Hne) as (A & B & C); split; auto|].
  intros _. exists (run (rev (rshift_c r)) x). destruct (run_rshift r (run (rev (rshift_c r)) x) N Hne) as (A & B & C).
  destruct (rshift_acts 0 r Hne N) as (_ & Ck). assert (E : run (rshift_c r) (run (rev (rshift_c r)) x) = x) by (eapply run_rev'; exact Ck). rewrite E in A, B, C. split; auto.
Qed.
Print Assumptions C57_total.
(** A register of one qubit: rshift does nothing, and lshift panics. *)
Theorem C57_lshift_single_refuted : forall q s, rshift 0 [[q]] s = Ret [[q]] s /\ lshift 0 [[q]] s = Crash PUnwrap.
Proof.
  intros q s. assert (E : split_all [q] = Ok [[q]]) by (apply (split_all_ok [q]); [nd|discriminate]). split.
  - unfold rshift. cbn [length]. unfold mbind at 1. rewrite E. reflexivity.
  - unfold lshift, inv_macro, mbind. cbn. unfold apply_pipeline_objects, mbind. rewrite E. reflexivity.
Qed.
Print Assumptions C57_lshift_single_refuted.
Example C57_example : rotates [4; 0; 2] (fun q => existsb (Nat.eqb q) [4; 7]) (fun q => existsb (Nat.eqb q) [0; 7]) /\ 
  ~ rotates [4; 0; 2] (fun q => existsb (Nat.eqb q) [4; 7]) (fun q => existsb (Nat.eqb q) [2; 7]).
Proof.
  split.
  - split; [|split; [reflexivity|intros [|[|i]] Hi; try reflexivity; cbn in Hi; lia]]. intros q Hq. do 5 (destruct q as [|q]; [reflexivity||(exfalso; apply Hq; cbn; tauto)|]). reflexivity.
  - intros (_ & _ & V). specialize (V 0). cbn in V. discriminate V. lia.
Qed.
