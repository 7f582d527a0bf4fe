(** C61 on conditioned builders. *)
From Coq Require Import Reals Lra FunctionalExtensionality Permutation ZArith.
From Coquelicot Require Import Complex.
From Verif Require Import Base BitsSpec BitsProofs OpsModel OpsSpec Instances BuilderModel RegProofs DenSpec DenProofs LocalProofs LinkProofs
  SimModel SimSpec SimProofs RunSpec RunProofs GateProofs ToffoliProofs RotProofs CondProofs PropCond ProgramModel ProgramSpec ArithSpec QfftModel QfftSpec QfftProofs QfftProofs2 QfftProofs3.
Local Open Scope nat_scope.
Local Open Scope mon_scope.
Local Ltac nd := repeat constructor; cbn; intuition lia.

(** At every depth: where the conditions hold, the amplitudes are products of sin (1/4) and
    cos (1/4); where they do not, the rotations act all the same. *)
Theorem C61_conditioned_exact : forall d r s, 0 < d -> wrapped d (conds s) -> tidy s -> let K := cqs d (conds s) in live s (K ++ r) -> r <> [] -> length r <= 63 ->
  exists D, does s (K ++ r) (qfft d r) r (K ++ r) D /\
    (forall psi x y, settled r x psi -> only_in r x y -> forallb y K = true -> D psi y = Cmult (qfft_cond_amp r x y) (psi x)) /\
    (forall psi y, forallb y K = false -> D psi y = Cmult (expi (qfft_phase r y)) (psi y)).
Proof.
  intros d r s Hd W T K Lv Hr Hn. assert (NKr := proj1 Lv). apply NoDup_app_iff in NKr. destruct NKr as (_ & N & NK).
  eexists. split; [apply (cond_qfft_does r N Hr d Hd (conds s) W NK s eq_refl Hn T Lv)|]. split.
  - intros psi x y Se O E. apply cond_qfft_in; assumption.
  - intros psi y E. apply cond_qfft_out; assumption.
Qed.
Print Assumptions C61_conditioned_exact.

(** Through the simulator, under one condition register. *)
Theorem C61_conditioned_simulated : forall k cr r it x y draws, NoDup (cr ++ r) -> cr <> [] -> r <> [] -> length r <= 63 -> in_range k (cr ++ r) ->
  (forall r v, In (r, v) it -> in_range k r) -> loads it x -> only_in r x y ->
  exists s' v, under cr (qfft 1 r) (fresh k) = Ret (cr, r) s' /\ calculate_state_with_init (bld s') it draws = Ok (v, []) /\
    (forallb x cr = true -> nth (enc (bn (bld s')) y) v (RtoC 0) = qfft_cond_amp r x y) /\
    (forallb x cr = false -> nth (enc (bn (bld s')) x) v (RtoC 0) = expi (qfft_phase r x)).
Proof.
  intros k cr r it x y draws N Hc Hr Hn R Ri Lo O.
  destruct (under_hyps (fresh k) cr r eq_refl Hc (fresh_tidy k) (fresh_live k _ N R)) as (W & T & EK & Lv).
  set (s1 := mkSt (bld (fresh k)) (conds (fresh k) ++ [Some cr])) in *.
  pose proof (C61_conditioned_exact 1 r s1 ltac:(lia) W T) as H. cbv zeta in H. rewrite EK in H.
  destruct (H Lv Hr Hn) as (D & HD & H1 & H2). apply under_does in HD.
  destruct (does_amplitudes k (cr ++ r) (under cr (qfft 1 r)) (cr, r) (cr ++ r) D it x draws HD Ri Lo) as (s' & v & E1 & Hk & E2 & E3).
  exists s', v. split; [exact E1|]. split; [exact E2|]. split; intros E.
  - rewrite E3, (H1 _ x y).
    + rewrite ket_eq by reflexivity. ring.
    + intros z (p & Hp & Hz). apply (ket_ne _ x z p); [|congruence]. specialize (R p). rewrite in_app_iff in R. specialize (R (or_intror Hp)). lia.
    + exact O.
    + rewrite <- E. apply forallb_ext_in. intros p Hp. apply O. intros Hq. apply NoDup_app_iff in N. exact (proj2 (proj2 N) p Hp Hq).
  - rewrite E3, H2 by exact E. rewrite ket_eq by reflexivity. ring.
Qed.
Print Assumptions C61_conditioned_simulated.

(** The Fourier transform takes all zeros to all zeros with amplitude 1 / sqrt 2 ^ n, whatever
    the order of the qubits. *)
Theorem C61_conditioned_refuted : forall k cr r draws, NoDup (cr ++ r) -> cr <> [] -> r <> [] -> length r <= 63 -> in_range k (cr ++ r) ->
  exists it x s' v, loads it x /\ forallb x cr = true /\ (forall q, In q r -> x q = false) /\
    under cr (qfft 1 r) (fresh k) = Ret (cr, r) s' /\ calculate_state_with_init (bld s') it draws = Ok (v, []) /\
    (Cmod (nth (enc (bn (bld s')) x) v (RtoC 0)) = sin (/ 4) ^ length r)%R /\ (sin (/ 4) ^ length r < Cmod (qft_amp (length r) 0 0))%R.
Proof.
  intros k cr r draws N Hc Hr Hn R. set (x := fun q => existsb (Nat.eqb q) cr).
  assert (N' := N). apply NoDup_app_iff in N'. destruct N' as (Nc & Nr & Nd).
  assert (Xc : forallb x cr = true) by (apply forallb_forall; intros q Hq; unfold x; apply existsb_exists; exists q; split; [exact Hq|apply Nat.eqb_refl]).
  assert (Xr : forall q, In q r -> x q = false).
  { intros q Hq. unfold x. destruct (existsb (Nat.eqb q) cr) eqn:E; [|reflexivity]. apply existsb_exists in E. destruct E as (p & Hp & Ep). apply Nat.eqb_eq in Ep. subst p. exfalso. exact (Nd q Hp Hq). }
  assert (Lo : loads (map (fun q => ([q], 1)) cr) x).
  { split.
    - intros r' v' I j Hj. apply in_map_iff in I. destruct I as (q & [= <- <-] & Hq). destruct j; [|cbn in Hj; lia]. cbn. unfold x. apply existsb_exists. exists q. split; [exact Hq|apply Nat.eqb_refl].
    - intros q Hq. unfold x. destruct (existsb (Nat.eqb q) cr) eqn:E; [|reflexivity]. apply existsb_exists in E. destruct E as (p & Hp & Ep). apply Nat.eqb_eq in Ep. subst p.
      exfalso. apply (Hq [q] 1); [apply in_map_iff; exists q; split; [reflexivity|exact Hp]|left; reflexivity]. }
  assert (Ri : forall r' v', In (r', v') (map (fun q => ([q], 1)) cr) -> in_range k r').
  { intros r' v' I. apply in_map_iff in I. destruct I as (q & [= <- <-] & Hq). intros p [<-|[]]. apply R, in_app_iff. left. exact Hq. }
  destruct (C61_conditioned_simulated k cr r _ x x draws N Hc Hr Hn R Ri Lo (fun _ _ => eq_refl)) as (s' & v & E1 & E2 & E3 & _).
  exists (map (fun q => ([q], 1)) cr), x, s', v. split; [exact Lo|]. split; [exact Xc|]. split; [exact Xr|]. split; [exact E1|]. split; [exact E2|].
  assert (S1 : (0 < sin (/ 4))%R) by (apply sin_gt_0; [lra|]; pose proof PI2_1; lra).
  assert (Xn : forall i, i < length r -> x (nth i r 0) = false) by (intros i Hi; apply Xr, nth_In; exact Hi).
  split.
  - rewrite (E3 Xc). unfold qfft_cond_amp. rewrite Cmod_mult, Cmod_R.
    assert (Ea : qfft_agree r x x = length r).
    { unfold qfft_agree. rewrite (filter_ext_in _ (fun _ => true)); [|intros i Hi; apply in_seq in Hi; rewrite !Xn by lia; reflexivity].
      transitivity (length (seq 0 (length r))); [|apply seq_length]. f_equal. generalize (seq 0 (length r)). induction l as [|a l IH]; [reflexivity|]. cbn [filter]. rewrite IH. reflexivity. }
    assert (Eg : qfft_sign r x x = false).
    { unfold qfft_sign. rewrite (map_ext_in _ (fun _ => false)); [|intros i Hi; apply in_seq in Hi; rewrite !Xn by lia; reflexivity]. generalize (seq 0 (length r)). induction l as [|a l IH]; [reflexivity|]. cbn [map fold_right]. rewrite IH. reflexivity. }
    rewrite Ea, Eg, Nat.sub_diag. cbn [pow]. rewrite Rmult_1_l, Rmult_1_r, Rabs_pos_eq by (apply pow_le; lra).
    assert (Em : Cmod (expi (qfft_phase r x)) = 1%R) by (unfold expi, Cmod; cbn [fst snd]; rewrite <- sqrt_1; f_equal; pose proof (sin2_cos2 (qfft_phase r x)) as P; unfold Rsqr in P; lra).
    rewrite Em. ring.
  - unfold qft_amp. rewrite Cmod_mult, Cmod_R. cbn [Nat.mul INR]. replace (2 * PI * 0 / 2 ^ length r)%R with 0%R by (field; apply pow_nonzero; lra). rewrite expi_0, Cmod_1, Rmult_1_r.
    rewrite Rabs_pos_eq by (apply pow_le; left; apply Rinv_0_lt_compat, sqrt_lt_R0; lra).
    clear - S1 Hr. pose proof sin_quarter as Q. destruct (length r) as [|m] eqn:E; [destruct r; [congruence|discriminate]|]. clear E.
    induction m as [|m IH]; [rewrite !pow_1; exact Q|].
    change ((sin (/ 4)) ^ S (S m))%R with (sin (/ 4) * sin (/ 4) ^ S m)%R. change ((/ sqrt 2) ^ S (S m))%R with (/ sqrt 2 * (/ sqrt 2) ^ S m)%R.
    apply Rmult_le_0_lt_compat; [lra|apply pow_le; lra|exact Q|exact IH].
Qed.
Print Assumptions C61_conditioned_refuted.
(** From two qubits on the state changes where the condition does not hold, also up to a
    global phase: |0...0> and |10...0> turn against each other. *)
Theorem C61_conditioned_idle_refuted : forall d r s, 0 < d -> wrapped d (conds s) -> tidy s -> let K := cqs d (conds s) in live s (K ++ r) -> 2 <= length r <= 63 ->
  exists D, does s (K ++ r) (qfft d r) r (K ++ r) D /\
    forall psi x y, forallb x K = false -> forallb y K = false -> (forall q, y q = if q =? nth 0 r 0 then true else x q) -> x (nth 0 r 0) = false ->
      psi x <> RtoC 0 -> psi y <> RtoC 0 -> Cmult (D psi y) (psi x) <> Cmult (D psi x) (psi y).
Proof.
  intros d r s Hd W T K Lv (H2 & Hn). assert (Hr : r <> []) by (intros ->; cbn in H2; lia).
  assert (N := proj1 Lv). apply NoDup_app_iff in N. destruct N as (_ & N & _).
  destruct (C61_conditioned_exact d r s Hd W T Lv Hr Hn) as (D & HD & _ & H). exists D. split; [exact HD|].
  intros psi x y Ex Ey Hy Hx Px Py X. rewrite !H in X by assumption.
  set (t := (1 - / 2 ^ (length r - 1))%R).
  assert (Ht : (0 < t < 1)%R).
  { unfold t. assert (1 < 2 ^ (length r - 1))%R by (apply Rlt_pow_R1; [lra|lia]). split; [|assert (0 < / 2 ^ (length r - 1))%R by (apply Rinv_0_lt_compat; lra); lra].
    assert (/ 2 ^ (length r - 1) < / 1)%R by (apply Rinv_lt_contravar; lra). lra. }
  assert (Ep : qfft_phase r y = (qfft_phase r x + t)%R).
  { unfold qfft_phase. destruct (length r) as [|m] eqn:El; [lia|]. cbn [seq map fold_right]. rewrite (Hy (nth 0 r 0)), Nat.eqb_refl, Hx.
    rewrite (map_ext_in _ (fun i => ((if x (nth i r 0%nat) then 1 else -1) * (qfft_turn (S m) i / 2))%R) (seq 1 m)).
    - unfold qfft_turn at 1 3. replace (S m - 1 - 0) with (S m - 1) by lia. unfold t. field. apply pow_nonzero. lra.
    - intros i Hi. apply in_seq in Hi. rewrite Hy. destruct (Nat.eqb_spec (nth i r 0) (nth 0 r 0)) as [E|E]; [|reflexivity]. apply (proj1 (NoDup_nth r 0) N) in E; lia. }
  rewrite Ep, <- expi_add in X. set (e := expi (qfft_phase r x)) in *.
  assert (He : e <> RtoC 0).
  { intros Z. assert (M : Cmult e (expi (- qfft_phase r x)) = RtoC 0) by (rewrite Z; ring). unfold e in M. rewrite expi_add, Rplus_opp_r, expi_0 in M. apply RtoC_inj in M. lra. }
  assert (Q : Cmult (Cminus (expi t) (RtoC 1)) (Cmult e (Cmult (psi x) (psi y))) = RtoC 0).
  { transitivity (Cminus (Cmult (Cmult (Cmult e (expi t)) (psi y)) (psi x)) (Cmult (Cmult e (psi x)) (psi y))); [ring|]. rewrite X. ring. }
  revert Q. apply Cmult_neq_0; [|apply Cmult_neq_0; [exact He|apply Cmult_neq_0; assumption]].
  intros Z. apply (f_equal snd) in Z. cbn in Z. assert (0 < sin t)%R by (apply sin_gt_0; [lra|]; pose proof PI2_1; lra). lra.
Qed.
Print Assumptions C61_conditioned_idle_refuted.
Example C61_conditioned_example : exists s', under [2] (qfft 1 [0; 1]) (fresh 3) = Ret ([2], [0; 1]) s'.
Proof.
  destruct (C61_conditioned_simulated 3 [2] [0; 1] [] (fun _ => false) (fun _ => false) (fun _ => 0%R)) as (s' & v & E & _).
  - nd.
  - discriminate.
  - discriminate.
  - cbn. lia.
  - intros q Hq. cbn in Hq. lia.
  - intros ? ? [].
  - split; [intros ? ? []|reflexivity].
  - intros ? _. reflexivity.
  - exists s'. exact E.
Qed.
