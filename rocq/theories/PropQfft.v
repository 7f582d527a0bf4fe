(** The Fourier transform of qfft.rs: C61. *)
From Coq Require Import Reals Lra FunctionalExtensionality Permutation ZArith.
From Coquelicot Require Import Complex.
From Verif Require Import Base BitsSpec BitsProofs OpsModel OpsSpec Instances BuilderModel RegProofs DenSpec DenProofs LocalProofs LinkProofs
  SimModel SimSpec SimProofs RunSpec RunProofs GateProofs ToffoliProofs RotProofs CondProofs ProgramModel ProgramSpec ProgramProofs ProgramProofs2 ArithSpec ArithProofs3 QfftModel QfftSpec QfftProofs QfftProofs2.
Local Open Scope nat_scope.
Local Open Scope mon_scope.
Local Ltac nd := repeat constructor; cbn; intuition lia.

(** *** C61: qfft *)
(** The conditions on the rotations are dropped and their angles are not multiples of pi, so
    that the amplitudes differ only in sign. *)
Theorem C61_qfft_exact : forall r s, NoDup r -> r <> [] -> length r <= 63 -> tidy s -> live s r ->
  exists D, does s r (qfft 0 r) r r D /\
    (forall psi x y, settled r x psi -> only_in r x y -> D psi y = Cmult (qfft_amp r x y) (psi x)) /\
    (forall psi x y, settled r x psi -> (forall z, psi z <> RtoC 0 -> ~ only_in r z y) -> D psi y = RtoC 0).
Proof.
  intros r s N Hr Hn T Lv. eexists. split; [apply qfft_does; assumption|]. split.
  - intros psi x y Se O. apply chain_is; assumption.
  - intros psi x y Se O. eapply chain_off; eassumption.
Qed.
Print Assumptions C61_qfft_exact.
(** Through the simulator. *)
Theorem C61_simulated : forall k r it x y draws, NoDup r -> r <> [] -> length r <= 63 -> in_range k r ->
  (forall r v, In (r, v) it -> in_range k r) -> loads it x -> only_in r x y ->
  exists s' v, qfft 0 r (fresh k) = Ret r s' /\ calculate_state_with_init (bld s') it draws = Ok (v, []) /\
    nth (enc (bn (bld s')) y) v (RtoC 0) = qfft_amp r x y.
Proof.
  intros k r it x y draws N Hr Hn R Ri Lo O.
  destruct (C61_qfft_exact r (fresh k) N Hr Hn (fresh_tidy k) (fresh_live k _ N R)) as (D & H & H1 & _).
  destruct (does_amplitudes k r (qfft 0 r) r r D it x draws H Ri Lo) as (s' & v & E1 & Hk & E2 & E3).
  exists s', v. split; [exact E1|]. split; [exact E2|]. rewrite E3, (H1 _ x y).
  - rewrite ket_eq by reflexivity. ring.
  - intros z (p & Hp & Hz). apply (ket_ne _ x z p); [|congruence]. specialize (R p Hp). lia.
  - exact O.
Qed.
Print Assumptions C61_simulated.
(** On one qubit this is the Fourier transform. *)
Theorem C61_qfft_partial : forall k p it x y draws, p < k -> (forall r v, In (r, v) it -> in_range k r) -> loads it x -> only_in [p] x y ->
  exists s' v, qfft 0 [p] (fresh k) = Ret [p] s' /\ calculate_state_with_init (bld s') it draws = Ok (v, []) /\
    nth (enc (bn (bld s')) y) v (RtoC 0) = qft_amp 1 (val [p] x) (val [p] y).
Proof.
  intros k p it x y draws Hp Ri Lo O. destruct (C61_simulated k [p] it x y draws) as (s' & v & E1 & E2 & E3); try assumption.
  - nd.
  - discriminate.
  - cbn. lia.
  - intros q [<-|[]]. exact Hp.
  - exists s', v. split; [exact E1|]. split; [exact E2|]. rewrite E3. unfold qfft_amp, qft_amp, qfft_sign, qfft_phase, qfft_turn, val. cbn.
    rewrite xorb_false_r.
    replace ((if x p then 1 else -1) * ((1 - / 1) / 2) + 0)%R with 0%R by (field). rewrite expi_0.
    destruct (x p), (y p); cbn [b2n Nat.mul Nat.add INR andb];
      try (replace (2 * PI * 0 / (2 * 1))%R with 0%R by field; rewrite expi_0; f_equal; f_equal; ring).
    replace (2 * PI * 1 / (2 * 1))%R with PI by field. unfold expi. rewrite cos_PI, sin_PI. unfold RtoC, Cmult. cbn. f_equal; ring.
Qed.
Print Assumptions C61_qfft_partial.
(** From two qubits on it is not, whatever the order in which the qubits of the input and of
    the output are read, and up to any factor for each input. *)
Theorem C61_refuted : forall k r rx ry (z : bs -> C), NoDup r -> 2 <= length r <= 63 -> in_range k r -> Permutation r rx -> Permutation r ry ->
  ~ (forall it x y s' v, (forall r v, In (r, v) it -> in_range k r) -> loads it x -> only_in r x y ->
       qfft 0 r (fresh k) = Ret r s' -> calculate_state_with_init (bld s') it (fun _ => 0%R) = Ok (v, []) ->
       nth (enc (bn (bld s')) y) v (RtoC 0) = Cmult (z x) (qft_amp (length r) (val rx x) (val ry y))).
Proof.
  intros k r rx ry z N (H2 & Hn) R Px Py H.
  assert (Hr : r <> []) by (intros ->; cbn in H2; lia).
  pose proof (Permutation_length Px) as Lx. pose proof (Permutation_length Py) as Ly.
  pose proof (Permutation_NoDup Px N) as Nx. pose proof (Permutation_NoDup Py N) as Ny.
  set (x := fun q => q =? nth 0 rx 0). set (y0 := fun _ : nat => false). set (y1 := fun q => q =? nth (length r - 2) ry 0).
  assert (I0 : In (nth 0 rx 0) r) by (eapply Permutation_in; [symmetry; exact Px|]; apply nth_In; lia).
  assert (I1 : In (nth (length r - 2) ry 0) r) by (eapply Permutation_in; [symmetry; exact Py|]; apply nth_In; lia).
  assert (Ri : forall r' v', In (r', v') [([nth 0 rx 0], 1)] -> in_range k r') by (intros r' v' [[= <- <-]|[]] q [<-|[]]; apply R; exact I0).
  assert (Lo : loads [([nth 0 rx 0], 1)] x).
  { split.
    - intros r' v' [[= <- <-]|[]] [|j] Hj; cbn in Hj; [|lia]. unfold x. cbn. apply Nat.eqb_refl.
    - intros q Hq. unfold x. apply Nat.eqb_neq. intros ->. apply (Hq [nth 0 rx 0] 1); left; reflexivity. }
  assert (Vx : val rx x = 1) by (apply (val_bit rx Nx 0); lia).
  assert (V1 : val ry y1 = 2 ^ (length r - 2)) by (apply val_bit; [exact Ny|lia]).
  assert (O0 : only_in r x y0) by (intros p Hp; unfold x, y0; symmetry; apply Nat.eqb_neq; intros ->; contradiction).
  assert (O1 : only_in r x y1) by (intros p Hp; unfold x, y1; transitivity false; [|symmetry]; apply Nat.eqb_neq; intros ->; contradiction).
  destruct (C61_simulated k r _ x y0 (fun _ => 0%R) N Hr Hn R Ri Lo O0) as (s' & v & E1 & E2 & E3).
  destruct (C61_simulated k r _ x y1 (fun _ => 0%R) N Hr Hn R Ri Lo O1) as (s2 & v2 & F1 & F2 & F3).
  rewrite E1 in F1. injection F1 as <-. rewrite E2 in F2. injection F2 as <-.
  rewrite (H _ x y0 s' v Ri Lo O0 E1 E2) in E3. rewrite (H _ x y1 s' v Ri Lo O1 E1 E2) in F3. clear H.
  rewrite Vx, V1 in *. unfold y0 in E3 at 1. rewrite val_0 in E3. unfold qft_amp in E3, F3.
  rewrite Nat.mul_0_r in E3. cbn [INR] in E3. replace (2 * PI * 0 / 2 ^ length r)%R with 0%R in E3 by (field; apply pow_nonzero; lra). rewrite expi_0 in E3.
  rewrite Nat.mul_1_l, pow_INR in F3. replace (INR 2) with 2%R in F3 by reflexivity.
  assert (P2 : (2 * PI * 2 ^ (length r - 2) / 2 ^ length r)%R = (PI / 2)%R).
  { replace (length r) with (2 + (length r - 2)) at 2 by lia. rewrite pow_add. cbn [pow]. field. apply pow_nonzero. lra. }
  rewrite P2, expi_pi2 in F3. unfold qfft_amp in E3, F3. set (h := ((/ sqrt 2) ^ length r)%R) in *. set (e := expi _) in *.
  assert (S0 : qfft_sign r x y0 = false).
  { unfold qfft_sign, y0. induction (seq 0 (length r)) as [|i l IH]; [reflexivity|]. cbn [map fold_right]. rewrite andb_false_r, IH. reflexivity. }
  rewrite S0, Rmult_1_l in E3.
  assert (K : Cmult Ci (Cmult (RtoC h) e) = Cmult (RtoC (if qfft_sign r x y1 then -1 else 1)) (Cmult (RtoC h) e)).
  { transitivity (Cmult (z x) (Cmult (RtoC h) Ci)); [transitivity (Cmult Ci (Cmult (z x) (Cmult (RtoC h) (RtoC 1)))); [rewrite E3; reflexivity|ring]|rewrite F3, RtoC_mult; ring]. }
  assert (Hh : (h <> 0)%R) by (apply pow_nonzero, Rinv_neq_0_compat; apply Rgt_not_eq, sqrt_lt_R0; lra).
  assert (He : Cmult (RtoC h) e <> RtoC 0).
  { intros X. assert (M : Cmult (Cmult (RtoC h) e) (expi (- qfft_phase r x)) = RtoC 0) by (rewrite X; ring).
    unfold e in M. rewrite <- Cmult_assoc, expi_add, Rplus_opp_r, expi_0, Cmult_1_r in M. apply RtoC_inj in M. contradiction. }
  assert (Q : Cmult (Cminus Ci (RtoC (if qfft_sign r x y1 then -1 else 1))) (Cmult (RtoC h) e) = RtoC 0) by (unfold Cminus; rewrite Cmult_plus_distr_r, K; ring).
  assert (Z : Cminus Ci (RtoC (if qfft_sign r x y1 then -1 else 1)) <> RtoC 0).
  { intros X. apply (f_equal snd) in X. cbn in X. lra. }
  exact (Cmult_neq_0 _ _ Z He Q).
Qed.
Print Assumptions C61_refuted.
(** With 64 qubits or more it panics: the divisor overflows. *)
Theorem C61_large_panic : forall r s, NoDup r -> 64 <= length r -> tidy s -> live s r -> qfft 0 r s = Crash PUnderflow.
Proof.
  intros r s N Hn T Lv. assert (Hr : r <> []) by (intros ->; cbn in Hn; lia).
  unfold qfft, mbind at 1, lift at 1. rewrite split_all_ok by assumption. cbv zeta.
  replace (length (singles r)) with (length r) by (unfold singles; rewrite map_length; reflexivity).
  unfold mbind at 1. replace (mfold (qfft_qubit 0 (length r)) (seq 0 (length r)) (map Some (singles r)) s) with (@Crash (list (option reg)) PUnderflow); [reflexivity|].
  destruct (length r) as [|n] eqn:El; [lia|]. cbn [seq mfold]. unfold mbind at 1.
  assert (E : qfft_qubit 0 (S n) (map Some (singles r)) 0 s = Crash PUnderflow); [|rewrite E; reflexivity].
  unfold qfft_qubit, mbind at 1, lift at 1. rewrite (take_at_ok _ 0 [nth 0 r 0]) by (apply nth_singles; lia). cbn [plus].
  replace (S n - 1) with (62 + (S (n - 63))) by lia. rewrite seq_app. unfold mbind at 1.
  assert (App : forall A B (f : A -> B -> M A) l1 l2 a s, mfold f (l1 ++ l2) a s = mbind (mfold f l1 a) (mfold f l2) s).
  { intros A B f. induction l1 as [|b l1 IH]; intros l2 a s0; [reflexivity|]. cbn [app mfold]. unfold mbind. destruct (f a b s0); try reflexivity. rewrite IH. reflexivity. }
  rewrite App. unfold mbind at 1.
  pose proof (mfold_does (qfft_rot 0) ([nth 0 r 0], upd_nth 0 None (map Some (singles r))) r (fun j => each (mRz (/ 2 ^ (j - 0))) [nth 0 r 0]) (seq 1 62) s T Lv) as X.
  destruct X as (s1 & p & E1 & _).
  { intros s' j Hj _ T' L'. apply in_seq in Hj. apply rot_does; try assumption; lia. }
  unfold reg in *. rewrite E1. change (1 + 62) with 63. cbn [seq mfold]. unfold mbind at 1.
  assert (E2 : qfft_rot 0 ([nth 0 r 0], upd_nth 0 None (map Some (singles r))) 63 s1 = Crash PUnderflow); [|unfold reg in *; rewrite E2; reflexivity].
  unfold qfft_rot, mbind at 1, lift at 1. rewrite (take_at_ok _ 63 [nth 63 r 0]); [reflexivity|].
  rewrite nth_error_upd_nth. cbn [Nat.eqb]. apply nth_singles. lia.
Qed.
Print Assumptions C61_large_panic.
(** On two qubits: the amplitudes from 1 are 1/2 e^(i/4) with signs +, +, -, -; those of the
    Fourier transform have phases 1, i, -1, -i. *)
Example C61_example : exists s', qfft 0 [0; 1] (fresh 2) = Ret [0; 1] s' /\
  qfft_sign [0; 1] (fun q => q =? 0) (fun _ => false) = false /\ qfft_sign [0; 1] (fun q => q =? 0) (fun q => q =? 0) = false /\
  qfft_sign [0; 1] (fun q => q =? 0) (fun q => q =? 1) = true /\ qfft_phase [0; 1] (fun q => q =? 0) = (/ 4)%R.
Proof.
  destruct (C61_simulated 2 [0; 1] [] (fun _ => false) (fun _ => false) (fun _ => 0%R)) as (s' & v & E & _).
  - nd.
  - discriminate.
  - cbn. lia.
  - intros q [<-|[<-|[]]]; lia.
  - intros ? ? [].
  - split; [intros ? ? []|reflexivity].
  - intros ? _. reflexivity.
  - exists s'. split; [exact E|]. do 3 (split; [reflexivity|]). unfold qfft_phase, qfft_turn. cbn. field.
Qed.
Example C61_panic_example : qfft 0 (seq 0 64) (fresh 64) = Crash PUnderflow.
Proof. apply C61_large_panic; [apply seq_NoDup|cbn; lia|apply fresh_tidy|apply fresh_live; [apply seq_NoDup|intros q Hq; apply in_seq in Hq; lia]]. Qed.
