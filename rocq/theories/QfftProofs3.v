(** qfft.rs on a conditioned builder. *)
From Coq Require Import Reals Lra FunctionalExtensionality Permutation ZArith.
From Coquelicot Require Import Complex.
From Verif Require Import Base BitsSpec BitsProofs OpsModel OpsSpec Instances BuilderModel RegProofs DenSpec DenProofs LocalProofs LinkProofs
  SimProofs RunSpec RunProofs GateProofs ToffoliProofs SwapProofs RotProofs CondProofs SubProofs2 ProgramModel ProgramSpec ProgramProofs ProgramProofs2 ArithSpec ArithProofs3 ArithProofs4
  PropCond QfftModel QfftSpec QfftProofs QfftProofs2.
Local Open Scope nat_scope.
Local Open Scope mon_scope.

Section Run.
Context (r : list nat) (N : NoDup r) (Hne : r <> []) (d : nat) (Hd : 0 < d) (cd : list (option reg)) (W : wrapped d cd).
Notation K := (cqs d cd).
Context (NK : forall p, In p K -> ~ In p r).
Notation n := (length r).
Notation v := (map Some (singles r)).
Notation q i := (nth i r 0).

Lemma r_of_all s : live s (K ++ r) -> Permutation (r ++ K) (K ++ r).
Proof. intros _. apply Permutation_app_comm. Qed.

Definition cond_step (i : nat) (psi : state) : state := controlled K (each (mTilt (/ 4)) [q i]) (each (mRz (qfft_turn n i)) [q i] psi).
Lemma cond_qubit_does i s : conds s = cd -> i < n -> n <= 63 -> tidy s -> live s (K ++ r) ->
  does s (K ++ r) (qfft_qubit d n v i) v (K ++ r) (cond_step i).
Proof.
  intros Hc Hi Hn T Lv. unfold qfft_qubit.
  eapply quiet_then_does; [apply quiet_lift; [apply take_at_ok, nth_singles; exact Hi|exact T|exact Lv]|apply incl_refl|apply incl_refl|]. intros s1 C1 T1 L1. cbn beta iota.
  eapply does_eq.
  - eapply does_bind with (a := ([q i], upd_nth i None v)) (L1 := K ++ r); [|apply incl_refl|apply incl_refl|].
    + apply (mfold_does (qfft_rot i) ([q i], upd_nth i None v) (K ++ r) (fun j => each (mRz (/ 2 ^ (j - i))) [q i])); [exact T1|exact L1|].
      intros s2 j Ij C2 T2 L2. apply in_seq in Ij. apply (does_sub s2 (K ++ r) r K); [apply (r_of_all s2 L2)|exact L2|]. intros L3.
      apply rot_does; assumption || lia.
    + intros s2 C2 T2 L2. cbn beta iota. eapply does_then_quiet with (a := [q i]) (L1 := K ++ r).
      * assert (Ii : In (q i) r) by (apply nth_In; exact Hi).
        assert (NKr : NoDup (K ++ r)) by apply L2.
        destruct (part_of (K ++ [q i]) (K ++ r)) as (F & PF).
        { apply NoDup_app_iff in NKr. apply NoDup_app_iff. split; [apply NKr|]. split; [constructor; [intros []|constructor]|]. intros p Hp [<-|[]]. exact (NK _ Hp Ii). }
        { exact NKr. }
        { intros p Hp. apply in_app_iff in Hp. apply in_app_iff. destruct Hp as [Hp|[<-|[]]]; [left; exact Hp|right; exact Ii]. }
        apply (does_sub s2 (K ++ r) (K ++ [q i]) F); [exact PF|exact L2|]. intros L3.
        assert (EC : conds s2 = cd) by congruence. pose proof (gate_cond UH (q i) d s2 _ (try_H 1 (q i))) as G. rewrite EC in G.
        apply G; assumption.
      * intros s3 C3 T3 L3. rewrite (upd_nth_same _ i (Some [q i])) by (apply nth_singles; exact Hi). apply quiet_ret; assumption.
  - intros psi. cbv beta. rewrite turns. unfold cond_step, qfft_turn. replace (n - (i + 1)) with (n - 1 - i) by lia. reflexivity.
Qed.

Lemma cond_swap2_does i s : conds s = cd -> i < n / 2 -> tidy s -> live s (K ++ r) ->
  does s (K ++ r) (qfft_swap d n v i) v (K ++ r) (ctl_swap K [q i] [q (n - 1 - i)]).
Proof.
  intros Hc Hi T Lv. assert (Hi2 : i < n - 1 - i) by (pose proof (Nat.div_mod n 2); pose proof (Nat.mod_upper_bound n 2); lia).
  set (j := n - 1 - i) in *. assert (Hj : j < n) by lia. unfold qfft_swap. fold j.
  eapply quiet_then_does; [apply quiet_lift; [apply take_at_ok, nth_singles; lia|exact T|exact Lv]|apply incl_refl|apply incl_refl|]. intros s1 C1 T1 L1. cbn beta iota.
  assert (Ej : nth_error (upd_nth i None v) j = Some (Some [q j])).
  { rewrite nth_error_upd_nth. destruct (Nat.eqb_spec j i); [lia|]. apply nth_singles. exact Hj. }
  eapply quiet_then_does; [apply quiet_lift; [apply take_at_ok; exact Ej|exact T1|exact L1]|apply incl_refl|apply incl_refl|]. intros s2 C2 T2 L2. cbn beta iota.
  eapply does_then_quiet with (a := ([q i], [q j])) (L1 := K ++ r).
  - assert (I2 : incl [q i; q j] r) by (intros p [<-|[<-|[]]]; apply nth_In; lia).
    assert (N2 : NoDup [q i; q j]) by (constructor; [intros [X|[]]; apply (proj1 (NoDup_nth r 0) N) in X; lia|constructor; [intros []|constructor]]).
    assert (NKr : NoDup (K ++ r)) by apply L2.
    destruct (part_of (K ++ [q i; q j]) (K ++ r)) as (F & PF).
    { apply NoDup_app_iff in NKr. apply NoDup_app_iff. split; [apply NKr|]. split; [exact N2|]. intros p Hp Hq. exact (NK _ Hp (I2 _ Hq)). }
    { exact NKr. }
    { intros p Hp. apply in_app_iff in Hp. apply in_app_iff. destruct Hp as [Hp|Hp]; [left; exact Hp|right; apply I2; exact Hp]. }
    apply (does_sub s2 (K ++ r) (K ++ [q i; q j]) F); [exact PF|exact L2|]. intros L3.
    assert (EC : conds s2 = cd) by congruence. pose proof (C47_conditioned_swap d s2 [q i] [q j]) as G. cbv zeta in G. rewrite EC in G.
    apply G; [exact Hd|exact W|exact T2|reflexivity|discriminate|exact L3].
  - intros s3 C3 T3 L3. cbn beta iota.
    assert (EV : upd_nth j (Some [q j]) (upd_nth i (Some [q i]) (upd_nth j None (upd_nth i None v))) = v).
    { rewrite (upd_nth_comm _ i j) by lia. rewrite (upd_nth_same v i (Some [q i])) by (apply nth_singles; lia). apply upd_nth_same, nth_singles. exact Hj. }
    unfold reg in *. rewrite EV. apply quiet_ret; assumption.
Qed.

(** Conditions do not change. *)
Lemma K_upd x p b : In p r -> forallb (upd x p b) K = forallb x K.
Proof.
  intros Hp. assert (G : forall l, (forall k, In k l -> ~ In k r) -> forallb (upd x p b) l = forallb x l).
  { induction l as [|k l IH]; intros H; [reflexivity|]. cbn [forallb]. rewrite IH by (intros; apply H; right; assumption). rewrite upd_other; [reflexivity|]. intros ->. apply (H p); [left; reflexivity|exact Hp]. }
  apply G. exact NK.
Qed.
Lemma K_off (x y : bs) : (forall p, ~ In p r -> y p = x p) -> forallb y K = forallb x K.
Proof.
  intros H. assert (G : forall l, (forall k, In k l -> ~ In k r) -> forallb y l = forallb x l).
  { induction l as [|k l IH]; intros Hl; [reflexivity|]. cbn [forallb]. rewrite IH by (intros; apply Hl; right; assumption). rewrite H by (apply Hl; left; reflexivity). reflexivity. }
  apply G. exact NK.
Qed.
Lemma fold_agree (ms : nat -> mat1) b : forall is phi phi', (forall i, In i is -> i < n) -> (forall z, forallb z K = b -> phi z = phi' z) ->
  forall z, forallb z K = b -> fold_left (fun psi i => each (ms i) [q i] psi) is phi z = fold_left (fun psi i => each (ms i) [q i] psi) is phi' z.
Proof.
  induction is as [|i is IH]; intros phi phi' Hi H z Hz; cbn [fold_left]; [apply H; exact Hz|].
  apply IH; [intros; apply Hi; right; assumption| |exact Hz]. intros y Hy. unfold each, on1. cbn [fold_left].
  assert (I : In (q i) r) by (apply nth_In, Hi; left; reflexivity). rewrite !H by (rewrite K_upd by exact I; exact Hy). reflexivity.
Qed.
Lemma cond_chain : forall is psi x, (forall i, In i is -> i < n) ->
  fold_left (fun psi i => cond_step i psi) is psi x =
  if forallb x K then fold_left (fun psi i => each (mmul (mTilt (/ 4)) (mRz (qfft_turn n i))) [q i] psi) is psi x
  else fold_left (fun psi i => each (mRz (qfft_turn n i)) [q i] psi) is psi x.
Proof.
  induction is as [|i is IH]; intros psi x Hi; cbn [fold_left]; [destruct (forallb x K); reflexivity|].
  rewrite IH by (intros; apply Hi; right; assumption). destruct (forallb x K) eqn:E.
  - apply (fold_agree (fun i => mmul (mTilt (/ 4)) (mRz (qfft_turn n i))) true); [intros; apply Hi; right; assumption| |exact E].
    intros z Hz. unfold cond_step, controlled. rewrite Hz. rewrite each_mul by (constructor; [intros []|constructor]). reflexivity.
  - apply (fold_agree (fun i => mRz (qfft_turn n i)) false); [intros; apply Hi; right; assumption| |exact E].
    intros z Hz. unfold cond_step, controlled. rewrite Hz. reflexivity.
Qed.
Lemma cond_swaps psi : forall k, k <= n / 2 ->
  fold_left (fun psi i => ctl_swap K [q i] [q (n - 1 - i)] psi) (seq 0 k) psi = fun x => if forallb x K then psi (half r k x) else psi x.
Proof.
  induction k as [|k IH]; intros Hk.
  - cbn. extensionality x. rewrite half_0 by assumption. destruct (forallb x K); reflexivity.
  - rewrite seq_S, fold_left_app, IH by lia. cbn [fold_left]. extensionality x. unfold ctl_swap. cbn [plus]. destruct (forallb x K) eqn:E; [|reflexivity].
    assert (H2 : k < n - 1 - k) by (pose proof (Nat.div_mod n 2); pose proof (Nat.mod_upper_bound n 2); lia).
    rewrite (K_off x), E.
    + rewrite half_step by (assumption || lia). reflexivity.
    + intros p Hp. rewrite exchange_at by (intros X; apply (proj1 (NoDup_nth r 0) N) in X; lia).
      destruct (Nat.eqb_spec p (q k)) as [->|e]; [exfalso; apply Hp, nth_In; lia|]. destruct (Nat.eqb_spec p (q (n - 1 - k))) as [->|e']; [exfalso; apply Hp, nth_In; lia|]. reflexivity.
Qed.

(** A diagonal matrix on each qubit. *)
Lemma turns_phase x : forall is psi, (forall i, In i is -> i < n) ->
  fold_left (fun psi i => each (mRz (qfft_turn n i)) [q i] psi) is psi x =
  Cmult (expi (fold_right Rplus 0%R (map (fun i => ((if x (q i) then 1 else -1) * (qfft_turn n i / 2))%R) is))) (psi x).
Proof.
  induction is as [|i is IH]; intros psi Hi; cbn [fold_left map fold_right]; [rewrite expi_0; ring|].
  rewrite IH by (intros; apply Hi; right; assumption). unfold mRz at 1. rewrite each_diag1. rewrite <- expi_add.
  replace ((if x (q i) then 1 else -1) * (qfft_turn n i / 2))%R with (if x (q i) then qfft_turn n i / 2 else - (qfft_turn n i / 2))%R by (destruct (x (q i)); field).
  destruct (x (q i)); ring.
Qed.

(** The amplitudes where the conditions hold. *)
Lemma mTilt_Rz t a b : mmul (mTilt (/ 4)) (mRz t) a b =
  Cmult (RtoC ((if a && b then -1 else 1) * (if eqb b a then sin (/ 4) else cos (/ 4)))) (expi ((if b then 1 else -1) * (t / 2))).
Proof.
  unfold mmul, mTilt, mRz, diag. replace ((if b then 1 else -1) * (t / 2))%R with (if b then t / 2 else - (t / 2))%R by (destruct b; field).
  destruct a, b; cbn [eqb andb]; rewrite ?RtoC_mult, ?RtoC_opp; try ring.
  all: replace (RtoC (-1)) with (Copp (RtoC 1)) by (rewrite <- RtoC_opp; f_equal; lra); ring.
Qed.
Lemma tilt_prod (f g : nat -> bool) (t : nat -> R) : forall is,
  cprod (map (fun i => mmul (mTilt (/ 4)) (mRz (t i)) (g i) (f i)) is) =
  Cmult (RtoC ((if fold_right xorb false (map (fun i => f i && g i) is) then -1 else 1) *
      (sin (/ 4) ^ length (filter (fun i => eqb (f i) (g i)) is) * cos (/ 4) ^ (length is - length (filter (fun i => eqb (f i) (g i)) is)))))
    (expi (fold_right Rplus 0%R (map (fun i => ((if f i then 1 else -1) * (t i / 2))%R) is))).
Proof.
  induction is as [|i is IH]; cbn [map cprod fold_right length pow filter].
  - rewrite expi_0. rewrite <- RtoC_mult. f_equal. cbn. ring.
  - fold (cprod (map (fun i => mmul (mTilt (/ 4)) (mRz (t i)) (g i) (f i)) is)). rewrite IH, mTilt_Rz, <- expi_add. rewrite (andb_comm (g i)).
    assert (Lf : length (filter (fun i => eqb (f i) (g i)) is) <= length is).
    { clear. induction is as [|i is IH]; [apply le_n|]. cbn [filter length]. destruct (eqb (f i) (g i)); cbn [length]; lia. }
    set (m := length (filter _ is)) in *. set (E := expi (fold_right _ _ _)). set (F := expi ((if f i then 1 else -1) * (t i / 2))). set (s := fold_right xorb false _).
    transitivity (Cmult (RtoC (((if f i && g i then -1 else 1) * (if eqb (f i) (g i) then sin (/ 4) else cos (/ 4))) * ((if s then -1 else 1) * (sin (/ 4) ^ m * cos (/ 4) ^ (length is - m))))) (Cmult F E)); [rewrite !RtoC_mult; ring|].
    f_equal. f_equal. destruct (eqb (f i) (g i)) eqn:Eq; cbn [length]; fold m.
    + replace (S (length is) - S m) with (length is - m) by lia. cbn [pow]. destruct (f i && g i), s; cbn [xorb]; ring.
    + replace (S (length is) - m) with (S (length is - m)) by lia. cbn [pow]. destruct (f i && g i), s; cbn [xorb]; ring.
Qed.

Definition cond_qfft (psi : state) : state := fun x => let phi := fold_left (fun psi i => cond_step i psi) (seq 0 n) psi in if forallb x K then phi (mirror r x) else phi x.
Lemma cond_qfft_does s : conds s = cd -> n <= 63 -> tidy s -> live s (K ++ r) -> does s (K ++ r) (qfft d r) r (K ++ r) cond_qfft.
Proof.
  intros Hc Hn T Lv. unfold qfft.
  eapply quiet_then_does; [apply quiet_lift; [apply split_all_ok; [exact N|exact Hne]|exact T|exact Lv]|apply incl_refl|apply incl_refl|]. intros s1 C1 T1 L1. cbn beta iota zeta.
  assert (En : length (singles r) = n) by (unfold singles; apply map_length). rewrite En. eapply does_eq.
  - eapply does_bind with (a := v) (L1 := K ++ r); [|apply incl_refl|apply incl_refl|].
    + apply (mfold_does (qfft_qubit d n) v (K ++ r) (fun i => cond_step i)); [exact T1|exact L1|]. intros s2 i Ii C2 T2 L2. apply in_seq in Ii. apply cond_qubit_does; [congruence|lia|exact Hn|exact T2|exact L2].
    + intros s2 C2 T2 L2. eapply does_then_quiet with (a := v) (L1 := K ++ r).
      * apply (mfold_does (qfft_swap d n) v (K ++ r) (fun i => ctl_swap K [q i] [q (n - 1 - i)])); [exact T2|exact L2|]. intros s3 i Ii C3 T3 L3. apply in_seq in Ii. apply cond_swap2_does; [congruence|lia|exact T3|exact L3].
      * intros s3 C3 T3 L3. eapply quiet_bind; [apply quiet_lift; [apply unwrap_somes|exact T3|exact L3]|].
        intros s4 C4 T4 L4. eapply quiet_bind; [apply quiet_lift; [apply merge_singles|exact T4|exact L4]|]. intros s5 C5 T5 L5.
        unfold new_reg. destruct r; [congruence|]. apply quiet_ret; assumption.
  - intros psi. cbv beta. rewrite cond_swaps by lia. extensionality x. unfold cond_qfft. rewrite half_full by assumption. reflexivity.
Qed.
Lemma cond_qfft_out psi x : forallb x K = false -> cond_qfft psi x = Cmult (expi (qfft_phase r x)) (psi x).
Proof.
  intros E. unfold cond_qfft. cbv zeta. rewrite E, cond_chain, E by (intros i Hi; apply in_seq in Hi; lia).
  rewrite turns_phase by (intros i Hi; apply in_seq in Hi; lia). reflexivity.
Qed.
Lemma cond_qfft_in psi x y : forallb y K = true -> only_in r x y -> settled r x psi -> cond_qfft psi y = Cmult (qfft_cond_amp r x y) (psi x).
Proof.
  intros E O Se. unfold cond_qfft. cbv zeta. rewrite E, cond_chain by (intros i Hi; apply in_seq in Hi; lia).
  rewrite (K_off y), E by (intros p Hp; apply rev_off; exact Hp).
  rewrite (chain_amp (fun i => mmul (mTilt (/ 4)) (mRz (qfft_turn n i))) (fun i => q i) x (mirror r y)) by (rewrite nths; assumption).
  rewrite nths. f_equal.
  - unfold qfft_cond_amp, qfft_sign, qfft_agree, qfft_phase. rewrite (tilt_prod (fun i => x (q i)) (fun i => mirror r y (q i)) (fun i => qfft_turn n i)), seq_length.
    assert (E1 : map (fun i => x (q i) && mirror r y (q i)) (seq 0 n) = map (fun i => x (q i) && y (q (n - 1 - i))) (seq 0 n)).
    { apply map_ext_in. intros i Hi. apply in_seq in Hi. f_equal. apply rev_at; [exact N|lia]. }
    assert (E2 : filter (fun i => eqb (x (q i)) (mirror r y (q i))) (seq 0 n) = filter (fun i => eqb (x (q i)) (y (q (n - 1 - i)))) (seq 0 n)).
    { apply filter_ext_in. intros i Hi. apply in_seq in Hi. f_equal. apply rev_at; [exact N|lia]. }
    rewrite E1, E2. reflexivity.
  - f_equal. extensionality p. unfold as_in. destruct (in_dec Nat.eq_dec p r) as [I|I]; [reflexivity|]. rewrite (rev_off r y p I). apply O. exact I.
Qed.
End Run.
