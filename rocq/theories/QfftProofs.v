(** qfft.rs on an unconditioned builder. *)
From Coq Require Import Reals Lra FunctionalExtensionality Permutation ZArith.
From Coquelicot Require Import Complex.
From Verif Require Import Base BitsSpec BitsProofs OpsModel OpsSpec Instances BuilderModel RegProofs DenSpec DenProofs LocalProofs LinkProofs
  SimProofs RunSpec RunProofs GateProofs ToffoliProofs SwapProofs RotProofs CondProofs SubProofs2 ProgramModel ProgramSpec ProgramProofs ProgramProofs2 ArithProofs3 QfftModel QfftSpec.
Local Open Scope nat_scope.
Local Open Scope mon_scope.

(** *** Loops that give back what they were given *)
Lemma mfold_does {A B} (f : A -> B -> M A) (a : A) L (D : B -> state -> state) : forall l s,
  tidy s -> live s L -> (forall s' b, In b l -> conds s' = conds s -> tidy s' -> live s' L -> does s' L (f a b) a L (D b)) ->
  does s L (mfold f l a) a L (fun psi => fold_left (fun psi b => D b psi) l psi).
Proof.
  induction l as [|b l IH]; intros s T Lv H; cbn [mfold fold_left].
  - apply does_ret; assumption.
  - apply (does_bind s L (f a b) a L (D b) (fun a' => mfold f l a') a L (fun psi => fold_left (fun psi b => D b psi) l psi)); [apply H; [left|..]; trivial|apply incl_refl|apply incl_refl|].
    intros s1 C1 T1 L1. apply IH; [exact T1|exact L1|]. intros s2 b2 I2 C2. apply H; [right; exact I2|congruence].
Qed.

Lemma unwrap_somes {A} (l : list A) : mapM unwrap_opt (map Some l) = Ok l.
Proof. induction l as [|a l IH]; [reflexivity|]. cbn in *. rewrite IH. reflexivity. Qed.

Section Run.
Context (r : list nat) (N : NoDup r) (Hne : r <> []).
Notation n := (length r).
Notation v := (map Some (singles r)).
Notation q i := (nth i r 0).

Lemma q_in i : i < n -> In (q i) r.
Proof. intros H. apply nth_In. exact H. Qed.
Lemma q_inj i j : i < n -> j < n -> q i = q j -> i = j.
Proof. intros H1 H2. apply NoDup_nth; assumption. Qed.

Lemma rot_does i j s : i < j -> j < n -> j - i < 63 -> tidy s -> live s r ->
  does s r (qfft_rot i ([q i], upd_nth i None v) j) ([q i], upd_nth i None v) r (each (mRz (/ 2 ^ (j - i))) [q i]).
Proof.
  intros Hij Hj Hk T Lv. unfold qfft_rot.
  assert (Ej : nth_error (upd_nth i None v) j = Some (Some [q j])).
  { rewrite nth_error_upd_nth. destruct (Nat.eqb_spec j i); [lia|]. apply nth_singles. exact Hj. }
  eapply quiet_then_does; [apply quiet_lift; [apply take_at_ok; exact Ej|exact T|exact Lv]|apply incl_refl|apply incl_refl|]. intros s1 C1 T1 L1. cbn beta iota.
  eapply does_then_quiet with (a := ([q j], [q i])) (L1 := r).
  - unfold in_condition. apply does_scoped, does_section.
    assert (E : (2 ^ Z.of_nat (j - i))%Z <> 0%Z /\ (2 ^ Z.of_nat (j - i))%Z <> (- 2 ^ 63)%Z) by (split; [apply Z.pow_nonzero; lia|pose proof (Z.pow_nonneg 2 (Z.of_nat (j - i))); lia]).
    eapply quiet_then_does; [apply quiet_lift; [unfold shl_i64; rewrite (proj2 (Nat.ltb_lt _ _) Hk); reflexivity|exact T1|exact L1]|apply incl_refl|apply incl_refl|].
    intros s2 C2 T2 L2. eapply does_eq; [apply rz_pi_by_does; [apply E|apply E|exact T2|exact L2|apply q_in; lia]|].
    intros psi. rewrite <- pow_IZR. reflexivity.
  - intros s2 C2 T2 L2. cbn beta iota. rewrite (upd_nth_same _ j (Some [q j])) by exact Ej. apply quiet_ret; assumption.
Qed.

Lemma mRz_add a b p psi : each (mRz a) [p] (each (mRz b) [p] psi) = each (mRz (a + b)) [p] psi.
Proof.
  unfold mRz. rewrite !each_diag1. extensionality x. rewrite Cmult_assoc. f_equal. destruct (x p); rewrite expi_add; f_equal; field.
Qed.
Lemma mRz_0 p psi : each (mRz 0) [p] psi = psi.
Proof.
  unfold mRz. rewrite each_diag1. extensionality x. replace (0 / 2)%R with 0%R by field. rewrite Ropp_0, expi_0. destruct (x p); apply Cmult_1_l.
Qed.
Lemma turns p i : forall k psi, fold_left (fun psi j => each (mRz (/ 2 ^ (j - i))) [p] psi) (seq (i + 1) k) psi = each (mRz (1 - / 2 ^ k)) [p] psi.
Proof.
  induction k as [|k IH]; intros psi.
  - cbn [seq fold_left]. cbn [pow]. replace (1 - / 1)%R with 0%R by field. rewrite mRz_0. reflexivity.
  - rewrite seq_S, fold_left_app. cbn [fold_left]. rewrite IH, mRz_add. f_equal. f_equal. replace (i + 1 + k - i) with (S k) by lia. cbn [pow]. field. apply pow_nonzero. lra.
Qed.

Definition qfft_mat (i : nat) : mat1 := mmul mH (mRz (qfft_turn n i)).
Lemma qubit_does i s : i < n -> n <= 63 -> tidy s -> live s r ->
  does s r (qfft_qubit 0 n v i) v r (each (qfft_mat i) [q i]).
Proof.
  intros Hi Hn T Lv. unfold qfft_qubit.
  eapply quiet_then_does; [apply quiet_lift; [apply take_at_ok, nth_singles; exact Hi|exact T|exact Lv]|apply incl_refl|apply incl_refl|]. intros s1 C1 T1 L1. cbn beta iota.
  eapply does_eq.
  - eapply does_bind with (a := ([q i], upd_nth i None v)) (L1 := r); [|apply incl_refl|apply incl_refl|].
    + apply (mfold_does (qfft_rot i) ([q i], upd_nth i None v) r (fun j => each (mRz (/ 2 ^ (j - i))) [q i])); [exact T1|exact L1|].
      intros s2 j Ij C2 T2 L2. apply in_seq in Ij. apply rot_does; [lia|lia|lia|exact T2|exact L2].
    + intros s2 C2 T2 L2. cbn beta iota. eapply does_then_quiet with (a := [q i]) (L1 := r).
      * apply (gate_does UH); [reflexivity|exact T2|exact L2| |constructor; [intros []|constructor]|discriminate]. intros p [<-|[]]. apply q_in. exact Hi.
      * intros s3 C3 T3 L3. rewrite (upd_nth_same _ i (Some [q i])) by (apply nth_singles; exact Hi). apply quiet_ret; assumption.
  - intros psi. cbv beta. rewrite turns. cbn [gate_mat]. rewrite each_mul by (constructor; [intros []|constructor]). unfold qfft_mat, qfft_turn. replace (n - (i + 1)) with (n - 1 - i) by lia. reflexivity.
Qed.

Lemma swap2_does i s : i < n / 2 -> tidy s -> live s r ->
  does s r (qfft_swap 0 n v i) v r (fun psi x => psi (exchange [q i] [q (n - 1 - i)] x)).
Proof.
  intros Hi T Lv. assert (Hi2 : i < n - 1 - i) by (pose proof (Nat.div_mod n 2); pose proof (Nat.mod_upper_bound n 2); lia).
  set (j := n - 1 - i) in *. assert (Hj : j < n) by lia. unfold qfft_swap. fold j.
  eapply quiet_then_does; [apply quiet_lift; [apply take_at_ok, nth_singles; lia|exact T|exact Lv]|apply incl_refl|apply incl_refl|]. intros s1 C1 T1 L1. cbn beta iota.
  assert (Ej : nth_error (upd_nth i None v) j = Some (Some [q j])).
  { rewrite nth_error_upd_nth. destruct (Nat.eqb_spec j i); [lia|]. apply nth_singles. exact Hj. }
  eapply quiet_then_does; [apply quiet_lift; [apply take_at_ok; exact Ej|exact T1|exact L1]|apply incl_refl|apply incl_refl|]. intros s2 C2 T2 L2. cbn beta iota.
  eapply does_then_quiet with (a := ([q i], [q j])) (L1 := r).
  - assert (I2 : incl [q i; q j] r) by (intros p [<-|[<-|[]]]; apply q_in; lia).
    assert (N2 : NoDup [q i; q j]) by (constructor; [intros [X|[]]; apply q_inj in X; lia|constructor; [intros []|constructor]]).
    destruct (part_of [q i; q j] r N2 N I2) as (F & PF). apply (does_sub s2 r [q i; q j] F); [exact PF|exact L2|]. intros L3.
    apply (local_swap_does s2 [q i] [q j]); [exact T2|reflexivity|discriminate|exact L3].
  - intros s3 C3 T3 L3. cbn beta iota.
    assert (EV : upd_nth j (Some [q j]) (upd_nth i (Some [q i]) (upd_nth j None (upd_nth i None v))) = v).
    { rewrite (upd_nth_comm _ i j) by lia. rewrite (upd_nth_same v i (Some [q i])) by (apply nth_singles; lia). apply upd_nth_same, nth_singles. exact Hj. }
    unfold reg in *. rewrite EV. apply quiet_ret; assumption.
Qed.

(** The swaps reverse the register. *)
Definition half (k : nat) (x : bs) : bs := updl x r (map (fun i => if (i <? k) || (n - k <=? i) then x (q (n - 1 - i)) else x (q i)) (seq 0 n)).
Lemma half_at k x i : i < n -> half k x (q i) = if (i <? k) || (n - k <=? i) then x (q (n - 1 - i)) else x (q i).
Proof.
  intros Hi. unfold half. set (c := map _ _). assert (Lc : length c = n) by (unfold c; rewrite map_length, seq_length; reflexivity).
  pose proof (updl_map x r c N Lc) as E. assert (X : nth i (map (updl x r c) r) (updl x r c 0) = nth i c (updl x r c 0)) by (rewrite E; reflexivity).
  rewrite map_nth in X. rewrite X. unfold c.
  rewrite (nth_indep _ _ ((fun i => if (i <? k) || (n - k <=? i) then x (q (n - 1 - i)) else x (q i)) 0)) by (rewrite map_length, seq_length; exact Hi).
  rewrite (map_nth (fun i => if (i <? k) || (n - k <=? i) then x (q (n - 1 - i)) else x (q i))), seq_nth by exact Hi. reflexivity.
Qed.
Lemma half_off k x p : ~ In p r -> half k x p = x p.
Proof. intros H. unfold half. apply updl_notin. exact H. Qed.
Lemma on_r (x y : bs) : (forall i, i < n -> x (q i) = y (q i)) -> (forall p, ~ In p r -> x p = y p) -> x = y.
Proof.
  intros H1 H2. extensionality p. destruct (in_dec Nat.eq_dec p r) as [I|I]; [|apply H2; exact I].
  apply (In_nth _ _ 0) in I. destruct I as (i & Hi & <-). apply H1. exact Hi.
Qed.
Lemma half_0 x : half 0 x = x.
Proof. apply on_r; [|apply half_off]. intros i Hi. rewrite half_at by exact Hi. destruct (Nat.ltb_spec i 0), (Nat.leb_spec (n - 0) i); try lia. reflexivity. Qed.
Lemma exchange_at a b x p : a <> b -> exchange [a] [b] x p = if p =? a then x b else if p =? b then x a else x p.
Proof.
  intros H. unfold exchange. cbn [app map updl]. unfold upd. destruct (Nat.eqb_spec p b) as [->|]; [destruct (Nat.eqb_spec b a); [congruence|reflexivity]|]. reflexivity.
Qed.
Lemma half_step k x : k < n / 2 -> half k (exchange [q k] [q (n - 1 - k)] x) = half (S k) x.
Proof.
  intros Hk. assert (H2 : k < n - 1 - k) by (pose proof (Nat.div_mod n 2); pose proof (Nat.mod_upper_bound n 2); lia).
  assert (Hx : q k <> q (n - 1 - k)) by (intros X; apply q_inj in X; lia).
  assert (EQ : forall i j, i < n -> j < n -> (q i =? q j) = (i =? j)).
  { intros i j Hi Hj. destruct (Nat.eqb_spec (q i) (q j)) as [e|e], (Nat.eqb_spec i j) as [f|f]; try reflexivity; [apply q_inj in e; [lia|exact Hi|exact Hj]|congruence]. }
  apply on_r.
  - intros i Hi. rewrite !half_at by exact Hi. rewrite !exchange_at by exact Hx. rewrite !EQ by lia.
    destruct (Nat.ltb_spec i k), (Nat.leb_spec (n - k) i), (Nat.ltb_spec i (S k)), (Nat.leb_spec (n - S k) i); cbn [orb]; try lia;
    destruct (Nat.eqb_spec (n - 1 - i) k) as [e1|e1], (Nat.eqb_spec (n - 1 - i) (n - 1 - k)) as [e2|e2], (Nat.eqb_spec i k) as [e3|e3], (Nat.eqb_spec i (n - 1 - k)) as [e4|e4]; try lia; try reflexivity; f_equal; f_equal; lia.
  - intros p Hp. rewrite !half_off by exact Hp. rewrite exchange_at by exact Hx.
    destruct (Nat.eqb_spec p (q k)) as [->|e]; [exfalso; apply Hp, q_in; lia|]. destruct (Nat.eqb_spec p (q (n - 1 - k))) as [->|e']; [exfalso; apply Hp, q_in; lia|]. reflexivity.
Qed.
Lemma rev_at (x : bs) i : i < n -> mirror r x (q i) = x (q (n - 1 - i)).
Proof.
  intros Hi. unfold mirror. assert (Lc : length (rev (map x r)) = n) by (rewrite rev_length, map_length; reflexivity).
  pose proof (updl_map x r _ N Lc) as E. assert (X : nth i (map (updl x r (rev (map x r))) r) (updl x r (rev (map x r)) 0) = nth i (rev (map x r)) (updl x r (rev (map x r)) 0)) by (rewrite E; reflexivity).
  rewrite map_nth in X. rewrite X. rewrite rev_nth by (rewrite map_length; exact Hi). rewrite map_length.
  rewrite (nth_indep _ _ (x 0)) by (rewrite map_length; lia). rewrite map_nth. f_equal. f_equal. lia.
Qed.
Lemma rev_off x p : ~ In p r -> mirror r x p = x p.
Proof. intros H. unfold mirror. apply updl_notin. exact H. Qed.
Lemma half_full x : half (n / 2) x = mirror r x.
Proof.
  assert (H2 : n = 2 * (n / 2) \/ n = 2 * (n / 2) + 1) by (pose proof (Nat.div_mod n 2); pose proof (Nat.mod_upper_bound n 2); lia).
  apply on_r; [|intros p Hp; rewrite half_off, rev_off by exact Hp; reflexivity]. intros i Hi. rewrite half_at, rev_at by exact Hi.
  destruct (Nat.ltb_spec i (n / 2)), (Nat.leb_spec (n - n / 2) i); cbn [orb]; try reflexivity. f_equal. f_equal. lia.
Qed.
Lemma swaps psi : forall k, k <= n / 2 ->
  fold_left (fun (psi : state) i x => psi (exchange [q i] [q (n - 1 - i)] x)) (seq 0 k) psi = fun x => psi (half k x).
Proof.
  induction k as [|k IH]; intros Hk.
  - cbn. extensionality x. rewrite half_0. reflexivity.
  - rewrite seq_S, fold_left_app, IH by lia. cbn [fold_left]. extensionality x. cbn [plus]. rewrite half_step by lia. reflexivity.
Qed.

(** The whole call. *)
Definition qfft_chain (psi : state) : state := fold_left (fun psi i => each (qfft_mat i) [q i] psi) (seq 0 n) psi.
Lemma qfft_does s : n <= 63 -> tidy s -> live s r -> does s r (qfft 0 r) r r (fun psi x => qfft_chain psi (mirror r x)).
Proof.
  intros Hn T Lv. unfold qfft.
  eapply quiet_then_does; [apply quiet_lift; [apply split_all_ok; [exact N|exact Hne]|exact T|exact Lv]|apply incl_refl|apply incl_refl|]. intros s1 C1 T1 L1. cbn beta iota zeta.
  assert (En : length (singles r) = n) by (unfold singles; apply map_length). rewrite En. eapply does_eq.
  - eapply does_bind with (a := v) (L1 := r); [|apply incl_refl|apply incl_refl|].
    + apply (mfold_does (qfft_qubit 0 n) v r (fun i => each (qfft_mat i) [q i])); [exact T1|exact L1|]. intros s2 i Ii C2 T2 L2. apply in_seq in Ii. apply qubit_does; [lia|exact Hn|exact T2|exact L2].
    + intros s2 C2 T2 L2. eapply does_then_quiet with (a := v) (L1 := r).
      * apply (mfold_does (qfft_swap 0 n) v r (fun i psi x => psi (exchange [q i] [q (n - 1 - i)] x))); [exact T2|exact L2|]. intros s3 i Ii C3 T3 L3. apply in_seq in Ii. apply swap2_does; [lia|exact T3|exact L3].
      * intros s3 C3 T3 L3. eapply quiet_bind; [apply quiet_lift; [apply unwrap_somes|exact T3|exact L3]|].
        intros s4 C4 T4 L4. eapply quiet_bind; [apply quiet_lift; [apply merge_singles|exact T4|exact L4]|]. intros s5 C5 T5 L5.
        unfold new_reg. destruct r; [congruence|]. apply quiet_ret; assumption.
  - intros psi. cbv beta. fold (qfft_chain psi). rewrite swaps by lia. extensionality x. rewrite half_full. reflexivity.
Qed.
End Run.
