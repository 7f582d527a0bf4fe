(** qfft records the circuit of QfftCircSpec. *)
From Coq Require Import ZArith QArith Lia.
From Verif Require Import Base BitsSpec OpsModel BuilderModel RegProofs DenSpec LocalProofs RunProofs CondProofs ProgramModel ArithProofs3 ArithProofs3 QfftModel QfftProofs QfftCircSpec.
Local Open Scope nat_scope.
Local Open Scope mon_scope.

(** Calls that append certain objects whatever the state is, and touch nothing else. *)
Definition records {A} (m : M A) (a : A) (p : pipe) : Prop := forall s, m s = Ret a (appended s p).

Lemma records_bind {A B} (m : M A) a p (f : A -> M B) b q : records m a p -> records (f a) b q -> records (mbind m f) b (p ++ q).
Proof. intros H K s. unfold mbind. rewrite H, K, appended_app. reflexivity. Qed.
Lemma records_ret {A} (a : A) : records (ret a) a [].
Proof. intros s. rewrite appended_nil. reflexivity. Qed.
Lemma records_lift_bind {A B} (r : res A) a (f : A -> M B) b q : r = Ok a -> records (f a) b q -> records (mbind (lift r) f) b q.
Proof. intros -> H. exact H. Qed.
Lemma records_then {A B} (m : M A) a p (f : A -> M B) b : records m a p -> records (f a) b [] -> records (mbind m f) b p.
Proof. intros H K. rewrite <- (app_nil_r p). eapply records_bind; eassumption. Qed.
Lemma records_unwrap {A} (m : M A) a p : records m a p -> records (unwrapM m) a p.
Proof. intros H s. unfold unwrapM. rewrite H. reflexivity. Qed.
Lemma records_fold {A B} (f : A -> B -> M A) (a : A) (p : B -> pipe) : forall l, (forall b, In b l -> records (f a b) a (p b)) ->
  records (mfold f l a) a (concat (map p l)).
Proof.
  induction l as [|b l IH]; intros H; cbn [mfold map concat]; [apply records_ret|].
  eapply records_bind; [apply H; left; reflexivity|]. apply IH. intros c Hc. apply H. right. exact Hc.
Qed.
(** Inside a condition, for calls that pay no attention to it. *)
Lemma records_in_condition {A} cr (m : M A) a p : records m a p -> records (in_condition cr m) (cr, a) p.
Proof.
  intros H s. unfold in_condition, scoped, condition_with, mbind. rewrite H. unfold dissolve. cbn [appended conds].
  rewrite rev_app_distr. cbn [rev app]. rewrite rev_involutive. reflexivity.
Qed.
Lemma records_one u q : records (local_aco [q] (mkCO 1 (OUnit u))) [q] [([q], mkCO 1 (OUnit u))].
Proof. intros s. rewrite local_aco_ok by (try discriminate; repeat constructor; cbn; tauto). reflexivity. Qed.
Lemma records_cnot a b : a <> b -> records (cnot local_aco [a] [b]) ([a], [b]) [cn a b].
Proof.
  intros H. assert (N : NoDup [a; b]) by (repeat constructor; cbn; intuition congruence).
  unfold cnot. cbn [length Nat.ltb Nat.leb]. eapply records_lift_bind; [apply split_all_ok; [repeat constructor; cbn; tauto|discriminate]|].
  cbn [singles map mfold]. apply (records_then _ ([a], [[b]])).
  - apply (records_then _ ([a], [[b]])); [|apply records_ret]. unfold cnot_step.
    eapply records_lift_bind; [apply merge2_ok; discriminate|]. cbn [app]. apply (records_then _ [a; b]).
    + intros s. rewrite local_aco_ok by (assumption || discriminate). reflexivity.
    + eapply records_lift_bind; [apply split_rel_head; [exact N|discriminate]|]. apply records_ret.
  - cbn beta iota. eapply records_lift_bind; [apply (merge_singles [b])|]. cbn [new_reg unwrap_opt lift]. intros s. rewrite appended_nil. reflexivity.
Qed.
Lemma records_swap a b : a <> b -> records (swap local_aco [a] [b]) ([a], [b]) [cn a b; cn b a; cn a b].
Proof.
  intros H. assert (H' : b <> a) by congruence. unfold swap. cbn [length Nat.eqb].
  eapply records_lift_bind; [apply split_all_ok; [repeat constructor; cbn; tauto|discriminate]|].
  eapply records_lift_bind; [apply split_all_ok; [repeat constructor; cbn; tauto|discriminate]|]. cbn [singles map combine].
  assert (P : records (swap_pair local_aco ([a], [b])) ([a], [b]) [cn a b; cn b a; cn a b]).
  { unfold swap_pair. intros s. cbn [length Nat.eqb]. unfold mbind at 1, massert at 1, ret at 1. unfold mbind at 1, massert at 1, ret at 1.
    revert s. apply records_unwrap. apply (records_bind _ ([a], [b]) [cn a b] _ _ [cn b a; cn a b]); [apply records_cnot; exact H|]. cbn beta iota.
    apply (records_bind _ ([b], [a]) [cn b a] _ _ [cn a b]); [apply records_cnot; exact H'|]. apply records_cnot. exact H. }
  apply (records_then _ [([a], [b])]).
  - cbn [mmap]. eapply records_then; [exact P|]. intros s. unfold mbind, ret. rewrite appended_nil. reflexivity.
  - cbn [List.split]. intros s. rewrite appended_nil. reflexivity.
Qed.

Section Run.
Context (r : list nat) (N : NoDup r) (Hne : r <> []).
Notation n := (length r).
Notation v := (map Some (singles r)).
Notation q i := (nth i r 0).

Lemma rot_records i j : i < j -> j < n -> j - i < 63 ->
  records (qfft_rot i ([q i], upd_nth i None v) j) ([q i], upd_nth i None v) [turn (q i) (j - i)].
Proof.
  intros Hij Hj Hk. unfold qfft_rot.
  assert (Ej : nth_error (upd_nth i None v) j = Some (Some [q j])).
  { rewrite nth_error_upd_nth. destruct (Nat.eqb_spec j i); [lia|]. apply nth_singles. exact Hj. }
  eapply records_lift_bind; [apply take_at_ok; exact Ej|]. cbn beta iota.
  apply (records_then _ ([q j], [q i])).
  - apply records_in_condition. eapply records_lift_bind; [unfold shl_i64; rewrite (proj2 (Nat.ltb_lt _ _) Hk); reflexivity|].
    assert (P : (0 < 2 ^ Z.of_nat (j - i))%Z) by (apply Z.pow_pos_nonneg; lia). set (z := (2 ^ Z.of_nat (j - i))%Z) in *.
    unfold rz_pi_by. rewrite (proj2 (Z.eqb_neq z 0)) by lia.
    eapply records_lift_bind; [unfold ratio_1; rewrite (proj2 (Z.eqb_neq z 0)) by lia; rewrite (proj2 (Z.eqb_neq z (- 2 ^ 63))) by (change (2 ^ 63)%Z with 9223372036854775808%Z; lia); reflexivity|].
    rewrite Z.sgn_pos, Z.abs_eq by lia. apply (records_one (URz (PiRational (Qmake 1 (Z.to_pos z))))).
  - cbn beta iota. rewrite (upd_nth_same _ j (Some [q j])) by exact Ej. apply records_ret.
Qed.
Lemma qubit_records i : i < n -> n <= 63 -> records (qfft_qubit 0 n v i) v (fourier_qubit r i).
Proof.
  intros Hi Hn. unfold qfft_qubit, fourier_qubit.
  eapply records_lift_bind; [apply take_at_ok, nth_singles; exact Hi|]. cbn beta iota.
  apply (records_bind _ ([q i], upd_nth i None v)).
  - replace (map (fun j => turn (q i) (j - i)) (seq (i + 1) (n - (i + 1)))) with (concat (map (fun j => [turn (q i) (j - i)]) (seq (i + 1) (n - (i + 1))))).
    + apply records_fold. intros j Ij. apply in_seq in Ij. apply rot_records; lia.
    + generalize (seq (i + 1) (n - (i + 1))). induction l as [|j l IH]; [reflexivity|]. cbn [map concat app]. f_equal. exact IH.
  - cbn beta iota. apply (records_then _ [q i]); [apply records_unwrap, records_one|].
    rewrite (upd_nth_same _ i (Some [q i])) by (apply nth_singles; exact Hi). apply records_ret.
Qed.
Lemma exchange_records i : i < n / 2 -> records (qfft_swap 0 n v i) v (exchange3 r i).
Proof.
  intros Hi. assert (Hi2 : i < n - 1 - i) by (pose proof (Nat.div_mod n 2); pose proof (Nat.mod_upper_bound n 2); lia).
  unfold exchange3. set (j := n - 1 - i) in *. assert (Hj : j < n) by lia. unfold qfft_swap. fold j.
  eapply records_lift_bind; [apply take_at_ok, nth_singles; lia|]. cbn beta iota.
  assert (Ej : nth_error (upd_nth i None v) j = Some (Some [q j])).
  { rewrite nth_error_upd_nth. destruct (Nat.eqb_spec j i); [lia|]. apply nth_singles. exact Hj. }
  eapply records_lift_bind; [apply take_at_ok; exact Ej|]. cbn beta iota.
  apply (records_then _ ([q i], [q j])).
  - apply records_swap. intros X. apply (proj1 (NoDup_nth r 0) N) in X; lia.
  - cbn beta iota.
    assert (EV : upd_nth j (Some [q j]) (upd_nth i (Some [q i]) (upd_nth j None (upd_nth i None v))) = v).
    { rewrite (upd_nth_comm _ i j) by lia. rewrite (upd_nth_same v i (Some [q i])) by (apply nth_singles; lia). apply upd_nth_same, nth_singles. exact Hj. }
    unfold reg in *. rewrite EV. apply records_ret.
Qed.
Lemma qfft_records : n <= 63 -> records (qfft 0 r) r (fourier_circuit r).
Proof.
  intros Hn. unfold qfft, fourier_circuit. eapply records_lift_bind; [apply split_all_ok; [exact N|exact Hne]|]. cbv zeta. rewrite length_singles.
  eapply records_bind; [apply records_fold; intros i Ii; apply in_seq in Ii; apply qubit_records; [lia|exact Hn]|].
  eapply records_then; [apply records_fold; intros i Ii; apply in_seq in Ii; apply exchange_records; lia|].
  eapply records_lift_bind; [apply unwrap_somes|]. eapply records_lift_bind; [apply merge_singles|].
  destruct r as [|a l]; [congruence|]. apply records_ret.
Qed.
End Run.

Lemma concat_length_sum {A B} (f : A -> list B) g l : (forall a, In a l -> length (f a) = g a) -> length (concat (map f l)) = list_sum (map g l).
Proof.
  induction l as [|a l IH]; intros H; [reflexivity|]. cbn [map concat list_sum fold_right]. rewrite app_length, H by (left; reflexivity).
  rewrite IH by (intros b Hb; apply H; right; exact Hb). reflexivity.
Qed.
Lemma sum_down m : forall k, k <= m -> 2 * list_sum (map (fun i => m - i) (seq (m - k) k)) = k * (k + 1).
Proof.
  induction k as [|k IH]; intros H; [reflexivity|]. cbn [seq map list_sum fold_right]. replace (S (m - S k)) with (m - k) by lia.
  specialize (IH ltac:(lia)). unfold list_sum in IH. lia.
Qed.
Lemma sum_down_0 m : list_sum (map (fun i => m - i) (seq 0 m)) = m * (m + 1) / 2.
Proof.
  pose proof (sum_down m m (le_n m)) as E. rewrite Nat.sub_diag in E. apply (Nat.div_unique _ _ _ 0); lia.
Qed.
Lemma fourier_length r : length (fourier_circuit r) = length r * (length r + 1) / 2 + 3 * (length r / 2).
Proof.
  unfold fourier_circuit. rewrite app_length. f_equal.
  - transitivity (list_sum (map (fun i => length r - i) (seq 0 (length r)))); [|apply sum_down_0]. apply (concat_length_sum (fourier_qubit r)).
    intros i Hi. apply in_seq in Hi. unfold fourier_qubit. rewrite app_length, map_length, seq_length. cbn [length]. lia.
  - transitivity (list_sum (map (fun _ => 3) (seq 0 (length r / 2)))); [apply (concat_length_sum (exchange3 r)); reflexivity|].
    assert (H : forall k j, list_sum (map (fun _ => 3) (seq j k)) = 3 * k); [|apply H].
    induction k as [|k IH]; intros j; [reflexivity|]. cbn [seq map list_sum fold_right]. specialize (IH (S j)). unfold list_sum in IH. lia.
Qed.
