(** Cost of the Fourier transform at any depth. *)
From Coq Require Import Permutation ZArith QArith Reals FunctionalExtensionality Lia.
From Verif Require Import Base BitsSpec OpsModel BuilderModel RegProofs DenSpec SimSpec RunSpec LocalProofs RunProofs GateProofs ToffoliProofs CondProofs RotProofs PropCond
  SubSpec InvertProofs SubProofs SubProofs2 SubProofs3 SubProofs4 SubProofs5 SubProofs6 ProgramModel ProgramSpec ProgramProofs ProgramProofs2
  ArithProofs3 QfftModel QfftProofs QfftProofs3 QfftCircSpec QfftCircProofs CostSpec CostProofs CostProofs2 CostProofs3 CostProofs4 ProgCostSpec ProgCostProofs ArithCostSpec ArithCostProofs ArithCostProofs2 QfftCostSpec.
Local Open Scope nat_scope.
Local Open Scope mon_scope.

Lemma records_paid {A} (m : M A) a p s L : records m a p -> tidy s -> live s L -> paid s m a L 0 (length p).
Proof.
  intros H T Lv. exists (appended s p). split; [apply H|]. split; [reflexivity|]. split; [exact T|]. split; [exact Lv|]. eapply uses_eq; [apply uses_appended|reflexivity|reflexivity].
Qed.
Lemma had_paid d s q L : at_depth d s -> tidy s -> live s L -> NoDup (cqs d (conds s) ++ [q]) -> incl (cqs d (conds s) ++ [q]) L ->
  paid s (g_h (aco d) [q]) [q] L (not_temps (length (cqs d (conds s)))) (had_objects (length (cqs d (conds s)))).
Proof.
  intros (El & W) T Lv N I. destruct (part_of _ _ N (proj1 Lv) I) as (rest & P).
  assert (L1 : live s (cqs d (conds s) ++ [q])) by (eapply live_incl; eassumption).
  destruct d as [|d].
  - cbn [cqs app length] in *. eapply costs_paid.
    + eapply costs_eq; [apply costs_appends; apply (appends_gate UH); [reflexivity|repeat constructor; intros []|discriminate]|reflexivity|reflexivity].
    + apply (gate_does UH); [reflexivity|exact T|exact Lv|exact I|exact N|discriminate].
  - eapply costs_paid.
    + unfold had_objects. destruct (Nat.eqb_spec (length (cqs (S d) (conds s))) 0) as [E|E]; [apply cqs_empty in E; [discriminate|exact W]|].
      apply (gate_costs UH [q] not_temps (fun c => not_objects c 1 + 12)); try assumption; [|lia]. apply (cost_H 1 q).
    + eapply does_perm; [exact P|exact P|]. apply does_frame; [eapply live_perm; [exact Lv|symmetry; exact P]|].
      apply (gate_cond UH q (S d) s _ (try_H 1 q)); try assumption; lia.
Qed.
(** Loops whose rounds take the same temporaries. *)
Lemma rounds_paid {A} (f : A -> nat -> M A) a L k (g : nat -> nat) : forall is s, is <> [] -> tidy s -> live s L ->
  (forall i s1, In i is -> conds s1 = conds s -> tidy s1 -> live s1 L -> paid s1 (f a i) a L k (g i)) -> paid s (mfold f is a) a L k (total (map g is)).
Proof.
  induction is as [|i is IH]; intros s He T Lv H; [congruence|]. cbn [mfold]. pose proof (H i s (or_introl eq_refl) eq_refl T Lv) as P. destruct is as [|j is].
  - cbn [mfold]. eapply paid_eq; [eapply (paid_then _ _ a L _ _ _ a L P); intros; apply paid_ret; assumption|reflexivity|cbn; lia].
  - eapply paid_eq.
    + eapply (paid_bind _ _ a L _ _ _ a L k (total (map g (j :: is))) P). intros s1 C1 T1 L1. apply IH; try assumption; [discriminate|]. intros i' s2 Hi C2 T2 L2. apply H; try assumption; [right; exact Hi|congruence].
    + apply Nat.max_id.
    + reflexivity.
Qed.

Section Run.
Context (d : nat) (r : list nat) (N : NoDup r) (Hne : r <> []) (L K : list nat) (NK : NoDup (K ++ r)) (IK : incl (K ++ r) L).
Notation n := (length r).
Notation v := (map Some (singles r)).
Notation q i := (nth i r 0).
Lemma some_nodup l : incl l r -> NoDup l -> NoDup (K ++ l) /\ incl (K ++ l) L.
Proof.
  intros Il Nl. split.
  - apply NoDup_app_iff in NK. destruct NK as (X1 & X2 & X3). apply NoDup_app_iff. split; [exact X1|]. split; [exact Nl|]. intros p Hp Y. apply (X3 p Hp), Il, Y.
  - intros p Hp. apply IK. apply in_app_or in Hp. apply in_or_app. destruct Hp as [Hp|Hp]; [left; exact Hp|right; apply Il; exact Hp].
Qed.
Lemma qubit_paid i s : i < n -> n <= 63 -> at_depth d s -> cqs d (conds s) = K -> tidy s -> live s L ->
  paid s (qfft_qubit d n v i) v L (not_temps (length K)) ((n - (i + 1)) + had_objects (length K)).
Proof.
  intros Hi Hn Ad EK T Lv. unfold qfft_qubit. eapply paid_lift_bind; [apply take_at_ok, nth_singles; exact Hi|]. cbn beta iota.
  eapply paid_eq.
  - eapply (paid_bind _ _ ([q i], upd_nth i None v) L 0 (n - (i + 1)) _ v L (not_temps (length K)) (had_objects (length K))).
    + eapply paid_eq; [apply (records_paid _ _ (concat (map (fun j => [turn (q i) (j - i)]) (seq (i + 1) (n - (i + 1))))))|reflexivity|].
      * apply records_fold. intros j Ij. apply in_seq in Ij. apply rot_records; try assumption; lia.
      * exact T.
      * exact Lv.
      * rewrite <- (seq_length (n - (i + 1)) (i + 1)) at 2. generalize (seq (i + 1) (n - (i + 1))). induction l as [|j l IH]; [reflexivity|]. cbn [map concat app length]. f_equal. exact IH.
    + intros s1 C1 T1 L1. cbn beta iota. eapply (paid_then _ _ [q i] L).
      * assert (E1 : cqs d (conds s1) = K) by (rewrite C1; exact EK). rewrite <- E1. destruct (some_nodup [q i]) as (X & Y); [intros p [<-|[]]; apply nth_In; exact Hi|repeat constructor; intros []|].
        apply had_paid; try assumption; [eapply at_depth_conds; eassumption| |]; rewrite E1; assumption.
      * intros s2 C2 T2 L2. rewrite (upd_nth_same _ i (Some [q i])) by (apply nth_singles; exact Hi). apply paid_ret; assumption.
  - apply Nat.max_0_l.
  - reflexivity.
Qed.
Lemma exchange_paid i s : i < n / 2 -> at_depth d s -> cqs d (conds s) = K -> tidy s -> live s L ->
  paid s (qfft_swap d n v i) v L (length K - 1) (3 * nots (length K)).
Proof.
  intros Hi Ad EK T Lv. assert (Hi2 : i < n - 1 - i) by (pose proof (Nat.div_mod n 2); pose proof (Nat.mod_upper_bound n 2); lia).
  set (j := n - 1 - i) in *. assert (Hj : j < n) by lia. unfold qfft_swap. fold j.
  eapply paid_lift_bind; [apply take_at_ok, nth_singles; lia|]. cbn beta iota.
  assert (Ej : nth_error (upd_nth i None v) j = Some (Some [q j])).
  { rewrite nth_error_upd_nth. destruct (Nat.eqb_spec j i); [lia|]. apply nth_singles. exact Hj. }
  eapply paid_lift_bind; [apply take_at_ok; exact Ej|]. cbn beta iota.
  eapply (paid_then _ _ ([q i], [q j]) L).
  - destruct (some_nodup [q i; q j]) as (X & Y); [intros p [<-|[<-|[]]]; apply nth_In; lia|constructor; [intros [X|[]]; apply (proj1 (NoDup_nth r 0) N) in X; lia|repeat constructor; intros []]|].
    rewrite <- EK. apply swap_paid; try assumption; rewrite EK; assumption.
  - intros s1 C1 T1 L1. cbn beta iota.
    assert (EV : upd_nth j (Some [q j]) (upd_nth i (Some [q i]) (upd_nth j None (upd_nth i None v))) = v).
    { rewrite (upd_nth_comm _ i j) by lia. rewrite (upd_nth_same v i (Some [q i])) by (apply nth_singles; lia). apply upd_nth_same, nth_singles. exact Hj. }
    unfold reg in *. rewrite EV. apply paid_ret; assumption.
Qed.
Lemma total_rots h : forall m, total (map (fun i => (m - (i + 1)) + h) (seq 0 m)) = (m - 1) * m / 2 + m * h.
Proof.
  clear. intros m. assert (G : forall l, total (map (fun i => (m - (i + 1)) + h) l) = list_sum (map (fun i => (m - 1) - i) l) + length l * h).
  { induction l as [|i l IH]; [reflexivity|]. cbn [map total list_sum fold_right length]. unfold total, list_sum in IH. rewrite IH. lia. }
  rewrite G, seq_length. f_equal. destruct m as [|m]; [reflexivity|]. cbn [Nat.sub]. rewrite Nat.sub_0_r, seq_S, map_app, list_sum_app, sum_down_0. cbn [map list_sum fold_right].
  replace (m * (m + 1)) with (m * S m) by lia. lia.
Qed.
Lemma qfft_paid s : n <= 63 -> at_depth d s -> cqs d (conds s) = K -> tidy s -> live s L -> paid s (qfft d r) r L (qfft_temps n (length K)) (qfft_objects n (length K)).
Proof.
  intros Hn Ad EK T Lv. assert (Hp : 0 < n) by (destruct r; [congruence|cbn; lia]).
  unfold qfft. eapply paid_lift_bind; [apply split_all_ok; [exact N|exact Hne]|]. cbv zeta. rewrite length_singles.
  assert (End : forall s1, tidy s1 -> live s1 L -> paid s1 (rs <- lift (mapM unwrap_opt v);; m <- lift (merge_registers rs);; match m with Some r0 => ret r0 | None => fail (EOther 20) end) r L 0 0).
  { intros s1 T1 L1. eapply paid_lift_bind; [apply unwrap_somes|]. eapply paid_lift_bind; [apply merge_singles|]. destruct r as [|a l]; [congruence|]. apply paid_ret; assumption. }
  assert (P1 : paid s (mfold (qfft_qubit d n) (seq 0 n) v) v L (not_temps (length K)) ((n - 1) * n / 2 + n * had_objects (length K))).
  { rewrite <- total_rots. apply rounds_paid; [destruct n; [lia|discriminate]|exact T|exact Lv|]. intros i s1 Hi C1 T1 L1. apply in_seq in Hi. apply qubit_paid; try assumption; [lia|eapply at_depth_conds; eassumption|congruence]. }
  unfold qfft_temps, qfft_objects. destruct (Nat.eqb_spec n 1) as [E1|E1].
  - replace (n / 2) with 0 by (rewrite E1; reflexivity). eapply paid_eq; [eapply (paid_then _ _ v L _ _ _ r L P1)|reflexivity|lia].
    intros s1 C1 T1 L1. cbn [seq mfold]. eapply (paid_then _ _ v L); [apply paid_ret; assumption|]. intros s2 C2 T2 L2. apply End; assumption.
  - assert (H2 : 1 <= n / 2) by (apply Nat.div_le_lower_bound; lia).
    eapply paid_eq.
    + eapply (paid_bind _ _ v L _ _ _ r L (length K - 1) (n / 2 * (3 * nots (length K))) P1). intros s1 C1 T1 L1.
      eapply (paid_then _ _ v L); [|intros s2 C2 T2 L2; apply End; assumption].
      replace (n / 2 * (3 * nots (length K))) with (total (map (fun _ => 3 * nots (length K)) (seq 0 (n / 2)))).
      * apply rounds_paid; [destruct (n / 2); [lia|discriminate]|exact T1|exact L1|]. intros i s2 Hi C2 T2 L2. apply in_seq in Hi. apply exchange_paid; try assumption; [lia|eapply at_depth_conds; [|exact Ad]; congruence|congruence].
      * clear. rewrite <- (seq_length (n / 2) 0) at 2. generalize (seq 0 (n / 2)). induction l as [|i l IH]; [reflexivity|]. cbn [map length total fold_right]. unfold total in IH. rewrite IH. lia.
    + unfold not_temps. lia.
    + reflexivity.
Qed.
End Run.
