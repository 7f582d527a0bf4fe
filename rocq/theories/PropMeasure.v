(** Properties C20-C25: measurement. *)
From Coq Require Import Reals Lra.
From Coquelicot Require Import Coquelicot.
From Verif Require Import Base BitsModel BitsSpec BitsProofs OpsModel OpsSpec Instances
  MeasureModel MeasureSpec MeasureProofs MeasureProofs2.
Local Open Scope nat_scope.

(** *** C20 *)
Theorem C20_measure_prob_born : forall n m qs v off, in_range n qs -> NoDup qs ->
  measure_prob n m qs v off = Ok (born n qs m off v).
Proof. exact measure_prob_ok. Qed.
Print Assumptions C20_measure_prob_born.
Example C20_example : in_range 2 [1; 0] /\ NoDup [1; 0] /\
  born 2 [1; 0] 2 0 [RtoC 0; RtoC 0; RtoC 1; RtoC 0] = 1%R /\
  born 2 [1; 0] 1 0 [RtoC 0; RtoC 0; RtoC 1; RtoC 0] = 0%R.
Proof.
  split; [intros q [<-|[<-|[]]]; lia|]. split; [repeat constructor; cbn; intuition lia|].
  rewrite !born_full. change (seq 0 (2 ^ 2)) with [0;1;2;3]. cbn [rsum nth].
  change (shows [1;0] 2 (dec 2 0)) with false. change (shows [1;0] 2 (dec 2 1)) with false.
  change (shows [1;0] 2 (dec 2 2)) with true. change (shows [1;0] 2 (dec 2 3)) with false.
  change (shows [1;0] 1 (dec 2 0)) with false. change (shows [1;0] 1 (dec 2 1)) with true.
  change (shows [1;0] 1 (dec 2 2)) with false. change (shows [1;0] 1 (dec 2 3)) with false.
  cbv iota. rewrite Cmod_0, Cmod_1. split; ring.
Qed.

(** *** C21 *)
Theorem C21_measure_probs_distribution : forall n qs v, in_range n qs -> NoDup qs -> length v = 2 ^ n ->
  exists ps, measure_probs n qs v 0 = Ok ps /\ length ps = 2 ^ length qs /\
    (forall m, m < 2 ^ length qs -> nth m ps 0%R = born n qs m 0 v) /\
    (forall p, In p ps -> (0 <= p)%R) /\ rsum (fun p => p) ps = prob_magnitude v.
Proof. exact measure_probs_ok. Qed.
Print Assumptions C21_measure_probs_distribution.
Theorem C21_prob_magnitude : forall v, prob_magnitude v = rsum (fun a => (Cmod a ^ 2)%R) v.
Proof. exact prob_magnitude_ok. Qed.
Print Assumptions C21_prob_magnitude.
Example C21_example : in_range 1 [0] /\ NoDup [0] /\ length [RtoC 0; Ci] = 2 ^ 1 /\ prob_magnitude [RtoC 0; Ci] = 1%R.
Proof.
  split; [intros q [<-|[]]; lia|]. split; [repeat constructor; cbn; tauto|]. split; [reflexivity|].
  unfold prob_magnitude, nsum, norm_sqr. cbn. ring.
Qed.

(** *** C22 *)
Theorem C22_collapsed_state : forall n qs m p v out, in_range n qs -> NoDup qs -> p <> 0%R ->
  length v = 2 ^ n -> length out = 2 ^ n ->
  exists w, measure_state n qs (m, p) v out 0 0 = Ok w /\ length w = 2 ^ n /\
    forall i, i < 2 ^ n -> nth i w (RtoC 0) =
      if shows qs m (dec n i) then Cmult (nth i v (RtoC 0)) (RtoC (1 / sqrt p)) else RtoC 0.
Proof. exact measure_state_full. Qed.
Print Assumptions C22_collapsed_state.
Theorem C22_collapse_normalised : forall n qs m v out, in_range n qs -> NoDup qs ->
  length v = 2 ^ n -> length out = 2 ^ n -> (0 < born n qs m 0 v)%R ->
  exists w, measure_state n qs (m, born n qs m 0 v) v out 0 0 = Ok w /\ length w = 2 ^ n /\
    prob_magnitude w = 1%R /\ measure_prob n m qs w 0 = Ok 1%R /\
    forall m', m' < 2 ^ length qs -> m < 2 ^ length qs -> m' <> m -> measure_prob n m' qs w 0 = Ok 0%R.
Proof. exact measure_state_born. Qed.
Print Assumptions C22_collapse_normalised.
(** Input and output chunks at different offsets: cells outside the common range are kept. *)
Theorem C22_collapse_chunks : forall n qs m p v out ioff ooff, in_range n qs -> NoDup qs -> p <> 0%R ->
  ioff <= ooff + length out -> ooff <= ioff + length v -> ooff + length out <= 2 ^ n ->
  measure_state n qs (m, p) v out ioff ooff =
    Ok (map (fun j => collapsed n qs m p v ioff (ooff + j) (nth j out (RtoC 0))) (seq 0 (length out))).
Proof. exact measure_state_ok. Qed.
Print Assumptions C22_collapse_chunks.
(** The whole call, with a random outcome and with a requested one. *)
Theorem C22_measure : forall random n qs v out, in_range n qs -> NoDup qs -> length v = 2 ^ n -> length out = 2 ^ n ->
  prob_magnitude v = 1%R -> (0 < random <= 1)%R ->
  exists m p w, measure random n qs v out None None = Ok ((m, p), w) /\
    soft_measure random n qs v 0 = Ok m /\ m < 2 ^ length qs /\ p = born n qs m 0 v /\ (0 < p)%R /\ length w = 2 ^ n /\
    prob_magnitude w = 1%R /\ measure_prob n m qs w 0 = Ok 1%R /\
    forall i, i < 2 ^ n -> nth i w (RtoC 0) =
      if shows qs m (dec n i) then Cmult (nth i v (RtoC 0)) (RtoC (1 / sqrt p)) else RtoC 0.
Proof. exact measure_ok. Qed.
Print Assumptions C22_measure.
Theorem C22_measure_requested : forall random n qs v out m, in_range n qs -> NoDup qs ->
  length v = 2 ^ n -> length out = 2 ^ n -> (0 < born n qs m 0 v)%R ->
  exists w, measure random n qs v out None (Some (m, None)) = Ok ((m, born n qs m 0 v), w) /\ length w = 2 ^ n /\
    prob_magnitude w = 1%R /\ measure_prob n m qs w 0 = Ok 1%R.
Proof. exact measure_forced. Qed.
Print Assumptions C22_measure_requested.
Example C22_example : in_range 2 [1; 0] /\ NoDup [1; 0] /\ (0 < born 2 [1; 0]%nat 2 0 [RtoC 0; RtoC 0; RtoC 1; RtoC 0])%R /\
  prob_magnitude [RtoC 0; RtoC 0; RtoC 1; RtoC 0] = 1%R.
Proof.
  destruct C20_example as (A & B & D & _). rewrite D. split; [exact A|]. split; [exact B|]. split; [lra|].
  unfold prob_magnitude, nsum, norm_sqr. cbn. ring.
Qed.

(** *** C23 *)
(** The probability (measure of the set of draws) of each outcome is its Born probability. *)
Theorem C23_outcome_distribution : forall n qs m v, in_range n qs -> m < 2 ^ length qs ->
  length v = 2 ^ n -> prob_magnitude v = 1%R ->
  is_RInt (fun random => match soft_measure random n qs v 0 with Ok m' => if m' =? m then 1%R else 0%R | _ => 0%R end)
    0 1 (born n qs m 0 v).
Proof. exact soft_measure_born. Qed.
Print Assumptions C23_outcome_distribution.
Theorem C23_outcome_distribution_chunk : forall n qs m v off, in_range n qs -> m < 2 ^ length qs ->
  off + length v <= 2 ^ n -> length v < 2 ^ n -> (0 < prob_magnitude v)%R ->
  is_RInt (fun random => match soft_measure random n qs v off with Ok m' => if m' =? m then 1%R else 0%R | _ => 0%R end)
    0 1 (born n qs m off v / prob_magnitude v)%R.
Proof. exact soft_measure_born_chunk. Qed.
Print Assumptions C23_outcome_distribution_chunk.
(** Which basis state a draw selects. *)
Theorem C23_draw_selects : forall random n qs v j, in_range n qs -> length v = 2 ^ n -> j < length v ->
  (cum v j < random <= cum v (S j))%R ->
  exists m, soft_measure random n qs v 0 = Ok m /\ m < 2 ^ length qs /\ shows qs m (dec n j) = true.
Proof. exact soft_measure_selects. Qed.
Print Assumptions C23_draw_selects.
Example C23_example : in_range 1 [0] /\ 1 < 2 ^ length [0] /\ prob_magnitude [RtoC (3/5); RtoC (4/5)] = 1%R /\
  soft_measure (1/2) 1 [0] [RtoC (3/5); RtoC (4/5)] 0 = Ok 1.
Proof.
  assert (Hr : in_range 1 [0]) by (intros q [<-|[]]; lia).
  split; [exact Hr|]. split; [cbn; lia|]. split.
  - unfold prob_magnitude, nsum, norm_sqr. cbn. field.
  - rewrite soft_measure_scan by exact Hr. unfold draw. cbn [length].
    change (2 <? 2 ^ 1) with false. cbv iota.
    rewrite (soft_scan_hit _ _ 0 0 1); [reflexivity|cbn; lia|].
    unfold cum. cbn [firstn rsum]. rewrite !Cmod_R, !pow2_abs. lra.
Qed.

(** *** C24 *)
(** False at the draw 0, which [rand::random::<f64>()] can return. *)
Theorem C24_never_impossible_refuted : exists random n qs v m p,
  (0 <= random < 1)%R /\ in_range n qs /\ NoDup qs /\ length v = 2 ^ n /\ prob_magnitude v = 1%R /\
  soft_measure random n qs v 0 = Ok m /\ measure_prob n m qs v 0 = Ok p /\ p = 0%R.
Proof.
  exists 0%R, 1, [0], [RtoC 0; RtoC 1], 0, 0%R. destruct soft_measure_zero_draw as (A & B & D).
  repeat split; try assumption; try lra; [intros q [<-|[]]; lia|repeat constructor; cbn; tauto].
Qed.
Print Assumptions C24_never_impossible_refuted.
(** True for every other draw. *)
Theorem C24_positive_draw_possible : forall random n qs v, in_range n qs -> NoDup qs ->
  length v = 2 ^ n -> prob_magnitude v = 1%R -> (0 < random <= 1)%R ->
  exists m p, soft_measure random n qs v 0 = Ok m /\ m < 2 ^ length qs /\ measure_prob n m qs v 0 = Ok p /\ (0 < p)%R.
Proof. exact soft_measure_possible. Qed.
Print Assumptions C24_positive_draw_possible.

(** *** C25 *)
Theorem C25_chunks_add_up : forall n m qs, in_range n qs -> NoDup qs -> forall chunks off,
  exists ps, chunk_probs n m qs chunks off = Ok ps /\ length ps = length chunks /\
    measure_prob n m qs (concat chunks) off = Ok (rsum (fun p => p) ps).
Proof. exact chunk_probs_ok. Qed.
Print Assumptions C25_chunks_add_up.
Example C25_example : in_range 2 [1] /\ NoDup [1] /\
  exists ps, chunk_probs 2 1 [1] [[RtoC 0]; [RtoC 1; RtoC 0]; [RtoC 0]] 0 = Ok ps /\ length ps = 3.
Proof.
  assert (Hr : in_range 2 [1]) by (intros q [<-|[]]; lia).
  assert (Hn : NoDup [1]) by (repeat constructor; cbn; tauto).
  split; [exact Hr|]. split; [exact Hn|].
  destruct (C25_chunks_add_up 2 1 [1] Hr Hn [[RtoC 0]; [RtoC 1; RtoC 0]; [RtoC 0]] 0) as (ps & A & B & _). eauto.
Qed.
