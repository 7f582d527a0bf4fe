(** C93, C94: how many qubits and objects toffoli, conditioned gates and the adder cost. *)
From Coq Require Import Reals.
From Verif Require Import Base BuilderModel DenSpec RunSpec LocalProofs CondProofs ArithModel ArithProofs8 CostSpec CostProofs CostProofs2.
Local Open Scope nat_scope.

(** *** C93 *)
(** toffoli with [c] controls holds at most [c - 2] temporaries at once, which come from the
    spare ones as far as possible and are all spare afterwards. *)
Theorem C93_toffoli_cost : forall s cr r, tidy s -> live s (cr ++ r) -> cr <> [] -> r <> [] ->
  exists s', toffoli local_aco cr r s = Ret (cr, r) s' /\ conds s' = conds s /\
    uses (length cr - 2) (if length cr =? 1 then length r else 42 * (length cr - 2) + 14 * length r + 7) s s'.
Proof. exact toffoli_costs. Qed.
Print Assumptions C93_toffoli_cost.

(** A second toffoli with no more controls than the first needs no new qubit. *)
Theorem C93_no_new_qubits : forall s L cr r cr' r', tidy s -> live s L -> fits L (cr, r) -> fits L (cr', r') -> length cr' <= length cr ->
  exists s1 s2, toffoli local_aco cr r s = Ret (cr, r) s1 /\ toffoli local_aco cr' r' s1 = Ret (cr', r') s2 /\
    bn (bld s2) = bn (bld s1).
Proof.
  intros s L cr r cr' r' T Lv F (Hc' & Hr' & N' & I') Hle. cbn [fst snd] in *. destruct F as (Hc & Hr & N & I) eqn:EF; clear EF. cbn [fst snd] in *.
  destruct (toffoli_costs s cr r T ltac:(eapply RunProofs.live_incl; eassumption) Hc Hr) as (s1 & E1 & C1 & U1).
  destruct (toffolis_next L s cr r s1 T Lv (conj Hc (conj Hr (conj N I))) E1) as (T1 & Lv1).
  destruct (toffoli_costs s1 cr' r' T1 ltac:(eapply RunProofs.live_incl; eassumption) Hc' Hr') as (s2 & E2 & C2 & U2).
  exists s1, s2. split; [exact E1|]. split; [exact E2|]. unfold uses, not_temps in *. lia.
Qed.
Print Assumptions C93_no_new_qubits.

(** Any sequence of toffolis on registers in use: the objects add up, the temporaries do not;
    what counts is the largest number of controls. *)
Theorem C93_toffoli_sequence : forall s L l, tidy s -> live s L -> Forall (fits L) l ->
  exists s', toffolis l s = Ret tt s' /\ conds s' = conds s /\
    uses (peak (map (fun p => length (fst p) - 2) l)) (total (map (fun p => not_objects (length (fst p)) (length (snd p))) l)) s s'.
Proof. intros s L l T Lv F. exact (toffolis_costs L l s T Lv F). Qed.
Print Assumptions C93_toffoli_sequence.

(** Conditioned gates at every depth, [c] condition qubits in all: x, y, z on any register; h, s
    and t on one qubit.  s and t hold one more temporary than the negation with one more
    control, and pay for it twice. *)
Theorem C93_conditioned_gate_cost : forall d s r q, 0 < d -> wrapped d (conds s) -> tidy s ->
  let c := length (cqs d (conds s)) in
  let does_cost (m : M reg) (x : reg) k g := exists s', m s = Ret x s' /\ conds s' = conds s /\ uses k g s s' in
  (r <> [] -> live s (cqs d (conds s) ++ r) ->
    does_cost (g_x (aco d) r) r (c - 2) (not_objects c (length r)) /\
    does_cost (g_y (aco d) r) r (c - 2) (not_objects c (length r) + 3 * length r) /\
    does_cost (g_z (aco d) r) r (c - 2) (not_objects c (length r) + 2 * length r)) /\
  (live s (cqs d (conds s) ++ [q]) ->
    does_cost (g_h (aco d) [q]) [q] (c - 2) (not_objects c 1 + 12) /\
    does_cost (g_s (aco d) [q]) [q] c (2 * not_objects (c + 1) 1 + 1) /\
    does_cost (g_t (aco d) [q]) [q] c (2 * not_objects (c + 1) 1 + 1)).
Proof.
  intros d s r q Hd W T c dc. split.
  - intros Hr Lv. split; [|split].
    + exact (gate_costs UX r _ _ (cost_X 1 r Hr) d s Hd W T Lv).
    + exact (gate_costs UY r _ _ (cost_Y 1 r Hr) d s Hd W T Lv).
    + exact (gate_costs UZ r _ _ (cost_Z 1 r Hr) d s Hd W T Lv).
  - intros Lv. split; [|split].
    + exact (gate_costs UH [q] _ _ (cost_H 1 q) d s Hd W T Lv).
    + exact (gate_costs US [q] _ _ (cost_S 1 q) d s Hd W T Lv).
    + exact (gate_costs UT [q] _ _ (cost_T 1 q) d s Hd W T Lv).
Qed.
Print Assumptions C93_conditioned_gate_cost.

(** A conditioned cnot pays for every target separately. *)
Theorem C93_conditioned_cnot_cost : forall d s q ts, 0 < d -> wrapped d (conds s) -> tidy s -> live s (cqs d (conds s) ++ q :: ts) -> ts <> [] ->
  let c := length (cqs d (conds s)) in
  exists s', cnot (aco d) [q] ts s = Ret ([q], ts) s' /\ conds s' = conds s /\ uses (c - 1) (length ts * not_objects (c + 1) 1) s s'.
Proof. intros d s q ts Hd W T Lv Hts. exact (cnot_costs d s q ts Hd W T Lv Hts). Qed.
Print Assumptions C93_conditioned_cnot_cost.

(** Five qubits, no spare temporary: a toffoli with four controls allocates two qubits and
    appends 105 objects. *)
Definition five : st := mkSt (mkB [] 5 [] 0) [].
Lemma five_ok : tidy five /\ live five [0; 1; 2; 3; 4].
Proof.
  split.
  - split; [constructor|]. split; [constructor|intros q []].
  - split; [repeat constructor; cbn; intuition discriminate|]. intros q Hq [X|[]]. cbn in X, Hq. lia.
Qed.
Example C93_four_controls : exists s', toffoli local_aco [0; 1; 2; 3] [4] five = Ret ([0; 1; 2; 3], [4]) s' /\
  bn (bld s') = 7 /\ spare s' = 2 /\ length (pipeline (bld s')) = 105.
Proof. eexists. split; [vm_compute; reflexivity|]. repeat split. Qed.
(** The same from the theorem. *)
Example C93_four_controls_thm : exists s', toffoli local_aco [0; 1; 2; 3] [4] five = Ret ([0; 1; 2; 3], [4]) s' /\
  bn (bld s') = 7 /\ spare s' = 2 /\ length (pipeline (bld s')) = 105.
Proof.
  destruct (C93_toffoli_cost five [0; 1; 2; 3] [4] (proj1 five_ok) (proj2 five_ok) ltac:(discriminate) ltac:(discriminate)) as (s' & E & _ & U).
  exists s'. split; [exact E|]. exact U.
Qed.
(** Three toffolis with 4, 2 and 3 controls: 7 qubits all the same. *)
Example C93_sequence_example : exists s', toffolis [([0; 1; 2; 3], [4]); ([0; 1], [2]); ([4; 3; 1], [0; 2])] five = Ret tt s' /\
  bn (bld s') = 7 /\ spare s' = 2 /\ length (pipeline (bld s')) = 105 + 21 + 77.
Proof. eexists. split; [vm_compute; reflexivity|]. repeat split. Qed.
(** s under two nested conditions of one qubit each: 2 temporaries, 127 objects. *)
Example C93_conditioned_s : exists s', g_s (aco 2) [4] (mkSt (bld five) [Some [0]; Some [1]]) = Ret [4] s' /\
  bn (bld s') = 7 /\ spare s' = 2 /\ length (pipeline (bld s')) = 2 * 63 + 1.
Proof. eexists. split; [vm_compute; reflexivity|]. repeat split. Qed.
Example C93_conditioned_s_fits : let s := mkSt (bld five) [Some [0]; Some [1]] in wrapped 2 (conds s) /\ tidy s /\ live s (cqs 2 (conds s) ++ [4]).
Proof.
  cbv zeta. split; [|split].
  - intros [|[|k]] Hk; [exists [0]|exists [1]|lia]; (split; [reflexivity|discriminate]).
  - exact (proj1 five_ok).
  - split; [cbn; repeat constructor; cbn; intuition discriminate|]. intros q Hq [X|[]]. cbn in X, Hq. lia.
Qed.

(** *** C94 *)
(** Adding registers of [n] and [n + 1] qubits on a plain builder allocates nothing and appends
    [124 n - 78] objects. *)
Theorem C94_add_cost : forall s rc ra rb, conds s = [] -> length ra = length rc -> length rb = S (length rc) -> rc <> [] -> NoDup (rc ++ ra ++ rb) ->
  exists s', add 0 [rc; ra; rb] s = Ret [rc; ra; rb] s' /\ zeroed (bld s') = zeroed (bld s) /\ uses 0 (124 * length rc - 78) s s'.
Proof.
  intros s rc ra rb C La Lb Hc N. destruct (add_puts_length rc ra rb La Lb Hc N) as (p & P & Lp). exists (appended s p).
  split; [apply P; exact C|]. split; [reflexivity|]. rewrite <- Lp. apply uses_appended.
Qed.
Print Assumptions C94_add_cost.
Theorem C94_add_inv_cost : forall s rc ra rb, conds s = [] -> length ra = length rc -> length rb = S (length rc) -> rc <> [] -> NoDup (rc ++ ra ++ rb) ->
  exists s', add_inv 0 [rc; ra; rb] s = Ret [rc; ra; rb] s' /\ zeroed (bld s') = zeroed (bld s) /\ uses 0 (206 * length rc - 126) s s'.
Proof.
  intros s rc ra rb C La Lb Hc N. destruct (add_inv_puts rc ra rb La Lb Hc N) as (p & P & Lp). exists (appended s p).
  split; [apply P; exact C|]. split; [reflexivity|]. rewrite <- Lp. apply uses_appended.
Qed.
Print Assumptions C94_add_inv_cost.
(** The inverse of an addition is longer than the addition. *)
Theorem C94_inverse_longer : forall s rc ra rb s1 s2, conds s = [] -> length ra = length rc -> length rb = S (length rc) -> rc <> [] -> NoDup (rc ++ ra ++ rb) ->
  add 0 [rc; ra; rb] s = Ret [rc; ra; rb] s1 -> add_inv 0 [rc; ra; rb] s = Ret [rc; ra; rb] s2 ->
  length (pipeline (bld s1)) < length (pipeline (bld s2)).
Proof.
  intros s rc ra rb s1 s2 C La Lb Hc N E1 E2.
  destruct (C94_add_cost s rc ra rb C La Lb Hc N) as (t1 & F1 & _ & _ & _ & U1). destruct (C94_add_inv_cost s rc ra rb C La Lb Hc N) as (t2 & F2 & _ & _ & _ & U2).
  rewrite E1 in F1. rewrite E2 in F2. injection F1 as <-. injection F2 as <-. destruct rc; [congruence|]. cbn [length] in *. lia.
Qed.
Print Assumptions C94_inverse_longer.
Example C94_two_bits : exists s', add 0 [[0; 1]; [2; 3]; [4; 5; 6]] (mkSt (mkB [] 7 [] 0) []) = Ret [[0; 1]; [2; 3]; [4; 5; 6]] s' /\
  bn (bld s') = 7 /\ zeroed (bld s') = [] /\ length (pipeline (bld s')) = 170.
Proof. eexists. split; [vm_compute; reflexivity|]. repeat split. Qed.
Example C94_two_bits_inverse : exists s', add_inv 0 [[0; 1]; [2; 3]; [4; 5; 6]] (mkSt (mkB [] 7 [] 0) []) = Ret [[0; 1]; [2; 3]; [4; 5; 6]] s' /\
  bn (bld s') = 7 /\ zeroed (bld s') = [] /\ length (pipeline (bld s')) = 286.
Proof. eexists. split; [vm_compute; reflexivity|]. repeat split. Qed.
