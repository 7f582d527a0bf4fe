(** C122: what the Fourier transform costs, under any number of conditions. *)
From Coq Require Import Permutation.
From Verif Require Import Base BuilderModel RunSpec ProgramModel ProgramSpec QfftModel CostSpec ArithCostSpec QfftCostSpec CostProofs3 QfftCostProofs.
Local Open Scope nat_scope.

(** At any depth, whatever else is live: the register comes back, what is live stays live and the
    temporaries are given back. *)
Theorem C122_qfft : forall d r s L, NoDup r -> r <> [] -> length r <= 63 -> at_depth d s -> tidy s -> live s L ->
  let K := cqs d (conds s) in NoDup (K ++ r) -> incl (K ++ r) L ->
  exists s', qfft d r s = Ret r s' /\ conds s' = conds s /\ tidy s' /\ live s' L /\ uses (qfft_temps (length r) (length K)) (qfft_objects (length r) (length K)) s s'.
Proof. intros d r s L N Hr Hn Ad T Lv K NK IK. apply (qfft_paid d r N Hr L K NK IK s Hn Ad eq_refl T Lv). Qed.
Print Assumptions C122_qfft.

(** What that is with no condition, with one, and how it grows: every condition after that adds to
    each Hadamard gate and each exchange, never to the rotations. *)
Theorem C122_numbers : forall n, qfft_objects n 0 = (n - 1) * n / 2 + n + 3 * (n / 2) /\ qfft_objects n 1 = (n - 1) * n / 2 + 13 * n + 63 * (n / 2) /\
  (forall c, qfft_objects n c = (n - 1) * n / 2 + n * qfft_objects 1 c + n / 2 * (3 * nots c)).
Proof.
  intros n. unfold qfft_objects. split; [change (had_objects 0) with 1; change (nots 0) with 1; lia|]. split; [change (had_objects 1) with 13; change (nots 1) with 21; lia|]. intros c; cbn [Nat.sub Nat.mul]; change (1 / 2) with 0; change (0 / 2) with 0; lia.
Qed.
Print Assumptions C122_numbers.

Definition qfft_seen (d : nat) (r : reg) (s : st) : option (reg * nat * nat * nat) :=
  match qfft d r s with Ret r s' => Some (r, bn (bld s'), length (zeroed (bld s')), length (pipeline (bld s'))) | _ => None end.
(** Three qubits: 3 rotations, 3 Hadamard gates, one exchange; under one condition 39 gates for the
    Hadamard gates and 63 for the exchange. *)
Example C122_plain : qfft_seen 0 [2; 0; 1] (mkSt (mkB [] 3 [] 0) []) = Some ([2; 0; 1], 3, 0, 9) /\ qfft_objects 3 0 = 9.
Proof. split; vm_compute; reflexivity. Qed.
Example C122_one : qfft_seen 1 [2; 0; 1] (mkSt (mkB [] 4 [] 0) [Some [3]]) = Some ([2; 0; 1], 4, 0, 105) /\ qfft_objects 3 1 = 105.
Proof. split; vm_compute; reflexivity. Qed.
(** Three conditions at two levels, one spare temporary in store. *)
Example C122_three : qfft_seen 2 [2; 0; 1] (mkSt (mkB [] 7 [[6]] 0) [Some [3; 4]; Some [5]]) = Some ([2; 0; 1], 8, 2, qfft_objects 3 3).
Proof. vm_compute. reflexivity. Qed.
