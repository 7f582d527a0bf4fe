(** C120: what programs, the adder and the modular adder cost, under any number of conditions. *)
From Coq Require Import Permutation.
From Verif Require Import Base BuilderModel RunSpec ProgramModel ProgramSpec ArithModel CostSpec ProgCostSpec ProgCostProofs ArithCostSpec ArithCostProofs.
Local Open Scope nat_scope.
Local Open Scope mon_scope.

(** A program at any depth holds as many temporaries as its greediest line and appends as many
    objects as its lines together; a control register adds its qubits to the conditions of the
    line, a mask negates the qubits at its cleared bits twice. *)
Theorem C120_program : forall d rs ps, NoDup (concat rs) -> Forall (fun r => r <> []) rs -> Forall (line_prices d rs) ps ->
  prices d (fun d rs => program d rs (map p_line ps)) rs (program_temps rs ps) (program_objects rs ps).
Proof. exact program_prices. Qed.
Print Assumptions C120_program.

(** The adder: as many temporaries as there are condition qubits. *)
Theorem C120_add : forall d rc ra rb, length ra = length rc -> length rb = S (length rc) -> rc <> [] -> NoDup (rc ++ ra ++ rb) ->
  prices d add [rc; ra; rb] (fun c => c) (add_objects (length rc)).
Proof. exact add_prices. Qed.
Print Assumptions C120_add.
Theorem C120_add_inv : forall d rc ra rb, length ra = length rc -> length rb = S (length rc) -> rc <> [] -> NoDup (rc ++ ra ++ rb) ->
  prices d add_inv [rc; ra; rb] (fun c => c) (add_inv_objects (length rc)).
Proof. exact add_inv_prices. Qed.
Print Assumptions C120_add_inv.
Theorem C120_add_mod : forall d ra rb rm, length ra = length rm -> length rb = S (length ra) -> ra <> [] ->
  prices d add_mod [ra; rb; rm] (add_mod_temps (length ra)) (add_mod_objects (length ra)).
Proof. exact add_mod_prices. Qed.
Print Assumptions C120_add_mod.

(** Without conditions: n + 2 temporaries and 2756 n - 2290 objects, of which the one conditioned
    addition makes up three quarters. *)
Theorem C120_add_mod_plain : forall s ra rb rm, conds s = [] -> tidy s -> live s (ra ++ rb ++ rm) -> length ra = length rm -> length rb = S (length ra) -> ra <> [] ->
  exists s', add_mod 0 [ra; rb; rm] s = Ret [ra; rb; rm] s' /\ tidy s' /\ live s' (ra ++ rb ++ rm) /\
    uses (length ra + 2) (2756 * length ra - 2290) s s' /\ add_objects (length ra) 1 = 2096 * length ra - 1886.
Proof.
  intros s ra rb rm C T Lv Lm Lb Ha.
  assert (Ec : concat [ra; rb; rm] = ra ++ rb ++ rm) by (cbn [concat]; rewrite app_nil_r; reflexivity).
  assert (Hn : 0 < length ra) by (destruct ra; [congruence|cbn; lia]).
  assert (Ad : at_depth 0 s) by (split; [rewrite C; reflexivity|intros k Hk; lia]).
  destruct (add_mod_prices 0 ra rb rm Lm Lb Ha s (ra ++ rb ++ rm) Ad T Lv) as (s' & E & _ & T' & L' & U).
  - cbn [cqs app]. rewrite Ec. apply Lv.
  - cbn [cqs app]. rewrite Ec. apply incl_refl.
  - assert (A1 : add_objects (length ra) 1 = 2096 * length ra - 1886).
    { unfold add_objects. change (carry_objects 1 + sum_objects 1) with 210. change (uncarry_objects 1) with 1886. lia. }
    exists s'. split; [exact E|]. split; [exact T'|]. split; [exact L'|]. split; [|exact A1].
    cbn [cqs length] in U. unfold add_mod_temps, add_mod_objects in U. rewrite A1 in U. unfold add_objects, add_inv_objects in U.
    change (carry_objects 0 + sum_objects 0) with 46 in U. change (uncarry_objects 0) with 78 in U. change (sum_objects 0) with 2 in U. change (recarry_objects 0) with 126 in U. change (nots 0) with 1 in U. change (flip_objects 0) with 1 in U.
    replace (length ra + 2) with (1 + length ra + 1) by lia. replace (2756 * length ra - 2290) with (2 * (length ra * 46 + (length ra - 1) * 78) + 2 * (length ra * (2 + 78) + (length ra - 1) * 126) + (2096 * length ra - 1886) + 2 * 1 + 2 * 1) by lia. exact U.
Qed.
Print Assumptions C120_add_mod_plain.

(** Registers, qubits, spare temporaries and objects after a call. *)
Definition cost_seen (m : M (list reg)) (s : st) : option (list reg * nat * nat * nat) :=
  match m s with Ret r s' => Some (r, bn (bld s'), length (zeroed (bld s')), length (pipeline (bld s'))) | _ => None end.
(** A builder with [n] qubits in use and the conditions [cs]. *)
Lemma started n cs : tidy (mkSt (mkB [] n [] 0) cs) /\ live (mkSt (mkB [] n [] 0) cs) (seq 0 n).
Proof.
  split; [split; [constructor|split; [constructor|intros q []]]|]. split; [apply seq_NoDup|]. intros q Hq. apply in_seq in Hq. intros [X|[]]. cbn [bn bld] in X. lia.
Qed.
Ltac nodup := cbn [app concat cqs conds nth_error Nat.add]; repeat (constructor; [cbn [In]; lia|]); constructor.
(** One-bit numbers, run: 4 qubits and 3 temporaries; the adder without and under a condition. *)
Example C120_plain : cost_seen (add_mod 0 [[0]; [1; 2]; [3]]) (mkSt (mkB [] 4 [] 0) []) = Some ([[0]; [1; 2]; [3]], 7, 3, 466).
Proof. vm_compute. reflexivity. Qed.
Example C120_adder : cost_seen (add 0 [[0; 1]; [2; 3]; [4; 5; 6]]) (mkSt (mkB [] 7 [] 0) []) = Some ([[0; 1]; [2; 3]; [4; 5; 6]], 7, 0, add_objects 2 0).
Proof. vm_compute. reflexivity. Qed.
Example C120_adder_conditioned : cost_seen (add 1 [[0]; [1]; [2; 3]]) (mkSt (mkB [] 6 [] 0) [Some [4; 5]]) = Some ([[0]; [1]; [2; 3]], 8, 2, add_objects 1 2).
Proof. vm_compute. reflexivity. Qed.
(** Two-bit numbers, from the theorems: the modular adder, and the adder under two conditions at
    two depths. *)
Example C120_two_bits : exists s', add_mod 0 [[0; 1]; [2; 3; 4]; [5; 6]] (mkSt (mkB [] 7 [] 0) []) = Ret [[0; 1]; [2; 3; 4]; [5; 6]] s' /\ bn (bld s') = 11 /\ length (pipeline (bld s')) = 3222.
Proof.
  destruct (started 7 []) as (T & Lv). destruct (C120_add_mod_plain (mkSt (mkB [] 7 [] 0) []) [0; 1] [2; 3; 4] [5; 6] eq_refl T Lv) as (s' & E & _ & _ & (U1 & _ & U3) & _); [reflexivity|reflexivity|discriminate|].
  exists s'. split; [exact E|]. split; [exact U1|]. rewrite U3. reflexivity.
Qed.
Example C120_conditioned : exists s', add 2 [[0; 1]; [2; 3]; [4; 5; 6]] (mkSt (mkB [] 9 [] 0) [Some [7]; Some [8]]) = Ret [[0; 1]; [2; 3]; [4; 5; 6]] s' /\ bn (bld s') = 11 /\
  length (pipeline (bld s')) = add_objects 2 2.
Proof.
  destruct (started 9 [Some [7]; Some [8]]) as (T & Lv).
  destruct (C120_add 2 [0; 1] [2; 3] [4; 5; 6] eq_refl eq_refl ltac:(discriminate) ltac:(nodup) (mkSt (mkB [] 9 [] 0) [Some [7]; Some [8]]) (seq 0 9) ltac:(split; [reflexivity|intros [|[|k]] Hk; [exists [7]|exists [8]|lia]; (split; [reflexivity|discriminate])]) T Lv) as (s' & E & _ & _ & _ & U1 & _ & U3).
  - cbn. nodup.
  - intros q Hq. apply in_seq. cbn in Hq. lia.
  - exists s'. split; [exact E|]. split; [exact U1|exact U3].
Qed.
(** Under one condition the two-bit adder has 13 times as many objects, under two 40 times. *)
Example C120_numbers : (add_objects 2 0, add_objects 2 1, add_inv_objects 1 1, add_objects 2 2 - 40 * 170) = (170, 2306, 1928, 54).
Proof. vm_compute. reflexivity. Qed.
(** A program of one masked line: the condition qubits at cleared bits are negated twice. *)
Example C120_masked : line_objects [[0; 1; 2]; [3]] (mkPriced (control_mask 5 op_x [whole 0; whole 1]) not_temps flip_objects) 1 = not_objects 4 1 + 2 * 1.
Proof. reflexivity. Qed.
Example C120_masked_runs : exists s', program 1 [[0; 1; 2]; [3]] [control_mask 5 op_x [whole 0; whole 1]] (mkSt (mkB [] 5 [] 0) [Some [4]]) = Ret [[0; 1; 2]; [3]] s' /\
  bn (bld s') = 7 /\ length (zeroed (bld s')) = 2 /\ length (pipeline (bld s')) = not_objects 4 1 + 2 * 1.
Proof. eexists. split; [vm_compute; reflexivity|]. repeat split. Qed.
