(** C121: what shifts, copies, the modular product, the modular square and a one-bit modular power
    cost, under any number of conditions. *)
From Coq Require Import ZArith Permutation.
From Verif Require Import Base BuilderModel RunSpec ProgramModel ProgramSpec ArithModel CostSpec ProgCostSpec ArithCostSpec ArithCostSpec2 ArithCostProofs2 ArithCostProofs3 PropArithCost.
Local Open Scope nat_scope.
Local Open Scope mon_scope.

(** Shifts and copies are made of negations under one condition more. *)
Theorem C121_shift : forall d r, 2 <= length r -> NoDup r ->
  prices d rshift [r] (fun c => c - 1) (shift_objects (length r - 1)) /\ prices d lshift [r] (fun c => c - 1) (shift_objects (length r - 1)).
Proof. intros d r H N. split; [apply rshift_prices|apply lshift_prices]; assumption. Qed.
Print Assumptions C121_shift.
Theorem C121_copy : forall d ra rb, length ra = length rb -> ra <> [] -> NoDup (ra ++ rb) ->
  prices d copy [ra; rb] (fun c => c - 1) (copy_objects (length ra)) /\ prices d copy_inv [ra; rb] (fun c => c - 1) (copy_objects (length ra)).
Proof. intros d ra rb E Ha N. split; [apply copy_prices|apply copy_inv_prices]; assumption. Qed.
Print Assumptions C121_copy.

(** The product of [ra] with [rb] modulo [rm], added to [rp]. *)
Theorem C121_times_mod : forall d ra rb rm rp, rm <> [] -> rb <> [] -> length ra = S (length rm) -> length rp = S (length rm) ->
  prices d times_mod [ra; rb; rm; rp] (times_temps (length rm) (length rb)) (times_objects (length rm) (length rb)).
Proof. exact times_mod_prices. Qed.
Print Assumptions C121_times_mod.
Theorem C121_square_mod : forall d ra rm rs, rm <> [] -> length ra = S (length rm) -> length rs = S (length rm) ->
  prices d square_mod [ra; rm; rs] (square_temps (length rm)) (square_objects (length rm)).
Proof. exact square_mod_prices. Qed.
Print Assumptions C121_square_mod.
(** Full statement: the same with an exponent [rb] of any length.  Proved for one bit; longer
    exponents run the recorded inverses of the square and of the product, whose objects are not
    counted here. *)
Theorem C121_exp_mod_partial : forall d ra b rm rp re, rm <> [] -> length ra = S (length rm) -> length rp = S (length rm) -> length re = S (length rm) -> NoDup (concat [ra; [b]; rm; rp; re]) ->
  prices d exp_mod [ra; [b]; rm; rp; re] (power1_temps (length rm)) (power1_objects (length rm)).
Proof. exact exp_mod_prices. Qed.
Print Assumptions C121_exp_mod_partial.

(** In numbers: without conditions a round has 26570 n - 19516 objects, under one condition
    80902 n - 58160. *)
Section Numbers.
Local Open Scope Z_scope.
Ltac numbers := unfold round_objects, add_mod_objects, add_objects, add_inv_objects, shift_objects, sum_objects; rewrite ?Nat.sub_succ, ?Nat.sub_0_r;
  rewrite ?Nat2Z.inj_add, ?Nat2Z.inj_mul, ?Nat2Z.inj_add, ?Nat2Z.inj_mul, ?Nat2Z.inj_succ.
Lemma num_not : Z.of_nat (nots 0) = 1 /\ Z.of_nat (nots 1) = 21 /\ Z.of_nat (nots 2) = 63 /\ Z.of_nat (nots 3) = 105.
Proof. repeat split; vm_compute; reflexivity. Qed.
Lemma num_carry : Z.of_nat (carry_objects 0) = 44 /\ Z.of_nat (carry_objects 1) = 168 /\ Z.of_nat (carry_objects 2) = 336 /\ Z.of_nat (carry_objects 3) = 504 /\ Z.of_nat (carry_objects 4) = 672.
Proof. repeat split; vm_compute; reflexivity. Qed.
Lemma num_uncarry : Z.of_nat (uncarry_objects 0) = 78 /\ Z.of_nat (uncarry_objects 1) = 1886 /\ Z.of_nat (uncarry_objects 2) = 5930 /\ Z.of_nat (uncarry_objects 3) = 10634.
Proof. repeat split; vm_compute; reflexivity. Qed.
Lemma num_recarry : Z.of_nat (recarry_objects 0) = 126 /\ Z.of_nat (recarry_objects 1) = 2590 /\ Z.of_nat (recarry_objects 2) = 8490 /\ Z.of_nat (recarry_objects 3) = 15798.
Proof. repeat split; vm_compute; reflexivity. Qed.
Theorem C121_numbers : forall n, (0 < n)%nat ->
  Z.of_nat (round_objects n 0) = 26570 * Z.of_nat n - 19516 /\ Z.of_nat (round_objects n 1) = 80902 * Z.of_nat n - 58160.
Proof.
  intros [|m] H; [lia|]. destruct num_not as (N0 & N1 & N2 & N3). destruct num_carry as (C0 & C1 & C2 & C3 & _). destruct num_uncarry as (U0 & U1 & U2 & U3). destruct num_recarry as (R0 & R1 & R2 & R3).
  assert (F1 : Z.of_nat (flip_objects 1) = 1) by reflexivity. assert (F2 : Z.of_nat (flip_objects 2) = 21) by reflexivity.
  split; numbers; rewrite ?N0, ?N1, ?N2, ?N3, ?C0, ?C1, ?C2, ?C3, ?U0, ?U1, ?U2, ?U3, ?R0, ?R1, ?R2, ?R3, ?F1, ?F2; lia.
Qed.
End Numbers.
Print Assumptions C121_numbers.

(** Without conditions: [k + 2 n + 3] temporaries and [k (26570 n - 19516)] objects for the product,
    [4 n + 3] temporaries for the square. *)
Theorem C121_plain : forall s ra rb rm rp, conds s = [] -> tidy s -> live s (ra ++ rb ++ rm ++ rp) -> rm <> [] -> rb <> [] -> length ra = S (length rm) -> length rp = S (length rm) ->
  exists s' g, times_mod 0 [ra; rb; rm; rp] s = Ret [ra; rb; rm; rp] s' /\ tidy s' /\ live s' (ra ++ rb ++ rm ++ rp) /\ uses (length rb + 2 * length rm + 3) g s s' /\
    Z.of_nat g = (Z.of_nat (length rb) * (26570 * Z.of_nat (length rm) - 19516))%Z.
Proof.
  intros s ra rb rm rp C T Lv Hm Hb La Lp. assert (Hn : 0 < length rm) by (destruct rm; [congruence|cbn; lia]).
  assert (Ec : concat [ra; rb; rm; rp] = ra ++ rb ++ rm ++ rp) by (cbn [concat]; rewrite app_nil_r; reflexivity).
  assert (Ad : at_depth 0 s) by (split; [rewrite C; reflexivity|intros k Hk; lia]).
  destruct (times_mod_prices 0 ra rb rm rp Hm Hb La Lp s (ra ++ rb ++ rm ++ rp) Ad T Lv) as (s' & E & _ & T' & L' & U).
  - cbn [cqs app]. rewrite Ec. apply Lv.
  - cbn [cqs app]. rewrite Ec. apply incl_refl.
  - cbn [cqs length] in U. exists s', (times_objects (length rm) (length rb) 0). split; [exact E|]. split; [exact T'|]. split; [exact L'|]. split.
    + replace (length rb + 2 * length rm + 3) with (times_temps (length rm) (length rb) 0); [exact U|]. unfold times_temps, add_mod_temps. lia.
    + unfold times_objects. rewrite Nat2Z.inj_mul. f_equal. apply C121_numbers. exact Hn.
Qed.
Print Assumptions C121_plain.

(** Like [cost_seen], with the number of objects in binary. *)
Definition cost_seen_N (m : M (list reg)) (s : st) : option (list reg * nat * nat * N) :=
  match m s with Ret r s' => Some (r, bn (bld s'), length (zeroed (bld s')), N.of_nat (length (pipeline (bld s')))) | _ => None end.
(** One bit times two bits: 7 qubits, 7 temporaries, two rounds of 7054 objects. *)
Example C121_product : exists s' g, times_mod 0 [[0; 1]; [2; 3]; [4]; [5; 6]] (mkSt (mkB [] 7 [] 0) []) = Ret [[0; 1]; [2; 3]; [4]; [5; 6]] s' /\ bn (bld s') = 14 /\
  length (pipeline (bld s')) = g /\ Z.of_nat g = 14108%Z.
Proof.
  destruct (started 7 []) as (T & Lv). destruct (C121_plain (mkSt (mkB [] 7 [] 0) []) [0; 1] [2; 3] [4] [5; 6] eq_refl T Lv ltac:(discriminate) ltac:(discriminate) eq_refl eq_refl) as (s' & g & E & _ & _ & (U1 & _ & U3) & G).
  exists s', g. split; [exact E|]. split; [exact U1|]. split; [exact U3|exact G].
Qed.
(** A square of one bit, and a one-bit power of a one-bit number. *)
Example C121_square : exists s', square_mod 0 [[0; 1]; [2]; [3; 4]] (mkSt (mkB [] 5 [] 0) []) = Ret [[0; 1]; [2]; [3; 4]] s' /\ bn (bld s') = 12 /\
  length (pipeline (bld s')) = square_objects 1 0.
Proof.
  destruct (started 5 []) as (T & Lv).
  destruct (C121_square_mod 0 [0; 1] [2] [3; 4] ltac:(discriminate) eq_refl eq_refl (mkSt (mkB [] 5 [] 0) []) (seq 0 5) ltac:(split; [reflexivity|intros k Hk; lia]) T Lv) as (s' & E & _ & _ & _ & U1 & _ & U3).
  - cbn. nodup.
  - intros q Hq. exact Hq.
  - exists s'. split; [exact E|]. split; [exact U1|exact U3].
Qed.
Example C121_power : exists s', exp_mod 0 [[0; 1]; [2]; [3]; [4; 5]; [6; 7]] (mkSt (mkB [] 8 [] 0) []) = Ret [[0; 1]; [2]; [3]; [4; 5]; [6; 7]] s' /\ bn (bld s') = 16 /\
  length (pipeline (bld s')) = power1_objects 1 0.
Proof.
  destruct (started 8 []) as (T & Lv).
  destruct (C121_exp_mod_partial 0 [0; 1] 2 [3] [4; 5] [6; 7] ltac:(discriminate) eq_refl eq_refl eq_refl ltac:(nodup) (mkSt (mkB [] 8 [] 0) []) (seq 0 8) ltac:(split; [reflexivity|intros k Hk; lia]) T Lv) as (s' & E & _ & _ & _ & U1 & _ & U3).
  - cbn. nodup.
  - intros q Hq. exact Hq.
  - exists s'. split; [exact E|]. split; [exact U1|exact U3].
Qed.
(** Shifts under two conditions. *)
Example C121_shift_conditioned : cost_seen_N (lshift 1 [[0; 1; 2]]) (mkSt (mkB [] 5 [] 0) [Some [3; 4]]) = Some ([[0; 1; 2]], 6, 1, 378%N).
Proof. vm_compute. reflexivity. Qed.
