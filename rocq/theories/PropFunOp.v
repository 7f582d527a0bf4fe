(** FunctionOpIterator: C102. *)
From Verif Require Import Base BitsModel BitsSpec BitsProofs BitsProofs2 OpsModel OpsProofs MeasureProofs FunOpModel.
Local Open Scope nat_scope.

(** The basis state [y] comes from [x] by xoring the bits of [k], least significant first, into the qubits from
    [a] to [n - 1]. *)
Definition xored (n a k : nat) (x y : bs) : Prop := forall q, q < n -> y q = if q <? a then x q else xorb (x q) (Nat.testbit k (q - a)).
(** The number in the first [a] qubits, least significant first. *)
Definition input_value (a : nat) (x : bs) : nat := le (map x (seq 0 a)).

Lemma fun_row {P} (f : nat -> nat * P) i o row : 1 <= i <= 64 -> 1 <= o < 64 -> row < 2 ^ (i + o) ->
  let v := input_value i (dec (i + o) row) in
  exists it col, fun_iter row i o f = Ok it /\ (forall k, collect (2 + k) it (it_init it) = Ok [(col, snd (f v))]) /\ col < 2 ^ (i + o) /\ xored (i + o) i (fst (f v)) (dec (i + o) row) (dec (i + o) col).
Proof.
  intros Hi Ho Hr v. unfold fun_iter. destruct (Nat.leb_spec 64 o); [lia|]. cbn [bind].
  destruct (flip_bits_ok i (Nat.shiftr row o) Hi) as (v' & E & Hv). rewrite E. cbn [bind].
  assert (v' = v) as ->.
  { apply Nat.bits_inj. intros j. unfold v, input_value. rewrite testbit_le, Hv, Nat.shiftr_spec' . destruct (Nat.ltb_spec j i) as [Hj|Hj]; cbn [andb].
    - rewrite (nth_indep _ false (dec (i + o) row 0)) by (rewrite map_length, seq_length; exact Hj). rewrite map_nth, seq_nth by exact Hj. unfold dec. rewrite (proj2 (Nat.ltb_lt _ _)) by lia. cbn [andb]. f_equal. lia.
    - rewrite nth_overflow; [reflexivity|]. rewrite map_length, seq_length. exact Hj. }
  destruct (f v) as [fx theta]. cbn [fst snd]. destruct (flip_bits_ok o fx ltac:(lia)) as (w & Ew & Hw). rewrite Ew. cbn [bind].
  set (col := Nat.lor (Nat.shiftl (Nat.shiftr row o) o) (Nat.lxor (Nat.land row (Nat.ones o)) w)).
  assert (B : forall j, Nat.testbit col j = if j <? o then xorb (Nat.testbit row j) (Nat.testbit fx (o - 1 - j)) else Nat.testbit row j).
  { intros j. unfold col. rewrite Nat.lor_spec, Nat.lxor_spec, Nat.land_spec, Hw. destruct (Nat.ltb_spec j o) as [Hj|Hj].
    - rewrite Nat.shiftl_spec_low by exact Hj. rewrite Nat.ones_spec_low by exact Hj. rewrite andb_true_r. cbn. reflexivity.
    - rewrite Nat.shiftl_spec_high' by exact Hj. rewrite Nat.shiftr_spec', Nat.ones_spec_high by exact Hj. rewrite andb_false_r. cbn. rewrite orb_false_r. f_equal. lia. }
  eexists. exists col. split; [reflexivity|]. split; [intros k; reflexivity|]. split.
  - destruct (Nat.lt_ge_cases col (2 ^ (i + o))) as [L|L]; [exact L|]. exfalso. assert (Hc : col <> 0) by (pose proof (Nat.pow_nonzero 2 (i + o)); lia).
    pose proof (Nat.bit_log2 col Hc) as X. rewrite B in X. assert (HL : i + o <= Nat.log2 col) by (apply Nat.log2_le_pow2; [lia|exact L]).
    destruct (Nat.ltb_spec (Nat.log2 col) o) as [Y|Y]; [lia|]. rewrite (testbit_high row (i + o)) in X by assumption. discriminate.
  - intros q Hq. unfold dec. rewrite (proj2 (Nat.ltb_lt _ _) Hq). cbn [andb]. rewrite B. destruct (Nat.ltb_spec q i) as [X|X].
    + destruct (Nat.ltb_spec (i + o - 1 - q) o) as [Y|Y]; [lia|reflexivity].
    + destruct (Nat.ltb_spec (i + o - 1 - q) o) as [Y|Y]; [|lia]. do 2 f_equal. lia.
Qed.
(** *** C102 *)
Theorem C102_oracle_row : forall P (f : nat -> nat * P) i o row, 1 <= i <= 64 -> 1 <= o < 64 -> row < 2 ^ (i + o) ->
  let v := input_value i (dec (i + o) row) in
  exists it col, fun_iter row i o f = Ok it /\ (forall k, collect (2 + k) it (it_init it) = Ok [(col, snd (f v))]) /\
    col < 2 ^ (i + o) /\ xored (i + o) i (fst (f v)) (dec (i + o) row) (dec (i + o) col).
Proof. exact @fun_row. Qed.
Print Assumptions C102_oracle_row.
(** The operator is symmetric: the row of that column has its entry back at the first row. *)
Theorem C102_oracle_symmetric : forall P (f : nat -> nat * P) i o row, 1 <= i <= 64 -> 1 <= o < 64 -> row < 2 ^ (i + o) ->
  exists it it' col theta, fun_iter row i o f = Ok it /\ collect 2 it (it_init it) = Ok [(col, theta)] /\ col < 2 ^ (i + o) /\
    fun_iter col i o f = Ok it' /\ collect 2 it' (it_init it') = Ok [(row, theta)].
Proof.
  intros P f i o row Hi Ho Hr. destruct (fun_row f i o row Hi Ho Hr) as (it & col & E & C & Hc & X). destruct (fun_row f i o col Hi Ho Hc) as (it' & row' & E' & C' & Hr' & X').
  assert (Ev : input_value i (dec (i + o) col) = input_value i (dec (i + o) row)).
  { unfold input_value. f_equal. apply map_ext_in. intros q Hq. apply in_seq in Hq. rewrite X by lia. destruct (Nat.ltb_spec q i); [reflexivity|lia]. }
  rewrite Ev in *. set (v := input_value i (dec (i + o) row)) in *.
  exists it, it', col, (snd (f v)). split; [exact E|]. split; [apply (C 0)|]. split; [exact Hc|]. split; [exact E'|]. specialize (C' 0). cbn [Nat.add] in C'. rewrite C'. do 2 f_equal. f_equal.
  rewrite <- (enc_dec (i + o) row' Hr'), <- (enc_dec (i + o) row Hr). unfold enc. f_equal. apply map_ext_in. intros q Hq. apply in_seq in Hq. rewrite X', X by lia.
  destruct (Nat.ltb_spec q i); [reflexivity|]. rewrite xorb_assoc, xorb_nilpotent, xorb_false_r. reflexivity.
Qed.
Print Assumptions C102_oracle_symmetric.
(** Sizes for which it panics. *)
Theorem C102_oracle_panics : forall P (f : nat -> nat * P) i o row, i = 0 \/ 64 < i \/ o = 0 \/ 64 <= o -> exists p, fun_iter row i o f = Panic p.
Proof.
  intros P f i o row H. unfold fun_iter. destruct (Nat.leb_spec 64 o); [eexists; reflexivity|]. cbn [bind].
  destruct (Nat.eq_dec i 0) as [->|]; [rewrite flip_bits_bad by lia; eexists; reflexivity|]. destruct (Nat.lt_ge_cases 64 i); [rewrite flip_bits_bad by lia; eexists; reflexivity|].
  destruct (flip_bits_ok i (Nat.shiftr row o) ltac:(lia)) as (v & -> & _). cbn [bind]. destruct (f v) as [fx th]. rewrite (flip_bits_bad o) by lia. eexists. reflexivity.
Qed.
Print Assumptions C102_oracle_panics.
(** x -> 2 x + 1 on two inputs and three outputs: row |01>|110> = 14 (input value 2, f = 5 = |101>) has its entry at
    |01>|011> = 11. *)
Example C102_example : exists it, fun_iter 14 2 3 (fun x => (2 * x + 1, tt)) = Ok it /\ collect 2 it (it_init it) = Ok [(11, tt)] /\ input_value 2 (dec 5 14) = 2.
Proof. eexists. split; [vm_compute; reflexivity|]. split; vm_compute; reflexivity. Qed.
