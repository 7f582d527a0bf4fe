(** Properties C01-C05: bit functions. *)
From Coq Require Import NArith.
From Verif Require Import Base BitsModel BitsSpec BitsProofs BitsProofs2.

(** C01 *)
Theorem C01_set_get_bit : forall num i j v,
  get_bit (set_bit num i v) j = if j =? i then v else get_bit num j.
Proof. exact set_bit_get_bit. Qed.
Print Assumptions C01_set_get_bit.

(** C01: [get_bit] reads the binary digit (quotient by 2^i, parity), and writing only moves the
    number by that digit's weight. *)
Theorem C01_get_bit_digit : forall num i, get_bit num i = Nat.odd (num / 2 ^ i).
Proof. exact get_bit_digit. Qed.
Print Assumptions C01_get_bit_digit.

Example C01_example : set_bit 5 1 true = 7 /\ set_bit 5 2 false = 1 /\ get_bit 5 2 = true.
Proof. vm_compute. auto. Qed.

(** C02 *)
Theorem C02_flip_bits_digits : forall n num, 1 <= n <= 64 ->
  exists r, flip_bits64 n num = Ok r /\
    forall j, N.testbit r (N.of_nat j) = (j <? n) && N.testbit num (N.of_nat (n - 1 - j)).
Proof. exact flip_bits64_spec. Qed.
Print Assumptions C02_flip_bits_digits.

Theorem C02_flip_bits_involutive : forall n a, 1 <= n <= 64 -> a < 2 ^ n ->
  exists b, flip_bits n a = Ok b /\ b < 2 ^ n /\ flip_bits n b = Ok a.
Proof. exact flip_bits_invol. Qed.
Print Assumptions C02_flip_bits_involutive.

(** outside 1..=64 the call panics *)
Theorem C02_flip_bits_panics : forall n a, n = 0 \/ 64 < n -> flip_bits n a = Panic PUnderflow.
Proof. exact flip_bits_bad. Qed.
Print Assumptions C02_flip_bits_panics.

Example C02_example : flip_bits 3 4 = Ok 1 /\ flip_bits 4 10 = Ok 5 /\ flip_bits64 64 1%N = Ok (2 ^ 63)%N.
Proof. vm_compute. auto. Qed.

(** C03 *)
Theorem C03_extract_bits : forall num idxs j,
  Nat.testbit (extract_bits num idxs) j = (j <? length idxs) && Nat.testbit num (nth j idxs 0).
Proof. exact extract_bits_testbit. Qed.
Print Assumptions C03_extract_bits.

Example C03_example : extract_bits 10 [3; 0] = 1.
Proof. reflexivity. Qed.

(** C04: bit [j] of the result is the next unused bit of the stream chosen by bit [j] of the
    selector: as many bits of that stream were used as the selector chose it below [j]. *)
Theorem C04_entwine_bits : forall n sel off on j,
  Nat.testbit (entwine_bits n sel off on) j =
  (j <? n) &&
  (let taken_on := length (filter (Nat.testbit sel) (seq 0 j)) in
   if Nat.testbit sel j then Nat.testbit on taken_on else Nat.testbit off (j - taken_on)).
Proof. exact entwine_bits_filter. Qed.
Print Assumptions C04_entwine_bits.

(** Both streams can be read back: the [k]-th selected position carries bit [k]. *)
Theorem C04_entwine_reads_back : forall n sel off on k p,
  nth_error (filter (Nat.testbit sel) (seq 0 n)) k = Some p ->
  Nat.testbit (entwine_bits n sel off on) p = Nat.testbit on k.
Proof. exact entwine_read_on. Qed.
Print Assumptions C04_entwine_reads_back.

Theorem C04_entwine_reads_back_off : forall n sel off on k p,
  nth_error (filter (fun i => negb (Nat.testbit sel i)) (seq 0 n)) k = Some p ->
  Nat.testbit (entwine_bits n sel off on) p = Nat.testbit off k.
Proof. exact entwine_read_off. Qed.
Print Assumptions C04_entwine_reads_back_off.

Example C04_example : entwine_bits 3 2 1 1 = 3.
Proof. reflexivity. Qed.

(** C05: qubit [q] of an [n]-qubit index is bit [n-1-q]. *)
Theorem C05_sub_to_full : forall n qs s base,
  (forall q, In q qs -> q < n) -> NoDup qs -> s < 2 ^ length qs -> base < 2 ^ n ->
  exists f, sub_to_full n qs s base = Ok f /\ f < 2 ^ n /\
    full_to_sub n qs f = Ok s /\
    (forall q, q < n -> ~ In q qs -> Nat.testbit f (n - 1 - q) = Nat.testbit base (n - 1 - q)) /\
    (forall j, j < length qs -> Nat.testbit f (n - 1 - nth j qs 0) = Nat.testbit s (length qs - 1 - j)).
Proof. exact sub_to_full_index. Qed.
Print Assumptions C05_sub_to_full.

Theorem C05_full_to_sub : forall n qs x, (forall q, In q qs -> q < n) -> x < 2 ^ n ->
  exists s, full_to_sub n qs x = Ok s /\ s < 2 ^ length qs /\ sub_to_full n qs s x = Ok x.
Proof. exact full_sub_full. Qed.
Print Assumptions C05_full_to_sub.

Theorem C05_out_of_range_panics : forall n qs i, ~ (forall q, In q qs -> q < n) ->
  full_to_sub n qs i = Panic PUnderflow.
Proof. exact full_to_sub_panics. Qed.
Print Assumptions C05_out_of_range_panics.

Theorem C05_select_matrix_coords : forall n qs row col, (forall q, In q qs -> q < n) ->
  exists r c, select_matrix_coords n (length qs) qs row col = Ok (r, c) /\
    full_to_sub n qs row = Ok r /\ full_to_sub n qs col = Ok c.
Proof. exact select_coords_full_to_sub. Qed.
Print Assumptions C05_select_matrix_coords.

Example C05_example : full_to_sub 3 [2; 0] 5 = Ok 3 /\ sub_to_full 3 [2; 0] 2 0 = Ok 1 /\ NoDup [2; 0].
Proof. repeat split; repeat constructor; cbn; intuition discriminate. Qed.
