(** Several operators at once, function, sparse and inverted operators on 64-bit words: C104; the table of an
    operator on words: C67. *)
From Coq Require Import Reals NArith ZArith Lra FunctionalExtensionality.
From Coquelicot Require Import Complex.
From Verif Require Import Base BitsModel BitsSpec BitsProofs OpsModel OpsSpec OpsProofs OpsProofs2 OpsProofs3 OpsFinal StateOpsModel StateOpsProofs ConjSpec MatProofs Instances WordModel WordSpec WordProofs WordProofs2 WordModel2 WordProofs3.
Local Open Scope nat_scope.

(** *** C104: the remaining functions on operators. *)
Theorem C104_operators_at_once : forall m P (N : num P) n ops input output ioff ooff, n <= 64 -> Forall wf_op ops -> Forall small_op ops ->
  Forall (fun op => length (op_indices op) <= 63) ops -> length (ops_indices ops) <= 64 -> in_range n (ops_indices ops) -> ooff + length output <= 2 ^ n ->
  (ops = [] -> n <= 63 /\ ioff + length input <= 2 ^ n /\ ioff <= ooff + length output /\ ooff <= ioff + length input) ->
  wapply_ops m N n ops input output ioff ooff = apply_ops N n ops input output ioff ooff.
Proof. intros. apply wapply_ops_ok; assumption. Qed.
Print Assumptions C104_operators_at_once.
(** What comes out, for operators on distinct qubits of which each row has an entry. *)
Theorem C104_operators_matrix : forall m P (N : num P), num_laws N -> forall n ops input output, n <= 63 -> 2 <= length ops -> Forall wf_op ops -> Forall small_op ops ->
  Forall (rows_nonempty N) ops -> NoDup (ops_indices ops) -> in_range n (ops_indices ops) -> length input = 2 ^ n -> length output = 2 ^ n ->
  exists out', wapply_ops m N n ops input output 0 0 = Ok out' /\ length out' = 2 ^ n /\
    forall x, st_of N n out' x = nadd N (st_of N n output x) (act N (ops_indices ops) (ops_actual N ops) (st_of N n input) x).
Proof.
  intros m P N L n ops input output Hn H2 W S R ND I Hi Ho.
  assert (K : length (ops_indices ops) <= n) by (apply in_range_NoDup_length; assumption).
  rewrite wapply_ops_ok; [|lia|assumption|assumption| |lia|assumption|lia|].
  - apply apply_ops_act; assumption.
  - apply Forall_forall. intros op Hin. apply in_split in Hin. destruct Hin as (l1 & l2 & ->). unfold ops_indices in K. rewrite map_app, concat_app in K. cbn [map concat] in K. rewrite !app_length in K. lia.
  - intros ->. cbn in H2. lia.
Qed.
Print Assumptions C104_operators_matrix.

Theorem C104_function_operator : forall m P row i o (f : nat -> nat * P), 1 <= i -> 1 <= o -> i + o <= 64 -> row < 2 ^ (i + o) ->
  exists it, wfunction_iter m row i o f = Ok it /\
    collect 3 it (it_init it) =
    let x := row / 2 ^ o in let y := row mod 2 ^ o in
    let '(fx, theta) := f (be (rev (bits_be i x))) in
    Ok [(x * 2 ^ o + Nat.lxor y (be (rev (bits_be o fx))), theta)].
Proof.
  intros m P row i o f Hi Ho Hs Hr. destruct (final_function_items row i o f ltac:(lia) ltac:(lia) Hr) as (it & E & C).
  destruct (wfunction_same m row i o f Hi Ho Hs Hr (ex_intro _ it E)) as (wit & it' & E1 & E2 & Same). rewrite E in E2. inversion E2. subst it'.
  exists wit. split; [exact E1|]. rewrite Same. exact C.
Qed.
Print Assumptions C104_function_operator.

Theorem C104_sparse_operators : forall m P (qs : list nat) (dat : list (list (nat * P))) f n o,
  (length qs <= 63 -> wmake_sparse_matrix_op m qs dat o = make_sparse_matrix_op qs dat o) /\
  (n <= 63 -> (o = LittleEndian -> 1 <= n) -> wmake_sparse_matrix_from_function m n f o = make_sparse_matrix_from_function (P := P) n f o).
Proof. intros. split; [apply wmake_sparse_ok|apply wmake_sparse_fn_ok]. Qed.
Print Assumptions C104_sparse_operators.
(** With no qubits little-endian tables differ: a debug build panics, a release build reverses all 64 bits of the
    column. *)
Theorem C104_sparse_no_qubits : forall P (v : P),
  wmake_sparse_matrix_from_function Debug 0 (fun _ => [(0, v)]) LittleEndian = Panic PUnderflow /\
  wmake_sparse_matrix_from_function Release 0 (fun _ => [(0, v)]) LittleEndian = Ok [[(0, v)]] /\
  wmake_sparse_matrix_from_function Release 0 (fun _ => [(1, v)]) LittleEndian = Ok [[(2 ^ 63, v)]].
Proof.
  intros P v.
  assert (F : forall x, wflip_bits Release 0 x = Ok (N.to_nat (reverse_bits64 (N.of_nat x)))) by (intros x; unfold wflip_bits, wshr; cbn [wsub Nat.leb bind]; reflexivity).
  split; [reflexivity|]. unfold wmake_sparse_matrix_from_function. change (wshl Release 1 0) with (Ok (wrap 1)). change (wrap 1) with 1. cbn [bind seq mapM].
  rewrite !F. cbn [bind]. change (reverse_bits64 (N.of_nat 0)) with 0%N. split; [reflexivity|].
  change (reverse_bits64 (N.of_nat 1)) with (2 ^ 63)%N. replace (N.to_nat (2 ^ 63)) with (2 ^ 63) by (rewrite N2Nat.inj_pow; reflexivity). reflexivity.
Qed.
Print Assumptions C104_sparse_no_qubits.

Theorem C104_invert : forall m P (cj : P -> P) op, wf_op op -> small_op op -> winvert_op m cj op = invert_op cj op.
Proof. intros. apply winvert_op_ok; assumption. Qed.
Print Assumptions C104_invert.

(** Two operators on the outermost of 63 qubits. *)
Example C104_operators_example : forall m input output, length input = 2 ^ 63 -> length output = 2 ^ 63 ->
  exists out', wapply_ops m ZN 63 [Matrix [62] [0; 1; 1; 0]%Z; Control 1 [0; 1] (Matrix [1] [0; 1; 1; 0]%Z)] input output 0 0 = Ok out'.
Proof.
  intros m input output Hi Ho.
  assert (Row : forall ind, length ind = 1 -> rows_nonempty ZN (Matrix ind [0; 1; 1; 0]%Z)).
  { intros ind Li [|b [|b' r]] Hr; cbn in Hr; try lia. exists [negb b]. split; [rewrite Li; reflexivity|]. cbn [op_mat]. rewrite Li. destruct b; cbn; discriminate. }
  assert (Sm : 4 < 2 ^ 63) by (apply (Nat.lt_le_trans _ (2 ^ 3)); [cbn; lia|apply Nat.pow_le_mono_r; lia]).
  destruct (C104_operators_matrix m Z ZN ZN_laws 63 [Matrix [62] [0; 1; 1; 0]%Z; Control 1 [0; 1] (Matrix [1] [0; 1; 1; 0]%Z)] input output) as (out & E & _).
  - lia.
  - cbn. lia.
  - repeat constructor.
  - constructor; [exact Sm|constructor; [exact Sm|constructor]].
  - constructor; [apply Row; reflexivity|constructor; [apply Row; reflexivity|constructor]].
  - cbn. repeat constructor; cbn; intuition lia.
  - intros q Hq. cbn in Hq. intuition lia.
  - exact Hi.
  - exact Ho.
  - exists out. exact E.
Qed.

(** *** C67: the table on words.  Up to 30 qubits it is the table of the operation, in both builds. *)
Theorem C67_words_partial : forall m P (N : num P), num_laws N -> forall n (op : mop P), n <= 30 -> wf_op op -> small_op op -> NoDup (op_indices op) -> in_range n (op_indices op) ->
  wmake_op_matrix m N n op = Ok (map (fun i => map (fun j => full_entry N n op i j) (seq 0 (2 ^ n))) (seq 0 (2 ^ n))).
Proof.
  intros m P N L n op Hn W S ND R. assert (K := in_range_NoDup_length n _ R ND). rewrite wmake_op_matrix_ok by (try assumption; lia). apply make_op_matrix_ok; assumption.
Qed.
Print Assumptions C67_words_partial.
(** From 31 qubits on there is no table: the zero vector is counted in i32. *)
Theorem C67_from_31_qubits_refuted : forall m P (N : num P), num_laws N -> forall n (op : mop P), 31 <= n <= 63 -> wf_op op -> small_op op -> NoDup (op_indices op) -> in_range n (op_indices op) ->
  exists r, wmake_op_matrix m N n op = Panic r.
Proof.
  intros m P N L n op Hn W S ND R. assert (K := in_range_NoDup_length n _ R ND). apply wmake_op_matrix_panics; try assumption. lia.
Qed.
Print Assumptions C67_from_31_qubits_refuted.
(** Either way with 31 qubits the vector is empty; with 32 a debug build panics on the shift. *)
Example C67_words_example : i32_count Debug 31 = Ok 0 /\ i32_count Release 31 = Ok 0 /\ i32_count Debug 32 = Panic PUnderflow /\ i32_count Release 33 = Ok 2 /\
  wmake_op_matrix Release ZN 1 (Matrix [0] [1; 2; 3; 4]%Z) = Ok [[1; 3]; [2; 4]]%Z /\
  (exists r, wmake_op_matrix Release ZN 31 (Matrix [30] [1; 2; 3; 4]%Z) = Panic r).
Proof.
  repeat split. apply C67_from_31_qubits_refuted.
  - exact ZN_laws.
  - lia.
  - reflexivity.
  - cbn [small_op length]. apply (Nat.lt_le_trans _ (2 ^ 3)); [cbn; lia|apply Nat.pow_le_mono_r; lia].
  - repeat constructor. intros [].
  - intros q [<-|[]]. lia.
Qed.
