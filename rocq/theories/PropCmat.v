(** make_circuit_matrix: C101. *)
From Coq Require Import Reals Lra FunctionalExtensionality Permutation.
From Coquelicot Require Import Complex.
From Verif Require Import Base BitsSpec BitsProofs OpsModel OpsSpec OpsProofs ConjSpec ConjProofs Instances BuilderModel SimModel DenSpec DenProofs SimSpec SimProofs WholeSpec RunSpec LinkProofs CmatProofs.
Local Open Scope nat_scope.
Definition entry (M : list (list C)) (i j : nat) : C := nth j (nth i M []) (RtoC 0).

(** *** C101: false: the rows of the matrix are not in the order of its columns; the matrix of the empty circuit
    on two qubits is not the identity. *)
Theorem C101_circuit_matrix_refuted : forall draws, exists s M,
  register 2 (mkSt empty_builder []) = Ret [0; 1] s /\ make_circuit_matrix (bld s) [0; 1] draws = Ok M /\ entry M 1 1 = RtoC 0 /\ entry M 1 2 = RtoC 1.
Proof. intros draws. eexists. eexists. split; [reflexivity|]. split; [reflexivity|]. split; reflexivity. Qed.
Print Assumptions C101_circuit_matrix_refuted.

(** Each row is the state of the run that starts with its number in the register, the other qubits 0. *)
Theorem C101_rows : forall b r draws, NoDup r -> in_range (bn b) r -> Forall (wf_entry (bn b)) (pipeline b) -> Forall plain_entry (pipeline b) ->
  exists M, make_circuit_matrix b r draws = Ok M /\ length M = 2 ^ length r /\
    forall i x, i < 2 ^ length r -> loads [(r, i)] x -> length (nth i M []) = 2 ^ bn b /\ forall y, entry M i (enc (bn b) y) = den (pipeline b) (ket (bn b) x) y.
Proof.
  intros b r draws N R W Pl. destruct (matrix_rows b r draws N R W Pl) as (M & E & L & H). exists M. split; [exact E|]. split; [exact L|]. intros i x Hi Lx. destruct (H i x Hi Lx) as (H1 & H2).
  split; [exact H1|]. intros y. rewrite <- H2. reflexivity.
Qed.
Print Assumptions C101_rows.

Lemma dec_loads n i i' r : (forall q, In q r <-> q < n) -> length r = n -> (forall j, j < n -> dec n i' (nth j r 0) = Nat.testbit i j) -> loads [(r, i)] (dec n i').
Proof.
  intros Hr L H. split.
  - intros r' v [E|[]] j Hj. inversion E; subst. apply H. exact Hj.
  - intros q Hq. specialize (Hq r i (or_introl eq_refl)). unfold dec. destruct (Nat.ltb_spec q n) as [X|X]; [exfalso; apply Hq, Hr, X|reflexivity].
Qed.
Lemma rev_loads n i : loads [(rev (seq 0 n), i)] (dec n i).
Proof.
  apply dec_loads.
  - intros q. rewrite <- in_rev, in_seq. lia.
  - rewrite rev_length, seq_length. reflexivity.
  - intros j Hj. rewrite rev_nth, seq_length by (rewrite seq_length; exact Hj). rewrite seq_nth by lia. unfold dec. rewrite (proj2 (Nat.ltb_lt _ _)) by lia. cbn [andb]. f_equal. lia.
Qed.
(** With the qubits in reverse order rows and columns agree: row i, column j is the amplitude of j in the run
    from i. *)
Theorem C101_circuit_matrix_partial : forall b draws, Forall (wf_entry (bn b)) (pipeline b) -> Forall plain_entry (pipeline b) ->
  exists M, make_circuit_matrix b (rev (seq 0 (bn b))) draws = Ok M /\ length M = 2 ^ bn b /\
    forall i j, i < 2 ^ bn b -> j < 2 ^ bn b -> entry M i j = den (pipeline b) (ket (bn b) (dec (bn b) i)) (dec (bn b) j).
Proof.
  intros b draws W Pl. destruct (C101_rows b (rev (seq 0 (bn b))) draws) as (M & E & L & H); [apply NoDup_rev, seq_NoDup|intros q Hq; apply in_rev, in_seq in Hq; lia|exact W|exact Pl|].
  rewrite rev_length, seq_length in *. exists M. split; [exact E|]. split; [exact L|]. intros i j Hi Hj. destruct (H i _ Hi (rev_loads (bn b) i)) as (_ & G). rewrite <- G, enc_dec by exact Hj. reflexivity.
Qed.
Print Assumptions C101_circuit_matrix_partial.
(** With the qubits in order (as register returns them), row i is the run from the basis state whose index has
    the bits of i reversed. *)
Theorem C101_reversed_rows : forall b draws, Forall (wf_entry (bn b)) (pipeline b) -> Forall plain_entry (pipeline b) ->
  exists M, make_circuit_matrix b (seq 0 (bn b)) draws = Ok M /\ length M = 2 ^ bn b /\
    forall i i' j, i < 2 ^ bn b -> j < 2 ^ bn b -> (forall k, k < bn b -> Nat.testbit i' (bn b - 1 - k) = Nat.testbit i k) ->
      entry M i j = den (pipeline b) (ket (bn b) (dec (bn b) i')) (dec (bn b) j).
Proof.
  intros b draws W Pl. destruct (C101_rows b (seq 0 (bn b)) draws) as (M & E & L & H); [apply seq_NoDup|intros q Hq; apply in_seq in Hq; lia|exact W|exact Pl|].
  rewrite seq_length in *. exists M. split; [exact E|]. split; [exact L|]. intros i i' j Hi Hj Hb.
  destruct (H i (dec (bn b) i') Hi) as (_ & G).
  - apply dec_loads; [intros q; rewrite in_seq; lia|apply seq_length|]. intros k Hk. rewrite seq_nth by exact Hk. unfold dec. cbn [Nat.add]. rewrite (proj2 (Nat.ltb_lt _ _) Hk). cbn [andb]. apply Hb. exact Hk.
  - rewrite <- G, enc_dec by exact Hj. reflexivity.
Qed.
Print Assumptions C101_reversed_rows.
(** The rows are orthonormal, for every register. *)
Theorem C101_orthonormal : forall b r draws, NoDup r -> in_range (bn b) r -> Forall (wf_entry (bn b)) (pipeline b) -> Forall plain_entry (pipeline b) -> Forall unitary_entry (pipeline b) ->
  exists M, make_circuit_matrix b r draws = Ok M /\ forall i i', i < 2 ^ length r -> i' < 2 ^ length r ->
    big CN (fun j => Cmult (Cconj (entry M i j)) (entry M i' j)) (seq 0 (2 ^ bn b)) = if i =? i' then RtoC 1 else RtoC 0.
Proof.
  intros b r draws N R W Pl U. destruct (matrix_rows b r draws N R W Pl) as (M & E & L & H). exists M. split; [exact E|]. intros i i' Hi Hi'.
  destruct (H i _ Hi (put_loads r N i)) as (L1 & H1). destruct (H i' _ Hi' (put_loads r N i')) as (L2 & H2).
  transitivity (ip CN Cconj (bn b) (st_of CN (bn b) (nth i M [])) (st_of CN (bn b) (nth i' M []))).
  { unfold ip, bsum. apply big_ext. intros j Hj. apply in_seq in Hj. unfold st_of. rewrite enc_dec by lia. reflexivity. }
  rewrite H1, H2, (den_isometry (bn b)) by assumption. unfold ip, bsum. set (x := put_bits r i). set (x' := put_bits r i').
  rewrite (big_single CN CN_laws _ _ (enc (bn b) x)).
  - unfold ket. rewrite enc_dec by apply enc_lt. rewrite Nat.eqb_refl. destruct (Nat.eqb_spec i i') as [->|Hne].
    + fold x'. subst x x'. rewrite Nat.eqb_refl. cbn. unfold Cconj, RtoC. cbn. unfold Cmult. cbn. f_equal; ring.
    + destruct (Nat.eqb_spec (enc (bn b) x') (enc (bn b) x)) as [Ee|Ee]; [|cbn; ring]. exfalso. apply Hne. apply Nat.bits_inj. intros k.
      destruct (Nat.lt_ge_cases k (length r)) as [Hk|Hk].
      * pose proof (proj1 (put_loads r N i) r i (or_introl eq_refl) k Hk) as A1. pose proof (proj1 (put_loads r N i') r i' (or_introl eq_refl) k Hk) as A2. fold x in A1. fold x' in A2. rewrite <- A1, <- A2.
        assert (Hq : nth k r 0 < bn b) by (apply R, nth_In; exact Hk). pose proof (f_equal (fun e => dec (bn b) e (nth k r 0)) Ee) as Z. cbv beta in Z. rewrite !dec_enc, (proj2 (Nat.ltb_lt _ _) Hq) in Z. symmetry. exact Z.
      * rewrite (testbit_high i (length r) k), (testbit_high i' (length r) k) by assumption. reflexivity.
  - apply seq_NoDup.
  - apply in_seq. pose proof (enc_lt (bn b) x). lia.
  - intros k Hk Hne. apply in_seq in Hk. unfold ket. rewrite enc_dec by lia. destruct (Nat.eqb_spec (enc (bn b) x) k); [congruence|]. cbn. unfold Cconj, RtoC, Cmult. cbn. f_equal; ring.
Qed.
Print Assumptions C101_orthonormal.
(** Doing one circuit after another multiplies the matrices (the first on the left). *)
Theorem C101_product : forall b b1 b2 draws, bn b1 = bn b -> bn b2 = bn b -> pipeline b = pipeline b1 ++ pipeline b2 ->
  Forall (wf_entry (bn b)) (pipeline b) -> Forall plain_entry (pipeline b) ->
  exists M M1 M2, let r := rev (seq 0 (bn b)) in
    make_circuit_matrix b r draws = Ok M /\ make_circuit_matrix b1 r draws = Ok M1 /\ make_circuit_matrix b2 r draws = Ok M2 /\
    forall i j, i < 2 ^ bn b -> j < 2 ^ bn b -> entry M i j = big CN (fun k => Cmult (entry M1 i k) (entry M2 k j)) (seq 0 (2 ^ bn b)).
Proof.
  intros b b1 b2 draws E1 E2 Ep W Pl. pose proof W as W'. pose proof Pl as Pl'. rewrite Ep in W', Pl'. apply Forall_app in W', Pl'. destruct W' as (W1 & W2), Pl' as (P1 & P2).
  assert (N : NoDup (rev (seq 0 (bn b)))) by (apply NoDup_rev, seq_NoDup). assert (R : in_range (bn b) (rev (seq 0 (bn b)))) by (intros q Hq; apply in_rev, in_seq in Hq; lia).
  destruct (matrix_rows b _ draws N R W Pl) as (M & X & _ & H). destruct (matrix_rows b1 (rev (seq 0 (bn b))) draws N) as (M1 & X1 & _ & H1); [rewrite E1; exact R|rewrite E1; exact W1|exact P1|].
  destruct (matrix_rows b2 (rev (seq 0 (bn b))) draws N) as (M2 & X2 & _ & H2); [rewrite E2; exact R|rewrite E2; exact W2|exact P2|].
  exists M, M1, M2. cbv zeta. do 3 (split; [assumption|]). intros i j Hi Hj. rewrite E1 in H1. rewrite E2 in H2.
  rewrite rev_length, seq_length in H, H1, H2. destruct (H i _ Hi (rev_loads _ i)) as (_ & V). destruct (H1 i _ Hi (rev_loads _ i)) as (L1 & V1).
  assert (Y : forall k v, k < 2 ^ bn b -> nth k v (RtoC 0) = st_of CN (bn b) v (dec (bn b) k)) by (intros k v Hk; unfold st_of; rewrite enc_dec by exact Hk; reflexivity).
  unfold entry at 1. rewrite Y, V by exact Hj. rewrite Ep, den_app, <- V1, (st_of_sum _ _ L1), den_sumof. unfold sumof. apply big_ext. intros k Hk. apply in_seq in Hk.
  unfold entry. destruct (H2 k _ ltac:(lia) (rev_loads _ k)) as (_ & V2). rewrite (Y j), V2 by exact Hj. reflexivity.
Qed.
Print Assumptions C101_product.
Definition first_h : builder := mkB [([0], mkCO 1 (OUnit UH))] 2 [] 0.
Definition then_cnot : builder := mkB [([0; 1], mkCO 2 (OUnit UCNOT))] 2 [] 0.
Definition h_cnot : builder := mkB [([0], mkCO 1 (OUnit UH)); ([0; 1], mkCO 2 (OUnit UCNOT))] 2 [] 0.
Example C101_example : bn first_h = bn h_cnot /\ bn then_cnot = bn h_cnot /\ pipeline h_cnot = pipeline first_h ++ pipeline then_cnot /\
  Forall (wf_entry 2) (pipeline h_cnot) /\ Forall plain_entry (pipeline h_cnot) /\ Forall unitary_entry (pipeline h_cnot) /\ NoDup [1; 0] /\ in_range 2 [1; 0].
Proof.
  do 3 (split; [reflexivity|]). split; [|split; [repeat constructor|split; [repeat constructor|split; [repeat (constructor; [cbn; intuition lia|]); constructor|intros q Hq; cbn in Hq; intuition lia]]]].
  constructor; [|constructor; [|constructor]]; (split; [repeat (constructor; [cbn; intuition lia|]); constructor|split; [intros q Hq; cbn in Hq; intuition lia|reflexivity]]).
Qed.
