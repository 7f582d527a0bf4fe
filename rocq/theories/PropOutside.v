(** Operators on qubits the state does not have: C109. *)
From Coq Require Import Reals NArith ZArith.
From Coquelicot Require Import Complex.
From Verif Require Import Base BitsModel BitsSpec BitsProofs OpsModel OpsSpec OpsProofs OpsProofs2 Instances WordModel WordSpec WordProofs OutsideSpec OutsideProofs.
Local Open Scope nat_scope.
Local Open Scope res_scope.

(** *** C109: a debug build panics. *)
Theorem C109_debug : forall P (N : num P) n op input output ioff ooff q, wf_op op -> length (op_indices op) <= 63 -> output <> [] ->
  In q (op_indices op) -> n <= q ->
  wapply_op Debug N n op input output ioff ooff = Panic PUnderflow /\ wapply_op_overwrite Debug N n op input output ioff ooff = Panic PUnderflow.
Proof.
  intros P N n op input output ioff ooff q W Hk Ho Hin Hq.
  assert (R : forall i, wapply_op_row_indices Debug N n op input i ioff ooff (op_indices op) = Panic PUnderflow).
  { intros i. unfold wapply_op_row_indices. unfold wadd, checked. destruct (in_word (ooff + i)); cbn [bind]; [|reflexivity].
    rewrite (wfull_to_sub_debug n _ _ q Hin Hq). reflexivity. }
  destruct output as [|o output]; [congruence|]. unfold wapply_op, wapply_op_overwrite. rewrite wmat_indices_ok, wf_mat_indices by assumption. cbn [bind].
  unfold enumerate. cbn [length seq combine mapM]. rewrite R. split; reflexivity.
Qed.
Print Assumptions C109_debug.

(** A release build does what the same call does on 64 qubits, the [n] of the state being the last ones. *)
Theorem C109_release : forall P (N : num P) n op input output ioff ooff, wf_op op -> small_op op -> length (op_indices op) <= 63 ->
  (N.of_nat n < 2 ^ 64)%N -> (forall q, In q (op_indices op) -> (N.of_nat q < 2 ^ 64)%N) -> ooff + length output <= 2 ^ 64 ->
  wapply_op Release N n op input output ioff ooff = apply_op N 64 (on_qubits (word_qubit n) op) input output ioff ooff /\
  wapply_op_overwrite Release N n op input output ioff ooff = apply_op_overwrite N 64 (on_qubits (word_qubit n) op) input output ioff ooff.
Proof.
  intros P N n op input output ioff ooff W Sm Hk Hn Hq Ho. rewrite wapply_op_release, wapply_op_overwrite_release by assumption.
  assert (K : length (op_indices (on_qubits (word_qubit n) op)) <= 63) by (rewrite on_qubits_indices, map_length; exact Hk).
  assert (R : in_range 64 (op_indices (on_qubits (word_qubit n) op))) by (rewrite on_qubits_indices; apply word_qubit_range).
  split; [apply wapply_op_ok|apply wapply_op_overwrite_ok]; try assumption; try apply on_qubits_wf; try apply on_qubits_small; try assumption; apply Nat.le_refl.
Qed.
Print Assumptions C109_release.
(** Which qubits those are. *)
Theorem C109_places : forall n q, n <= 64 ->
  (q < n -> word_qubit n q = 64 - n + q) /\ (n <= q < 64 -> word_qubit n q = q - n /\ word_qubit n q < 64 - n) /\ word_qubit n (q + 64) = word_qubit n q.
Proof.
  intros n q Hn. unfold word_qubit. assert (E : n = 64 \/ n < 64) by lia.
  assert (M : (q + (64 - n mod 64)) mod 64 = (q + (64 - n)) mod 64).
  { destruct E as [->|E]; [|rewrite (Nat.mod_small n) by exact E; reflexivity]. rewrite Nat.mod_same by lia. rewrite Nat.sub_0_r, Nat.sub_diag, Nat.add_0_r.
    rewrite <- (Nat.mul_1_l 64) at 1. rewrite Nat.mod_add by lia. reflexivity. }
  split; [|split].
  - intros H. rewrite M, Nat.mod_small by lia. lia.
  - intros [H1 H2]. rewrite M. replace (q + (64 - n)) with (q - n + 1 * 64) by lia. rewrite Nat.mod_add by lia. rewrite Nat.mod_small by lia. lia.
  - replace (q + 64 + (64 - n mod 64)) with (q + (64 - n mod 64) + 1 * 64) by lia. rewrite Nat.mod_add by lia. reflexivity.
Qed.
Print Assumptions C109_places.

(** The rows that come out, as the matrix acting on the wider state. *)
Theorem C109_release_matrix : forall P (N : num P), num_laws N -> forall n op input output, wf_op op -> small_op op -> length (op_indices op) <= 63 ->
  (N.of_nat n < 2 ^ 64)%N -> (forall q, In q (op_indices op) -> (N.of_nat q < 2 ^ 64)%N) -> length output <= 2 ^ 64 ->
  exists out', wapply_op_overwrite Release N n op input output 0 0 = Ok out' /\ length out' = length output /\
    forall x, enc 64 x < length output -> nth (enc 64 x) out' (n0 N) = act N (map (word_qubit n) (op_indices op)) (op_mat N op) (wide N input) x.
Proof.
  intros P N L n op input output W Sm Hk Hn Hq Ho.
  assert (R : in_range 64 (op_indices (on_qubits (word_qubit n) op))) by (rewrite on_qubits_indices; apply word_qubit_range).
  rewrite (proj2 (C109_release P N n op input output 0 0 W Sm Hk Hn Hq Ho)). rewrite (apply_op_overwrite_ok N L 64 _ input output 0 0 (on_qubits_wf _ op W) R Ho).
  eexists. split; [reflexivity|]. split; [rewrite map_length, seq_length; reflexivity|]. intros x Hx. rewrite nth_map_seq by exact Hx. cbn [Nat.add].
  unfold row_value, act. rewrite on_qubits_mat. rewrite <- on_qubits_indices. set (qs := op_indices (on_qubits (word_qubit n) op)) in *.
  assert (E : map (dec 64 (enc 64 x)) qs = map x qs).
  { apply map_ext_in. intros q Hin. rewrite dec_enc. rewrite (proj2 (Nat.ltb_lt q 64) (R q Hin)). reflexivity. }
  rewrite E. apply big_ext. intros c Hc. f_equal. unfold amp_off, wide.
  change (enc 64 (updl (dec 64 (enc 64 x)) qs c) <? 0) with false. cbn iota. rewrite Nat.sub_0_r.
  f_equal. apply enc_ext. apply updl_ext_n. intros q Hin. rewrite dec_enc. rewrite (proj2 (Nat.ltb_lt q 64) Hin). reflexivity.
Qed.
Print Assumptions C109_release_matrix.

(** So an operator on one qubit outside multiplies every amplitude by its first entry. *)
Lemma wide_outside {P} (N : num P) n v x q : n <= 64 -> q < 64 - n -> length v = 2 ^ n -> x q = true -> wide N v x = n0 N.
Proof.
  intros Hn Hq Hl Hx. unfold wide. apply nth_overflow. rewrite Hl. destruct (Nat.le_gt_cases (2 ^ n) (enc 64 x)) as [H|H]; [exact H|exfalso].
  assert (T : Nat.testbit (enc 64 x) (64 - 1 - q) = true).
  { rewrite testbit_enc. rewrite (proj2 (Nat.ltb_lt (64 - 1 - q) 64)) by lia. replace (64 - 1 - (64 - 1 - q)) with q by lia. rewrite Hx. reflexivity. }
  rewrite <- (Nat.mod_small _ _ H) in T. rewrite Nat.mod_pow2_bits_high in T by lia. discriminate.
Qed.
Lemma dec_outside n i q : q < 64 - n -> i < 2 ^ n -> dec 64 i q = false.
Proof.
  intros Hq Hi. unfold dec. rewrite <- (Nat.mod_small _ _ Hi). rewrite Nat.mod_pow2_bits_high by lia. apply Bool.andb_false_r.
Qed.
Theorem C109_one_outside : forall P (N : num P), num_laws N -> forall n q a b c d input output, n <= q < 64 -> length input = 2 ^ n -> length output = 2 ^ n ->
  wapply_op_overwrite Release N n (Matrix [q] [a; b; c; d]) input output 0 0 = Ok (map (nmul N a) input).
Proof.
  intros P N L n q a b c d input output Hq Hi Ho. set (op := Matrix [q] [a; b; c; d]).
  assert (Hp : 2 ^ n <= 2 ^ 64) by (apply Nat.pow_le_mono_r; lia).
  assert (Sm : small_op op). { cbn [small_op op length]. apply (Nat.lt_le_trans _ (2 ^ 3)); [cbn; lia|apply Nat.pow_le_mono_r; lia]. }
  assert (W : wf_op op) by (cbn [wf_op op length Nat.mul Nat.add]; reflexivity).
  destruct (C109_release_matrix P N L n op input output W Sm) as (out' & E & Lo & H).
  { cbn. lia. } { lia. } { intros x [<-|[]]. lia. } { rewrite Ho. exact Hp. }
  rewrite E. f_equal. apply (nth_ext _ _ (n0 N) (n0 N)); [rewrite map_length; congruence|]. intros i Hlt. rewrite Lo, Ho in Hlt.
  assert (Hi64 : i < 2 ^ 64) by lia. specialize (H (dec 64 i)). rewrite enc_dec in H by exact Hi64. rewrite H by (rewrite Ho; exact Hlt).
  destruct (C109_places n q ltac:(lia)) as (_ & V & _). destruct (V Hq) as [Wq Wl]. clear V.
  unfold act. cbn [op_indices op map length bools app big op_mat]. rewrite (dec_outside n i _ Wl Hlt).
  rewrite (wide_outside N n input (updl (dec 64 i) [word_qubit n q] [true]) (word_qubit n q)); [|lia|exact Wl|exact Hi|cbn [updl]; unfold upd; rewrite Nat.eqb_refl; reflexivity].
  assert (U : updl (dec 64 i) [word_qubit n q] [false] = dec 64 i).
  { rewrite <- (dec_outside n i _ Wl Hlt). apply (updl_self (dec 64 i) [word_qubit n q]). }
  rewrite U. unfold wide. rewrite enc_dec by exact Hi64. cbn [be fold_left Nat.mul Nat.add Nat.b2n nth].
  rewrite (l_mul_0r L). rewrite (l_add_comm L _ (nadd N (n0 N) (n0 N))). rewrite !(l_add_0 L).
  rewrite (nth_indep (map (nmul N a) input) _ (nmul N a (n0 N))) by (rewrite map_length, Hi; exact Hlt). rewrite map_nth. reflexivity.
Qed.
Print Assumptions C109_one_outside.

(** And a control outside never lets the operator through. *)
Theorem C109_control_outside : forall P (N : num P), num_laws N -> forall n nc ind op input output q, wf_op (Control nc ind op) -> small_op op -> length ind <= 63 ->
  (forall q, In q ind -> (N.of_nat q < 2 ^ 64)%N) -> In q (firstn nc ind) -> n <= q < 64 -> length input = 2 ^ n -> length output = 2 ^ n ->
  wapply_op_overwrite Release N n (Control nc ind op) input output 0 0 = Ok input.
Proof.
  intros P N L n nc ind op input output q W Sm Hk Hw Hin Hq Hi Ho.
  assert (Hp : 2 ^ n <= 2 ^ 64) by (apply Nat.pow_le_mono_r; lia).
  destruct (C109_release_matrix P N L n (Control nc ind op) input output W Sm Hk) as (out' & E & Lo & H).
  { lia. } { exact Hw. } { rewrite Ho. exact Hp. }
  rewrite E. f_equal. apply (nth_ext _ _ (n0 N) (n0 N)); [congruence|]. intros i Hlt. rewrite Lo, Ho in Hlt.
  assert (Hi64 : i < 2 ^ 64) by lia. specialize (H (dec 64 i)). rewrite enc_dec in H by exact Hi64. rewrite H by (rewrite Ho; exact Hlt).
  destruct (C109_places n q ltac:(lia)) as (_ & V & _). destruct (V Hq) as [Wq Wl]. clear V.
  unfold act. cbn [op_indices op_mat]. set (x := dec 64 i). set (qs := map (word_qubit n) ind).
  assert (F : forallb (fun b => b) (firstn nc (map x qs)) = false).
  { apply Bool.not_true_is_false. intros T. rewrite forallb_forall in T. 
    assert (M : In (x (word_qubit n q)) (firstn nc (map x qs))) by (unfold qs; rewrite map_map, firstn_map; apply (in_map (fun q => x (word_qubit n q))); exact Hin).
    assert (T' := T _ M). cbn beta in T'. unfold x in T'. rewrite (dec_outside n i _ Wl Hlt) in T'. discriminate. }
  rewrite F. replace (length ind) with (length (map x qs)) by (unfold qs; rewrite !map_length; reflexivity). rewrite (big_single N L _ _ (map x qs)).
  - unfold delta, lb_eq. destruct (list_eq_dec _ _ _) as [_|C]; [|congruence]. rewrite (l_mul_1 L), updl_self. unfold wide, x. rewrite enc_dec by exact Hi64. reflexivity.
  - apply NoDup_bools.
  - apply In_bools. rewrite map_length. reflexivity.
  - intros c _ Hc. unfold delta, lb_eq. destruct (list_eq_dec _ _ _) as [C|_]; [congruence|]. apply (l_mul_0 L).
Qed.
Print Assumptions C109_control_outside.

(** The number of bits [flip_bits] is asked to reverse, when it is not from 1 to 64. *)
Theorem C109_flip : forall n i, (n = 0 \/ 64 < n -> wflip_bits Debug n i = Panic PUnderflow) /\
  ((N.of_nat n < 2 ^ 64)%N -> wflip_bits Release n i = flip_bits (S ((n + 63) mod 64)) i).
Proof.
  intros n i. split.
  - intros H. unfold wflip_bits, wsub. destruct (n <=? 64) eqn:E; [|reflexivity]. apply Nat.leb_le in E. destruct H as [->|H]; [reflexivity|lia].
  - intros Hn. destruct (wsub_release 64 n ltac:(reflexivity) Hn) as (k & E & _ & M).
    assert (U : (n + 63) mod 64 < 64) by (apply Nat.mod_upper_bound; lia).
    assert (V : k mod 64 = 64 - S ((n + 63) mod 64)).
    { apply Nat2Z.inj. rewrite Nat2Z.inj_sub by lia. rewrite (Nat2Z.inj_succ ((n + 63) mod 64)), !Nat2Z.inj_mod, Nat2Z.inj_add. change (Z.of_nat 64) with 64%Z. change (Z.of_nat 63) with 63%Z. rewrite M. change (Z.of_nat 64) with 64%Z.
      clear. Z.div_mod_to_equations. lia. }
    rewrite <- (wflip_bits_ok Release) by lia. unfold wflip_bits. rewrite E. cbn [bind]. rewrite (wsub_ok Release 64) by lia. cbn [bind].
    unfold wshr. rewrite !amount_release. rewrite V, (Nat.mod_small (64 - _)) by lia. reflexivity.
Qed.
Print Assumptions C109_flip.

(** Two qubits, an operator on the third: a hadamard scales, a not loses the state, a controlled not does nothing. *)
Definition two : list C := [RtoC 1; RtoC 2; RtoC 3; RtoC 4].
Example C109_example : forall a b c d,
  wapply_op_overwrite Debug CN 2 (Matrix [2] [a; b; c; d]) two two 0 0 = Panic PUnderflow /\
  wapply_op_overwrite Release CN 2 (Matrix [2] [a; b; c; d]) two two 0 0 = Ok (map (Cmult a) two) /\
  wapply_op_overwrite Release CN 2 (Control 1 [2; 0] (Matrix [0] [a; b; c; d])) two two 0 0 = Ok two.
Proof.
  intros a b c d.
  assert (Sm : small_op (Matrix [0] [a; b; c; d])). { cbn [small_op length]. apply (Nat.lt_le_trans _ (2 ^ 3)); [cbn; lia|apply Nat.pow_le_mono_r; lia]. }
  split; [|split].
  - apply (C109_debug C CN 2 (Matrix [2] [a; b; c; d]) two two 0 0 2); [reflexivity|cbn; lia|discriminate|left; reflexivity|lia].
  - apply (C109_one_outside C CN CN_laws); [lia|reflexivity|reflexivity].
  - apply (C109_control_outside C CN CN_laws 2 1 [2; 0] _ two two 2); [split; reflexivity|exact Sm|cbn; lia| |left; reflexivity|lia|reflexivity|reflexivity].
    intros q [<-|[<-|[]]]; reflexivity.
Qed.
