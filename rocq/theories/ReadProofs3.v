(** Reading exp_mod. *)
From Coq Require Import Arith Bool List Lia.
Import ListNotations.
From Verif Require Import Base ProgramModel ArithModel TextModel ReadSpec ReadProofs ReadProofs2.

Definition sem (fuel : nat) : fname -> list (list bool) -> option (list (list bool)) :=
  fun f vs => match f, vs with Nexp, [a; b; m; p; e] => exp_read fuel a b m p e | _, _ => doc f vs end.
Lemma exp_read_S fuel a b m p e : exp_read (S fuel) a b m p e =
  let n := length m in let k := length b in
  if negb ((length a =? n + 1) && (length p =? n + 1) && (length e =? n + 1)) then None
  else if k =? 1 then text_read (sem fuel) [a; b; m; p; e] exp_one_text
  else match text_read (sem fuel) [a; b; m; p; e; repeat false (n + 1); repeat false (n + 1)] (exp_text k) with
       | Some [a; b; m; p; e; u; v] => if zero u && zero v then Some [a; b; m; p; e] else None
       | _ => None
       end.
Proof. reflexivity. Qed.
(** The lines of more than one exponent qubit, given the call on the others. *)
Lemma exp_step fuel n k a b m p e e' : let r := (a * a) mod m in
  let v := if Nat.testbit b 0 then 0 else p in let w := if Nat.testbit b 0 then (e + p * a) mod m else e in
  a < m -> p < m -> e < m -> m < 2 ^ n -> (if Nat.testbit b 0 then exists q, q < m /\ e' = (q + p * a) mod m else e' < m) ->
  exp_read fuel (bits (S n) r) (bits (S k) (Nat.div2 b)) (bits n m) (bits (S n) v) (bits (S n) w)
    = Some [bits (S n) r; bits (S k) (Nat.div2 b); bits n m; bits (S n) v; bits (S n) e'] ->
  forall q, (if Nat.testbit b 0 then q < m /\ e' = (q + p * a) mod m else q = e') ->
  exp_read (S fuel) (bits (S n) a) (bits (S (S k)) b) (bits n m) (bits (S n) p) (bits (S n) e)
    = Some [bits (S n) a; bits (S (S k)) b; bits n m; bits (S n) p; bits (S n) q].
Proof.
  intros r v w Ha Hp He Hm He' IH q Hq. assert (P : 2 ^ S n = 2 * 2 ^ n) by apply Nat.pow_succ_r'.
  assert (R : r < m) by (apply Nat.mod_upper_bound; lia). assert (Z : (0 + a * a) mod m = r) by reflexivity.
  rewrite exp_read_S. cbv zeta. rewrite !bits_length, <- !bits_zero, Nat.add_1_r, Nat.eqb_refl.
  replace (S (S k) =? 1) with false by reflexivity. cbn [negb andb].
  assert (T : forall y, exp_read fuel (bits (S n) r) (map (fun i => nth i (bits (S (S k)) b) false) (seq 1 (S k))) (bits n m) (bits (S n) v) (bits (S n) w) = Some y ->
     y = [bits (S n) r; map (fun i => nth i (bits (S (S k)) b) false) (seq 1 (S k)); bits n m; bits (S n) v; bits (S n) e']).
  { intros y. rewrite bits_tail, IH. congruence. }
  assert (T' : exp_read fuel (bits (S n) r) (map (fun i => nth i (bits (S (S k)) b) false) (seq 1 (S k))) (bits n m) (bits (S n) v) (bits (S n) w)
     = Some [bits (S n) r; map (fun i => nth i (bits (S (S k)) b) false) (seq 1 (S k)); bits n m; bits (S n) v; bits (S n) e']).
  { rewrite bits_tail. exact IH. }
  clear T IH. unfold exp_text. replace (S (S k) - 1) with (S k) by lia. unfold v, w in *. clear v w.
  destruct (Nat.testbit b 0) eqn:B.
  - destruct Hq as [Hq E]. subst e'.
    skips as (rewrite nth_bits by lia; now rewrite B).
    does (doc_times n (S n) a p m e) as (rewrite nth_bits by lia; exact B).
    does (doc_square n a m 0). rewrite Z.
    erewrite text_cons; [|apply line_plain; seen; exact T']. put.
    rewrite <- Z. does (doc_square_inv n a m 0).
    does (doc_times_inv n (S n) a p m q) as (rewrite nth_bits by lia; exact B).
    skips as (rewrite nth_bits by lia; now rewrite B).
    cbn [text_read]. rewrite !zero_bits. reflexivity.
  - subst q.
    does (doc_copy (S n) p) as (rewrite nth_bits by lia; now rewrite B).
    skips as (rewrite nth_bits by lia; exact B).
    does (doc_square n a m 0). rewrite Z.
    erewrite text_cons; [|apply line_plain; seen; exact T']. put.
    rewrite <- Z. does (doc_square_inv n a m 0).
    skips as (rewrite nth_bits by lia; exact B).
    does (doc_copy_inv (S n) p) as (rewrite nth_bits by lia; now rewrite B).
    cbn [text_read]. rewrite !zero_bits. reflexivity.
Qed.
Lemma exp_base fuel n a b m p e : a < m -> p < m -> e < m -> m < 2 ^ n -> (Nat.testbit b 0 = false -> e = 0 \/ p = 0) ->
  exp_read (S fuel) (bits (S n) a) (bits 1 b) (bits n m) (bits (S n) p) (bits (S n) e)
    = Some [bits (S n) a; bits 1 b; bits n m; bits (S n) p; bits (S n) (if Nat.testbit b 0 then (e + p * a) mod m else e + p)].
Proof.
  intros Ha Hp He Hm H. assert (P : 2 ^ S n = 2 * 2 ^ n) by apply Nat.pow_succ_r'.
  rewrite exp_read_S. cbv zeta. rewrite !bits_length, Nat.add_1_r, Nat.eqb_refl. cbn [negb andb Nat.eqb]. unfold exp_one_text.
  destruct (Nat.testbit b 0) eqn:B.
  - skips as (rewrite nth_bits by lia; now rewrite B).
    does (doc_times n (S n) a p m e) as (rewrite nth_bits by lia; exact B). reflexivity.
  - destruct (H eq_refl) as [-> | ->].
    + does (doc_copy (S n) p) as (rewrite nth_bits by lia; now rewrite B).
      skips as (rewrite nth_bits by lia; exact B). reflexivity.
    + does (doc_copy_zero (S n) e) as (rewrite nth_bits by lia; now rewrite B).
      skips as (rewrite nth_bits by lia; exact B). rewrite Nat.add_0_r. reflexivity.
Qed.
Lemma low_even b k : Nat.testbit b 0 = false -> b mod 2 ^ S k = 2 * (Nat.div2 b mod 2 ^ k).
Proof.
  intros B. rewrite Nat.bit0_odd in B. rewrite (Nat.div2_odd b) at 1. rewrite B. cbn [Nat.b2n]. rewrite Nat.add_0_r, Nat.pow_succ_r'.
  apply Nat.mul_mod_distr_l; [apply Nat.pow_nonzero; lia|lia].
Qed.
Theorem read_exp_keep n m : m < 2 ^ n -> forall k fuel a b p e, k < fuel -> a < m -> p < m -> e < m -> p = 0 \/ b mod 2 ^ k <> 0 ->
  exp_read fuel (bits (S n) a) (bits (S k) b) (bits n m) (bits (S n) p) (bits (S n) e)
    = Some [bits (S n) a; bits (S k) b; bits n m; bits (S n) p; bits (S n) e].
Proof.
  intros Hm. induction k as [|k IH]; intros fuel a b p e Hf Ha Hp He H; destruct fuel as [|fuel]; try lia.
  - destruct H as [-> | H]; [|rewrite Nat.pow_0_r, Nat.mod_1_r in H; lia]. rewrite exp_base; try assumption; [|tauto].
    destruct (Nat.testbit b 0); [rewrite Nat.mul_0_l, Nat.add_0_r, Nat.mod_small by exact He|rewrite Nat.add_0_r]; reflexivity.
  - assert (W : (e + p * a) mod m < m) by (apply Nat.mod_upper_bound; lia).
    assert (R : (a * a) mod m < m) by (apply Nat.mod_upper_bound; lia).
    apply exp_step with (e' := if Nat.testbit b 0 then (e + p * a) mod m else e); try assumption; destruct (Nat.testbit b 0) eqn:B; try assumption; try (exists e); try (split; [assumption|reflexivity]).
    + apply IH; try assumption; try lia.
    + apply IH; try assumption; try lia. destruct H as [H|H]; [now left|right]. rewrite low_even in H by exact B. lia.
    + reflexivity.
Qed.
Lemma pow_mod a m j : 0 < m -> forall p, (p * ((a * a) mod m) ^ j) mod m = (p * a ^ (2 * j)) mod m.
Proof.
  intros H. induction j as [|j IH]; intros p; [reflexivity|].
  replace (2 * S j) with (S (S (2 * j))) by lia. rewrite !Nat.pow_succ_r'.
  replace (p * ((a * a) mod m * ((a * a) mod m) ^ j)) with ((p * ((a * a) mod m)) * ((a * a) mod m) ^ j) by lia. rewrite IH.
  replace (p * (a * (a * a ^ (2 * j)))) with (p * (a * a) * a ^ (2 * j)) by lia.
  rewrite <- Nat.mul_mod_idemp_l, Nat.mul_mod_idemp_r, Nat.mul_mod_idemp_l by lia. reflexivity.
Qed.
Theorem read_exp_power n m : m < 2 ^ n -> forall k fuel a b p, k < fuel -> a < m -> p < m -> b < 2 ^ S k -> b mod 2 ^ k = 0 ->
  exp_read fuel (bits (S n) a) (bits (S k) b) (bits n m) (bits (S n) p) (bits (S n) 0)
    = Some [bits (S n) a; bits (S k) b; bits n m; bits (S n) p; bits (S n) ((p * a ^ b) mod m)].
Proof.
  intros Hm. induction k as [|k IH]; intros fuel a b p Hf Ha Hp Hb H; destruct fuel as [|fuel]; try lia.
  - rewrite exp_base; try assumption; try lia. change (2 ^ 1) with 2 in Hb.
    destruct b as [|[|b]]; [| |lia]; cbn [Nat.testbit Nat.odd Nat.even negb]; rewrite ?Nat.pow_0_r, ?Nat.pow_1_r, ?Nat.mul_1_r, ?Nat.add_0_l; [now rewrite Nat.mod_small by exact Hp|reflexivity].
  - assert (R : (a * a) mod m < m) by (apply Nat.mod_upper_bound; lia).
    assert (Q : (p * a ^ b) mod m < m) by (apply Nat.mod_upper_bound; lia).
    assert (B : Nat.testbit b 0 = false).
    { rewrite Nat.bit0_odd. destruct (Nat.odd b) eqn:O; [|reflexivity]. exfalso. apply Nat.odd_spec in O. destruct O as [c O].
      apply Nat.mod_divides in H; [|apply Nat.pow_nonzero; lia]. destruct H as [c' H]. rewrite Nat.pow_succ_r' in H. lia. }
    assert (E : b = 2 * Nat.div2 b).
    { rewrite Nat.bit0_odd in B. rewrite (Nat.div2_odd b) at 1. rewrite B. cbn [Nat.b2n]. lia. }
    apply exp_step with (e' := (p * a ^ b) mod m); rewrite ?B; try assumption; try lia; try reflexivity.
    rewrite IH; try assumption; try lia.
    + rewrite pow_mod by lia. rewrite <- E. reflexivity.
    + rewrite Nat.pow_succ_r' in Hb. lia.
    + rewrite low_even in H by exact B. lia.
Qed.
