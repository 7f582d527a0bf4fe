(** Results, panics and list helpers shared by the whole model. *)
From Coq Require Export List Arith Lia Bool PeanoNat.
Export ListNotations.
Set Implicit Arguments.
#[global] Arguments Nat.ltb : simpl never.

(** Reasons for a Rust panic (debug build). [PFuel] is not a Rust panic: it marks
    exhausted recursion fuel in the model; theorems concluding [Ok] exclude it. *)
Inductive panic :=
| PIndex        (* slice / vec index out of bounds *)
| PUnwrap       (* Option::unwrap on None, Result::unwrap on Err *)
| PUnderflow    (* usize subtraction underflow, shift overflow *)
| PUnreachable  (* unreachable!() *)
| PTodo         (* todo!() *)
| PAssert       (* assert / debug_assert *)
| PDivZero      (* division by zero *)
| PFuel.

(** qip/src/errors.rs:3-37: [CircuitError] carries a message; we keep only the
    place it comes from, as a number (messages are never inspected by the code). *)
Inductive cerr :=
| ENoIndex | EMatSize | ESparseRows | ESparseEmptyRow | ESwapEmpty | ESwapLen | EControlEmpty
| EObjSize | EMeasureInvert | EMeasureCond | EZeroRatio | ESizes | EOther (k : nat).

Inductive res (A : Type) :=
| Ok (a : A)
| Err (e : cerr)
| Panic (p : panic).
Arguments Ok {A} a.
Arguments Err {A} e.
Arguments Panic {A} p.

Definition bind {A B} (m : res A) (f : A -> res B) : res B :=
  match m with Ok a => f a | Err e => Err e | Panic p => Panic p end.

Declare Scope res_scope.
Delimit Scope res_scope with res.
Notation "x <- m ;; k" := (bind m (fun x => k))
  (at level 61, m at next level, right associativity) : res_scope.
Notation "' pat <- m ;; k" := (bind m (fun x => match x with pat => k end))
  (at level 61, pat pattern, m at next level, right associativity) : res_scope.
Local Open Scope res_scope.

(** [usize] subtraction in a debug build: underflow panics. *)
Definition chk_sub (a b : nat) : res nat :=
  if b <=? a then Ok (a - b) else Panic PUnderflow.

(** Indexing a slice. *)
Definition idx {A} (l : list A) (i : nat) : res A :=
  match nth_error l i with Some a => Ok a | None => Panic PIndex end.

(** [l[lo..hi]] *)
Definition slice {A} (l : list A) (lo hi : nat) : res (list A) :=
  if (lo <=? hi) && (hi <=? length l) then Ok (firstn (hi - lo) (skipn lo l))
  else Panic PIndex.

Fixpoint foldM {A B} (f : A -> B -> res A) (l : list B) (a : A) : res A :=
  match l with
  | [] => Ok a
  | b :: l' => a' <- f a b ;; foldM f l' a'
  end.

Fixpoint mapM {A B} (f : A -> res B) (l : list A) : res (list B) :=
  match l with
  | [] => Ok []
  | a :: l' => b <- f a ;; bs <- mapM f l' ;; Ok (b :: bs)
  end.

(** [iter().enumerate()] *)
Definition enumerate {A} (l : list A) : list (nat * A) :=
  combine (seq 0 (length l)) l.

(** Replace position [i] of a list; no change when out of range. *)
Fixpoint upd_nth {A} (i : nat) (a : A) (l : list A) : list A :=
  match l, i with
  | [], _ => []
  | _ :: l', 0 => a :: l'
  | x :: l', S i' => x :: upd_nth i' a l'
  end.

(** ** Lemmas *)

Lemma bind_ok {A B} (m : res A) (f : A -> res B) b :
  bind m f = Ok b -> exists a, m = Ok a /\ f a = Ok b.
Proof. destruct m; cbn; intros H; try discriminate. eauto. Qed.

Lemma chk_sub_ok a b : b <= a -> chk_sub a b = Ok (a - b).
Proof. intros H. unfold chk_sub. destruct (Nat.leb_spec b a); [reflexivity|lia]. Qed.

Lemma idx_ok {A} (l : list A) i d : i < length l -> idx l i = Ok (nth i l d).
Proof. intros H. unfold idx. rewrite (nth_error_nth' l d H). reflexivity. Qed.

Lemma mapM_ok {A B} (f : A -> res B) (g : A -> B) l :
  (forall a, In a l -> f a = Ok (g a)) -> mapM f l = Ok (map g l).
Proof.
  induction l as [|a l IH]; cbn; intros H; [reflexivity|].
  rewrite (H a) by auto. cbn. rewrite IH by auto. reflexivity.
Qed.

Lemma mapM_ext {A B} (f g : A -> res B) l :
  (forall a, In a l -> f a = g a) -> mapM f l = mapM g l.
Proof.
  induction l as [|a l IH]; cbn; intros H; [reflexivity|].
  rewrite (H a) by auto. rewrite IH by auto. reflexivity.
Qed.

Lemma foldM_ok {A B} (f : A -> B -> res A) (g : A -> B -> A) l a :
  (forall a b, In b l -> f a b = Ok (g a b)) -> foldM f l a = Ok (fold_left g l a).
Proof.
  revert a. induction l as [|b l IH]; cbn; intros a H; [reflexivity|].
  rewrite H by auto. cbn. apply IH. auto.
Qed.

Lemma foldM_app {A B} (f : A -> B -> res A) l1 l2 a :
  foldM f (l1 ++ l2) a = (a' <- foldM f l1 a ;; foldM f l2 a').
Proof.
  revert a. induction l1 as [|b l IH]; cbn; intros a; [reflexivity|].
  destruct (f a b); cbn; auto.
Qed.

Lemma length_enumerate {A} (l : list A) : length (enumerate l) = length l.
Proof. unfold enumerate. rewrite combine_length, seq_length. lia. Qed.

Lemma In_enumerate {A} (l : list A) i a :
  In (i, a) (enumerate l) <-> nth_error l i = Some a.
Proof.
  unfold enumerate.
  assert (G : forall s, In (i, a) (combine (seq s (length l)) l) <->
                        s <= i /\ nth_error l (i - s) = Some a).
  { induction l as [|x l IH]; intros s; cbn.
    - split; [tauto|]. intros [_ H]. destruct (i - s); discriminate.
    - rewrite IH. split.
      + intros [H|[H1 H2]].
        * inversion H; subst. split; [lia|]. rewrite Nat.sub_diag. reflexivity.
        * split; [lia|]. replace (i - s) with (S (i - S s)) by lia. exact H2.
      + intros [H1 H2]. destruct (Nat.eq_dec i s) as [->|N].
        * rewrite Nat.sub_diag in H2. cbn in H2. inversion H2. auto.
        * right. split; [lia|]. replace (i - s) with (S (i - S s)) in H2 by lia. exact H2. }
  rewrite G, Nat.sub_0_r. intuition lia.
Qed.

Lemma enumerate_app_single {A} (l : list A) x :
  enumerate (l ++ [x]) = enumerate l ++ [(length l, x)].
Proof.
  unfold enumerate. rewrite app_length. cbn [length]. rewrite Nat.add_1_r.
  replace (seq 0 (S (length l))) with (seq 0 (length l) ++ [length l]) by (rewrite seq_S; reflexivity).
  assert (G : forall (a b : list nat) (c d : list A), length a = length c ->
      combine (a ++ b) (c ++ d) = combine a c ++ combine b d).
  { induction a as [|y a IH]; intros b [|z c] d E; cbn in *; try discriminate; [reflexivity|].
    f_equal. apply IH. lia. }
  rewrite G by (rewrite seq_length; reflexivity). reflexivity.
Qed.

Lemma upd_nth_length {A} i (a : A) l : length (upd_nth i a l) = length l.
Proof. revert i. induction l as [|x l IH]; intros [|i]; cbn; auto. Qed.

Lemma nth_upd_nth {A} i j (a d : A) l :
  i < length l -> nth j (upd_nth i a l) d = if j =? i then a else nth j l d.
Proof.
  revert i j. induction l as [|x l IH]; intros [|i] [|j]; cbn; intros H; try lia; auto.
  apply IH. lia.
Qed.

Lemma nth_error_upd_nth {A} i j (a : A) l :
  nth_error (upd_nth i a l) j =
  if (j =? i) && (i <? length l) then Some a else nth_error l j.
Proof.
  revert i j. induction l as [|x l IH]; intros [|i] [|j]; cbn; auto.
  - rewrite andb_false_r. reflexivity.
  - rewrite IH. reflexivity.
Qed.

Lemma list_eq_nth {A} (d : A) l1 l2 :
  length l1 = length l2 -> (forall i, i < length l1 -> nth i l1 d = nth i l2 d) -> l1 = l2.
Proof. intros H1 H2. apply (nth_ext _ _ d d); auto. Qed.

Lemma seq_nth_map {A} (l : list A) d : map (fun i => nth i l d) (seq 0 (length l)) = l.
Proof.
  apply (list_eq_nth d).
  - rewrite map_length, seq_length. reflexivity.
  - intros i H. rewrite map_length, seq_length in H.
    rewrite nth_indep with (d' := nth 0 l d) by (rewrite map_length, seq_length; lia).
    rewrite (map_nth (fun i => nth i l d)). rewrite seq_nth by lia. reflexivity.
Qed.

Lemma nth_map_seq {A} (f : nat -> A) n i d : i < n -> nth i (map f (seq 0 n)) d = f i.
Proof.
  intros H. rewrite nth_indep with (d' := f 0) by (rewrite map_length, seq_length; lia).
  rewrite map_nth, seq_nth by lia. reflexivity.
Qed.

Lemma NoDup_app_iff {A} (l1 l2 : list A) :
  NoDup (l1 ++ l2) <-> NoDup l1 /\ NoDup l2 /\ (forall x, In x l1 -> ~ In x l2).
Proof.
  induction l1 as [|a l1 IH]; cbn.
  - split; [intros H; repeat split; auto; constructor | tauto].
  - rewrite !NoDup_cons_iff, IH, in_app_iff. split.
    + intros (H1 & H2 & H3 & H4). repeat split; auto.
      intros x [->|H]; auto.
    + intros ((H1 & H2) & H3 & H4). repeat split; auto.
      intros [H|H]; [auto|]. apply (H4 a); auto.
Qed.
