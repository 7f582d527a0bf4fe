(** make_circuit_matrix. *)
From Coq Require Import Reals Lra FunctionalExtensionality Permutation.
From Coquelicot Require Import Complex.
From Verif Require Import Base BitsSpec BitsProofs OpsModel OpsSpec OpsProofs ConjSpec Instances BuilderModel RegProofs2 SimModel DenSpec DenProofs SimSpec SimProofs WholeSpec WholeProofs WholeProofs2.
Local Open Scope nat_scope.
Local Open Scope res_scope.

Lemma mapM_each {A B} (f : A -> res B) (Q : A -> B -> Prop) l : (forall a, In a l -> exists b, f a = Ok b /\ Q a b) -> exists bs, mapM f l = Ok bs /\ Forall2 Q l bs.
Proof.
  induction l as [|a l IH]; intros H; [exists []; split; [reflexivity|constructor]|]. destruct (H a (or_introl eq_refl)) as (b & E & Hb). destruct IH as (bs & Es & Hbs); [intros; apply H; right; assumption|].
  exists (b :: bs). cbn [mapM]. rewrite E. cbn [bind]. rewrite Es. cbn. split; [reflexivity|constructor; assumption].
Qed.
Lemma Forall2_seq {B} (Q : nat -> B -> Prop) d k : forall a bs, Forall2 Q (seq a k) bs -> length bs = k /\ forall i, i < k -> Q (a + i) (nth i bs d).
Proof.
  induction k as [|k IH]; intros a bs H; cbn [seq] in H; inversion H as [|? b ? bs' Hb Hbs]; subst; [split; [reflexivity|intros; lia]|].
  destruct (IH _ _ Hbs) as (L & G). split; [cbn; lia|]. intros [|i] Hi; cbn [nth]; [rewrite Nat.add_0_r; exact Hb|]. replace (a + S i) with (S a + i) by lia. apply G. lia.
Qed.
(** The assignment with value [v] in [r]. *)
Fixpoint put_bits (r : list nat) (v : nat) : bs := match r with [] => fun _ => false | q :: r => upd (put_bits r (Nat.div2 v)) q (Nat.odd v) end.
Lemma put_loads r : NoDup r -> forall v, loads [(r, v)] (put_bits r v).
Proof.
  intros N v. split.
  - intros r' v' [E|[]]. inversion E; subst. clear E. revert v'. induction r' as [|q r IH]; intros v j Hj; [cbn in Hj; lia|]. inversion N as [|? ? Nq Nr]; subst. destruct j as [|j]; cbn [nth put_bits].
    + unfold upd. rewrite Nat.eqb_refl. symmetry. apply Nat.bit0_odd.
    + unfold upd. destruct (Nat.eqb_spec (nth j r 0) q) as [E|E]; [exfalso; apply Nq; rewrite <- E; apply nth_In; cbn in Hj; lia|]. rewrite (IH Nr (Nat.div2 v)) by (cbn in Hj; lia). reflexivity.
  - intros q H. specialize (H r v (or_introl eq_refl)). clear N. revert v H. induction r as [|a r IH]; intros v H; cbn [put_bits]; [reflexivity|]. unfold upd. destruct (Nat.eqb_spec q a) as [->|]; [exfalso; apply H; left; reflexivity|]. apply IH. intros X. apply H. right. exact X.
Qed.
Lemma matrix_rows b r draws : NoDup r -> in_range (bn b) r -> Forall (wf_entry (bn b)) (pipeline b) -> Forall plain_entry (pipeline b) ->
  exists M, make_circuit_matrix b r draws = Ok M /\ length M = 2 ^ length r /\
    forall i x, i < 2 ^ length r -> loads [(r, i)] x -> length (nth i M []) = 2 ^ bn b /\ st_of CN (bn b) (nth i M []) = den (pipeline b) (ket (bn b) x).
Proof.
  intros N R W Pl. unfold make_circuit_matrix.
  destruct (mapM_each (fun indx => '(st, _) <- calculate_state_with_init b [(r, indx)] draws ;; Ok st) 
    (fun i v => length v = 2 ^ bn b /\ forall x, loads [(r, i)] x -> st_of CN (bn b) v = den (pipeline b) (ket (bn b) x)) (seq 0 (2 ^ length r))) as (M & E & F).
  - intros i _. assert (R' : forall r0 v, In (r0, v) [(r, i)] -> in_range (bn b) r0) by (intros r0 v [X|[]]; inversion X; subst; exact R).
    destruct (simulate_ok b [(r, i)] (put_bits r i) draws R' (put_loads r N i) W Pl) as (v & E & Lv & V). exists v. rewrite E. cbn [bind]. split; [reflexivity|]. split; [exact Lv|].
    intros x Lx. destruct (simulate_ok b [(r, i)] x draws R' Lx W Pl) as (v' & E' & _ & V'). rewrite E in E'. inversion E'; subst. exact V'.
  - exists M. apply (Forall2_seq _ []) in F. destruct F as (L & F). split; [exact E|]. split; [exact L|]. intros i x Hi Lx. destruct (F i Hi) as (F1 & F2). auto.
Qed.

(** *** Linearity *)
Definition sumof {A} (c : A -> C) (f : A -> state) (l : list A) : state := fun x => big CN (fun a => Cmult (c a) (f a x)) l.
Lemma sumof_map {A} (D : state -> state) (c : A -> C) f l : (forall psi phi, D (fun x => Cplus (psi x) (phi x)) = fun x => Cplus (D psi x) (D phi x)) -> (forall a psi, D (scaled a psi) = scaled a (D psi)) -> 
  D (sumof c f l) = sumof c (fun a => D (f a)) l.
Proof.
  intros Ha Hs. induction l as [|a l IH].
  - unfold sumof. cbn. replace (fun _ : bs => RtoC 0) with (scaled (RtoC 0) (fun _ => RtoC 0)) by (extensionality x; unfold scaled; ring). rewrite Hs. extensionality x. unfold scaled. ring.
  - change (sumof c f (a :: l)) with (fun x => Cplus (scaled (c a) (f a) x) (sumof c f l x)). rewrite Ha, Hs, IH. reflexivity.
Qed.
Lemma act_plus qs M psi phi : act CN qs M (fun x => Cplus (psi x) (phi x)) = fun x => Cplus (act CN qs M psi x) (act CN qs M phi x).
Proof. extensionality x. unfold act. induction (bools (length qs)) as [|b l IH]; cbn [big]; [cbn; ring|]. rewrite IH. cbn. ring. Qed.
Lemma uden_plus u qs psi phi : uden u qs (fun x => Cplus (psi x) (phi x)) = fun x => Cplus (uden u qs psi x) (uden u qs phi x).
Proof.
  assert (O : forall m q, on1 m q (fun x => Cplus (psi x) (phi x)) = fun x => Cplus (on1 m q psi x) (on1 m q phi x)) by (intros; extensionality x; unfold on1; ring).
  destruct u; try (destruct qs as [|q [|q' [|? ?]]]; cbn [uden]; rewrite ?O; reflexivity). cbn [uden]. destruct qs; apply act_plus.
Qed.
Lemma den_sumof {A} p : forall (c : A -> C) f l, den p (sumof c f l) = sumof c (fun a => den p (f a)) l.
Proof.
  induction p as [|[qs co] p IH]; intros c f l; [reflexivity|]. rewrite den_cons. rewrite sumof_map.
  - rewrite IH. unfold sumof. extensionality x. apply big_ext. intros a _. rewrite den_cons. reflexivity.
  - intros psi phi. cbn [fst snd]. unfold oden. destruct (co_obj co); [apply uden_plus|reflexivity].
  - intros a psi. cbn [fst snd]. unfold oden. destruct (co_obj co); [apply uden_scaled|reflexivity].
Qed.
Lemma st_of_sum n v : length v = 2 ^ n -> st_of CN n v = sumof (fun k => nth k v (RtoC 0)) (fun k => ket n (dec n k)) (seq 0 (2 ^ n)).
Proof.
  intros L. extensionality x. unfold st_of, sumof. rewrite (big_single CN CN_laws _ _ (enc n x)).
  - unfold ket. rewrite enc_dec by apply enc_lt. rewrite Nat.eqb_refl. cbn. ring.
  - apply seq_NoDup.
  - apply in_seq. pose proof (enc_lt n x). lia.
  - intros k Hk Hne. apply in_seq in Hk. unfold ket. rewrite enc_dec by lia. destruct (Nat.eqb_spec k (enc n x)); [congruence|]. cbn. ring.
Qed.
