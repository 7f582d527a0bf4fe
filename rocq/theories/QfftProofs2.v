(** Amplitudes of qfft.rs. *)
From Coq Require Import Reals Lra FunctionalExtensionality Permutation ZArith.
From Coquelicot Require Import Complex.
From Verif Require Import Base BitsSpec BitsProofs OpsModel OpsSpec Instances BuilderModel RegProofs DenSpec DenProofs LocalProofs LinkProofs
  SimProofs RunSpec RunProofs GateProofs ToffoliProofs SwapProofs RotProofs CondProofs SubProofs2 ProgramModel ProgramSpec ProgramProofs ProgramProofs2 ArithSpec ArithProofs3 QfftModel QfftSpec QfftProofs.
Local Open Scope nat_scope.
Local Open Scope mon_scope.

(** *** One matrix on each of distinct qubits, from a basis state *)
Definition cprod (l : list C) : C := fold_right Cmult (RtoC 1) l.
Definition as_in (l : list nat) (x y : bs) : bs := fun q => if in_dec Nat.eq_dec q l then x q else y q.
Lemma chain_amp (ms : nat -> mat1) (qf : nat -> nat) (x y : bs) : forall is psi, NoDup (map qf is) -> settled (map qf is) x psi ->
  fold_left (fun psi i => each (ms i) [qf i] psi) is psi y = Cmult (cprod (map (fun i => ms i (y (qf i)) (x (qf i))) is)) (psi (as_in (map qf is) x y)).
Proof.
  induction is as [|i is IH]; intros psi N Se; cbn [fold_left map cprod fold_right].
  - rewrite Cmult_1_l. f_equal.
  - cbn [map] in N, Se. apply NoDup_cons_iff in N. destruct N as (Ni & N). rewrite IH; [|exact N|].
    + fold (cprod (map (fun i => ms i (y (qf i)) (x (qf i))) is)). set (P := cprod _). set (z := as_in (map qf is) x y).
      assert (Ez : z (qf i) = y (qf i)) by (unfold z, as_in; destruct (in_dec _ _ _); [contradiction|reflexivity]).
      assert (Eu : as_in (qf i :: map qf is) x y = upd z (qf i) (x (qf i))).
      { extensionality p. unfold upd, z, as_in. destruct (Nat.eqb_spec p (qf i)) as [->|e].
        - destruct (in_dec _ _ _) as [_|X]; [reflexivity|]. exfalso. apply X. left. reflexivity.
        - destruct (in_dec Nat.eq_dec p (qf i :: map qf is)) as [[X|X]|X], (in_dec Nat.eq_dec p (map qf is)) as [Y|Y]; try reflexivity; try congruence; exfalso; try (apply X; right; exact Y); contradiction. }
      cbn [map]. rewrite Eu. unfold each, on1. cbn [fold_left]. rewrite Ez.
      assert (O : psi (upd z (qf i) (negb (x (qf i)))) = RtoC 0) by (apply Se; exists (qf i); split; [left; reflexivity|rewrite upd_same; destruct (x (qf i)); discriminate]).
      destruct (x (qf i)); cbn [negb] in O; rewrite O; ring.
    + intros z (p & Hp & Hz). unfold each, on1. cbn [fold_left].
      assert (O : forall b, psi (upd z (qf i) b) = RtoC 0) by (intros b; apply Se; exists p; split; [right; exact Hp|]; rewrite upd_other by (intros ->; contradiction); exact Hz).
      rewrite !O. ring.
Qed.

Lemma mH_Rz t a b : mmul mH (mRz t) a b = Cmult (RtoC ((if a && b then -1 else 1) * / sqrt 2)) (expi ((if b then 1 else -1) * (t / 2))).
Proof.
  unfold mmul, mH, mRz, diag. replace ((if b then 1 else -1) * (t / 2))%R with (if b then t / 2 else - (t / 2))%R by (destruct b; field).
  replace ((if a && b then -1 else 1) * / sqrt 2)%R with (if a && b then - / sqrt 2 else / sqrt 2)%R by (destruct (a && b); ring).
  destruct a, b; cbn [eqb andb]; ring.
Qed.
Lemma prod_amp (f g : nat -> bool) (t : nat -> R) : forall is,
  cprod (map (fun i => mmul mH (mRz (t i)) (g i) (f i)) is) =
  Cmult (RtoC ((if fold_right xorb false (map (fun i => f i && g i) is) then -1 else 1) * (/ sqrt 2) ^ length is))
    (expi (fold_right Rplus 0%R (map (fun i => ((if f i then 1 else -1) * (t i / 2))%R) is))).
Proof.
  induction is as [|i is IH]; cbn [map cprod fold_right length pow].
  - rewrite expi_0. rewrite <- RtoC_mult. f_equal. ring.
  - fold (cprod (map (fun i => mmul mH (mRz (t i)) (g i) (f i)) is)). rewrite IH, mH_Rz, <- expi_add. rewrite (andb_comm (g i)).
    set (E := expi (fold_right _ _ _)). set (F := expi ((if f i then 1 else -1) * (t i / 2))). set (s := fold_right xorb false _).
    set (h := (/ sqrt 2)%R). set (w := (h ^ length is)%R).
    transitivity (Cmult (RtoC (((if f i && g i then -1 else 1) * h) * ((if s then -1 else 1) * w))) (Cmult F E)); [rewrite !RtoC_mult; ring|].
    f_equal. f_equal. destruct (f i && g i), s; cbn [xorb]; ring.
Qed.

Section Amp.
Context (r : list nat) (N : NoDup r).
Notation n := (length r).
Notation q i := (nth i r 0).
Lemma nths : map (fun i => q i) (seq 0 n) = r.
Proof.
  apply (nth_ext _ _ 0 0); [rewrite map_length, seq_length; reflexivity|]. intros i Hi. rewrite map_length, seq_length in Hi.
  rewrite (nth_indep _ 0 (q 0)) by (rewrite map_length, seq_length; exact Hi). rewrite (map_nth (fun i => q i)), seq_nth by exact Hi. reflexivity.
Qed.
Lemma chain_is x y psi : only_in r x y -> settled r x psi -> qfft_chain r psi (mirror r y) = Cmult (qfft_amp r x y) (psi x).
Proof.
  intros O Se. unfold qfft_chain. rewrite (chain_amp (qfft_mat r) (fun i => q i) x (mirror r y)) by (rewrite nths; assumption).
  rewrite nths. f_equal.
  - unfold qfft_mat, qfft_amp, qfft_sign, qfft_phase. rewrite (prod_amp (fun i => x (q i)) (fun i => mirror r y (q i)) (fun i => qfft_turn n i)), seq_length.
    assert (E : map (fun i => x (q i) && mirror r y (q i)) (seq 0 n) = map (fun i => x (q i) && y (q (n - 1 - i))) (seq 0 n)); [|rewrite E; reflexivity].
    apply map_ext_in. intros i Hi. apply in_seq in Hi. f_equal. apply rev_at; [exact N|lia].
  - f_equal. extensionality p. unfold as_in. destruct (in_dec Nat.eq_dec p r) as [I|I]; [reflexivity|]. rewrite (rev_off r y p I). apply O. exact I.
Qed.
(** ... and nothing elsewhere. *)
Lemma chain_off x y psi : settled r x psi -> (forall z, psi z <> RtoC 0 -> ~ only_in r z y) -> qfft_chain r psi (mirror r y) = RtoC 0.
Proof.
  intros Se H. unfold qfft_chain. rewrite (chain_amp (qfft_mat r) (fun i => q i) x (mirror r y)) by (rewrite nths; assumption). rewrite nths.
  destruct (Ceq_dec (psi (as_in r x (mirror r y))) (RtoC 0)) as [E|E]; [rewrite E; ring|]. exfalso. apply (H _ E). intros p Hp. unfold as_in. destruct (in_dec Nat.eq_dec p r); [contradiction|].
  rewrite (rev_off r y p Hp). reflexivity.
Qed.
End Amp.

(** *** Values *)
Lemma val_bit (l : list nat) : NoDup l -> forall k, k < length l -> val l (fun q => q =? nth k l 0) = 2 ^ k.
Proof.
  unfold val. induction l as [|p l IH]; intros N k Hk; [cbn in Hk; lia|]. apply NoDup_cons_iff in N. destruct N as (Np & N). destruct k as [|k]; cbn [nth map le].
  - rewrite Nat.eqb_refl. cbn [b2n]. assert (Z : forall m, (forall q, In q m -> q <> p) -> le (map (fun q => q =? p) m) = 0).
    { induction m as [|a m IHm]; intros Hm; [reflexivity|]. cbn [map le]. rewrite IHm by (intros; apply Hm; right; assumption). destruct (Nat.eqb_spec a p) as [->|]; [exfalso; apply (Hm p); [left|]; reflexivity|reflexivity]. }
    rewrite Z by (intros q Hq ->; contradiction). reflexivity.
  - cbn in Hk. rewrite IH by (try assumption; lia). destruct (Nat.eqb_spec p (nth k l 0)) as [E|E]; [exfalso; apply Np; rewrite E; apply nth_In; lia|]. cbn [b2n Nat.pow]. lia.
Qed.
Lemma val_0 l : val l (fun _ => false) = 0.
Proof. unfold val. induction l as [|p l IH]; [reflexivity|]. cbn [map le b2n]. rewrite IH. reflexivity. Qed.
