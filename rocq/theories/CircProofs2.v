(** Inverses of functions that are circuits. *)
From Coq Require Import Reals FunctionalExtensionality Permutation.
From Coquelicot Require Import Complex.
From Verif Require Import Base BitsSpec BitsProofs OpsModel OpsSpec Instances BuilderModel RegProofs DenSpec DenProofs LocalProofs LinkProofs
  RunSpec RunProofs GateProofs ToffoliProofs CondProofs SubSpec SubProofs SubProofs2 SubProofs3 ProgramModel ProgramSpec ProgramProofs ProgramProofs2 CircProofs.
Local Open Scope nat_scope.
Local Open Scope mon_scope.

(** If the circuit can change qubit k - 1, some object is on that qubit or a later one. *)
Lemma top_of_change {A} k (m : M A) a L' c s1 x : does (fresh k) (seq 0 k) m a L' (eff c) -> m (fresh k) = Ret a s1 -> cok (seq 0 k) c ->
  run c x (k - 1) <> x (k - 1) -> exists e j, In e (pipeline (bld s1)) /\ In j (fst e) /\ k <= S j.
Proof.
  intros (s' & p & H1 & H2 & H3 & H4 & H5 & H6 & H7 & H8 & H9 & H10 & H11 & H12) E Ck Hx. rewrite E in H1. injection H1 as <-. cbn in H5. rewrite H5.
  destruct (existsb (fun e => existsb (fun j => k <=? S j) (fst e)) p) eqn:Ex.
  { apply existsb_exists in Ex. destruct Ex as (e & He & Ex). apply existsb_exists in Ex. destruct Ex as (j & Hj & Ex). apply Nat.leb_le in Ex. exists e, j. auto. }
  exfalso.
  assert (Lo : forall e, In e p -> incl (fst e) (seq 0 (k - 1))).
  { intros e He j Hj. apply in_seq. destruct (Nat.le_gt_cases k (S j)) as [L|L]; [|lia]. exfalso.
    assert (X : existsb (fun e => existsb (fun j => k <=? S j) (fst e)) p = true); [|congruence].
    apply existsb_exists. exists e. split; [exact He|]. apply existsb_exists. exists j. split; [exact Hj|]. apply Nat.leb_le. exact L. }
  set (B := bn (bld s1)) in *. set (xx := fun q => if q <? k then x q else false).
  set (phi := fun y : bs => if forallb (fun q => negb (y q)) (seq k (B - k)) && Bool.eqb (y (k - 1)) (x (k - 1)) then RtoC 1 else RtoC 0).
  assert (Hk : 0 < k).
  { destruct k; [|lia]. exfalso. apply Hx. eapply run_out; [exact Ck|cbn; tauto]. }
  assert (Ag : forall c, cok (seq 0 k) c -> forall y z, (forall q, q < k -> y q = z q) -> forall q, q < k -> run c y q = run c z q).
  { clear - Hk. intros c H. induction H as [|g c (G1 & G2 & G3) _ IH]; intros y z Hyz q Hq; [apply Hyz; exact Hq|]. cbn [run fold_left]. apply IH; [|exact Hq]. clear q Hq. intros q Hq. unfold step.
    rewrite (sat_ext y z); [|intros p Hp; apply Hyz; specialize (G3 p Hp); apply in_seq in G3; lia].
    destruct (forallb (sat z) (fst g)); [|apply Hyz; exact Hq]. destruct (Nat.eq_dec q (snd g)) as [->|N]; [rewrite !flip_same, Hyz by exact Hq; reflexivity|rewrite !flip_other by exact N; apply Hyz; exact Hq]. }
  assert (D1 : den p phi (run c xx) = RtoC 1).
  { rewrite H12.
    - erewrite eff_run by exact Ck. unfold phi, xx. destruct (Nat.ltb_spec (k - 1) k); [|lia]. rewrite Bool.eqb_reflx, andb_true_r.
      replace (forallb (fun q => negb (if q <? k then x q else false)) (seq k (B - k))) with true; [reflexivity|].
      symmetry. apply forallb_forall. intros q Hq. apply in_seq in Hq. destruct (Nat.ltb_spec q k); [lia|reflexivity].
    - intros q [Hq|[]] Hlt y t [<-|[]] Hy. cbn in Hq. unfold phi.
      replace (forallb (fun q => negb (y q)) (seq k (B - k))) with false; [reflexivity|]. symmetry. apply not_true_is_false. intros X. rewrite forallb_forall in X.
      specialize (X q). rewrite Hy in X. discriminate X. apply in_seq. lia. }
  assert (D0 : den p phi (run c xx) = RtoC 0).
  { transitivity (den p zero (run c xx)); [|rewrite den_zero; reflexivity].
    apply (within_den (seq 0 (k - 1)) p Lo). intros y Hy. unfold phi, zero.
    assert (X : y (k - 1) <> x (k - 1)).
    { rewrite Hy by (rewrite in_seq; lia). intros X. apply Hx. rewrite <- X. apply (Ag c Ck); [|lia]. intros q Hq. unfold xx. destruct (Nat.ltb_spec q k); [reflexivity|lia]. }
    destruct (Bool.eqb (y (k - 1)) (x (k - 1))) eqn:Eb; [apply Bool.eqb_prop in Eb; congruence|]. rewrite andb_false_r. reflexivity. }
  rewrite D1 in D0. apply (f_equal fst) in D0. cbn in D0. apply R1_neq_R0. exact D0.
Qed.

Lemma fresh_depth k : at_depth 0 (fresh k).
Proof. split; [reflexivity|]. intros j Hj. lia. Qed.
Lemma live_fresh k : live (fresh k) (seq 0 k).
Proof. apply fresh_live; [apply seq_NoDup|]. intros q Hq. apply in_seq in Hq. lia. Qed.
Section Inverse.
Context (d : nat) (F : nat -> list reg -> M (list reg)) (C : list reg -> list gate) (rs : list reg) (x : bs).
Notation k := (length (concat rs)).
Notation R := (ranges 0 (map (@length nat) rs)).
Context (N : NoDup (concat rs)) (Ne : Forall (fun r => r <> []) rs) (Hrs : rs <> [])
  (A : acts 0 F R (eff (C R))) (Ck : cok (seq 0 k) (C R)) (Nat : map (rng (fun j => nth j (concat rs) 0)) (C R) = C rs)
  (Ch : run (C R) x (k - 1) <> x (k - 1)) (Fr : d = 0 \/ forall a s1, F 0 R (fresh k) = Ret a s1 -> Forall friendly (pipeline (bld s1))).
Lemma inverse_acts : acts d (fun d rs => inv_macro d rs (F 0)) rs (eff (rev (C rs))).
Proof.
  assert (Ckr : cok (concat rs) (rev (C rs))) by (apply cok_rev; rewrite <- Nat; apply rng_ok; assumption).
  split; [apply only_eff; exact Ckr|]. intros s (Ad & W) T Lv.
  assert (CR : concat R = seq 0 k) by (rewrite ranges_concat, sum_lengths; reflexivity).
  destruct A as (O & X). specialize (X (fresh k) (fresh_depth k) (fresh_tidy k)). cbn [conds cqs fresh app] in X. rewrite CR in X. specialize (X (live_fresh k)).
  assert (X' : does (fresh k) (seq 0 k) (F 0 R) R (seq 0 k) (eff (C R))).
  { eapply does_eq; [exact X|]. intros psi. apply controlled_nil. }
  pose proof X' as (s1 & p & E1 & _).
  eapply does_eq.
  - apply (inverter_does d rs (F 0) R (seq 0 k) (eff (C R)) (eff (rev (C R))) s s1); try assumption.
    + intros psi. split; extensionality y; unfold eff; rewrite rev_involutive; f_equal; [eapply run_rev|eapply run_rev']; exact Ck.
    + apply only_eff. exact Ck.
    + apply only_eff. apply cok_rev. exact Ck.
    + eapply top_of_change; eassumption.
    + destruct Fr as [->|Hfr]; [left; reflexivity|right; eapply Hfr; exact E1].
    + rewrite Forall_forall in Ne. exact Ne.
  - intros psi. extensionality y. unfold controlled. destruct (forallb y (cqs d (conds s))); [|reflexivity].
    rewrite embed_eff by (try assumption; apply cok_rev; exact Ck). rewrite map_rev, Nat. reflexivity.
Qed.
End Inverse.
