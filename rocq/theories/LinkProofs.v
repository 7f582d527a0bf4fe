(** From what calls do to what the simulator returns. *)
From Coq Require Import Reals FunctionalExtensionality Permutation.
From Coquelicot Require Import Complex.
From Verif Require Import Base BitsSpec BitsProofs OpsModel OpsSpec StateOpsProofs Instances BuilderModel RegProofs SimModel DenSpec DenProofs SimSpec SimProofs
  RunSpec RunProofs GateProofs.
Local Open Scope nat_scope.

Lemma does_simulate {A} s L (m : M A) a L' D it x draws : does s L m a L' D ->
  (forall r v, In (r, v) it -> in_range (bn (bld s)) r) -> loads it x ->
  Forall (wf_entry (bn (bld s))) (pipeline (bld s)) -> Forall plain_entry (pipeline (bld s)) ->
  (forall n q, idle s q -> q < n -> clean [q] (den (pipeline (bld s)) (ket n x))) ->
  exists s' v, m s = Ret a s' /\ calculate_state_with_init (bld s') it draws = Ok (v, []) /\ length v = 2 ^ bn (bld s') /\
    st_of CN (bn (bld s')) v = D (den (pipeline (bld s)) (ket (bn (bld s')) x)).
Proof.
  intros (s' & p & H1 & _ & _ & H4 & H5 & H6 & H7 & _ & _ & _ & _ & H12) R Lo W Pl Cl.
  destruct (simulate_ok (bld s') it x draws) as (v & E & Lv & H); [|exact Lo| | |].
  - intros r w Hin q Hq. specialize (R r w Hin q Hq). lia.
  - rewrite H5. apply Forall_app. split; [eapply wf_entries_mono; [exact H4|exact W]|exact H6].
  - rewrite H5. apply Forall_app. split; [exact Pl|]. eapply Forall_impl; [|exact H7]. intros e He. apply He.
  - exists s', v. split; [exact H1|]. split; [exact E|]. split; [exact Lv|]. rewrite H, H5, den_app. apply H12.
    intros q Hq Hlt. apply Cl; assumption.
Qed.

(** [n] qubits, nothing done yet. *)
Definition fresh (n : nat) : st := mkSt (mkB [] n [] 0) [].
Lemma fresh_tidy n : tidy (fresh n).
Proof. split; [constructor|]. split; [constructor|intros q []]. Qed.
Lemma fresh_live n L : NoDup L -> in_range n L -> live (fresh n) L.
Proof. intros N R. split; [exact N|]. intros q Hq [X|[]]. specialize (R q Hq). cbn in X. lia. Qed.
Lemma ket_clean n x q : q < n -> x q = false -> clean [q] (ket n x).
Proof.
  intros Hq E. rewrite clean1. intros y Hy. unfold ket. destruct (Nat.eqb_spec (enc n x) (enc n y)) as [X|X]; [|reflexivity].
  assert (dec n (enc n x) q = dec n (enc n y) q) as Z by (rewrite X; reflexivity). rewrite !dec_enc, (proj2 (Nat.ltb_lt q n) Hq), E, Hy in Z. discriminate.
Qed.
Lemma does_simulate_fresh {A} n L (m : M A) a L' D it x draws : does (fresh n) L m a L' D ->
  (forall r v, In (r, v) it -> in_range n r) -> loads it x ->
  exists s' v, m (fresh n) = Ret a s' /\ calculate_state_with_init (bld s') it draws = Ok (v, []) /\ length v = 2 ^ bn (bld s') /\
    st_of CN (bn (bld s')) v = D (ket (bn (bld s')) x).
Proof.
  intros H R Lo. apply (does_simulate (fresh n) L m a L' D it x draws H R Lo); [constructor|constructor|].
  intros k q [Hq|[]] Hlt. cbn. apply ket_clean; [exact Hlt|]. apply (proj2 Lo). intros r v Hin X. specialize (R r v Hin q X). cbn in Hq. lia.
Qed.

(** Amplitudes of a simulated call. *)
Lemma does_amplitudes {A} n L (m : M A) a L' D it x draws : does (fresh n) L m a L' D ->
  (forall r v, In (r, v) it -> in_range n r) -> loads it x ->
  exists s' v, m (fresh n) = Ret a s' /\ n <= bn (bld s') /\ calculate_state_with_init (bld s') it draws = Ok (v, []) /\
    forall y, nth (enc (bn (bld s')) y) v (RtoC 0) = D (ket (bn (bld s')) x) y.
Proof.
  intros H R Lo. destruct (does_simulate_fresh n L m a L' D it x draws H R Lo) as (s' & v & E1 & E2 & _ & E3).
  exists s', v. split; [exact E1|]. split; [|split; [exact E2|]].
  - destruct H as (s2 & p & H1 & _ & _ & H4 & _). rewrite E1 in H1. inversion H1; subst. exact H4.
  - intros y. change (st_of CN (bn (bld s')) v y = D (ket (bn (bld s')) x) y). rewrite E3. reflexivity.
Qed.
Lemma ket_eq n x y : (forall q, x q = y q) -> ket n x y = RtoC 1.
Proof. intros H. assert (x = y) as -> by (extensionality q; apply H). unfold ket. rewrite Nat.eqb_refl. reflexivity. Qed.
Lemma ket_ne n x y q : q < n -> x q <> y q -> ket n x y = RtoC 0.
Proof.
  intros Hq H. unfold ket. destruct (Nat.eqb_spec (enc n x) (enc n y)) as [X|X]; [|reflexivity]. exfalso. apply H.
  assert (dec n (enc n x) q = dec n (enc n y) q) as Z by (rewrite X; reflexivity). rewrite !dec_enc, (proj2 (Nat.ltb_lt q n) Hq) in Z. exact Z.
Qed.
