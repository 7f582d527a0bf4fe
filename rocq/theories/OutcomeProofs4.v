(** cnot, swap and toffoli through wrappers; the outcome of every call. *)
From Coq Require Import Permutation Reals ZArith QArith.
From Coquelicot Require Import Complex.
From Verif Require Import Base BitsSpec OpsModel BuilderModel HistorySpec RegProofs RegProofs2 DenSpec SimSpec RunSpec LocalProofs RunProofs GateProofs ToffoliProofs SwapProofs CondProofs SubProofs SubProofs2 CostSpec CostProofs.
From Verif Require Import OutcomeSpec OutcomeProofs OutcomeProofs2 OutcomeProofs3.
Local Open Scope nat_scope.
Local Open Scope mon_scope.

Definition letter (u : unitary) : Prop := match u with UX | UY | UZ | UH | US | UT => True | _ => False end.
Lemma letter_works d u n : letter u -> object_verdict d (mkCO 1 (OUnit u)) n = Works.
Proof. unfold object_verdict, object_verdict0, object_verdict1. destruct d; cbn; [reflexivity|]. destruct u; intros []; reflexivity. Qed.
(** A register of one qubit comes back as one. *)
Definition stays (r r' : reg) : Prop := r' <> [] /\ (length r = 1 -> length r' = 1).
Lemma stays_refl r : r <> [] -> stays r r. Proof. intros H. split; auto. Qed.
Lemma stays_trans a b c : stays a b -> stays b c -> stays a c.
Proof. intros (H1 & H2) (H3 & H4). split; auto. Qed.
Lemma gate_wp d u r s F : letter u -> r <> [] -> owns d s (r ++ F) -> wp (BuilderModel.gate (aco d) u r) s (fun r' s' => stays r r' /\ owns d s' (r' ++ F)).
Proof.
  intros Hu Hr Hd. apply wp_unwrap. eapply wp_mono; [apply (aco_wp d (mkCO 1 (OUnit u)) r s F Hr (letter_works d u _ Hu) Hd)|]. intros r' s' (-> & H & _). split; [|exact H].
  split; [apply back_ne, Hr|]. intros E. destruct (back_length d (mkCO 1 (OUnit u)) r) as [X|X]; congruence.
Qed.
Lemma sdg_wp d r s F : r <> [] -> owns d s (r ++ F) -> wp (g_s_dagger (aco d) r) s (fun r' s' => stays r r' /\ owns d s' (r' ++ F)).
Proof.
  intros Hr Hd. apply wp_bind. eapply wp_mono; [apply (gate_wp d UZ r s F I Hr Hd)|]. intros r1 s1 (S1 & H1).
  eapply wp_mono; [apply (gate_wp d US r1 s1 F I (proj1 S1) H1)|]. intros r2 s2 (S2 & H2). split; [eapply stays_trans; eassumption|exact H2].
Qed.
Lemma tdg_wp d r s F : r <> [] -> owns d s (r ++ F) -> wp (g_t_dagger (aco d) r) s (fun r' s' => stays r r' /\ owns d s' (r' ++ F)).
Proof.
  intros Hr Hd. apply wp_bind. eapply wp_mono; [apply (sdg_wp d r s F Hr Hd)|]. intros r1 s1 (S1 & H1).
  eapply wp_mono; [apply (gate_wp d UT r1 s1 F I (proj1 S1) H1)|]. intros r2 s2 (S2 & H2). split; [eapply stays_trans; eassumption|exact H2].
Qed.
Lemma cnot_works d : object_verdict d (mkCO 2 (OUnit UCNOT)) 2 = Works.
Proof. destruct d; reflexivity. Qed.
Lemma cnot_wp d a r s F : length a = 1 -> r <> [] -> owns d s (a ++ r ++ F) -> wp (cnot (aco d) a r) s (fun p s' => p = (a, r) /\ owns d s' (a ++ r ++ F)).
Proof.
  intros La Hr Hd. destruct a as [|a [|]]; try discriminate. pose proof (owns_part d s ([a] ++ r) F) as N. rewrite <- app_assoc in N. specialize (N Hd).
  unfold cnot. cbn [length Nat.ltb Nat.leb]. apply wp_bind. eapply wp_lift; [apply split_all_ok; [inversion N; assumption|exact Hr]|].
  assert (St : forall ts acc s, owns d s ([a] ++ r ++ F) -> incl ts r -> wp (mfold (cnot_step (aco d)) (singles ts) ([a], acc)) s (fun p s' => p = ([a], acc ++ singles ts) /\ owns d s' ([a] ++ r ++ F))).
  { clear s Hd Hr. induction ts as [|t ts IH]; intros acc s Hd I; cbn [singles map mfold].
    - apply wp_ret. rewrite app_nil_r. auto.
    - assert (It : In t r) by (apply I; left; reflexivity). apply in_split in It. destruct It as (l1 & l2 & Er).
      assert (P : Permutation ([a] ++ r ++ F) ([a; t] ++ (l1 ++ l2) ++ F)).
      { rewrite Er. cbn [app]. apply perm_skip. rewrite <- app_assoc. symmetry. rewrite <- app_assoc. apply Permutation_middle. }
      assert (Nat' : NoDup [a; t]). { pose proof (owns_perm _ _ _ _ P Hd) as X. apply owns_part in X. exact X. }
      apply wp_bind. unfold cnot_step at 1. apply wp_bind. eapply wp_lift; [apply merge2_ok; discriminate|]. cbn [app].
      apply wp_bind. eapply wp_mono; [apply (aco_wp d (mkCO 2 (OUnit UCNOT)) [a; t] s ((l1 ++ l2) ++ F)); [discriminate|apply cnot_works|eapply owns_perm; [exact P|exact Hd]]|].
      intros r' s' (-> & Hd' & _). assert (Eb : back d (mkCO 2 (OUnit UCNOT)) [a; t] = [a; t]) by (unfold back; cbn [is_st co_obj]; rewrite andb_false_r; reflexivity). rewrite Eb in *.
      apply wp_bind. eapply wp_lift; [apply split_rel_head; [exact Nat'|discriminate]|]. apply wp_ret.
      eapply wp_mono; [apply (IH (acc ++ [[t]]) s')|]; [eapply owns_perm; [symmetry; exact P|exact Hd']|intros q Hq; apply I; right; exact Hq|].
      intros p s2 (-> & H2). rewrite <- app_assoc. auto. }
  apply wp_bind. eapply wp_mono; [apply (St r [] s Hd (incl_refl _))|]. intros p s' (-> & Hd'). cbn [app].
  apply wp_bind. eapply wp_lift; [apply merge_singles|]. apply wp_bind. eapply wp_lift; [apply unwrap_new_reg; exact Hr|]. apply wp_ret. auto.
Qed.
Lemma swap_wp d ra rb s F : length ra = length rb -> ra <> [] -> owns d s (ra ++ rb ++ F) -> wp (swap (aco d) ra rb) s (fun _ _ => True).
Proof.
  intros El Hr Hd. assert (Hb : rb <> []) by (destruct ra, rb; cbn in *; congruence).
  assert (Na : NoDup ra) by (eapply owns_part; exact Hd). assert (Nb : NoDup rb).
  { eapply owns_part. eapply owns_perm; [|exact Hd]. apply Permutation_app_swap_app. }
  unfold swap. rewrite El, Nat.eqb_refl. apply wp_bind. eapply wp_lift; [apply split_all_ok; assumption|]. apply wp_bind. eapply wp_lift; [apply split_all_ok; assumption|].
  assert (St : forall la lb s G, length la = length lb -> owns d s (la ++ lb ++ G) ->
    wp (mmap (swap_pair (aco d)) (combine (singles la) (singles lb))) s (fun l s' => l = combine (singles la) (singles lb))).
  { clear. induction la as [|a la IH]; intros [|b lb] s G El Hd; try discriminate; cbn [singles map combine mmap]; [apply wp_ret; reflexivity|].
    assert (P : Permutation ((a :: la) ++ (b :: lb) ++ G) ([a] ++ [b] ++ (la ++ lb ++ G))).
    { cbn [app]. apply perm_skip. symmetry. apply (Permutation_middle la (lb ++ G) b). }
    assert (P2 : forall x, Permutation ([a] ++ [b] ++ x) ([b] ++ [a] ++ x)) by (intros x; apply perm_swap).
    pose proof (owns_perm _ _ _ _ P Hd) as H0.
    apply wp_bind. apply wp_mono with (Q := fun p s' => p = ([a], [b]) /\ owns d s' ([a] ++ [b] ++ (la ++ lb ++ G))).
    - unfold swap_pair. cbn [length Nat.eqb massert]. apply wp_bind, wp_ret, wp_bind, wp_ret. apply wp_unwrap.
      apply wp_bind. eapply wp_mono; [apply (cnot_wp d [a] [b] s (la ++ lb ++ G)); [reflexivity|discriminate|exact H0]|]. intros p s1 (-> & H1). cbn beta iota.
      apply wp_bind. eapply wp_mono; [apply (cnot_wp d [b] [a] s1 (la ++ lb ++ G)); [reflexivity|discriminate|eapply owns_perm; [apply P2|exact H1]]|]. intros p s2 (-> & H2). cbn beta iota.
      apply (cnot_wp d [a] [b] s2 (la ++ lb ++ G)); [reflexivity|discriminate|eapply owns_perm; [symmetry; apply P2|exact H2]].
    - intros p s1 (-> & H1). apply wp_bind. eapply wp_mono; [apply (IH lb s1 ([a] ++ [b] ++ G)); [cbn in El; lia|]|].
      + eapply owns_perm; [|exact H1]. transitivity (([a] ++ [b]) ++ (la ++ lb) ++ G); [rewrite <- !app_assoc; reflexivity|].
        transitivity ((la ++ lb) ++ ([a] ++ [b]) ++ G); [apply Permutation_app_swap_app|rewrite <- !app_assoc; reflexivity].
      + intros l s2 ->. apply wp_ret. reflexivity. }
  apply wp_bind. eapply wp_mono; [apply (St ra rb s F El Hd)|]. intros l s' ->.
  assert (Es : split (combine (singles ra) (singles rb)) = (singles ra, singles rb)) by (apply combine_split; rewrite !length_singles; exact El). rewrite Es.
  apply wp_bind. eapply wp_lift; [apply merge_singles|]. apply wp_bind. eapply wp_lift; [apply unwrap_new_reg; assumption|].
  apply wp_bind. eapply wp_lift; [apply merge_singles|]. apply wp_bind. eapply wp_lift; [apply unwrap_new_reg; assumption|]. apply wp_ret. exact I.
Qed.
Definition tof_post (d : nat) (cr r : reg) (F : list nat) (p : reg * reg) (s' : st) : Prop :=
  length (fst p) = length cr /\ stays r (snd p) /\ owns d s' (fst p ++ snd p ++ F).
Lemma basic_wp d cr r s F : length cr = 2 -> r <> [] -> owns d s (cr ++ r ++ F) -> wp (basic_toffoli (aco d) cr r) s (tof_post d cr r F).
Proof.
  intros Lc Hr Hd. destruct cr as [|a [|b [|]]]; try discriminate. unfold basic_toffoli. cbn [length Nat.eqb].
  assert (Nab : NoDup [a; b]) by (eapply owns_part; exact Hd).
  apply wp_bind. eapply wp_lift; [apply split_rel_head; [exact Nab|discriminate]|]. cbn beta iota.
  (* the pieces, each with the qubits it leaves alone *)
  set (J := fun x y z s => length x = 1 /\ length y = 1 /\ stays r z /\ owns d s (x ++ y ++ z ++ F)).
  assert (J0 : J [a] [b] r s) by (split; [reflexivity|]; split; [reflexivity|]; split; [apply stays_refl, Hr|exact Hd]).
  assert (Gz : forall (m : reg -> M reg), (forall r s F, r <> [] -> owns d s (r ++ F) -> wp (m r) s (fun r' s' => stays r r' /\ owns d s' (r' ++ F))) ->
    forall x y z s, J x y z s -> wp (m z) s (fun z' s' => J x y z' s')).
  { intros m Hm x y z s0 (Lx & Ly & Sz & H0). eapply wp_mono; [apply (Hm z s0 (x ++ y ++ F)); [apply Sz|]|].
    - eapply owns_perm; [|exact H0]. rewrite (app_assoc x y), (app_assoc x y). apply Permutation_app_swap_app.
    - intros z' s1 (S1 & H1). split; [exact Lx|]. split; [exact Ly|]. split; [eapply stays_trans; eassumption|]. eapply owns_perm; [|exact H1]. rewrite (app_assoc x y), (app_assoc x y). apply Permutation_app_swap_app. }
  assert (Gy : forall (m : reg -> M reg), (forall r s F, r <> [] -> owns d s (r ++ F) -> wp (m r) s (fun r' s' => stays r r' /\ owns d s' (r' ++ F))) ->
    forall x y z s, J x y z s -> wp (m y) s (fun y' s' => J x y' z s')).
  { intros m Hm x y z s0 (Lx & Ly & Sz & H0). eapply wp_mono; [apply (Hm y s0 (x ++ z ++ F)); [destruct y; [discriminate|congruence]|]|].
    - eapply owns_perm; [|exact H0]. apply Permutation_app_swap_app.
    - intros y' s1 (S1 & H1). split; [exact Lx|]. split; [apply S1, Ly|]. split; [exact Sz|]. eapply owns_perm; [|exact H1]. apply Permutation_app_swap_app. }
  assert (Gx : forall (m : reg -> M reg), (forall r s F, r <> [] -> owns d s (r ++ F) -> wp (m r) s (fun r' s' => stays r r' /\ owns d s' (r' ++ F))) ->
    forall x y z s, J x y z s -> wp (m x) s (fun x' s' => J x' y z s')).
  { intros m Hm x y z s0 (Lx & Ly & Sz & H0). eapply wp_mono; [apply (Hm x s0 (y ++ z ++ F)); [destruct x; [discriminate|congruence]|exact H0]|].
    intros x' s1 (S1 & H1). split; [apply S1, Lx|]. auto. }
  assert (Cyz : forall x y z s, J x y z s -> wp (unwrapM (cnot (aco d) y z)) s (fun p s' => p = (y, z) /\ J x y z s')).
  { intros x y z s0 (Lx & Ly & Sz & H0). apply wp_unwrap. eapply wp_mono; [apply (cnot_wp d y z s0 (x ++ F)); [exact Ly|apply Sz|]|].
    - eapply owns_perm; [|exact H0]. etransitivity; [apply Permutation_app_swap_app|]. apply Permutation_app_head, Permutation_app_swap_app.
    - intros p s1 (-> & H1). split; [reflexivity|]. do 3 (split; [assumption|]). eapply owns_perm; [|exact H1]. symmetry. etransitivity; [apply Permutation_app_swap_app|]. apply Permutation_app_head, Permutation_app_swap_app. }
  assert (Cxz : forall x y z s, J x y z s -> wp (unwrapM (cnot (aco d) x z)) s (fun p s' => p = (x, z) /\ J x y z s')).
  { intros x y z s0 (Lx & Ly & Sz & H0). apply wp_unwrap. eapply wp_mono; [apply (cnot_wp d x z s0 (y ++ F)); [exact Lx|apply Sz|]|].
    - eapply owns_perm; [|exact H0]. apply Permutation_app_head, Permutation_app_swap_app.
    - intros p s1 (-> & H1). split; [reflexivity|]. do 3 (split; [assumption|]). eapply owns_perm; [|exact H1]. apply Permutation_app_head, Permutation_app_swap_app. }
  assert (Cxy : forall x y z s, J x y z s -> wp (unwrapM (cnot (aco d) x y)) s (fun p s' => p = (x, y) /\ J x y z s')).
  { intros x y z s0 (Lx & Ly & Sz & H0). apply wp_unwrap. eapply wp_mono; [apply (cnot_wp d x y s0 (z ++ F)); [exact Lx|destruct y; [discriminate|congruence]|exact H0]|].
    intros p s1 (-> & H1). split; [reflexivity|]. do 3 (split; [assumption|]). exact H1. }
  assert (Fin : forall x y z s, J x y z s -> wp (cr <- lift (merge2 x y) ;; ret (cr, z)) s (tof_post d [a; b] r F)).
  { intros x y z s0 (Lx & Ly & Sz & H0). apply wp_bind. eapply wp_lift; [apply merge2_ok; destruct x; [discriminate|congruence]|]. apply wp_ret. split; [cbn [fst]; rewrite app_length, Lx, Ly; reflexivity|].
    split; [exact Sz|]. cbn [fst snd]. rewrite <- app_assoc. exact H0. }
  clearbody J.
  pose proof (fun u Hu => Gz _ (fun r s F => gate_wp d u r s F Hu)) as Gzu. pose proof (fun u Hu => Gy _ (fun r s F => gate_wp d u r s F Hu)) as Gyu. pose proof (fun u Hu => Gx _ (fun r s F => gate_wp d u r s F Hu)) as Gxu.
  apply wp_bind. eapply wp_mono; [exact (Gzu UH I _ _ _ _ J0)|]. intros z1 s1 J1. cbn beta.
  apply wp_bind. eapply wp_mono; [exact (Cyz _ _ _ _ J1)|]. intros p2 s2 (-> & J2). cbn beta iota.
  apply wp_bind. eapply wp_mono; [exact (Gz _ (tdg_wp d) _ _ _ _ J2)|]. intros z3 s3 J3. cbn beta.
  apply wp_bind. eapply wp_mono; [exact (Cxz _ _ _ _ J3)|]. intros p4 s4 (-> & J4). cbn beta iota.
  apply wp_bind. eapply wp_mono; [exact (Gzu UT I _ _ _ _ J4)|]. intros z5 s5 J5. cbn beta.
  apply wp_bind. eapply wp_mono; [exact (Cyz _ _ _ _ J5)|]. intros p6 s6 (-> & J6). cbn beta iota.
  apply wp_bind. eapply wp_mono; [exact (Gz _ (tdg_wp d) _ _ _ _ J6)|]. intros z7 s7 J7. cbn beta.
  apply wp_bind. eapply wp_mono; [exact (Cxz _ _ _ _ J7)|]. intros p8 s8 (-> & J8). cbn beta iota.
  apply wp_bind. eapply wp_mono; [exact (Gyu UT I _ _ _ _ J8)|]. intros z9 s9 J9. cbn beta.
  apply wp_bind. eapply wp_mono; [exact (Gzu UT I _ _ _ _ J9)|]. intros z10 s10 J10. cbn beta.
  apply wp_bind. eapply wp_mono; [exact (Cxy _ _ _ _ J10)|]. intros p11 s11 (-> & J11). cbn beta iota.
  apply wp_bind. eapply wp_mono; [exact (Gzu UH I _ _ _ _ J11)|]. intros z12 s12 J12. cbn beta.
  apply wp_bind. eapply wp_mono; [exact (Gxu UT I _ _ _ _ J12)|]. intros z13 s13 J13. cbn beta.
  apply wp_bind. eapply wp_mono; [exact (Gy _ (tdg_wp d) _ _ _ _ J13)|]. intros z14 s14 J14. cbn beta.
  apply wp_bind. eapply wp_mono; [exact (Cxy _ _ _ _ J14)|]. intros p15 s15 (-> & J15). cbn beta iota.
  exact (Fin _ _ _ _ J15).
Qed.
Lemma toffoli_wp d : forall fuel cr r s F, length cr < fuel -> cr <> [] -> r <> [] -> owns d s (cr ++ r ++ F) -> wp (toffoli_fuel (aco d) fuel cr r) s (tof_post d cr r F).
Proof.
  induction fuel as [|fuel IH]; intros cr r s F Hf Hc Hr Hd; [lia|]. cbn [toffoli_fuel].
  destruct (Nat.eqb_spec (length cr) 1) as [E1|E1].
  - eapply wp_mono; [apply (cnot_wp d cr r s F E1 Hr Hd)|]. intros p s' (-> & H). split; [reflexivity|]. split; [apply stays_refl, Hr|exact H].
  - destruct (Nat.eqb_spec (length cr) 2) as [E2|E2]; [apply basic_wp; assumption|].
    destruct cr as [|a [|b [|c ct]]]; cbn [length] in *; try congruence.
    assert (Nc : NoDup ([a; b] ++ c :: ct)) by (eapply owns_part; exact Hd).
    apply wp_bind. eapply wp_lift; [apply (split_rel_prefix [a; b] (c :: ct)); [exact Nc|discriminate|discriminate]|]. cbn beta iota.
    destruct Hd as (T & El & W & Lv). destruct (quiet_make s _ T Lv) as (t & _ & _ & s1 & H1 & H2 & H3 & H4 & H5 & H6 & H7 & H8).
    assert (Hd1 : owns d s1 ([a; b] ++ [t] ++ (c :: ct) ++ r ++ F)).
    { split; [exact H6|]. rewrite H2. split; [exact El|]. split; [exact W|]. eapply live_perm; [exact H7|].
      change (t :: cqs d (conds s) ++ (a :: b :: c :: ct) ++ r ++ F) with ([t] ++ cqs d (conds s) ++ [a; b] ++ (c :: ct) ++ r ++ F).
      etransitivity; [apply Permutation_app_swap_app|]. apply Permutation_app_head. apply Permutation_app_swap_app. }
    apply wp_bind. exists [t], s1. split; [exact H1|].
    apply wp_bind. eapply wp_mono; [apply wp_unwrap, (IH [a; b] [t] s1 ((c :: ct) ++ r ++ F)); [cbn; lia|discriminate|discriminate|exact Hd1]|].
    intros [h t1] s2 (Lh & St & Hd2). cbn [fst snd] in *. cbn beta iota.
    apply wp_bind. eapply wp_lift; [apply merge2_ok; discriminate|].
    apply wp_bind. eapply wp_mono; [apply wp_unwrap, (IH ((c :: ct) ++ t1) r s2 (h ++ F))|].
    + rewrite app_length. rewrite (proj2 St eq_refl). cbn. lia.
    + discriminate.
    + exact Hr.
    + eapply owns_perm; [|exact Hd2]. rewrite <- app_assoc. etransitivity; [apply Permutation_app_swap_app|].
      etransitivity; [apply Permutation_app_head, Permutation_app_swap_app|]. etransitivity; [apply Permutation_app_swap_app|]. apply Permutation_app_head, Permutation_app_head, Permutation_app_swap_app.
    + intros [cr2 r2] s3 (L2 & S2 & Hd3). cbn [fst snd] in *. cbn beta iota.
      rewrite app_length, (proj2 St eq_refl) in L2. cbn [length] in L2.
      destruct (@exists_last _ cr2) as (c2 & t2 & Ec); [destruct cr2; [cbn in L2; lia|discriminate]|]. subst cr2. rewrite app_length in L2. cbn [length] in L2.
      assert (N2 : NoDup (c2 ++ [t2])) by (eapply owns_part; exact Hd3).
      apply wp_bind. eapply wp_lift; [apply split_last_ok; [exact N2|destruct c2; [cbn in L2; lia|discriminate]]|]. cbn beta iota.
      apply wp_bind. eapply wp_lift; [reflexivity|]. apply wp_bind. eapply wp_mono; [apply wp_unwrap, (IH h [t2] s3 (c2 ++ r2 ++ F))|].
      * rewrite Lh. cbn. lia.
      * destruct h; [discriminate|congruence].
      * discriminate.
      * eapply owns_perm; [|exact Hd3]. rewrite <- app_assoc. 
        etransitivity; [apply Permutation_app_head, Permutation_app_head, Permutation_app_swap_app|]. etransitivity; [apply Permutation_app_head, Permutation_app_swap_app|]. etransitivity; [apply Permutation_app_swap_app|].
        apply Permutation_app_head. apply Permutation_app_swap_app.
      * intros [h2 t3] s4 (Lh2 & S3 & Hd4). cbn [fst snd] in *. cbn beta iota.
        destruct Hd4 as (T4 & El4 & W4 & Lv4). destruct (quiet_return s4 t3 (cqs d (conds s4) ++ h2 ++ c2 ++ r2 ++ F) T4) as (s5 & G1 & G2 & G3 & G4 & G5 & G6 & G7 & G8); [|apply S3|].
        { eapply live_perm; [exact Lv4|]. symmetry. etransitivity; [apply Permutation_app_swap_app|]. apply Permutation_app_head. apply Permutation_app_swap_app. }
        apply wp_bind. exists tt, s5. split; [exact G1|]. apply wp_bind. eapply wp_lift; [apply merge2_ok; destruct h2; [rewrite Lh in Lh2; discriminate|discriminate]|]. apply wp_ret.
        split; [cbn [fst length]; rewrite app_length, Lh2, Lh; cbn [length] in *; lia|]. split; [exact S2|]. cbn [fst snd]. split; [exact G6|]. rewrite G2. rewrite <- app_assoc. auto.
Qed.

(** *** Registers *)
Lemma seen_lift {A B} (r : res A) (f : A -> M B) s v : match r with Ok a => seen (f a s) | Err _ => Errs | Panic _ => Panics end = v -> seen (mbind (lift r) f s) = v.
Proof. unfold mbind, lift. destruct r; auto. Qed.
Lemma split_rel_seen r is : r <> [] -> if mem (length r) is then exists p, split_rel r is = Panic p else exists sp, split_rel r is = Ok sp.
Proof.
  intros Hr. unfold mem. destruct (existsb (Nat.eqb (length r)) is) eqn:E.
  - apply existsb_eqb_In in E. eexists. apply split_rel_len_panics, E.
  - apply existsb_eqb_false in E. rewrite split_rel_ignores by (intros i Hi ->; contradiction). eexists. apply split_rel_ok; [exact Hr|]. intros i Hi. apply filter_In in Hi. destruct Hi as (_ & Hi). apply Nat.ltb_lt, Hi.
Qed.
Lemma groups_fit r : forall gs done sel, NoDup (done ++ concat gs) -> (forall i, In i (concat gs) -> i < length r) ->
  exists sel', foldM group_step gs (sel, blanked r done) = Ok (sel', blanked r (done ++ concat gs)).
Proof.
  induction gs as [|g gs IH]; intros done sel Hn Hlt; cbn [foldM concat] in *; [rewrite app_nil_r; eauto|].
  cbn [group_step]. rewrite take_all_ok.
  2:{ rewrite app_assoc in Hn. apply NoDup_app_iff in Hn. tauto. }
  2:{ intros; apply Hlt; apply in_app_iff; auto. }
  cbn [bind]. rewrite merge_registers_ok.
  2:{ intros x Hx. apply in_map_iff in Hx as (i & <- & _). discriminate. }
  cbn [bind]. edestruct (IH (done ++ g)) as (sel' & E); [rewrite <- app_assoc; exact Hn|intros; apply Hlt, in_app_iff; auto|]. rewrite E, <- app_assoc. eauto.
Qed.
Lemma groups_panic r : forall gs done sel, ~ (NoDup (concat gs) /\ (forall i, In i (concat gs) -> i < length r /\ ~ In i done)) -> NoDup done ->
  exists p, foldM group_step gs (sel, blanked r done) = Panic p.
Proof.
  induction gs as [|g gs IH]; intros done sel H Nd; cbn [foldM concat] in *; [exfalso; apply H; split; [constructor|intros i []]|]. cbn [group_step].
  destruct (distinct g && forallb (fun i => i <? length r) g && forallb (fun i => negb (mem i done)) g) eqn:E.
  - rewrite !andb_true_iff, distinct_NoDup, !forallb_forall in E. destruct E as ((N & R) & D).
    assert (D' : forall i, In i g -> ~ In i done) by (intros i Hi; specialize (D i Hi); apply negb_true_iff, existsb_eqb_false in D; exact D).
    assert (N' : NoDup (done ++ g)) by (apply NoDup_app_iff; split; [exact Nd|]; split; [exact N|]; intros i Hd Hg; apply (D' i Hg Hd)).
    rewrite take_all_ok; [|exact N'|intros i Hi; apply Nat.ltb_lt, R, Hi]. cbn [bind]. rewrite merge_registers_ok by (intros x Hx; apply in_map_iff in Hx as (i & <- & _); discriminate).
    cbn [bind]. apply IH; [|exact N']. intros (N2 & K). apply H. split.
    + apply NoDup_app_iff. split; [exact N|]. split; [exact N2|]. intros i Hg Hi. apply (proj2 (K i Hi)), in_app_iff. auto.
    + intros i Hi. apply in_app_iff in Hi. destruct Hi as [Hi|Hi]; [split; [apply Nat.ltb_lt, R, Hi|apply D', Hi]|]. destruct (K i Hi) as (K1 & K2). rewrite in_app_iff in K2. tauto.
  - destruct (take_all_panics r g done) as (p & Ep); [|rewrite Ep; eexists; reflexivity].
    intros (N & K). apply Bool.not_true_iff_false in E. apply E. rewrite !andb_true_iff, distinct_NoDup, !forallb_forall. split; [split; [exact N|]|].
    + intros i Hi. apply Nat.ltb_lt, K, Hi.
    + intros i Hi. apply negb_true_iff, existsb_eqb_false, K, Hi.
Qed.
Lemma split_groups_seen r gs : NoDup r -> r <> [] ->
  if distinct (concat gs) && forallb (fun i => i <? length r) (concat gs) then exists sm, split_groups r gs = Ok sm else exists p, split_groups r gs = Panic p.
Proof.
  intros N Hr. unfold split_groups. rewrite split_all_ok by assumption. cbn [bind]. rewrite <- blanked_nil.
  destruct (distinct (concat gs) && forallb (fun i => i <? length r) (concat gs)) eqn:E.
  - rewrite andb_true_iff, distinct_NoDup, forallb_forall in E. destruct E as (E1 & E2). destruct (groups_fit r gs [] [] E1) as (sel & ->); [intros i Hi; apply Nat.ltb_lt, E2, Hi|].
    cbn [bind app]. rewrite merge_registers_ok by apply somes_blanked_ne. cbn [bind]. destruct (new_reg _); eauto.
  - destruct (groups_panic r gs [] []) as (p & ->); [|constructor|eexists; reflexivity]. intros (X1 & X2). apply Bool.not_true_iff_false in E. apply E. rewrite andb_true_iff, distinct_NoDup, forallb_forall.
    split; [exact X1|]. intros i Hi. apply Nat.ltb_lt, X2, Hi.
Qed.
Lemma seen_unwrap {A} (m : M A) s : seen (unwrapM m s) = match seen (m s) with Errs => Panics | v => v end.
Proof. unfold unwrapM. destruct (m s); reflexivity. Qed.
Lemma seen_out1 m s : seen (out1 m s) = seen (m s).
Proof. unfold out1, mbind. destruct (m s); reflexivity. Qed.
Lemma seen_out2 m s : seen (out2 m s) = seen (m s).
Proof. unfold out2, mbind. destruct (m s) as [[? ?] ?| |]; reflexivity. Qed.
Lemma seen_appends {A} (m : M A) a g s : appends m a g -> seen (m s) = Works.
Proof. intros H. destruct (H s) as (p & -> & _). reflexivity. Qed.
Lemma seen_same m r s : same m -> NoDup r -> r <> [] -> seen (m r s) = Works.
Proof. intros H N Hr. destruct (H r N Hr) as (g & G). eapply seen_appends, G. Qed.
Lemma seen_ratio {A} (f : Q -> M A) s m : (forall q, seen (f q s) = Works) -> seen ((q <- lift (ratio_1 m) ;; f q) s) = (if (m =? 0)%Z || (m =? i64_min)%Z then Panics else Works).
Proof. intros H. apply seen_lift. unfold ratio_1, i64_min. destruct (m =? 0)%Z; [reflexivity|]. destruct (m =? - 2 ^ 63)%Z; [reflexivity|]. apply H. Qed.
Lemma one_of {A} (P : A -> Prop) (args : list A) : length args = 1 -> exists r, args = [r].
Proof. destruct args as [|r [|]]; try discriminate. eauto. Qed.
Lemma object_seen d co r s F : r <> [] -> owns d s (r ++ F) -> seen (aco d r co s) = object_verdict d co (length r).
Proof.
  intros Hr Hd. destruct (object_verdict d co (length r)) eqn:E; [eapply wp_seen, aco_wp; eassumption| |]; rewrite <- E; eapply aco_seen; try eassumption; congruence.
Qed.
Lemma matrix_seen d data r s F : r <> [] -> owns d s (r ++ F) -> seen (apply_matrix (aco d) r data s) = if d =? 0 then Works else Panics.
Proof.
  intros Hr Hd. unfold apply_matrix. rewrite (object_seen _ _ _ _ F Hr Hd). unfold object_verdict, object_verdict0, object_verdict1. destruct d; cbn [Nat.eqb co_n co_obj]; [|reflexivity].
  rewrite Nat.eqb_refl, orb_true_r. reflexivity.
Qed.

Lemma call_seen d c args s F : owns d s (concat args ++ F) -> Forall (fun r => r <> []) args -> typed d c args -> seen (run_call d c args s) = call_verdict d c args.
Proof.
  intros Hd Hne Ty. 
  destruct c; cbn [typed] in Ty;
    try match type of Ty with
    | length args = 1 => destruct args as [|r [|]]; try discriminate; clear Ty
    | _ = 0 /\ length args = 1 => destruct Ty as (-> & Ty); destruct args as [|r [|]]; try discriminate; clear Ty
    | length args = 2 => destruct args as [|ra [|rb [|]]]; try discriminate; clear Ty; cbn [concat] in Hd; rewrite app_nil_r, <- app_assoc in Hd; inversion_clear Hne as [|? ? Ha Hn2]; inversion_clear Hn2 as [|? ? Hb _]
    end;
    try (cbn [concat] in Hd; rewrite app_nil_r in Hd; inversion_clear Hne as [|? ? Hr _]; pose proof (owns_part _ _ _ _ Hd) as N);
    cbn [run_call call_verdict one two]; rewrite ?seen_out1, ?seen_out2; try contradiction.
  - (* register *) unfold register, mbind, get, lift, put. destruct k; [congruence|]. reflexivity.
  - unfold qudit, mbind. destruct k; reflexivity.
  - unfold lift. rewrite merge2_ok by exact Ha. reflexivity.
  - apply seen_lift. rewrite merge_registers_ok; [reflexivity|]. intros r Hr. rewrite Forall_forall in Hne. apply Hne, Hr.
  - apply seen_lift. pose proof (split_rel_seen r is Hr) as X. destruct (mem (length r) is); destruct X as (y & ->); reflexivity.
  - apply seen_lift. rewrite split_abs_char. pose proof (split_rel_seen r (filter (fun a => existsb (Nat.eqb a) r) is) Hr) as X.
    assert (E : mem (length r) (filter (fun a => existsb (Nat.eqb a) r) is) = mem (length r) is && mem (length r) r).
    { unfold mem. apply eq_true_iff_eq. rewrite andb_true_iff, !existsb_eqb_In, filter_In, existsb_eqb_In. reflexivity. }
    rewrite E in X. destruct (mem (length r) is && mem (length r) r); destruct X as (y & ->); reflexivity.
  - unfold lift. rewrite split_all_ok by assumption. reflexivity.
  - apply seen_lift. destruct r as [|q [|q2 r]]; [congruence| |]; [unfold split_first_qubit; rewrite split_rel_single; reflexivity|].
    rewrite split_first_ok; [reflexivity|exact N|discriminate].
  - apply seen_lift. destruct (@exists_last _ r Hr) as (r0 & q & ->). destruct r0 as [|q0 r0]; [cbn [app]; rewrite split_last_single; reflexivity|].
    rewrite split_last_ok; [reflexivity|exact N|discriminate].
  - apply seen_lift. pose proof (split_groups_seen r gs N Hr) as X. destruct (distinct (concat gs) && _); destruct X as (y & ->); reflexivity.
  - apply (object_seen d co r s F); assumption.
  - (* gate *) assert (Lu : letter u /\ length args = 1) by (destruct u; try contradiction; cbn; auto). destruct Lu as (Lu & La). destruct args as [|r [|]]; try discriminate.
    cbn [concat] in Hd; rewrite app_nil_r in Hd; inversion_clear Hne as [|? ? Hr _]. cbn [one]. rewrite seen_out1. eapply wp_seen, gate_wp; eassumption.
  - eapply wp_seen, sdg_wp; eassumption.
  - eapply wp_seen, tdg_wp; eassumption.
  - apply (matrix_seen d data r s F); assumption.
  - unfold broadcast_single_qubit_matrix. rewrite seen_unwrap, (matrix_seen d data r s F) by assumption. destruct (d =? 0); reflexivity.
  - destruct (Nat.eqb_spec (length ra) 1) as [E|E]; [eapply wp_seen, cnot_wp; eassumption|]. unfold cnot. destruct (Nat.ltb_spec 1 (length ra)) as [|G]; [reflexivity|]. destruct ra as [|? [|]]; cbn in *; (congruence || lia).
  - destruct (Nat.eqb_spec (length ra) (length rb)) as [E|E]; [eapply wp_seen, swap_wp; eassumption|]. unfold swap. destruct (Nat.eqb_spec (length ra) (length rb)); [congruence|reflexivity].
  - eapply wp_seen, toffoli_wp; [lia|exact Ha|exact Hb|exact Hd].
  - apply (seen_same (fun r => rz r t)); auto using same_rz.
  - apply (seen_same (fun r => rx r t)); auto using same_rx.
  - apply (seen_same (fun r => ry r t)); auto using same_ry.
  - apply (seen_same (fun r => rz_ratio r q)); auto using same_rzr.
  - apply (seen_same (fun r => rx_ratio r q)); auto using same_rxr.
  - apply (seen_same (fun r => ry_ratio r q)); auto using same_ryr.
  - unfold rz_pi_by. destruct (m =? 0)%Z eqn:E0; [reflexivity|]. assert (X := seen_ratio (fun q => local_aco r (mkCO (length r) (OUnit (URz (PiRational q))))) s m).
    rewrite E0 in X. apply X. intros q. destruct (appends_fit r (mkCO (length r) (OUnit (URz (PiRational q)))) N Hr (or_intror eq_refl)) as (g & G). eapply seen_appends, G.
  - apply seen_ratio. intros q. apply (seen_same (fun r => rx_ratio r q)); auto using same_rxr.
  - apply seen_ratio. intros q. apply (seen_same (fun r => ry_ratio r q)); auto using same_ryr.
  - cbn [Nat.eqb one]. rewrite seen_out1. apply (seen_same (fun r => apply_global_phase r t)); auto using same_phase.
  - cbn [Nat.eqb one]. rewrite seen_out1. apply (seen_same (fun r => apply_global_phase_ratio r q)); auto using same_phase_ratio.
  - cbn [Nat.eqb one]. rewrite seen_out1. apply seen_ratio. intros q. apply (seen_same (fun r => apply_global_phase_ratio r q)); auto using same_phase_ratio.
  - destruct Hd as (T & _ & _ & Lv). destruct (quiet_make s _ T Lv) as (t & _ & _ & s1 & -> & _). reflexivity.
  - destruct (Nat.eqb_spec k 0) as [->|Hk]; [reflexivity|]. destruct Hd as (T & _ & _ & Lv). destruct (quiet_make_reg s _ k T Lv) as (ts & _ & _ & s1 & -> & _); [lia|reflexivity].
  - unfold return_zeroed_temp_register, mbind. rewrite split_all_ok by assumption. reflexivity.
  - reflexivity.
  - reflexivity.
  - reflexivity.
  - destruct Hd as (_ & El & W & _). destruct (W (d - 1) ltac:(lia)) as (r & E & _). unfold dissolve.
    destruct (@exists_last _ (conds s)) as (l & o & Ec); [intros X; rewrite X in El; cbn in El; lia|]. rewrite Ec, rev_app_distr. cbn [rev app]. rewrite Ec in E, El. rewrite app_length in El. cbn in El.
    rewrite nth_error_app2 in E by lia. replace (d - 1 - length l) with 0 in E by lia. inversion E. reflexivity.
  - reflexivity.
  - apply (subcircuit_seen d sc r s F); assumption.
  - reflexivity.
Qed.
