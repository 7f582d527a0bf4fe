(** Costs of sequences of calls, of conditioned cnot, and of the adder. *)
From Coq Require Import Permutation Reals ZArith QArith.
From Verif Require Import Base BitsSpec OpsModel BuilderModel RegProofs DenSpec SimSpec RunSpec LocalProofs RunProofs GateProofs ToffoliProofs CondProofs
  SubSpec InvertProofs SubProofs SubProofs2 SubProofs3 SubProofs4 SubProofs5 ProgramModel ProgramSpec CircProofs CircProofs2 ArithModel ArithProofs2 ArithProofs5 ArithProofs8 CostSpec CostProofs.
Local Open Scope nat_scope.
Local Open Scope mon_scope.

(** *** Conditioned cnot, several targets *)
Lemma cnot_costs d s c ts : 0 < d -> wrapped d (conds s) -> tidy s -> live s (cqs d (conds s) ++ c :: ts) -> ts <> [] ->
  costs s (cnot (aco d) [c] ts) ([c], ts) (length (cqs d (conds s)) - 1) (length ts * not_objects (length (cqs d (conds s)) + 1) 1).
Proof.
  intros Hd W T Lv Hts. set (K := cqs d (conds s)). pose proof (proj1 Lv) as Nall.
  assert (Nct : NoDup (c :: ts)) by (apply NoDup_app_iff in Nall; apply Nall).
  inversion Nct as [|? ? Nc Nts]; subst. unfold cnot. cbn [length Nat.ltb Nat.leb].
  eapply costs_lift_bind; [apply split_all_ok; assumption|].
  set (KT := length K - 1). set (G := not_objects (length K + 1) 1).
  assert (Loop : forall l done s0, conds s0 = conds s -> tidy s0 -> live s0 (K ++ c :: ts) -> incl l ts -> l <> [] ->
    costs s0 (mfold (cnot_step (aco d)) (singles l) ([c], done)) ([c], done ++ singles l) KT (length l * G)).
  { induction l as [|t l IH]; intros done s0 C0 T0 L0 I Hl; [congruence|]. cbn [singles map mfold length].
    assert (Ht : In t ts) by (apply I; left; reflexivity).
    assert (Ect : c <> t) by (intros ->; contradiction).
    assert (Nct2 : NoDup [c; t]) by (repeat constructor; cbn; intuition congruence).
    assert (Nt : NoDup (K ++ [c; t])).
    { apply NoDup_app_iff in Nall. destruct Nall as (A & B & D). apply NoDup_app_iff. split; [exact A|]. split; [exact Nct2|].
      intros q Hq [<-|[<-|[]]]; apply (D _ Hq); [left; reflexivity|right; exact Ht]. }
    assert (L0' : live s0 (K ++ [c; t])).
    { eapply live_incl; [exact L0|exact Nt|]. intros q Hq. apply in_app_or in Hq. apply in_or_app. destruct Hq as [Hq|[<-|[<-|[]]]]; [left; exact Hq|right; left; reflexivity|right; right; exact Ht]. }
    assert (W0 : wrapped d (conds s0)) by (rewrite C0; exact W).
    assert (EK : cqs d (conds s0) = K) by (rewrite C0; reflexivity).
    assert (Step : costs s0 (cnot_step (aco d) ([c], done) [t]) ([c], done ++ [[t]]) KT G).
    { unfold cnot_step. eapply costs_lift_bind; [apply merge2_ok; discriminate|]. cbn [app].
      eapply costs_eq; [eapply costs_bind|..].
      - pose proof (aco_costs (mkCO 2 (OUnit UCNOT)) [c; t] _ _ (cost_CNOT 2 c t) d s0 Hd W0 T0) as H. rewrite EK in H. apply H. exact L0'.
      - intros s1 E1 C1. eapply costs_lift_bind; [apply split_rel_head; [exact Nct2|discriminate]|]. cbn beta iota. apply costs_ret.
      - fold KT. lia.
      - fold G. lia. }
    destruct Step as (s1 & E1 & C1 & U1).
    assert (N1 : tidy s1 /\ live s1 (K ++ c :: ts)).
    { assert (D : does s0 (K ++ c :: ts) (cnot_step (aco d) ([c], done) [t]) ([c], done ++ [[t]]) (K ++ c :: ts) (ctl_nots (K ++ [c]) [t])).
      { destruct (in_split t ts Ht) as (ta & tb & Ets).
        assert (Pm : Permutation ((K ++ [c; t]) ++ ta ++ tb) (K ++ c :: ts)).
        { rewrite Ets, <- app_assoc. apply Permutation_app_head. cbn [app]. constructor. apply Permutation_middle. }
        unfold cnot_step. eapply quiet_then_does; [apply quiet_lift; [apply merge2_ok; discriminate|exact T0|exact L0]|apply incl_refl|apply incl_refl|].
        intros s2 C2 T2 L2. cbn [app]. eapply does_then_quiet with (a := [c; t]) (L1 := K ++ c :: ts).
        - eapply does_perm; [exact Pm|exact Pm|]. apply does_frame; [eapply live_perm; [exact L2|symmetry; exact Pm]|].
          assert (E2 : cqs d (conds s2) = K) by (rewrite C2; exact EK).
          pose proof (aco_does (mkCO 2 (OUnit UCNOT)) [c; t] _ (try_CNOT 2 c t) d s2 Hd) as H. rewrite E2 in H. apply H; [rewrite C2; exact W0|exact T2|].
          eapply live_incl; [exact L2|exact Nt|]. intros q Hq. eapply Permutation_in; [exact Pm|]. apply in_or_app. left. exact Hq.
        - intros s3 C3 T3 L3. eapply quiet_bind; [apply quiet_lift; [apply split_rel_head; [exact Nct2|discriminate]|exact T3|exact L3]|].
          intros s4 C4 T4 L4. cbn. apply quiet_ret; assumption. }
      apply (does_next _ _ _ _ _ _ s1 D E1). }
    destruct l as [|t2 l].
    - exists s1. split; [unfold mbind; rewrite E1; reflexivity|]. split; [exact C1|]. eapply uses_eq; [exact U1|reflexivity|cbn [length]; lia].
    - destruct (IH (done ++ [[t]]) s1 ltac:(congruence) (proj1 N1) (proj2 N1)) as (s2 & E2 & C2 & U2); [intros q Hq; apply I; right; exact Hq|discriminate|].
      exists s2. split; [|split; [congruence|eapply uses_eq; [eapply uses_trans; [exact U1|exact U2]|lia|cbn [length]; lia]]].
      unfold mbind. rewrite E1. unfold singles in E2 |- *. cbn [map] in E2 |- *. rewrite E2, <- app_assoc. reflexivity. }
  eapply costs_eq; [eapply costs_bind; [apply (Loop ts [] s); [reflexivity|exact T|exact Lv|apply incl_refl|exact Hts]|]| |].
  - intros s1 E1 C1. cbn beta iota. cbn [app]. eapply costs_lift_bind; [apply merge_singles|]. eapply costs_lift_bind; [apply unwrap_new_reg; exact Hts|]. apply costs_ret.
  - lia.
  - lia.
Qed.

(** *** Any sequence of toffolis *)
Lemma toffolis_next L s cr r s1 : tidy s -> live s L -> fits L (cr, r) -> toffoli local_aco cr r s = Ret (cr, r) s1 -> tidy s1 /\ live s1 L.
Proof.
  intros T Lv (Hc & Hr & N & I) E1. cbn [fst snd] in *.
  assert (L1 : live s (cr ++ r)) by (eapply live_incl; eassumption).
  pose proof (toffoli_does s cr r T L1 Hc Hr) as D.
    assert (P : exists rest, Permutation ((cr ++ r) ++ rest) L).
    { clear - N I Lv. destruct Lv as (NL & _). exists (filter (fun q => negb (existsb (Nat.eqb q) (cr ++ r))) L).
      apply NoDup_Permutation; [|exact NL|].
      - apply NoDup_app_iff. split; [exact N|]. split; [apply NoDup_filter; exact NL|]. intros q Hq X. apply filter_In in X. destruct X as (_ & X).
        assert (Y : existsb (Nat.eqb q) (cr ++ r) = true) by (apply existsb_eqb_In; exact Hq). rewrite Y in X. discriminate.
      - intros q. rewrite in_app_iff, filter_In. split; [intros [X|(X & _)]; [apply I|]; exact X|]. intros X.
        destruct (existsb (Nat.eqb q) (cr ++ r)) eqn:E; [left; apply existsb_eqb_In; exact E|right; split; [exact X|reflexivity]]. }
    destruct P as (rest & P). eapply does_next; [|exact E1]. eapply does_sub with (a := (cr, r)); [exact P|exact Lv|]. intros _. exact D.
Qed.
Lemma toffolis_costs L l : forall s, tidy s -> live s L -> Forall (fits L) l ->
  costs s (toffolis l) tt (peak (map (fun p => not_temps (length (fst p))) l)) (total (map (fun p => not_objects (length (fst p)) (length (snd p))) l)).
Proof.
  unfold toffolis. induction l as [|(cr & r) l IH]; intros s T Lv F; cbn [mfold map]; [apply costs_ret|].
  inversion F as [|? ? F1 F2]; subst. destruct F1 as (Hc & Hr & N & I). cbn [fst snd] in *.
  assert (L1 : live s (cr ++ r)) by (eapply live_incl; eassumption).
  destruct (toffoli_costs s cr r T L1 Hc Hr) as (s1 & E1 & C1 & U1).
  pose proof (toffolis_next L s cr r s1 T Lv (conj Hc (conj Hr (conj N I))) E1) as D.
  destruct (IH s1 (proj1 D) (proj2 D) F2) as (s2 & E2 & C2 & U2).
  exists s2. split; [|split; [congruence|]].
  - unfold mbind at 1. unfold mbind at 1. rewrite E1. exact E2.
  - exact (uses_trans _ _ _ _ _ _ _ U1 U2).
Qed.

(** *** The adder *)
Lemma add_pipe_length : forall rc ra rb, length ra = length rc -> length rb = S (length rc) -> rc <> [] -> length (add_pipe rc ra rb) = 124 * length rc - 78.
Proof.
  induction rc as [|c [|c1 cs] IH]; intros ra rb La Lb Hc; [congruence| |]; (destruct ra as [|a ra]; [discriminate|]); (destruct rb as [|b rb]; [discriminate|]).
  - destruct ra; [|discriminate]. destruct rb as [|b1 [|]]; try discriminate. reflexivity.
  - change (add_pipe (c :: c1 :: cs) (a :: ra) (b :: rb)) with (ren [c; a; b; c1] carry_fwd ++ add_pipe (c1 :: cs) ra rb ++ ren [c; a; b; c1] carry_back ++ ren [c; a; b] sum_fwd).
    rewrite !app_length. rewrite IH; [|cbn [length] in *; lia|cbn [length] in *; lia|discriminate]. unfold ren. rewrite !map_length.
    change (length carry_fwd) with 44. change (length carry_back) with 78. change (length sum_fwd) with 2. cbn [length]. lia.
Qed.
Lemma add_back_length : forall rc ra rb, length ra = length rc -> length rb = S (length rc) -> rc <> [] -> length (add_back rc ra rb) = 206 * length rc - 126.
Proof.
  induction rc as [|c [|c1 cs] IH]; intros ra rb La Lb Hc; [congruence| |]; (destruct ra as [|a ra]; [discriminate|]); (destruct rb as [|b rb]; [discriminate|]).
  - destruct ra; [|discriminate]. destruct rb as [|b1 [|]]; try discriminate. reflexivity.
  - change (add_back (c :: c1 :: cs) (a :: ra) (b :: rb)) with (((ren [c; a; b] sum_back ++ ren [c; a; b; c1] carry_twice) ++ add_back (c1 :: cs) ra rb) ++ ren [c; a; b; c1] carry_back).
    rewrite !app_length. rewrite IH; [|cbn [length] in *; lia|cbn [length] in *; lia|discriminate]. unfold ren. rewrite !map_length.
    change (length carry_twice) with 126. change (length carry_back) with 78. change (length sum_back) with 2. cbn [length]. lia.
Qed.

(** *** Its inverse *)
Lemma inv_puts (rs : list reg) (f : list reg -> M (list reg)) out sc bk : NoDup (concat rs) -> (forall r, In r rs -> r <> []) -> rs <> [] ->
  puts [] (f (ranges 0 (map (@length nat) rs))) out sc -> invert_subcircuit sc = Ok bk ->
  Forall (sized_entry (length (concat rs))) bk -> (exists e, In e bk /\ In (length (concat rs) - 1) (fst e)) ->
  puts [] (inv_macro 0 rs f) rs (ren (concat rs) bk).
Proof.
  intros N Hne Hrs P Iv Sz Top s Es.
  assert (Hc : concat rs <> []) by (destruct rs as [|r rs']; [congruence|]; specialize (Hne r (or_introl eq_refl)); destruct r; [congruence|discriminate]).
  assert (New : forall s0, on_new (sub_rs <- mmap (fun r => register (length r)) rs ;; _ <- f sub_rs ;; make_subcircuit) s0 = Ret sc s0).
  { intros s0. unfold on_new, empty_builder. unfold mbind at 1. rewrite registers_new by exact Hne. cbn [Nat.add]. unfold mbind at 1. rewrite P by reflexivity. reflexivity. }
  unfold inv_macro. unfold mbind at 1. rewrite New. unfold mbind at 1, lift at 1. rewrite merge_registers_ok by exact Hne.
  unfold mbind at 1, lift at 1. rewrite unwrap_new_reg by exact Hc. unfold mbind at 1. unfold apply_inverted_subcircuit, apply_subcircuit. unfold mbind at 1, lift at 1. rewrite Iv.
  rewrite (pipe_puts [] (concat rs) bk N Hc Sz Top s Es). unfold mbind at 1, lift at 1. rewrite split_groups_ranges by assumption. reflexivity.
Qed.
Lemma add_inv_puts rc ra rb : length ra = length rc -> length rb = S (length rc) -> rc <> [] -> NoDup (rc ++ ra ++ rb) ->
  exists p, puts [] (add_inv 0 [rc; ra; rb]) [rc; ra; rb] p /\ length p = 206 * length rc - 126.
Proof.
  intros La Lb Hc N. destruct rc as [|c cs]; [congruence|]. set (n := length cs). cbn [length] in La, Lb. fold n in La, Lb. set (rc := c :: cs) in *. assert (Lc : length rc = S n) by reflexivity.
  set (qc := seq 0 (S n)). set (qa := seq (S n) (S n)). set (qb := seq (S n + S n) (S (S n))).
  assert (Eq : qc ++ qa ++ qb = seq 0 (S n + (S n + S (S n)))) by (unfold qc, qa, qb; rewrite (seq_app (S n) (S n + S (S n)) 0), (seq_app (S n) (S (S n)) (0 + S n)); reflexivity).
  assert (Nq : NoDup (qc ++ qa ++ qb)) by (rewrite Eq; apply seq_NoDup).
  assert (Lq : length qc = S n /\ length qa = S n /\ length qb = S (S n)) by (unfold qc, qa, qb; rewrite !seq_length; auto). destruct Lq as (Lqc & Lqa & Lqb).
  assert (Ec : concat [rc; ra; rb] = rc ++ ra ++ rb) by (cbn [concat]; rewrite app_nil_r; reflexivity).
  assert (Lk : length (concat [rc; ra; rb]) = S n + (S n + S (S n))) by (rewrite Ec, !app_length; lia).
  exists (ren (concat [rc; ra; rb]) (add_back qc qa qb)). split.
  - apply (inv_puts [rc; ra; rb] (add 0) [qc; qa; qb] (add_pipe qc qa qb) (add_back qc qa qb)).
    + rewrite Ec. exact N.
    + intros r [<-|[<-|[<-|[]]]]; [discriminate|destruct ra|destruct rb]; discriminate.
    + discriminate.
    + rewrite (ranges_add n) by assumption. fold qc qa qb. unfold add. cbn [nth]. apply add_puts; try lia; try assumption. unfold qc; discriminate.
    + apply add_back_ok.
    + rewrite Lk. pose proof (add_back_proper qc qa qb) as Pr.
      assert (Wf : Forall (wf_entry (S n + (S n + S (S n)))) (add_back qc qa qb)) by (apply add_back_wf; [exact Nq|]; intros q Hq; rewrite Eq in Hq; apply in_seq in Hq; lia).
      rewrite Forall_forall in *. intros e He. apply wf_sized; [apply Wf|apply Pr]; exact He.
    + rewrite Lk. destruct (add_back_top qc qa qb ltac:(lia) ltac:(lia) ltac:(unfold qc; discriminate)) as (e & He & Hl). exists e. split; [exact He|].
      replace (S n + (S n + S (S n)) - 1) with (last qb 0); [exact Hl|]. unfold qb. rewrite last_seq. lia.
  - unfold ren. rewrite map_length, add_back_length; [rewrite Lqc, Lc; reflexivity|lia|lia|unfold qc; discriminate].
Qed.
Lemma add_puts_length rc ra rb : length ra = length rc -> length rb = S (length rc) -> rc <> [] -> NoDup (rc ++ ra ++ rb) ->
  exists p, puts [] (add 0 [rc; ra; rb]) [rc; ra; rb] p /\ length p = 124 * length rc - 78.
Proof.
  intros La Lb Hc N. exists (add_pipe rc ra rb). split; [|apply add_pipe_length; assumption]. unfold add. cbn [nth]. apply add_puts; auto.
Qed.
