(** Costs of toffoli and of conditioned gates. *)
From Coq Require Import Permutation Reals ZArith QArith.
From Verif Require Import Base BitsSpec OpsModel BuilderModel RegProofs DenSpec SimSpec RunSpec LocalProofs RunProofs GateProofs ToffoliProofs CondProofs CostSpec.
Local Open Scope nat_scope.
Local Open Scope mon_scope.

(** Calls that append a number of objects whatever the state is, and touch nothing else. *)
Definition appends {A} (m : M A) (a : A) (g : nat) : Prop := forall s, exists p, m s = Ret a (appended s p) /\ length p = g.

Lemma appends_bind {A B} (m : M A) a g (f : A -> M B) b h : appends m a g -> appends (f a) b h -> appends (mbind m f) b (g + h).
Proof.
  intros H K s. destruct (H s) as (p & E & L). destruct (K (appended s p)) as (p' & E' & L').
  exists (p ++ p'). unfold mbind. rewrite E, E', appended_app, app_length. split; [reflexivity|lia].
Qed.
Lemma appends_ret {A} (a : A) : appends (ret a) a 0.
Proof. intros s. exists []. rewrite appended_nil. split; reflexivity. Qed.
Lemma appends_lift {A} (r : res A) a : r = Ok a -> appends (lift r) a 0.
Proof. intros ->. apply appends_ret. Qed.
Lemma appends_lift_bind {A B} (r : res A) a (f : A -> M B) b h : r = Ok a -> appends (f a) b h -> appends (mbind (lift r) f) b h.
Proof. intros E H. apply (appends_bind (lift r) a 0); [apply appends_lift; exact E|exact H]. Qed.
Lemma appends_eq {A} (m : M A) a g h : appends m a g -> g = h -> appends m a h.
Proof. intros H <-. exact H. Qed.
Lemma appends_unwrap {A} (m : M A) a g : appends m a g -> appends (unwrapM m) a g.
Proof. intros H s. destruct (H s) as (p & E & L). exists p. unfold unwrapM. rewrite E. split; [reflexivity|exact L]. Qed.
Lemma appends_gate u r : one_qubit u = true -> NoDup r -> r <> [] -> appends (BuilderModel.gate local_aco u r) r (length r).
Proof.
  intros _ N Hr. apply appends_unwrap. intros s. rewrite local_aco_ok by assumption. unfold placed. cbn [co_n Nat.eqb].
  eexists. split; [reflexivity|]. apply map_length.
Qed.
Lemma appends_whole u q : appends (local_aco [q] (mkCO 1 (OUnit u))) [q] 1.
Proof.
  intros s. rewrite local_aco_ok by (try discriminate; repeat constructor; cbn; tauto). eexists. split; reflexivity.
Qed.
Lemma appends_sdg r : NoDup r -> r <> [] -> appends (g_s_dagger local_aco r) r (2 * length r).
Proof.
  intros N Hr. unfold g_s_dagger. eapply appends_eq; [eapply appends_bind; [apply (appends_gate UZ)|apply (appends_gate US)]|]; auto. lia.
Qed.
Lemma appends_tdg r : NoDup r -> r <> [] -> appends (g_t_dagger local_aco r) r (3 * length r).
Proof.
  intros N Hr. unfold g_t_dagger. eapply appends_eq; [eapply appends_bind; [apply appends_sdg|apply (appends_gate UT)]|]; auto. lia.
Qed.
Lemma appends_cnot c ts : NoDup (c :: ts) -> ts <> [] -> appends (cnot local_aco [c] ts) ([c], ts) (length ts).
Proof.
  intros N Hts. inversion N as [|? ? Nc Nts]; subst. unfold cnot. cbn [length Nat.ltb Nat.leb].
  eapply appends_lift_bind; [apply split_all_ok; assumption|].
  assert (Loop : forall l done, incl l ts -> appends (mfold (cnot_step local_aco) (singles l) ([c], done)) ([c], done ++ singles l) (length l)).
  { induction l as [|t l IH]; intros done I; cbn [singles map mfold length].
    - rewrite app_nil_r. apply appends_ret.
    - assert (Ect : c <> t) by (intros ->; apply Nc, I; left; reflexivity).
      assert (Nct : NoDup [c; t]) by (repeat constructor; cbn; intuition congruence).
      apply (appends_bind _ ([c], done ++ [[t]]) 1).
      + unfold cnot_step. eapply appends_lift_bind; [apply merge2_ok; discriminate|]. cbn [app].
        apply (appends_eq _ _ (1 + 0)); [|reflexivity]. apply (appends_bind _ [c; t] 1).
        * intros s. rewrite local_aco_ok by (assumption || discriminate). eexists. split; reflexivity.
        * eapply appends_lift_bind; [apply split_rel_head; [exact Nct|discriminate]|]. cbn. apply appends_ret.
      + replace (done ++ [t] :: map (fun q => [q]) l) with ((done ++ [[t]]) ++ singles l) by (rewrite <- app_assoc; reflexivity).
        apply IH. intros q Hq. apply I. right. exact Hq. }
  apply (appends_eq _ _ (length ts + 0)); [|lia].
  apply (appends_bind _ ([c], singles ts)); [apply (Loop ts []), incl_refl|]. cbn beta iota.
  eapply appends_lift_bind; [apply merge_singles|]. eapply appends_lift_bind; [apply unwrap_new_reg; exact Hts|]. apply appends_ret.
Qed.
Lemma appends_toffoli2 a b ts : NoDup (a :: b :: ts) -> ts <> [] -> appends (basic_toffoli local_aco [a; b] ts) ([a; b], ts) (14 * length ts + 7).
Proof.
  intros N Hts. inversion N as [|? ? Na Nb]; subst. inversion Nb as [|? ? Nb' Nts]; subst. cbn [In] in Na.
  assert (N1 : NoDup (a :: ts)) by (constructor; tauto).
  assert (N2 : NoDup [a; b]) by (repeat constructor; cbn; intuition congruence).
  assert (N3 : NoDup [b]) by (repeat constructor; cbn; tauto).
  assert (N4 : NoDup [a]) by (repeat constructor; cbn; tauto).
  unfold basic_toffoli. cbn [length Nat.eqb].
  eapply appends_lift_bind; [apply split_rel_head; [exact N2|discriminate]|]. cbn beta iota.
  eapply appends_eq.
  - eapply appends_bind; [apply (appends_gate UH); auto|].
    eapply appends_bind; [apply appends_unwrap, (appends_cnot b); auto|]. cbn beta iota.
    eapply appends_bind; [apply appends_tdg; auto|].
    eapply appends_bind; [apply appends_unwrap, (appends_cnot a); auto|]. cbn beta iota.
    eapply appends_bind; [apply (appends_gate UT); auto|].
    eapply appends_bind; [apply appends_unwrap, (appends_cnot b); auto|]. cbn beta iota.
    eapply appends_bind; [apply appends_tdg; auto|].
    eapply appends_bind; [apply appends_unwrap, (appends_cnot a); auto|]. cbn beta iota.
    eapply appends_bind; [apply (appends_gate UT); auto; discriminate|].
    eapply appends_bind; [apply (appends_gate UT); auto|].
    eapply appends_bind; [apply appends_unwrap, (appends_cnot a); auto; discriminate|]. cbn beta iota.
    eapply appends_bind; [apply (appends_gate UH); auto|].
    eapply appends_bind; [apply (appends_gate UT); auto; discriminate|].
    eapply appends_bind; [apply appends_tdg; auto; discriminate|].
    eapply appends_bind; [apply appends_unwrap, (appends_cnot a); auto; discriminate|]. cbn beta iota.
    eapply appends_lift_bind; [apply merge2_ok; discriminate|]. apply appends_ret.
  - cbn [length]. lia.
Qed.

(** Calls on states with live registers. *)
Definition costs {A} (s : st) (m : M A) (a : A) (k g : nat) : Prop := exists s', m s = Ret a s' /\ conds s' = conds s /\ uses k g s s'.

Lemma spare_appended s p : spare (appended s p) = spare s.
Proof. reflexivity. Qed.
Lemma uses_appended s p : uses 0 (length p) s (appended s p).
Proof. unfold uses. rewrite spare_appended. cbn. rewrite app_length. repeat split; lia. Qed.
Lemma costs_appends {A} (m : M A) a g s : appends m a g -> costs s m a 0 g.
Proof. intros H. destruct (H s) as (p & E & <-). exists (appended s p). split; [exact E|]. split; [reflexivity|apply uses_appended]. Qed.
Lemma uses_trans k g s s1 k' g' s2 : uses k g s s1 -> uses k' g' s1 s2 -> uses (Nat.max k k') (g + g') s s2.
Proof. unfold uses. intros (A1 & A2 & A3) (B1 & B2 & B3). repeat split; lia. Qed.
Lemma uses_eq k g k' g' s s' : uses k g s s' -> k = k' -> g = g' -> uses k' g' s s'.
Proof. intros H <- <-. exact H. Qed.
Lemma uses_refl s : uses 0 0 s s.
Proof. unfold uses. repeat split; lia. Qed.
Lemma costs_eq {A} s (m : M A) a k g k' g' : costs s m a k g -> k = k' -> g = g' -> costs s m a k' g'.
Proof. intros H <- <-. exact H. Qed.
Lemma costs_bind {A B} s (m : M A) a k g (f : A -> M B) b k' g' : costs s m a k g ->
  (forall s1, m s = Ret a s1 -> conds s1 = conds s -> costs s1 (f a) b k' g') -> costs s (mbind m f) b (Nat.max k k') (g + g').
Proof.
  intros (s1 & E & C & U) H. destruct (H s1 E C) as (s2 & E2 & C2 & U2). exists s2. unfold mbind. rewrite E.
  split; [exact E2|]. split; [congruence|]. eapply uses_trans; eassumption.
Qed.
Lemma costs_lift_bind {A B} s (r : res A) a (f : A -> M B) b k g : r = Ok a -> costs s (f a) b k g -> costs s (mbind (lift r) f) b k g.
Proof. intros -> H. exact H. Qed.
Lemma costs_ret {A} s (a : A) : costs s (ret a) a 0 0.
Proof. exists s. split; [reflexivity|]. split; [reflexivity|apply uses_refl]. Qed.
Lemma costs_unwrap {A} s (m : M A) a k g : costs s m a k g -> costs s (unwrapM m) a k g.
Proof. intros (s1 & E & H). exists s1. unfold unwrapM. rewrite E. auto. Qed.

(** One temporary. *)
Lemma make_uses s L : tidy s -> live s L -> exists t s1, make_zeroed_temp_qubit s = Ret [t] s1 /\ conds s1 = conds s /\ tidy s1 /\ live s1 (t :: L) /\
  bn (bld s1) = bn (bld s) + (1 - spare s) /\ spare s1 = spare s - 1 /\ pipeline (bld s1) = pipeline (bld s).
Proof.
  intros T Lv. destruct (quiet_make s L T Lv) as (t & _ & _ & s1 & H1 & H2 & H3 & H4 & H5 & H6 & H7 & H8).
  exists t, s1. split; [exact H1|]. split; [exact H2|]. split; [exact H6|]. split; [exact H7|].
  unfold spare. revert H1. unfold make_zeroed_temp_qubit, mbind, get. destruct (rev (zeroed (bld s))) as [|r z] eqn:E.
  - assert (Z : zeroed (bld s) = []) by (rewrite <- (rev_involutive (zeroed (bld s))), E; reflexivity).
    unfold qubit, register, mbind, get, lift, put. cbn. intros [= _ <-]. cbn [bld bn zeroed pipeline]. rewrite Z. cbn. repeat split; lia.
  - assert (Z : zeroed (bld s) = rev z ++ [r]) by (rewrite <- (rev_involutive (zeroed (bld s))), E; reflexivity).
    unfold put, ret. intros [= _ <-]. cbn [bld bn zeroed pipeline]. rewrite Z, app_length. cbn [length]. repeat split; lia.
Qed.
Lemma return_uses s t L : tidy s -> live s (t :: L) -> exists s1, return_zeroed_temp_register [t] s = Ret tt s1 /\ conds s1 = conds s /\ tidy s1 /\ live s1 L /\
  bn (bld s1) = bn (bld s) /\ spare s1 = spare s + 1 /\ pipeline (bld s1) = pipeline (bld s).
Proof.
  intros T Lv. destruct (quiet_return s [t] L T Lv ltac:(discriminate)) as (s1 & H1 & H2 & H3 & H4 & H5 & H6 & H7 & H8).
  exists s1. split; [exact H1|]. split; [exact H2|]. split; [exact H6|]. split; [exact H7|].
  unfold spare. revert H1. unfold return_zeroed_temp_register, mbind, lift, get, put. rewrite split_all_ok by (try discriminate; repeat constructor; cbn; tauto).
  intros [= <-]. cbn. rewrite app_length. cbn. repeat split; lia.
Qed.
(** A temporary around a call: one more held. *)
Lemma uses_temp k g s s1 s2 s3 : bn (bld s1) = bn (bld s) + (1 - spare s) -> spare s1 = spare s - 1 -> pipeline (bld s1) = pipeline (bld s) ->
  uses k g s1 s2 -> bn (bld s3) = bn (bld s2) -> spare s3 = spare s2 + 1 -> pipeline (bld s3) = pipeline (bld s2) -> uses (S k) g s s3.
Proof. unfold uses. intros A1 A2 A3 (B1 & B2 & B3) C1 C2 C3. rewrite A3 in B3. rewrite C3. repeat split; lia. Qed.

(** *** toffoli *)
Lemma toffoli_fuel_costs fuel : forall s cs ts, length cs < fuel -> tidy s -> live s (cs ++ ts) -> cs <> [] -> ts <> [] ->
  costs s (toffoli_fuel local_aco fuel cs ts) (cs, ts) (not_temps (length cs)) (not_objects (length cs) (length ts)).
Proof.
  induction fuel as [|fuel IH]; intros s cs ts Hf T Lv Hc Ht; [lia|].
  destruct cs as [|a [|b rest]]; [congruence| |]; [|destruct rest as [|c rest]].
  - cbn [toffoli_fuel length Nat.eqb]. unfold not_temps, not_objects. cbn [Nat.eqb Nat.sub]. apply costs_appends, appends_cnot; [apply Lv|exact Ht].
  - cbn [toffoli_fuel length Nat.eqb]. unfold not_temps, not_objects. cbn [Nat.eqb Nat.sub Nat.mul Nat.add]. apply costs_appends, appends_toffoli2; [apply Lv|exact Ht].
  - cbn [toffoli_fuel]. set (tl := c :: rest) in *. assert (Htl : tl <> []) by discriminate.
    assert (Hlen : S (length tl) < fuel) by (cbn [length] in Hf; lia).
    assert (Hl1 : 1 <= length tl) by (unfold tl; cbn; lia).
    assert (Hlen2 : 2 < fuel) by lia.
    pose proof (proj1 Lv) as N. assert (Ncs : NoDup ([a; b] ++ tl)) by (apply NoDup_app_iff in N; apply N).
    replace (length (a :: b :: tl) =? 1) with false by reflexivity.
    replace (length (a :: b :: tl) =? 2) with false by (unfold tl; reflexivity).
    eapply costs_lift_bind; [apply (split_rel_prefix [a; b] tl); [exact Ncs|discriminate|exact Htl]|]. cbn beta iota.
    destruct (make_uses s _ T Lv) as (t & s1 & E1 & C1 & T1 & L1 & M1 & M2 & M3).
    assert (Nt : NoDup (t :: (a :: b :: tl) ++ ts)) by apply L1.
    assert (Nta : ~ In t ((a :: b :: tl) ++ ts)) by (inversion Nt; assumption).
    assert (P1 : Permutation (([a; b] ++ [t]) ++ tl ++ ts) (t :: (a :: b :: tl) ++ ts)).
    { rewrite <- app_assoc. symmetry. apply (Permutation_middle [a; b] (tl ++ ts) t). }
    assert (P2 : Permutation (((tl ++ [t]) ++ ts) ++ [a; b]) (t :: (a :: b :: tl) ++ ts)).
    { rewrite <- !app_assoc. cbn [app]. transitivity (t :: tl ++ ts ++ [a; b]); [symmetry; apply Permutation_middle|]. constructor.
      rewrite app_assoc. apply (Permutation_app_comm (tl ++ ts) [a; b]). }
    assert (Tof : forall cs0 ts0 rest0 s0, Permutation ((cs0 ++ ts0) ++ rest0) (t :: (a :: b :: tl) ++ ts) -> length cs0 < fuel -> cs0 <> [] -> ts0 <> [] ->
      tidy s0 -> live s0 (t :: (a :: b :: tl) ++ ts) -> exists s', toffoli_fuel local_aco fuel cs0 ts0 s0 = Ret (cs0, ts0) s' /\ conds s' = conds s0 /\
        uses (not_temps (length cs0)) (not_objects (length cs0) (length ts0)) s0 s' /\ tidy s' /\ live s' (t :: (a :: b :: tl) ++ ts)).
    { intros cs0 ts0 rest0 s0 P Hl Hc0 Ht0 T0 L0. assert (Lx : live s0 (cs0 ++ ts0)).
      { eapply live_perm in L0; [|symmetry; exact P]. eapply live_incl; [exact L0| |apply incl_appl, incl_refl]. pose proof (proj1 L0) as X. apply NoDup_app_iff in X. apply X. }
      destruct (IH s0 cs0 ts0 Hl T0 Lx Hc0 Ht0) as (s' & E & C & U). exists s'. split; [exact E|]. split; [exact C|]. split; [exact U|].
      assert (D : does s0 (t :: (a :: b :: tl) ++ ts) (toffoli_fuel local_aco fuel cs0 ts0) (cs0, ts0) (t :: (a :: b :: tl) ++ ts) (ctl_nots_phase cs0 ts0 (toff_phase cs0 ts0))).
      { eapply does_sub with (a := (cs0, ts0)); [exact P|exact L0|]. intros _. apply toffoli_fuel_does; assumption. }
      destruct D as (s'' & p & D1 & _ & _ & _ & _ & _ & _ & D8 & D9 & _). rewrite E in D1. injection D1 as <-. split; assumption. }
    destruct (Tof [a; b] [t] (tl ++ ts) s1 P1 Hlen2 ltac:(discriminate) ltac:(discriminate) T1 L1) as (s2 & E2 & C2 & U2 & T2 & L2).
    destruct (Tof (tl ++ [t]) ts [a; b] s2 P2 ltac:(rewrite app_length, Nat.add_1_r; exact Hlen) ltac:(destruct tl; discriminate) Ht T2 L2) as (s3 & E3 & C3 & U3 & T3 & L3).
    destruct (Tof [a; b] [t] (tl ++ ts) s3 P1 Hlen2 ltac:(discriminate) ltac:(discriminate) T3 L3) as (s4 & E4 & C4 & U4 & T4 & L4).
    destruct (return_uses s4 t _ T4 L4) as (s5 & E5 & C5 & _ & _ & R1 & R2 & R3).
    exists s5. split; [|split; [congruence|]].
    + unfold mbind at 1. rewrite E1. unfold mbind at 1, unwrapM at 1. rewrite E2. cbn beta iota.
      unfold mbind at 1, lift at 1. rewrite merge2_ok by exact Htl.
      unfold mbind at 1, unwrapM at 1. rewrite E3. cbn beta iota.
      unfold mbind at 1, lift at 1. rewrite split_last_ok; [|apply NoDup_app_iff; apply NoDup_app_iff in Ncs; split; [apply Ncs|]; split; [repeat constructor; cbn; tauto|]; intros q Hq [<-|[]]; apply Nta; apply in_or_app; left; right; right; exact Hq|exact Htl].
      cbn beta iota. cbn [unwrap_opt]. unfold mbind at 1, lift at 1. unfold mbind at 1, unwrapM at 1. rewrite E4. cbn beta iota.
      unfold mbind at 1. rewrite E5. reflexivity.
    + pose proof (uses_temp _ _ s s1 s4 s5 M1 M2 M3 (uses_trans _ _ _ _ _ _ _ (uses_trans _ _ _ _ _ _ _ U2 U3) U4) R1 R2 R3) as U.
      unfold not_temps, not_objects in *. rewrite app_length in U. cbn [length Nat.eqb] in U |- *.
      replace (length tl + 1 =? 1) with false in U by (symmetry; apply Nat.eqb_neq; lia).
      eapply uses_eq; [exact U|lia|lia].
Qed.
Lemma toffoli_costs s cs ts : tidy s -> live s (cs ++ ts) -> cs <> [] -> ts <> [] ->
  costs s (toffoli local_aco cs ts) (cs, ts) (not_temps (length cs)) (not_objects (length cs) (length ts)).
Proof. intros. apply toffoli_fuel_costs; auto. Qed.

(** *** Conditioned gates, for every condition register *)
Definition cond_costs (co : cobj) (r : reg) (K G : nat -> nat) : Prop :=
  forall s cs, cs <> [] -> tidy s -> live s (cs ++ r) -> costs s (local_try cs r co) (cs, r) (K (length cs)) (G (length cs)).

(** What a call that works (with its meaning) leaves: the state afterwards is fit for the next one. *)
Lemma does_next {A} s L (m : M A) a L' D s1 : does s L m a L' D -> m s = Ret a s1 -> tidy s1 /\ live s1 L'.
Proof. intros (s' & p & D1 & _ & _ & _ & _ & _ & _ & D8 & D9 & _) E. rewrite E in D1. injection D1 as <-. split; assumption. Qed.

Lemma cost_X k r : r <> [] -> cond_costs (mkCO k (OUnit UX)) r not_temps (fun c => not_objects c (length r)).
Proof. intros Hr s cs Hc T Lv. apply toffoli_costs; assumption. Qed.
(** Gates of the form A X A^-1. *)
Lemma cost_conj (a b : reg -> M reg) ga gb cs r s : tidy s -> live s (cs ++ r) -> cs <> [] -> r <> [] ->
  appends (a r) r ga -> appends (b r) r gb ->
  costs s (r <- a r ;; '(cr, r) <- toffoli local_aco cs r ;; r <- b r ;; ret (cr, r)) (cs, r) (not_temps (length cs)) (ga + not_objects (length cs) (length r) + gb).
Proof.
  intros T Lv Hc Hr Ha Hb. eapply costs_eq; [eapply costs_bind; [apply costs_appends, Ha|]| |].
  - intros s1 E1 C1. destruct (Ha s) as (p & E & _). rewrite E in E1. injection E1 as <-.
    eapply costs_bind; [apply toffoli_costs; assumption|]. intros s2 E2 C2. cbn beta iota.
    eapply costs_bind; [apply costs_appends, Hb|]. intros s3 E3 C3. apply costs_ret.
  - lia.
  - lia.
Qed.
Lemma appends_ry_pi_by q m : (m =? 0)%Z = false -> (m =? - 2 ^ 63)%Z = false -> appends (ry_pi_by [q] m) [q] 6.
Proof.
  intros Z1 Z2. assert (N : NoDup [q]) by (repeat constructor; cbn; tauto).
  unfold ry_pi_by. eapply appends_lift_bind; [unfold ratio_1; rewrite Z1, Z2; reflexivity|]. unfold ry_ratio.
  apply (appends_eq _ _ (1 + (1 + (1 + (1 + 2))))); [|reflexivity].
  apply (appends_bind _ [q] 1); [exact (appends_gate US [q] eq_refl N ltac:(discriminate))|].
  apply (appends_bind _ [q] 1); [exact (appends_gate UH [q] eq_refl N ltac:(discriminate))|].
  apply (appends_bind _ [q] 1); [unfold rz_ratio, rz; apply appends_unwrap, appends_whole|].
  apply (appends_bind _ [q] 1); [exact (appends_gate UH [q] eq_refl N ltac:(discriminate))|].
  apply (appends_sdg [q]); [exact N|discriminate].
Qed.
Lemma cost_Y k r : r <> [] -> cond_costs (mkCO k (OUnit UY)) r not_temps (fun c => not_objects c (length r) + 3 * length r).
Proof.
  intros Hr s cs Hc T Lv. destruct (live_split s cs r Lv) as (Nc & Nr & Dj). cbn [local_try co_obj].
  eapply costs_eq; [apply (cost_conj (g_s local_aco) (g_s_dagger local_aco)); [exact T|exact Lv|exact Hc|exact Hr|apply (appends_gate US); auto|apply appends_sdg; auto]|reflexivity|lia].
Qed.
Lemma cost_Z k r : r <> [] -> cond_costs (mkCO k (OUnit UZ)) r not_temps (fun c => not_objects c (length r) + 2 * length r).
Proof.
  intros Hr s cs Hc T Lv. destruct (live_split s cs r Lv) as (Nc & Nr & Dj). cbn [local_try co_obj].
  eapply costs_eq; [apply (cost_conj (g_h local_aco) (g_h local_aco)); [exact T|exact Lv|exact Hc|exact Hr|apply (appends_gate UH); auto|apply (appends_gate UH); auto]|reflexivity|lia].
Qed.
Lemma cost_H k q : cond_costs (mkCO k (OUnit UH)) [q] not_temps (fun c => not_objects c 1 + 12).
Proof.
  intros s cs Hc T Lv. cbn [local_try co_obj].
  eapply costs_eq; [apply (cost_conj (fun r => ry_pi_by r 4) (fun r => ry_pi_by r (-4))); [exact T|exact Lv|exact Hc|discriminate|apply appends_ry_pi_by; reflexivity|apply appends_ry_pi_by; reflexivity]|reflexivity|cbn [length]; lia].
Qed.
(** A conjunction computed into a temporary, a gate on it, and back. *)
Lemma cost_with_conj {A} (g : reg -> M reg) n (k : reg -> M A) out cs s : tidy s -> live s cs -> cs <> [] ->
  (forall t, appends (g [t]) [t] n) -> appends (k cs) out 0 ->
  costs s (tq <- make_zeroed_temp_qubit ;; '(cr, tq) <- toffoli local_aco cs tq ;; tq <- g tq ;;
     '(cr, tq) <- toffoli local_aco cr tq ;; _ <- return_zeroed_temp_register tq ;; k cr) out
    (1 + not_temps (length cs)) (2 * not_objects (length cs) 1 + n).
Proof.
  intros T Lv Hc Hg Hk. destruct (make_uses s cs T Lv) as (t & s1 & E1 & C1 & T1 & L1 & M1 & M2 & M3).
  assert (P : Permutation (cs ++ [t]) (t :: cs)) by (symmetry; apply Permutation_cons_append).
  assert (Tof : forall s0, tidy s0 -> live s0 (t :: cs) -> exists s', toffoli local_aco cs [t] s0 = Ret (cs, [t]) s' /\ conds s' = conds s0 /\
    uses (not_temps (length cs)) (not_objects (length cs) 1) s0 s' /\ tidy s' /\ live s' (t :: cs)).
  { intros s0 T0 L0. assert (Lx : live s0 (cs ++ [t])) by (eapply live_perm; [exact L0|symmetry; exact P]).
    destruct (toffoli_costs s0 cs [t] T0 Lx Hc ltac:(discriminate)) as (s' & E & C & U). exists s'. split; [exact E|]. split; [exact C|]. split; [exact U|].
    destruct (does_next _ _ _ _ _ _ s' (toffoli_does s0 cs [t] T0 Lx Hc ltac:(discriminate)) E) as (A1 & A2). split; [exact A1|]. eapply live_perm; [exact A2|exact P]. }
  destruct (Tof s1 T1 L1) as (s2 & E2 & C2 & U2 & T2 & L2).
  destruct (Hg t s2) as (p & E3 & Lp).
  assert (T3 : tidy (appended s2 p)) by exact T2. assert (L3 : live (appended s2 p) (t :: cs)) by exact L2.
  destruct (Tof _ T3 L3) as (s4 & E4 & C4 & U4 & T4 & L4).
  destruct (return_uses s4 t _ T4 L4) as (s5 & E5 & C5 & _ & _ & R1 & R2 & R3).
  destruct (Hk s5) as (p5 & E6 & L6). destruct p5; [|discriminate]. rewrite appended_nil in E6.
  exists s5. split; [|split; [cbn in C4; congruence|]].
  - unfold mbind at 1. rewrite E1. unfold mbind at 1. rewrite E2. cbn beta iota. unfold mbind at 1. rewrite E3. unfold mbind at 1. rewrite E4. cbn beta iota.
    unfold mbind at 1. rewrite E5. exact E6.
  - pose proof (uses_appended s2 p) as U3. rewrite Lp in U3.
    eapply uses_eq; [exact (uses_temp _ _ s s1 s4 s5 M1 M2 M3 (uses_trans _ _ _ _ _ _ _ (uses_trans _ _ _ _ _ _ _ U2 U3) U4) R1 R2 R3)|lia|lia].
Qed.
Lemma cost_phase (g : reg -> M reg) cs t s : tidy s -> live s (cs ++ [t]) -> cs <> [] -> (forall t, appends (g [t]) [t] 1) ->
  costs s (cond_phase g cs [t]) (cs, [t]) (length cs) (2 * not_objects (length cs + 1) 1 + 1).
Proof.
  intros T Lv Hc Hg. unfold cond_phase. eapply costs_lift_bind; [apply merge2_ok; exact Hc|].
  assert (Hl : 1 <= length cs) by (destruct cs; [congruence|cbn; lia]).
  eapply costs_eq; [apply (cost_with_conj g 1 (fun cr => '(cr, r) <- lift (split_last_qubit cr) ;; r <- lift (unwrap_opt r) ;; ret (cr, r)));
    [exact T|exact Lv|destruct cs; discriminate|exact Hg|]| |].
  - eapply appends_lift_bind; [apply split_last_ok; [apply Lv|exact Hc]|]. cbn beta iota. eapply appends_lift_bind; [reflexivity|]. apply appends_ret.
  - unfold not_temps. rewrite app_length. cbn [length]. lia.
  - rewrite app_length. reflexivity.
Qed.
Lemma cost_S k t : cond_costs (mkCO k (OUnit US)) [t] (fun c => c) (fun c => 2 * not_objects (c + 1) 1 + 1).
Proof.
  intros s cs Hc T Lv. apply (cost_phase (g_s local_aco)); [exact T|exact Lv|exact Hc|]. intros t1. apply (appends_gate US); [reflexivity|repeat constructor; cbn; tauto|discriminate].
Qed.
Lemma cost_T k t : cond_costs (mkCO k (OUnit UT)) [t] (fun c => c) (fun c => 2 * not_objects (c + 1) 1 + 1).
Proof.
  intros s cs Hc T Lv. apply (cost_phase (g_t local_aco)); [exact T|exact Lv|exact Hc|]. intros t1. apply (appends_gate UT); [reflexivity|repeat constructor; cbn; tauto|discriminate].
Qed.
Lemma cost_CNOT k c t : cond_costs (mkCO k (OUnit UCNOT)) [c; t] (fun c => c - 1) (fun c => not_objects (c + 1) 1).
Proof.
  intros s cs Hc T Lv. cbn [local_try co_obj]. pose proof (proj1 Lv) as N.
  assert (P : (cs ++ [c]) ++ [t] = cs ++ [c; t]) by (rewrite <- app_assoc; reflexivity).
  assert (Hct : c <> t). { apply NoDup_app_iff in N. destruct N as (_ & N & _). inversion N as [|? ? X _]; subst. intros ->. apply X. left. reflexivity. }
  eapply costs_eq; [eapply costs_bind; [apply costs_ret|]| |].
  - intros s1 E1 C1. injection E1 as <-.
    eapply costs_lift_bind; [apply split_first_ok; [repeat constructor; cbn; intuition congruence|discriminate]|]. cbn beta iota.
    eapply costs_lift_bind; [reflexivity|]. eapply costs_lift_bind; [apply merge2_ok; exact Hc|].
    eapply costs_bind; [apply (toffoli_costs s (cs ++ [c]) [t]); [exact T|rewrite P; exact Lv|destruct cs; discriminate|discriminate]|].
    intros s2 E2 C2. cbn beta iota.
    eapply costs_lift_bind; [apply split_last_ok; [rewrite <- P in N; apply NoDup_app_iff in N; apply N|exact Hc]|]. cbn beta iota.
    eapply costs_lift_bind; [reflexivity|]. eapply costs_lift_bind; [apply merge2_ok; discriminate|]. apply costs_ret.
  - unfold not_temps. rewrite app_length. cbn [length]. lia.
  - rewrite app_length. cbn [length]. lia.
Qed.

(** *** Depth *)
Lemma costs_take {A B} k c s (m : M A) a K G (g : reg -> M B) (f : A -> M B) b :
  nth_error (conds s) k = Some (Some c) -> (forall s, g c s = mbind m f s) ->
  costs (mkSt (bld s) (upd_nth k None (conds s))) m a K G ->
  (forall s2, conds s2 = upd_nth k None (conds s) -> f a s2 = Ret b (mkSt (bld s2) (upd_nth k (Some c) (conds s2)))) ->
  costs s (mbind (take_cr k) g) b K G.
Proof.
  intros E Eg (s1 & H1 & H2 & H3) Hf.
  exists (mkSt (bld s1) (conds s)). split; [unfold mbind at 1; unfold take_cr; rewrite E, Eg; unfold mbind; rewrite H1, (Hf s1 H2), H2; cbn [conds]; rewrite upd_nth_twice, upd_nth_same by exact E; reflexivity|].
  split; [reflexivity|exact H3].
Qed.
Lemma try_costs co r K G : cond_costs co r K G -> forall d s cr, wrapped d (conds s) -> tidy s -> cr <> [] -> live s ((cr ++ cqs d (conds s)) ++ r) ->
  costs s (try_cond d cr r co) (cr, r) (K (length (cr ++ cqs d (conds s)))) (G (length (cr ++ cqs d (conds s)))).
Proof.
  intros H. induction d as [|k IH]; intros s cr Hh T Hc Lv.
  - cbn [cqs try_cond] in *. rewrite app_nil_r in *. apply H; assumption.
  - destruct (Hh k (Nat.lt_succ_diag_r k)) as (c & E & Hcne).
    cbn [cqs] in *. rewrite E in *. cbn [try_cond].
    assert (Q : cr ++ c ++ cqs k (conds s) = (cr ++ c) ++ cqs k (upd_nth k None (conds s))) by (rewrite cqs_upd by lia; apply app_assoc).
    rewrite Q in *. eapply costs_take with (m := try_cond k (cr ++ c) r co); [exact E| | |].
    + intros s0. unfold mbind at 1. rewrite merge2_ok by exact Hc. reflexivity.
    + apply (IH (mkSt (bld s) (upd_nth k None (conds s))) (cr ++ c)).
      * apply wrapped_upd; [lia|]. eapply wrapped_le; [|exact Hh]. lia.
      * exact T.
      * destruct cr; [congruence|discriminate].
      * exact Lv.
    + intros s2 E2. cbn beta iota. unfold give_back, mbind, lift. rewrite split_rel_prefix; [reflexivity| |exact Hc|exact Hcne].
      rewrite <- !app_assoc in Lv. destruct Lv as (N & _). rewrite app_assoc in N. apply NoDup_app_iff in N. apply N.
Qed.
Lemma aco_costs co r K G : cond_costs co r K G -> forall d s, 0 < d -> wrapped d (conds s) -> tidy s -> live s (cqs d (conds s) ++ r) ->
  costs s (aco d r co) r (K (length (cqs d (conds s)))) (G (length (cqs d (conds s)))).
Proof.
  intros H [|k] s Hd Hh T Lv; [lia|]. destruct (Hh k (Nat.lt_succ_diag_r k)) as (c & E & Hcne).
  cbn [cqs] in *. rewrite E in *. cbn [aco].
  assert (Q : c ++ cqs k (conds s) = c ++ cqs k (upd_nth k None (conds s))) by (rewrite cqs_upd by lia; reflexivity).
  rewrite Q in *. eapply costs_take with (m := try_cond k c r co); [exact E|reflexivity| |].
  - apply (try_costs co r K G H k (mkSt (bld s) (upd_nth k None (conds s))) c).
    * apply wrapped_upd; [lia|]. eapply wrapped_le; [|exact Hh]. lia.
    * exact T.
    * exact Hcne.
    * exact Lv.
  - intros s2 E2. reflexivity.
Qed.
Lemma gate_costs u r K G : cond_costs (mkCO 1 (OUnit u)) r K G -> forall d s, 0 < d -> wrapped d (conds s) -> tidy s -> live s (cqs d (conds s) ++ r) ->
  costs s (BuilderModel.gate (aco d) u r) r (K (length (cqs d (conds s)))) (G (length (cqs d (conds s)))).
Proof. intros. apply costs_unwrap. apply aco_costs; assumption. Qed.
