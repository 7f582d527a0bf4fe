(** The [gamma] of the documentation. *)
From Coq Require Import Reals Lra FunctionalExtensionality Permutation.
From Coquelicot Require Import Complex.
From Verif Require Import Base BitsSpec BitsProofs OpsModel OpsSpec Instances BuilderModel RegProofs DenSpec DenProofs LocalProofs LinkProofs
  RunSpec RunProofs GateProofs ToffoliProofs CondProofs SubSpec SubProofs SubProofs2 SubProofs3 SubProofs5 ProgramModel ProgramSpec ProgramProofs ProgramProofs2 CircProofs CircProofs2
  ArithModel ArithSpec ArithProofs ArithProofs5 PropGates PropCond ExampleModel CondToffProofs.
Local Open Scope nat_scope.
Local Open Scope mon_scope.

Lemma ctl_nots_controlled cs ts psi : ctl_nots cs ts psi = controlled cs (fun psi x => psi (flips ts x)) psi.
Proof. reflexivity. Qed.
Lemma only_ctl_nots L cs ts : incl (cs ++ ts) L -> NoDup ts -> only L (ctl_nots cs ts).
Proof. intros I N. eapply only_incl; [exact I|]. apply (only_controlled cs ts (fun psi x => psi (flips ts x))). apply only_nots; [apply incl_refl|exact N]. Qed.

(** *** Depth 0 *)
Lemma toff0 s cs ts L : tidy s -> live s L -> NoDup (cs ++ ts) -> incl (cs ++ ts) L -> cs <> [] -> ts <> [] -> length cs = 1 \/ length ts = 1 ->
  does s L (toffoli (aco 0) cs ts) (cs, ts) L (ctl_nots cs ts).
Proof.
  intros T Lv N I Hc Ht H. apply (does_part s L (cs ++ ts)); [exact N|exact I|exact Lv|]. intros Lv'. apply C43_toffoli_multi_partial; try assumption. tauto.
Qed.
Definition gam (ra rb : list nat) (psi : state) : state := ctl_nots rb ra (ctl_nots ra rb psi).
Lemma only_gam ra rb : NoDup (ra ++ rb) -> only (ra ++ rb) (gam ra rb).
Proof.
  intros N. apply NoDup_app_iff in N. destruct N as (Na & Nb & _). apply (only_comp _ (ctl_nots ra rb) (ctl_nots rb ra)); apply only_ctl_nots; try assumption; [apply incl_refl|].
  intros q Hq. apply in_app_iff in Hq. apply in_app_iff. tauto.
Qed.
Lemma nd_swap (ra rb : list nat) : NoDup (ra ++ rb) -> NoDup (rb ++ ra).
Proof. apply Permutation_NoDup, Permutation_app_comm. Qed.
Lemma in_swap (ra rb : list nat) : incl (rb ++ ra) (ra ++ rb).
Proof. intros q Hq. apply in_app_iff in Hq. apply in_app_iff. tauto. Qed.
Lemma gamma_acts0 ra rb : NoDup (ra ++ rb) -> ra <> [] -> rb <> [] -> length ra = 1 \/ length rb = 1 -> acts 0 gamma [ra; rb] (gam ra rb).
Proof.
  intros N Ha Hb H. split; [cbn [concat]; rewrite app_nil_r; apply only_gam; exact N|]. intros s Ad T Lv. cbn [concat cqs app gamma] in *. rewrite app_nil_r in *.
  eapply does_eq.
  - eapply does_bind; [apply (toff0 s ra rb (ra ++ rb)); try assumption; apply incl_refl|apply incl_refl|apply incl_refl|]. intros s1 C1 T1 L1. cbn beta iota.
    eapply does_then_quiet; [apply (toff0 s1 rb ra (ra ++ rb)); try assumption; [apply nd_swap; exact N|apply in_swap|tauto]|]. intros s2 C2 T2 L2. cbn beta iota. apply quiet_ret; assumption.
  - intros psi. reflexivity.
Qed.
Lemma gamma_skip_true d rs s : gamma_skip true d rs s = gamma d rs s.
Proof. reflexivity. Qed.
Lemma gamma_skip_false0 ra rb : NoDup (ra ++ rb) -> ra <> [] -> rb <> [] -> length ra = 1 \/ length rb = 1 -> acts 0 (gamma_skip false) [ra; rb] (ctl_nots ra rb).
Proof.
  intros N Ha Hb H. pose proof N as N'. apply NoDup_app_iff in N'. split; [cbn [concat]; rewrite app_nil_r; apply only_ctl_nots; [apply incl_refl|apply N']|]. intros s Ad T Lv. cbn [concat cqs app gamma_skip] in *. rewrite app_nil_r in *.
  eapply does_eq.
  - eapply does_then_quiet; [apply (toff0 s ra rb (ra ++ rb)); try assumption; apply incl_refl|]. intros s1 C1 T1 L1. cbn beta iota.
    eapply quiet_bind; [apply quiet_ret; assumption|]. intros s2 C2 T2 L2. cbn beta iota. apply quiet_ret; assumption.
  - intros psi. reflexivity.
Qed.

(** *** Under conditions *)
Definition tilted (a b t : nat) (psi : state) : state := fun x => if x a && x b then on1 mV t psi x else psi x.
Lemma only_on1 m q : only [q] (on1 m q).
Proof.
  split; [apply within_on1|]. intros p psi Hp. cbn [In] in Hp. extensionality x. rewrite <- on1_V_flip by (intros E; apply Hp; left; exact E). reflexivity.
Qed.
Lemma only_tilted a b t : NoDup [a; b; t] -> only [a; b; t] (tilted a b t).
Proof.
  intros N. replace (tilted a b t) with (controlled [a; b] (on1 mV t)); [apply (only_controlled [a; b] [t]), only_on1|].
  extensionality psi. extensionality x. unfold controlled, tilted. cbn [forallb]. rewrite andb_true_r. reflexivity.
Qed.
Lemma toffoli_acts d a b t : 0 < d -> NoDup [a; b; t] -> acts d op_toffoli [[a; b]; [t]] (tilted a b t).
Proof.
  intros Hd N. split; [cbn [concat app]; apply only_tilted; exact N|]. intros s (_ & W) T Lv. cbn [concat app op_toffoli op2] in *. unfold op_toffoli, op2.
  eapply does_then_quiet; [unfold toffoli; cbn [length toffoli_fuel Nat.eqb]; apply basic_toffoli_cond; assumption|intros s1 C1 T1 L1; cbn beta iota; apply quiet_ret; assumption].
Qed.
Definition gamT (a b t : nat) (psi : state) : state := ctl_nots [t] [a; b] (tilted a b t psi).
Lemma gamma_actsS d a b t : 0 < d -> NoDup [a; b; t] -> acts d gamma [[a; b]; [t]] (gamT a b t).
Proof.
  intros Hd N. assert (Nab : NoDup [a; b]) by (inversion N as [|? ? X Y]; inversion Y; subst; repeat constructor; cbn in *; intuition congruence).
  assert (Wn : only [a; b; t] (ctl_nots [t] [a; b])) by (apply only_ctl_nots; [intros q; cbn; tauto|exact Nab]).
  split; [apply (only_comp _ (tilted a b t) (ctl_nots [t] [a; b])); [apply only_tilted; exact N|exact Wn]|].
  intros s (El & W) T Lv. cbn [concat app gamma] in *. set (K := cqs d (conds s)) in *.
  assert (Dj : forall q, In q K -> ~ In q [a; b; t]) by (destruct Lv as (Na & _); apply NoDup_app_iff in Na; apply Na).
  eapply does_eq.
  - eapply does_bind; [unfold toffoli; cbn [length toffoli_fuel Nat.eqb]; apply basic_toffoli_cond; assumption|apply incl_refl|apply incl_refl|]. intros s1 C1 T1 L1. cbn beta iota. fold K in L1 |- *.
    eapply does_then_quiet.
    + unfold toffoli. cbn [length toffoli_fuel Nat.eqb]. apply (does_part s1 (K ++ [a; b; t]) (K ++ [t; a; b])).
      * destruct L1 as (Na & _). eapply Permutation_NoDup; [|exact Na]. apply Permutation_app_head. apply (Permutation_app_comm [a; b] [t]).
      * intros q Hq. apply in_app_iff in Hq. apply in_app_iff. cbn [In] in *. tauto.
      * exact L1.
      * intros Lx. assert (EK : K = cqs d (conds s1)) by (unfold K; rewrite C1; reflexivity). pose proof (C47_conditioned_cnot d s1 t [a; b]) as X. cbv zeta in X. rewrite <- EK in X.
        apply X; try assumption; [rewrite C1; exact W|discriminate].
    + intros s2 C2 T2 L2. cbn beta iota. apply quiet_ret; assumption.
  - intros psi. cbv beta. transitivity (controlled K (ctl_nots [t] [a; b]) (controlled K (tilted a b t) psi)).
    + fold K. change (fun (psi : state) x => if x a && x b then on1 mV t psi x else psi x) with (tilted a b t). set (phi := controlled K (tilted a b t) psi). extensionality x. unfold ctl_nots, controlled. rewrite forallb_app. destruct (forallb x K); reflexivity.
    + apply (controlled_comp K [a; b; t] (tilted a b t) (ctl_nots [t] [a; b])); [apply Wn|exact Dj].
Qed.

(** *** The inverse *)
Definition nots_c (cs ts : list nat) : list gate := map (fun t => (ones cs, t)) ts.
Lemma run_nots cs ts : NoDup ts -> (forall q, In q cs -> ~ In q ts) -> forall x, run (nots_c cs ts) x = if forallb x cs then flips ts x else x.
Proof.
  intros N. induction N as [|t ts Ht N IH]; intros Dj x.
  - cbn. destruct (forallb x cs); [rewrite flips_nil|]; reflexivity.
  - change (run (nots_c cs (t :: ts)) x) with (run (nots_c cs ts) (step x (ones cs, t))). rewrite IH by (intros q Hq X; apply (Dj q Hq); right; exact X).
    unfold step. cbn [fst snd]. rewrite sat_ones. destruct (forallb x cs) eqn:E; [|rewrite E; reflexivity].
    rewrite (forallb_flip x t cs), E; [rewrite flips_cons' by exact Ht; reflexivity|]. intros X. apply (Dj t X). left. reflexivity.
Qed.
Lemma flips_rev ts x : flips (rev ts) x = flips ts x.
Proof.
  extensionality q. unfold flips. f_equal. apply eq_true_iff_eq. rewrite !existsb_exists. split; intros (p & Hp & E); exists p; (split; [|exact E]); [apply in_rev; exact Hp|apply in_rev in Hp; exact Hp].
Qed.
Lemma eff_nots cs ts psi : NoDup ts -> (forall q, In q cs -> ~ In q ts) -> eff (nots_c cs ts) psi = ctl_nots cs ts psi.
Proof.
  intros N Dj. extensionality x. unfold eff, nots_c. rewrite <- map_rev. change (psi (run (nots_c cs (rev ts)) x) = ctl_nots cs ts psi x).
  rewrite run_nots, flips_rev; [unfold ctl_nots; destruct (forallb x cs); reflexivity|apply NoDup_rev; exact N|]. intros q Hq X. apply in_rev in X. apply (Dj q Hq X).
Qed.
Lemma cok_nots L cs ts : incl (cs ++ ts) L -> (forall q, In q cs -> ~ In q ts) -> cok L (nots_c cs ts).
Proof.
  intros I Dj. apply Forall_forall. intros g Hg. apply in_map_iff in Hg. destruct Hg as (t & <- & Ht). repeat split; cbn [fst snd]; rewrite ?fst_ones.
  - intros X. apply (Dj t X Ht).
  - apply I, in_app_iff. right. exact Ht.
  - intros q Hq. apply I, in_app_iff. left. exact Hq.
Qed.
Definition gam_c (skip : bool) (rs : list reg) : list gate :=
  match rs with [ra; rb] => nots_c ra rb ++ (if skip then nots_c rb ra else []) | _ => [] end.
Definition gamD (skip : bool) (ra rb : list nat) (psi : state) : state := if skip then gam ra rb psi else ctl_nots ra rb psi.
Lemma dj_sym (ra rb : list nat) : NoDup (ra ++ rb) -> (forall q, In q ra -> ~ In q rb) /\ (forall q, In q rb -> ~ In q ra).
Proof. intros N. apply NoDup_app_iff in N. destruct N as (_ & _ & D). split; [exact D|]. intros q Hq X. apply (D q X Hq). Qed.
Lemma eff_gam skip ra rb psi : NoDup (ra ++ rb) -> eff (gam_c skip [ra; rb]) psi = gamD skip ra rb psi.
Proof.
  intros N. destruct (dj_sym ra rb N) as (D1 & D2). apply NoDup_app_iff in N. destruct N as (Na & Nb & _). cbn [gam_c]. rewrite <- eff_app, eff_nots by assumption. unfold gamD, gam.
  destruct skip; [rewrite eff_nots by assumption; reflexivity|reflexivity].
Qed.
Lemma gamma_skip_acts skip ra rb : NoDup (ra ++ rb) -> ra <> [] -> rb <> [] -> length ra = 1 \/ length rb = 1 -> acts 0 (gamma_skip skip) [ra; rb] (gamD skip ra rb).
Proof.
  intros N Ha Hb H. destruct skip; [|apply gamma_skip_false0; assumption]. apply (acts_fun 0 gamma); [reflexivity|]. apply gamma_acts0; assumption.
Qed.
Lemma map_nth_seq0 (l pre suf : list nat) : map (fun j => nth j (pre ++ l ++ suf) 0) (seq (length pre) (length l)) = l.
Proof.
  apply nth_ext with (d := 0) (d' := 0); [rewrite map_length, seq_length; reflexivity|]. intros j Hj. rewrite map_length, seq_length in Hj.
  rewrite (nth_indep _ 0 ((fun j => nth j (pre ++ l ++ suf) 0) 0)) by (rewrite map_length, seq_length; exact Hj).
  rewrite (map_nth (fun j => nth j (pre ++ l ++ suf) 0)), seq_nth by exact Hj. rewrite app_nth2 by lia. rewrite app_nth1 by lia. f_equal. lia.
Qed.
Lemma rng_nots f cs ts : map (rng f) (nots_c cs ts) = nots_c (map f cs) (map f ts).
Proof. unfold nots_c. rewrite !map_map. apply map_ext. intros t. unfold rng. cbn [fst snd]. f_equal. unfold ones. rewrite !map_map. reflexivity. Qed.
Lemma gamma_skip_inv_acts skip ra rb : NoDup (ra ++ rb) -> ra <> [] -> rb <> [] -> length ra = 1 \/ length rb = 1 ->
  acts 0 (gamma_skip_inv skip) [ra; rb] (eff (rev (gam_c skip [ra; rb]))).
Proof.
  intros N Ha Hb H. set (p := length ra). set (q := length rb). assert (Hp : 0 < p) by (unfold p; destruct ra; [congruence|cbn; lia]). assert (Hq : 0 < q) by (unfold q; destruct rb; [congruence|cbn; lia]).
  assert (CR : concat [ra; rb] = ra ++ rb) by (cbn; rewrite app_nil_r; reflexivity).
  assert (ER : ranges 0 (map (@length nat) [ra; rb]) = [seq 0 p; seq p q]) by reflexivity.
  assert (Es : seq 0 p ++ seq p q = seq 0 (p + q)) by (rewrite seq_app; reflexivity). assert (Nr : NoDup (seq 0 p ++ seq p q)) by (rewrite Es; apply seq_NoDup).
  destruct (dj_sym _ _ Nr) as (D1 & D2). pose proof Nr as Nr'. apply NoDup_app_iff in Nr'. destruct Nr' as (Np & Nq & _).
  assert (Sq : forall n k, 0 < n -> seq k n <> []) by (intros [|n] k Hn; [lia|discriminate]).
  apply (inverse_acts 0 (gamma_skip skip) (gam_c skip) [ra; rb] (fun j => j <? p)).
  - rewrite CR. exact N.
  - repeat constructor; assumption.
  - discriminate.
  - rewrite ER. eapply acts_eq; [apply gamma_skip_acts; [exact Nr|apply Sq; exact Hp|apply Sq; exact Hq|rewrite !seq_length; exact H]|]. intros psi. symmetry. apply eff_gam. exact Nr.
  - rewrite ER, CR, app_length. fold p q. cbn [gam_c]. apply cok_app; [apply cok_nots; [rewrite Es; apply incl_refl|exact D1]|]. destruct skip; [|constructor].
    apply cok_nots; [|exact D2]. rewrite <- Es. intros j Hj. apply in_app_iff in Hj. apply in_app_iff. tauto.
  - rewrite ER, CR. cbn [gam_c]. rewrite map_app.
    assert (E1 : map (fun j => nth j (ra ++ rb) 0) (seq 0 p) = ra) by apply (map_nth_seq0 ra [] rb).
    assert (E2 : map (fun j => nth j (ra ++ rb) 0) (seq p q) = rb) by (pose proof (map_nth_seq0 rb ra []) as X; rewrite app_nil_r in X; exact X).
    rewrite rng_nots, E1, E2. f_equal. destruct skip; [|reflexivity]. rewrite rng_nots, E1, E2. reflexivity.
  - rewrite ER, CR, app_length. fold p q. cbn [gam_c]. rewrite run_app. rewrite run_nots by assumption. set (x := fun j => j <? p).
    assert (X1 : forallb x (seq 0 p) = true) by (apply forallb_forall; intros j Hj; apply in_seq in Hj; apply Nat.ltb_lt; lia). rewrite X1.
    assert (X2 : flips (seq p q) x (p + q - 1) <> x (p + q - 1)).
    { rewrite flips_in by (apply in_seq; lia). destruct (x (p + q - 1)); discriminate. }
    destruct skip; [|exact X2]. rewrite run_nots by assumption. destruct (forallb _ (seq p q)); [|exact X2]. rewrite (flips_notin (seq 0 p)) by (rewrite in_seq; lia). exact X2.
  - left. reflexivity.
Qed.
