(** Costs of subcircuits. *)
From Coq Require Import Permutation Reals ZArith QArith FunctionalExtensionality.
From Verif Require Import Base BitsSpec OpsModel BuilderModel RegProofs DenSpec SimSpec RunSpec LocalProofs RunProofs GateProofs ToffoliProofs CondProofs
  SubSpec InvertProofs SubProofs SubProofs2 SubProofs3 SubProofs4 SubProofs5 SubProofs6 CostSpec CostProofs.
Local Open Scope nat_scope.
Local Open Scope mon_scope.

(** A call from a state with live qubits [L] to one with live qubits [L']. *)
Definition paid {A} (s : st) (m : M A) (a : A) (L' : list nat) (k g : nat) : Prop :=
  exists s', m s = Ret a s' /\ conds s' = conds s /\ tidy s' /\ live s' L' /\ uses k g s s'.
Lemma paid_bind {A B} s (m : M A) a L1 k g (f : A -> M B) b L2 k' g' : paid s m a L1 k g ->
  (forall s1, conds s1 = conds s -> tidy s1 -> live s1 L1 -> paid s1 (f a) b L2 k' g') -> paid s (mbind m f) b L2 (Nat.max k k') (g + g').
Proof.
  intros (s1 & E & C & T & L & U) H. destruct (H s1 C T L) as (s2 & E2 & C2 & T2 & Lv2 & U2). exists s2. unfold mbind. rewrite E.
  split; [exact E2|]. split; [congruence|]. split; [exact T2|]. split; [exact Lv2|]. eapply uses_trans; eassumption.
Qed.
Lemma paid_ret {A} s (a : A) L : tidy s -> live s L -> paid s (ret a) a L 0 0.
Proof. intros T Lv. exists s. split; [reflexivity|]. split; [reflexivity|]. split; [exact T|]. split; [exact Lv|apply uses_refl]. Qed.
Lemma paid_lift_bind {A B} s (r : res A) a (f : A -> M B) b L k g : r = Ok a -> paid s (f a) b L k g -> paid s (mbind (lift r) f) b L k g.
Proof. intros -> H. exact H. Qed.
Lemma paid_eq {A} s (m : M A) a L k g k' g' : paid s m a L k g -> k = k' -> g = g' -> paid s m a L k' g'.
Proof. intros H <- <-. exact H. Qed.
Lemma costs_paid {A} s L (m : M A) a L' k g D : costs s m a k g -> does s L m a L' D -> paid s m a L' k g.
Proof. intros (s' & E & C & U) D0. destruct (does_next _ _ _ _ _ _ s' D0 E) as (T & Lv). exists s'. auto. Qed.

(** One recorded object. *)
Lemma cost_Rz k th q : cond_costs (mkCO k (OUnit (URz th))) [q] (fun c => c) (fun c => 2 * not_objects (c + 1) 1 + 1).
Proof.
  intros s cs Hc T Lv. cbn [local_try co_obj]. assert (Hl : 1 <= length cs) by (destruct cs; [congruence|cbn; lia]).
  eapply costs_lift_bind; [apply merge2_ok; exact Hc|].
  eapply costs_eq; [apply (cost_with_conj (fun tq => match th with Floating theta => rz tq theta | PiRational q => rz_ratio tq q end) 1
    (fun cr => sp <- lift (split_rel cr (seq 0 (length cs))) ;; match sp with Split cr r => ret (cr, r) | _ => crash PUnreachable end) (cs, [q]));
    [exact T|exact Lv|destruct cs; discriminate| |]| |].
  - intros t. destruct th; [unfold rz|unfold rz_ratio, rz]; apply appends_unwrap, appends_whole.
  - eapply appends_lift_bind; [apply split_rel_prefix; [apply Lv|exact Hc|discriminate]|]. cbn beta iota. apply appends_ret.
  - unfold not_temps. rewrite app_length. cbn [length]. lia.
  - rewrite app_length. reflexivity.
Qed.
Lemma kept_cond_costs n e : wf_entry n e -> kept e -> cond_costs (snd e) (fst e) (fun c => under_temps c e) (fun c => under_objects c e).
Proof.
  intros (N & R & W) F. destruct e as [qs [k o]]. unfold kept in F. cbn [fst snd co_obj] in *. destruct o as [u|m]; [|destruct F].
  destruct u; try destruct F; cbn in W; unfold under_temps, under_objects; cbn [snd co_obj];
    try (destruct qs as [|q [|? ?]]; try discriminate W; intros s cs Hc T Lv).
  - exact (cost_X k [q] ltac:(discriminate) s cs Hc T Lv).
  - exact (cost_Y k [q] ltac:(discriminate) s cs Hc T Lv).
  - exact (cost_Z k [q] ltac:(discriminate) s cs Hc T Lv).
  - exact (cost_H k q s cs Hc T Lv).
  - exact (cost_S k q s cs Hc T Lv).
  - exact (cost_T k q s cs Hc T Lv).
  - destruct l as [|? ?]; try discriminate W. exact (cost_CNOT k q _ s cs Hc T Lv).
  - exact (cost_Rz k _ q s cs Hc T Lv).
Qed.

(** *** A recorded circuit *)
Section Apply.
Context (ac : reg -> cobj -> M reg) (K : list nat) (cond : list (option reg)) (kt kg : cobj -> nat).
Definition obj_paid (e : list nat * cobj) : Prop := forall s rest L, conds s = cond -> tidy s -> Permutation ((K ++ fst e) ++ rest) L -> live s L ->
  paid s (ac (fst e) (snd e)) (fst e) L (kt (snd e)) (kg (snd e)).
Notation rn rho := (fun e : list nat * cobj => (map (fun j => nth j rho 0) (fst e), snd e)).
Definition in_order (n : nat) (e : list nat * cobj) : Prop := NoDup (fst e) /\ (forall q, In q (fst e) -> q < n) /\ fst e <> [].

Lemma entry_paid rho e s : conds s = cond -> tidy s -> live s (K ++ rho) -> in_order (length rho) e -> obj_paid (rn rho e) ->
  paid s (apply_entry ac (map Some (singles rho)) e) (map Some (singles rho)) (K ++ rho) (kt (snd e)) (kg (snd e)).
Proof.
  intros HC T Lv (N & R & Hne) Ho. destruct e as [is co]. cbn [fst snd] in *.
  assert (Nr : NoDup rho) by (destruct Lv as (X & _); apply NoDup_app_iff in X; apply X).
  set (qs := map (fun j => nth j rho 0) is). assert (Nq : NoDup qs) by (apply map_inj_NoDup; assumption).
  assert (Iq : incl qs rho) by (intros q Hq; unfold qs in Hq; apply in_map_iff in Hq; destruct Hq as (j & <- & Hj); apply nth_In, R, Hj).
  assert (Hq : qs <> []) by (unfold qs; destruct is; [congruence|discriminate]).
  assert (Es : map (fun i => [nth i rho 0]) is = singles qs) by (unfold qs, singles; rewrite map_map; reflexivity).
  unfold apply_entry. rewrite <- blanked_nil.
  eapply paid_lift_bind; [apply (take_all_ok rho is []); [exact N|exact R]|]. cbn beta iota. cbn [app]. rewrite Es.
  eapply paid_lift_bind; [apply merge_singles|]. eapply paid_lift_bind; [apply unwrap_new_reg; exact Hq|].
  destruct (part_of qs rho Nq Nr Iq) as (rest & Pm).
  assert (Pm' : Permutation ((K ++ qs) ++ rest) (K ++ rho)) by (rewrite <- app_assoc; apply Permutation_app_head; exact Pm).
  eapply paid_eq; [eapply paid_bind; [exact (Ho s rest (K ++ rho) HC T Pm' Lv)|]|apply Nat.max_0_r|apply Nat.add_0_r].
  intros s4 C4 T4 L4. eapply paid_lift_bind; [apply split_all_ok; assumption|].
  eapply paid_lift_bind; [etransitivity; [|apply (put_back_ok rho is); assumption]; rewrite Es; reflexivity|]. rewrite blanked_nil.
  replace (forallb _ (map Some (singles rho))) with true; [apply (paid_eq _ _ _ _ (Nat.max 0 0) (0 + 0)); [eapply paid_bind; [apply paid_ret; [exact T4|exact L4]|]; intros s7 C7 T7 L7; apply paid_ret; assumption|reflexivity|reflexivity]|].
  symmetry. apply forallb_forall. intros o Ho'. apply in_map_iff in Ho'. destruct Ho' as (r & <- & _). reflexivity.
Qed.
Lemma entries_paid rho sc : forall s, conds s = cond -> tidy s -> live s (K ++ rho) -> Forall (in_order (length rho)) sc -> Forall obj_paid (map (rn rho) sc) ->
  paid s (mfold (apply_entry ac) sc (map Some (singles rho))) (map Some (singles rho)) (K ++ rho) (peak (map (fun e => kt (snd e)) sc)) (total (map (fun e => kg (snd e)) sc)).
Proof.
  induction sc as [|e sc IH]; intros s HC T Lv W Ho; cbn [mfold map].
  - apply paid_ret; assumption.
  - inversion_clear W as [|? ? W1 W2]. cbn [map] in Ho. inversion_clear Ho as [|? ? O1 O2].
    eapply (paid_bind s _ _ (K ++ rho) (kt (snd e)) (kg (snd e))); [apply entry_paid; assumption|]. intros s1 C1 T1 L1. apply IH; try assumption; congruence.
Qed.

(** Several temporaries. *)
Lemma make_list_uses n : forall s L, tidy s -> live s L -> forall l, length l = n -> exists ts s1, length ts = n /\ mmap (fun _ : nat => make_zeroed_temp_qubit) l s = Ret (singles ts) s1 /\ conds s1 = conds s /\ tidy s1 /\ live s1 (ts ++ L) /\
  bn (bld s1) = bn (bld s) + (n - spare s) /\ spare s1 = spare s - n /\ pipeline (bld s1) = pipeline (bld s).
Proof.
  induction n as [|n IH]; intros s L T Lv l Hl; destruct l as [|x l]; try discriminate.
  - exists [], s. cbn. repeat (split; [reflexivity || assumption || lia|]). reflexivity || (split; [lia|reflexivity]).
  - destruct (make_uses s L T Lv) as (t & s1 & E1 & C1 & T1 & L1 & M1 & M2 & M3). injection Hl as Hl.
    destruct (IH s1 (t :: L) T1 L1 l Hl) as (ts & s2 & Ht & E2 & C2 & T2 & L2 & A1 & A2 & A3).
    exists (t :: ts), s2. split; [cbn; lia|]. split; [cbn [mmap]; unfold mbind; rewrite E1, E2; reflexivity|]. split; [congruence|]. split; [exact T2|].
    split; [eapply live_perm; [exact L2|]; cbn [app]; symmetry; apply Permutation_middle|]. split; [lia|]. split; [lia|congruence].
Qed.
Lemma make_reg_uses n s L : 0 < n -> tidy s -> live s L -> exists ts s1, length ts = n /\ make_zeroed_temp_register n s = Ret ts s1 /\ conds s1 = conds s /\ tidy s1 /\ live s1 (ts ++ L) /\
  bn (bld s1) = bn (bld s) + (n - spare s) /\ spare s1 = spare s - n /\ pipeline (bld s1) = pipeline (bld s).
Proof.
  intros Hn T Lv. destruct (make_list_uses n s L T Lv (seq 0 n) (seq_length _ _)) as (ts & s1 & Ht & E & R). exists ts, s1. split; [exact Ht|]. split; [|exact R].
  unfold make_zeroed_temp_register, mbind. rewrite E. unfold lift. rewrite merge_singles, unwrap_new_reg; [reflexivity|destruct ts; [cbn in Ht; lia|discriminate]].
Qed.
Lemma return_reg_uses s ts L : tidy s -> live s (ts ++ L) -> ts <> [] -> exists s1, return_zeroed_temp_register ts s = Ret tt s1 /\ conds s1 = conds s /\ tidy s1 /\ live s1 L /\
  bn (bld s1) = bn (bld s) /\ spare s1 = spare s + length ts /\ pipeline (bld s1) = pipeline (bld s).
Proof.
  intros T Lv Ht. destruct (quiet_return s ts L T Lv Ht) as (s1 & H1 & H2 & H3 & H4 & H5 & H6 & H7 & H8).
  exists s1. split; [exact H1|]. split; [exact H2|]. split; [exact H6|]. split; [exact H7|].
  unfold spare. revert H1. unfold return_zeroed_temp_register, mbind, lift, get, put. rewrite split_all_ok by (try assumption; pose proof (proj1 Lv) as X; apply NoDup_app_iff in X; apply X).
  intros [= <-]. cbn [bld bn zeroed pipeline]. rewrite app_length, length_singles. repeat split.
Qed.
Lemma uses_temps j k g s s1 s2 s3 : bn (bld s1) = bn (bld s) + (j - spare s) -> spare s1 = spare s - j -> pipeline (bld s1) = pipeline (bld s) ->
  uses k g s1 s2 -> bn (bld s3) = bn (bld s2) -> spare s3 = spare s2 + j -> pipeline (bld s3) = pipeline (bld s2) -> uses (j + k) g s s3.
Proof. unfold uses. intros A1 A2 A3 (B1 & B2 & B3) C1 C2 C3. rewrite A3 in B3. rewrite C3. repeat split; lia. Qed.

Lemma pipe_paid n r sc s : length r <= n -> Forall (in_order n) sc -> (exists e, In e sc /\ In (n - 1) (fst e)) ->
  (forall rho, length rho = n -> NoDup rho -> Forall obj_paid (map (rn rho) sc)) ->
  conds s = cond -> tidy s -> live s (K ++ r) -> r <> [] ->
  paid s (apply_pipeline_objects ac sc r) r (K ++ r) (n - length r + peak (map (fun e => kt (snd e)) sc)) (total (map (fun e => kg (snd e)) sc)).
Proof.
  intros Hk W Top Ho HC T Lv Hr.
  assert (NKr : NoDup (K ++ r)) by apply Lv. assert (Nr : NoDup r) by (apply NoDup_app_iff in NKr; apply NKr).
  assert (Hn : 0 < n) by (destruct r; [congruence|cbn in Hk; lia]).
  assert (TopE : list_max (concat (map (fun e : list nat * cobj => match list_max (fst e) with Some m => [m] | None => [] end) sc)) = Some (n - 1)).
  { set (bare := map (fun e : list nat * cobj => (fst e, mkCO 1 (OMeas MStoch))) sc).
    replace (map (fun e : list nat * cobj => match list_max (fst e) with Some m => [m] | None => [] end) sc)
      with (map (fun e : list nat * cobj => match list_max (fst e) with Some m => [m] | None => [] end) bare) by (unfold bare; rewrite map_map; reflexivity).
    apply top_index.
    - unfold bare. apply Forall_map. eapply Forall_impl; [|exact W]. intros e (A & B & _). split; [exact A|]. split; [exact B|exact Logic.I].
    - destruct Top as (e & He & Hl). exists (fst e, mkCO 1 (OMeas MStoch)). split; [unfold bare; apply in_map_iff; exists e; auto|exact Hl]. }
  set (KT := peak _). set (KG := total _).
  unfold apply_pipeline_objects. cbv zeta.
  eapply paid_lift_bind; [apply split_all_ok; assumption|].
  eapply paid_lift_bind; [rewrite TopE; reflexivity|].
  eapply paid_lift_bind; [apply chk_sub_ok; lia|].
  replace (1 + (n - 1) - length r) with (n - length r) by lia.
  assert (Mu : forall ts, mapM unwrap_opt (map Some (singles (r ++ ts))) = Ok (singles (r ++ ts))).
  { intros ts. induction (singles (r ++ ts)) as [|a l IH]; [reflexivity|]. cbn. cbn in IH. rewrite IH. reflexivity. }
  assert (Ef : forall ts, firstn (length r) (singles (r ++ ts)) = singles r /\ skipn (length r) (singles (r ++ ts)) = singles ts).
  { intros ts. unfold singles. rewrite map_app. rewrite <- (map_length (fun q => [q]) r). rewrite firstn_app, skipn_app, firstn_all, skipn_all, Nat.sub_diag. cbn. rewrite app_nil_r. auto. }
  assert (Ents : forall ts s4, length r + length ts = n -> conds s4 = cond -> tidy s4 -> live s4 (K ++ r ++ ts) ->
    exists s5, mfold (apply_entry ac) sc (map Some (singles (r ++ ts))) s4 = Ret (map Some (singles (r ++ ts))) s5 /\ conds s5 = conds s4 /\ tidy s5 /\ live s5 (K ++ r ++ ts) /\ uses KT KG s4 s5).
  { intros ts s4 Hl C4 T4 L4. assert (N4 : NoDup (r ++ ts)) by (destruct L4 as (X & _); apply NoDup_app_iff in X; apply X).
    apply (entries_paid (r ++ ts) sc s4 C4 T4 L4); [rewrite app_length, Hl; exact W|apply Ho; [rewrite app_length; exact Hl|exact N4]]. }
  destruct (Nat.eqb_spec (n - length r) 0) as [E|E].
  - destruct (Ents [] s ltac:(cbn; lia) HC T ltac:(rewrite app_nil_r; exact Lv)) as (s5 & E5 & C5 & T5 & L5 & U5).
    exists s5. rewrite E. split; [|rewrite app_nil_r in L5; auto].
    unfold mbind at 1. unfold ret at 1. unfold mbind at 1. replace (singles r) with (singles (r ++ [])) at 1 by (rewrite app_nil_r; reflexivity). rewrite E5.
    unfold mbind at 1, lift at 1. rewrite Mu. unfold split_vector_at. rewrite length_singles, app_length. cbn [length]. rewrite (proj2 (Nat.leb_le (length r) (length r + 0))) by lia.
    destruct (Ef []) as (-> & ->). unfold massert, mbind, ret, lift. cbn [singles map merge_registers foldM new_reg]. rewrite merge_singles. rewrite unwrap_new_reg by exact Hr. reflexivity.
  - destruct (make_reg_uses (n - length r) s (K ++ r) ltac:(lia) T Lv) as (ts & s1 & Ht & E1 & C1 & T1 & L1 & M1 & M2 & M3).
    assert (Pm : Permutation (ts ++ K ++ r) (K ++ r ++ ts)) by (rewrite (app_assoc K r); apply Permutation_app_comm).
    assert (L1' : live s1 (K ++ r ++ ts)) by (eapply live_perm; [exact L1|exact Pm]).
    assert (N4 : NoDup (r ++ ts)) by (destruct L1' as (X & _); apply NoDup_app_iff in X; apply X).
    assert (Hts : ts <> []) by (destruct ts; [cbn in Ht; lia|discriminate]).
    destruct (Ents ts s1 ltac:(lia) ltac:(congruence) T1 L1') as (s5 & E5 & C5 & T5 & L5 & U5).
    destruct (return_reg_uses s5 ts (K ++ r) T5 ltac:(eapply live_perm; [exact L5|symmetry; exact Pm]) Hts) as (s6 & E6 & C6 & T6 & L6 & R1 & R2 & R3).
    rewrite Ht in R2. exists s6. split; [|split; [congruence|split; [exact T6|split; [exact L6|exact (uses_temps _ _ _ s s1 s5 s6 M1 M2 M3 U5 R1 R2 R3)]]]].
    unfold mbind at 1. unfold mbind at 1. rewrite E1. unfold mbind at 1, lift at 1. rewrite split_all_ok; [|apply NoDup_app_iff in N4; apply N4|exact Hts].
    unfold ret at 1. replace (singles r ++ singles ts) with (singles (r ++ ts)) by (unfold singles; apply map_app). unfold mbind at 1. rewrite E5.
    unfold mbind at 1, lift at 1. rewrite Mu. unfold split_vector_at. rewrite length_singles, app_length. rewrite (proj2 (Nat.leb_le (length r) (length r + length ts))) by lia.
    destruct (Ef ts) as (-> & ->). unfold massert, ret. unfold mbind at 1. unfold mbind at 1. unfold mbind at 1, lift at 1. rewrite merge_singles.
    destruct ts as [|t ts]; [congruence|]. cbn [new_reg]. unfold mbind at 1. rewrite E6. unfold mbind at 1, lift at 1. rewrite merge_singles. unfold lift. rewrite unwrap_new_reg by exact Hr. reflexivity.
Qed.
End Apply.

(** *** On a plain builder *)
Lemma local_obj_paid n e : sized_entry n e -> obj_paid local_aco [] [] (fun _ => 0) (fun _ => 1) e.
Proof.
  intros (N & _ & Hne & Sz) s rest L HC T P Lv. exists (appended s [(fst e, snd e)]).
  split; [|split; [reflexivity|split; [exact T|split; [exact Lv|exact (uses_appended s [(fst e, snd e)])]]]].
  rewrite local_aco_ok by assumption. unfold LocalProofs.placed. rewrite Sz, Nat.eqb_refl. destruct (Nat.eqb_spec (length (fst e)) 1) as [E|E]; [|reflexivity].
  destruct (fst e) as [|q [|? ?]]; try discriminate. reflexivity.
Qed.
Lemma peak_zero {A} (l : list A) : peak (map (fun _ => 0) l) = 0.
Proof. induction l as [|a l IH]; [reflexivity|]. cbn. exact IH. Qed.
Lemma total_one {A} (l : list A) : total (map (fun _ => 1) l) = length l.
Proof. induction l as [|a l IH]; [reflexivity|]. cbn. f_equal. exact IH. Qed.
Lemma sized_ren rho e : NoDup rho -> sized_entry (length rho) e -> sized_entry (S (fold_right Nat.max 0 rho)) (map (fun j => nth j rho 0) (fst e), snd e).
Proof.
  intros N (A & B & C & D). split; [apply map_inj_NoDup; assumption|]. split; [|split; [destruct e as [[|? ?] ?]; cbn in *; congruence|cbn [fst snd]; rewrite map_length; exact D]].
  intros q Hq. cbn [fst] in Hq. apply in_map_iff in Hq. destruct Hq as (j & <- & Hj). assert (X : In (nth j rho 0) rho) by (apply nth_In, B, Hj). revert X. generalize (nth j rho 0). clear.
  induction rho as [|a rho IH]; intros q []; cbn [fold_right]; [subst; lia|]. specialize (IH q H). lia.
Qed.
Lemma sub_costs n r sc s : conds s = [] -> length r <= n -> Forall (sized_entry n) sc -> (exists e, In e sc /\ In (n - 1) (fst e)) -> tidy s -> live s r -> r <> [] ->
  paid s (apply_subcircuit 0 sc r) r r (n - length r) (length sc).
Proof.
  intros HC Hk W Top T Lv Hr. cbn [apply_subcircuit].
  eapply paid_eq; [apply (pipe_paid local_aco [] [] (fun _ => 0) (fun _ => 1) n r sc s); try assumption| |].
  - eapply Forall_impl; [|exact W]. intros e (A & B & C & _). split; [exact A|split; [exact B|exact C]].
  - intros rho Hl N. rewrite Forall_map. eapply Forall_impl; [|exact W]. intros e We. rewrite <- Hl in We. eapply local_obj_paid. apply sized_ren; [exact N|exact We].
  - rewrite peak_zero. lia.
  - apply total_one.
Qed.

(** *** Under conditions *)
Definition utemps (c : nat) (co : cobj) : nat := under_temps c ([], co).
Definition uobjs (c : nat) (co : cobj) : nat := under_objects c ([], co).
Lemma kept_obj_paid n (cr : reg) e : cr <> [] -> wf_entry n e -> kept e -> obj_paid (aco 1) cr [Some cr] (utemps (length cr)) (uobjs (length cr)) e.
Proof.
  intros Hc W F s rest L HC T P Lv.
  assert (Lx : live s (cr ++ fst e)).
  { eapply live_incl; [exact Lv| |].
    - pose proof (Permutation_NoDup (Permutation_sym P) (proj1 Lv)) as X. apply NoDup_app_iff in X. apply X.
    - intros q Hq. eapply Permutation_in; [exact P|]. apply in_or_app. left. exact Hq. }
  assert (Wr : wrapped 1 (conds s)) by (rewrite HC; intros [|k] Hk; [exists cr; auto|lia]).
  assert (EK : cqs 1 (conds s) = cr) by (rewrite HC; cbn; apply app_nil_r).
  pose proof (aco_costs _ _ _ _ (kept_cond_costs n e W F) 1 s ltac:(lia) Wr T) as H. rewrite EK in H. specialize (H Lx).
  assert (D : does s (cr ++ fst e) (aco 1 (fst e) (snd e)) (fst e) (cr ++ fst e) (act_under cr e)) by exact (aco1_kept n cr e Hc W F s HC T Lx).
  eapply costs_paid; [exact H|]. eapply does_sub with (a := fst e); [exact P|exact Lv|]. intros _. exact D.
Qed.
Lemma local_kept_costs n (r : reg) sc s (cr : reg) : length r <= n -> Forall (wf_entry n) sc -> (exists e, In e sc /\ In (n - 1) (fst e)) -> Forall kept sc ->
  cr <> [] -> tidy s -> live s (cr ++ r) -> r <> [] ->
  costs s (local_cond_subcircuit sc cr r) (cr, r) (n - length r + peak (map (under_temps (length cr)) sc)) (total (map (under_objects (length cr)) sc)).
Proof.
  intros Hk W Top F Hc T Lv Hr. unfold local_cond_subcircuit.
  destruct (pipe_paid (aco 1) cr [Some cr] (utemps (length cr)) (uobjs (length cr)) n r sc (mkSt (bld s) [Some cr]) Hk) as (s1 & E & C & T1 & L1 & U); auto.
  - rewrite Forall_forall in *. intros e He. destruct (W e He) as (A & B & _). split; [exact A|]. split; [exact B|]. exact (proj2 (proj2 (wf_placed n e (W e He) (F e He)))).
  - intros rho Hl N. rewrite <- Hl in W. pose proof (wf_rens rho sc N W) as W'. unfold ren in W'. rewrite Forall_map in W' |- *. rewrite Forall_forall in *. intros e He.
    apply (kept_obj_paid (big rho)); [exact Hc|apply W'; exact He|exact (F e He)].
  - exists (mkSt (bld s1) (conds s)). split; [unfold with_conds, mbind; rewrite E; cbn [conds] in C; unfold dissolve; rewrite C; reflexivity|]. split; [reflexivity|]. exact U.
Qed.
Section Depth.
Context (sc : pipe) (r : reg) (KT KG : nat -> nat).
Context (H : forall s cr, cr <> [] -> tidy s -> live s (cr ++ r) -> costs s (local_cond_subcircuit sc cr r) (cr, r) (KT (length cr)) (KG (length cr))).
Lemma cond_sub_costs : forall d s cr, wrapped d (conds s) -> tidy s -> cr <> [] -> live s ((cr ++ cqs d (conds s)) ++ r) ->
  costs s (apply_cond_subcircuit d sc cr r) (cr, r) (KT (length (cr ++ cqs d (conds s)))) (KG (length (cr ++ cqs d (conds s)))).
Proof.
  induction d as [|k IH]; intros s cr Hh T Hc Lv.
  - cbn [cqs apply_cond_subcircuit] in *. rewrite app_nil_r in *. apply H; assumption.
  - destruct (Hh k (Nat.lt_succ_diag_r k)) as (c & E & Hcne).
    cbn [cqs] in *. rewrite E in *. cbn [apply_cond_subcircuit].
    assert (Q : cr ++ c ++ cqs k (conds s) = (cr ++ c) ++ cqs k (upd_nth k None (conds s))) by (rewrite cqs_upd by lia; apply app_assoc).
    rewrite Q in *. eapply costs_take with (m := apply_cond_subcircuit k sc (cr ++ c) r); [exact E| | |].
    + intros s0. unfold mbind at 1. rewrite merge2_ok by exact Hc. reflexivity.
    + apply (IH (mkSt (bld s) (upd_nth k None (conds s))) (cr ++ c)).
      * apply wrapped_upd; [lia|]. eapply wrapped_le; [|exact Hh]. lia.
      * exact T.
      * destruct cr; [congruence|discriminate].
      * exact Lv.
    + intros s2 E2. cbn beta iota. unfold give_back, mbind, lift. rewrite split_rel_prefix; [reflexivity| |exact Hc|exact Hcne].
      rewrite <- !app_assoc in Lv. destruct Lv as (N & _). rewrite app_assoc in N. apply NoDup_app_iff in N. apply N.
Qed.
Lemma sub_depth_costs : forall d s, 0 < d -> wrapped d (conds s) -> tidy s -> live s (cqs d (conds s) ++ r) ->
  costs s (apply_subcircuit d sc r) r (KT (length (cqs d (conds s)))) (KG (length (cqs d (conds s)))).
Proof.
  intros [|k] s Hd Hh T Lv; [lia|]. destruct (Hh k (Nat.lt_succ_diag_r k)) as (c & E & Hcne).
  cbn [cqs] in *. rewrite E in *. cbn [apply_subcircuit].
  assert (Q : c ++ cqs k (conds s) = c ++ cqs k (upd_nth k None (conds s))) by (rewrite cqs_upd by lia; reflexivity).
  rewrite Q in *. eapply costs_take with (m := apply_cond_subcircuit k sc c r); [exact E|reflexivity| |].
  - apply (cond_sub_costs k (mkSt (bld s) (upd_nth k None (conds s))) c).
    * apply wrapped_upd; [lia|]. eapply wrapped_le; [|exact Hh]. lia.
    * exact T.
    * exact Hcne.
    * exact Lv.
  - intros s2 E2. reflexivity.
Qed.
End Depth.
