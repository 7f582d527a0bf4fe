(** copy and rshift as circuits. *)
From Coq Require Import Reals FunctionalExtensionality Permutation.
From Coquelicot Require Import Complex.
From Verif Require Import Base BitsSpec BitsProofs OpsModel OpsSpec Instances BuilderModel RegProofs DenSpec DenProofs LocalProofs LinkProofs
  RunSpec RunProofs GateProofs ToffoliProofs CondProofs SubSpec SubProofs SubProofs2 SubProofs3 ProgramModel ProgramSpec ProgramProofs ProgramProofs2 CircProofs CircProofs2
  ArithModel ArithSpec ArithProofs ArithProofs2.
Local Open Scope nat_scope.
Local Open Scope mon_scope.

(** *** Sequences of calls on a fixed list of qubits *)
Definition seg {A} (d : nat) (s : st) (L : list nat) (m : M A) (a : A) (c : list gate) : Prop :=
  does s (cqs d (conds s) ++ L) m a (cqs d (conds s) ++ L) (controlled (cqs d (conds s)) (eff c)).
Lemma seg_quiet {A} d s L (m : M A) a : quiet s (cqs d (conds s) ++ L) m a (cqs d (conds s) ++ L) -> seg d s L m a [].
Proof.
  intros H. unfold seg. eapply does_eq; [apply quiet_does; exact H|]. intros psi. extensionality x. unfold controlled, eff. cbn. destruct (forallb x _); reflexivity.
Qed.
Lemma seg_bind {A B} d s L (m : M A) a c1 (f : A -> M B) b c2 : NoDup (cqs d (conds s) ++ L) -> cok L c2 -> seg d s L m a c1 ->
  (forall s1, conds s1 = conds s -> tidy s1 -> live s1 (cqs d (conds s) ++ L) -> seg d s1 L (f a) b c2) -> seg d s L (mbind m f) b (c1 ++ c2).
Proof.
  intros N Ck H1 H2. unfold seg in *. set (K := cqs d (conds s)) in *. eapply does_eq.
  - eapply does_bind; [exact H1|apply incl_refl|apply incl_refl|]. intros s1 C1 T1 L1. specialize (H2 s1 C1 T1 L1). rewrite C1 in H2. exact H2.
  - intros psi. cbn beta. rewrite (controlled_comp K L); [|apply only_eff; exact Ck|apply NoDup_app_iff in N; apply N]. extensionality x. unfold controlled. rewrite eff_app. reflexivity.
Qed.
Lemma seg_frame {A} d s L rho (m : M A) a c : incl L rho -> NoDup L -> live s (cqs d (conds s) ++ rho) ->
  (live s (cqs d (conds s) ++ L) -> seg d s L m a c) -> seg d s rho m a c.
Proof.
  intros I NL Lv H. unfold seg in *. set (K := cqs d (conds s)) in *. pose proof (proj1 Lv) as N. apply NoDup_app_iff in N. destruct N as (NK & Nr & Dis).
  destruct (part_of L rho NL Nr I) as (rest & P). assert (PK : Permutation ((K ++ L) ++ rest) (K ++ rho)) by (rewrite <- app_assoc; apply Permutation_app_head; exact P).
  assert (Lv' : live s ((K ++ L) ++ rest)) by (eapply live_perm; [exact Lv|symmetry; exact PK]).
  eapply does_perm; [exact PK|exact PK|]. apply does_frame; [exact Lv'|]. apply H.
  destruct Lv' as (N1 & Y). apply NoDup_app_iff in N1. split; [apply N1|]. intros q Hq. apply Y, in_or_app. left. exact Hq.
Qed.

(** *** cnot *)
Definition cnot_c (a b : nat) : list gate := [([(a, true)], b)].
Lemma cok_cnot a b : a <> b -> cok [a; b] (cnot_c a b).
Proof. intros H. constructor; [|constructor]. split; [cbn; intuition|]. split; [cbn; tauto|]. intros q [<-|[]]. left. reflexivity. Qed.
Lemma eff_cnot a b psi : eff (cnot_c a b) psi = ctl_nots [a] [b] psi.
Proof. extensionality x. unfold eff, cnot_c, ctl_nots. cbn. unfold step, sat. cbn. rewrite flips_single. destruct (x a); reflexivity. Qed.
Lemma cnot_seg d s a b : at_depth d s -> tidy s -> live s (cqs d (conds s) ++ [a; b]) -> seg d s [a; b] (cnot (aco d) [a] [b]) ([a], [b]) (cnot_c a b).
Proof.
  intros (El & Wr) T Lv. unfold seg. set (K := cqs d (conds s)) in *. eapply does_eq.
  - apply (cnot_does (aco d) K (conds s)); [reflexivity|exact T|exact Lv|discriminate|]. intros s1 t E T1 L1. unfold K in *. rewrite <- E in *. destruct d as [|d].
    + cbn [cqs app] in *. apply local_cnot_obj; assumption.
    + apply (aco_does _ _ _ (try_CNOT 2 a t)); try assumption. lia.
  - intros psi. extensionality x. unfold ctl_nots, controlled. rewrite eff_cnot. unfold ctl_nots. rewrite forallb_app. destruct (forallb x K); reflexivity.
Qed.
(** *** copy *)
Definition copy_c (ra rb : list nat) : list gate := map (fun p => ([(fst p, true)], snd p)) (combine ra rb).
Lemma copy_fold d L : forall ra rb s accA accB, length ra = length rb -> incl (ra ++ rb) L -> NoDup (ra ++ rb) -> at_depth d s -> tidy s -> live s (cqs d (conds s) ++ L) ->
  seg d s L (mfold (copy_step d) (combine (singles ra) (singles rb)) (accA, accB)) (accA ++ singles ra, accB ++ singles rb) (copy_c ra rb) /\ cok L (copy_c ra rb).
Proof.
  induction ra as [|a ra IH]; intros [|b rb] s accA accB E I N Ad T Lv; try discriminate.
  - split; [|constructor]. cbn [singles map combine mfold copy_c]. pose proof (app_nil_r accA) as X. pose proof (app_nil_r accB) as Y. unfold reg in *. rewrite X, Y. apply seg_quiet. apply quiet_ret; assumption.
  - cbn [length] in E. injection E as E. assert (N2 : NoDup (ra ++ rb)) by (eapply sub_NoDup; [|exact N]; cbn [app]; auto 12 using sub, sub_all).
    assert (Nab : NoDup [a; b]) by (eapply sub_NoDup; [|exact N]; cbn [app]; auto 12 using sub, sub_all).
    assert (Hab : a <> b) by (inversion Nab as [|? ? X _]; subst; cbn in X; intuition congruence).
    assert (Iab : incl [a; b] L) by (intros q [<-|[<-|[]]]; apply I; [left; reflexivity|apply in_or_app; right; left; reflexivity]).
    assert (I2 : incl (ra ++ rb) L).
    { intros q Hq. apply I. apply in_app_or in Hq. cbn. rewrite in_app_iff. cbn. tauto. }
    assert (Ck : cok L (copy_c ra rb)) by (apply (IH rb s accA accB E I2 N2 Ad T Lv)).
    assert (Ck1 : cok L (cnot_c a b)) by (eapply cok_incl; [exact Iab|apply cok_cnot; exact Hab]).
    split; [|apply (cok_app L (cnot_c a b) (copy_c ra rb)); assumption].
    cbn [singles map combine mfold]. change (copy_c (a :: ra) (b :: rb)) with (cnot_c a b ++ copy_c ra rb).
    eapply seg_bind with (a := (accA ++ [[a]], accB ++ [[b]])); [apply Lv|exact Ck| |].
    + unfold copy_step. pose proof (app_nil_r (cnot_c a b)) as X. rewrite <- X.
      eapply seg_bind; [apply Lv|constructor| |].
      * apply (seg_frame d s [a; b] L); [exact Iab|exact Nab|exact Lv|]. intros L1. apply cnot_seg; assumption.
      * intros s1 C1 T1 L1. apply seg_quiet. rewrite C1. apply quiet_ret; assumption.
    + intros s1 C1 T1 L1. pose proof (IH rb s1 (accA ++ [[a]]) (accB ++ [[b]]) E I2 N2 (at_depth_conds _ _ _ C1 Ad) T1) as X. rewrite C1 in X. destruct (X L1) as (Y & _).
      fold (singles ra). fold (singles rb). rewrite <- !app_assoc in Y. exact Y.
Qed.
Lemma copy_acts d ra rb : length ra = length rb -> ra <> [] -> NoDup (ra ++ rb) -> acts d copy [ra; rb] (eff (copy_c ra rb)) /\ cok (ra ++ rb) (copy_c ra rb).
Proof.
  intros E Hne N. assert (Hne2 : rb <> []) by (destruct ra, rb; congruence || discriminate).
  assert (Ck : cok (ra ++ rb) (copy_c ra rb)).
  { assert (Z : cqs 0 (conds (fresh (big (ra ++ rb)))) = []) by reflexivity.
    apply (copy_fold 0 (ra ++ rb) ra rb (fresh (big (ra ++ rb))) [] [] E (incl_refl _) N (fresh_depth _) (fresh_tidy _)). rewrite Z. apply fresh_live; [exact N|]. intros q Hq. apply big_spec. exact Hq. }
  split; [|exact Ck]. split; [cbn [concat]; rewrite app_nil_r; apply only_eff; exact Ck|].
  cbn [concat]. rewrite app_nil_r. intros s Ad T Lv. unfold copy. rewrite (proj2 (Nat.eqb_eq _ _) E).
  pose proof N as N'. apply NoDup_app_iff in N'. destruct N' as (Na & Nb & _).
  eapply quiet_then_does; [apply quiet_lift; [apply split_all_ok; assumption|exact T|exact Lv]|apply incl_refl|apply incl_refl|]. intros s1 C1 T1 L1.
  eapply quiet_then_does; [apply quiet_lift; [apply split_all_ok; assumption|exact T1|exact L1]|apply incl_refl|apply incl_refl|]. intros s2 C2 T2 L2.
  assert (C20 : conds s2 = conds s) by congruence.
  pose proof (copy_fold d (ra ++ rb) ra rb s2 [] [] E (incl_refl _) N (at_depth_conds _ _ _ C20 Ad) T2) as X. unfold seg in X. rewrite C20 in X. destruct (X L2) as (Y & _).
  eapply does_then_quiet; [exact Y|]. intros s3 C3 T3 L3. cbn beta iota. cbn [app].
  eapply quiet_bind; [apply quiet_lift; [apply merge_singles|exact T3|exact L3]|]. intros s4 C4 T4 L4.
  eapply quiet_bind; [apply quiet_lift; [apply unwrap_new_reg; exact Hne|exact T4|exact L4]|]. intros s5 C5 T5 L5.
  eapply quiet_bind; [apply quiet_lift; [apply merge_singles|exact T5|exact L5]|]. intros s6 C6 T6 L6.
  eapply quiet_bind; [apply quiet_lift; [apply unwrap_new_reg; exact Hne2|exact T6|exact L6]|]. intros s7 C7 T7 L7. apply quiet_ret; assumption.
Qed.

(** *** swap *)
Definition swap_c (a b : nat) : list gate := cnot_c a b ++ cnot_c b a ++ cnot_c a b.
Lemma cok_swap a b : a <> b -> cok [a; b] (swap_c a b).
Proof.
  intros H. apply cok_app; [apply cok_cnot; exact H|]. apply cok_app; [|apply cok_cnot; exact H].
  eapply cok_incl; [|apply cok_cnot; congruence]. intros q [<-|[<-|[]]]; cbn; tauto.
Qed.
Lemma run_swap a b x : a <> b -> run (swap_c a b) x = upd (upd x a (x b)) b (x a).
Proof.
  intros H. extensionality q. unfold swap_c, cnot_c. cbn. unfold step, sat. cbn. unfold flip, upd.
  assert (Eba : (b =? a) = false) by (apply Nat.eqb_neq; congruence). assert (Eab : (a =? b) = false) by (apply Nat.eqb_neq; congruence).
  destruct (x a) eqn:Ea, (x b) eqn:Eb; cbn; rewrite ?Eba, ?Eab, ?Nat.eqb_refl, ?Ea, ?Eb; cbn; rewrite ?Eba, ?Eab, ?Nat.eqb_refl, ?Ea, ?Eb; cbn; rewrite ?Eba, ?Eab, ?Nat.eqb_refl, ?Ea, ?Eb; cbn;
  destruct (Nat.eqb_spec q b) as [Hb|Hb]; destruct (Nat.eqb_spec q a) as [Ha|Ha]; try congruence; try (rewrite Hb); try (rewrite Ha); congruence.
Qed.
Lemma rev_swap a b : rev (swap_c a b) = swap_c a b.
Proof. reflexivity. Qed.
Lemma swap_seg d s a b : at_depth d s -> tidy s -> live s (cqs d (conds s) ++ [a; b]) -> seg d s [a; b] (swap (aco d) [a] [b]) ([a], [b]) (swap_c a b).
Proof.
  intros (El & Wr) T Lv. unfold seg. set (K := cqs d (conds s)) in *. assert (Hab : a <> b).
  { destruct Lv as (N & _). apply NoDup_app_iff in N. destruct N as (_ & N & _). intros ->. inversion N as [|? ? X _]. apply X. left. reflexivity. }
  eapply does_eq.
  - apply (SwapProofs.swap_does (aco d) K (conds s)); [|reflexivity|exact T|reflexivity|discriminate|exact Lv]. intros s1 c t E T1 L1. unfold K in *. rewrite <- E in *. destruct d as [|d].
    + cbn [cqs app] in *. apply local_cnot_obj; assumption.
    + apply (aco_does _ _ _ (try_CNOT 2 c t)); try assumption. lia.
  - intros psi. extensionality x. unfold ctl_swap, controlled. destruct (forallb x K); [|reflexivity]. unfold eff. rewrite rev_swap, run_swap by exact Hab. reflexivity.
Qed.
(** *** rshift *)
Definition shift_c (r : list nat) (i : nat) : list gate := swap_c (nth i r 0) (nth (if i =? 0 then length r - 1 else i - 1) r 0).
Definition rshift_c (r : list nat) : list gate := concat (map (shift_c r) (rev (seq 0 (length r - 1)))).
Lemma nth_singles (r : list nat) i : i < length r -> nth_error (map Some (singles r)) i = Some (Some [nth i r 0]).
Proof. intros H. rewrite nth_error_map. unfold singles. rewrite nth_error_map, (nth_error_nth' r 0) by exact H. reflexivity. Qed.
Lemma upd_nth_same {A} (l : list A) i a b : nth_error l i = Some a -> upd_nth i a (upd_nth i b l) = l.
Proof. revert l. induction i as [|i IH]; intros [|y l] H; try discriminate; cbn in *; [congruence|]. f_equal. apply IH, H. Qed.
Lemma upd_nth_comm {A} (l : list A) i j a b : i <> j -> upd_nth i a (upd_nth j b l) = upd_nth j b (upd_nth i a l).
Proof. revert l j. induction i as [|i IH]; intros [|y l] [|j] H; try reflexivity; try congruence. cbn. f_equal. apply IH. congruence. Qed.
Lemma shift_pair (r : list nat) i : i < length r - 1 -> (if i =? 0 then length r - 1 else i - 1) < length r /\ (if i =? 0 then length r - 1 else i - 1) <> i.
Proof. destruct (Nat.eqb_spec i 0); lia. Qed.
Lemma shift_seg d s (r : list nat) i : NoDup r -> i < length r - 1 -> at_depth d s -> tidy s -> live s (cqs d (conds s) ++ r) ->
  seg d s r (rshift_step d (length r) (map Some (singles r)) i) (map Some (singles r)) (shift_c r i) /\ cok r (shift_c r i).
Proof.
  intros N Hi Ad T Lv. pose proof (shift_pair r i Hi) as (Ho & Hn). unfold rshift_step, shift_c. set (o := if i =? 0 then length r - 1 else i - 1) in *.
  assert (Hii : i < length r) by lia. set (a := nth i r 0). set (b := nth o r 0).
  assert (Hab : a <> b) by (intros X; apply Hn; symmetry; apply (proj1 (NoDup_nth r 0) N i o Hii Ho X)).
  assert (I : incl [a; b] r) by (intros q [<-|[<-|[]]]; apply nth_In; assumption).
  assert (Ck : cok r (swap_c a b)) by (eapply cok_incl; [exact I|apply cok_swap; exact Hab]). split; [|exact Ck].
  set (v := map Some (singles r)) in *.
  assert (E1 : take_at v i = Ok ([a], upd_nth i None v)) by (apply take_at_ok, nth_singles; exact Hii).
  assert (E2 : take_at (upd_nth i None v) o = Ok ([b], upd_nth o None (upd_nth i None v))).
  { apply take_at_ok. rewrite nth_error_upd_nth. rewrite (proj2 (Nat.eqb_neq _ _)) by congruence. apply nth_singles; exact Ho. }
  change (swap_c a b) with ([] ++ swap_c a b). eapply seg_bind; [apply Lv|exact Ck|apply seg_quiet, quiet_lift; [exact E1|exact T|exact Lv]|]. intros s1 C1 T1 L1. cbn beta iota zeta.
  change (swap_c a b) with ([] ++ swap_c a b). eapply seg_bind; [rewrite C1; apply Lv|exact Ck|apply seg_quiet, quiet_lift; [exact E2|exact T1|rewrite C1; exact L1]|]. intros s2 C2 T2 L2. cbn beta iota.
  rewrite <- (app_nil_r (swap_c a b)). assert (C20 : conds s2 = conds s) by congruence. rewrite C1 in L2.
  eapply seg_bind; [rewrite C20; apply Lv|constructor| |].
  - apply (seg_frame d s2 [a; b] r); [exact I|repeat constructor; cbn; intuition|rewrite C20; exact L2|]. intros L3. unfold seg in *. eapply does_unwrap. apply swap_seg; [eapply at_depth_conds; [exact C20|exact Ad]|exact T2|exact L3].
  - intros s3 C3 T3 L3. rewrite C20 in L3. cbn beta iota. apply seg_quiet. rewrite C3, C20.
    assert (EV : upd_nth o (Some [b]) (upd_nth i (Some [a]) (upd_nth o None (upd_nth i None v))) = v).
    { rewrite (upd_nth_comm _ i o) by congruence. rewrite (upd_nth_same v i (Some [a])) by (apply nth_singles; exact Hii).
      apply upd_nth_same, nth_singles. exact Ho. }
    unfold reg in *. rewrite EV. apply quiet_ret; assumption.
Qed.
Lemma shifts_seg d (r : list nat) : NoDup r -> forall is s, Forall (fun i => i < length r - 1) is -> at_depth d s -> tidy s -> live s (cqs d (conds s) ++ r) ->
  seg d s r (mfold (rshift_step d (length r)) is (map Some (singles r))) (map Some (singles r)) (concat (map (shift_c r) is)) /\ cok r (concat (map (shift_c r) is)).
Proof.
  intros N. induction is as [|i is IH]; intros s F Ad T Lv; cbn [mfold map concat].
  - split; [|constructor]. apply seg_quiet, quiet_ret; assumption.
  - assert (Fi : i < length r - 1) by (inversion F; assumption). assert (Fs : Forall (fun i => i < length r - 1) is) by (inversion F; assumption).
    destruct (shift_seg d s r i N Fi Ad T Lv) as (S1 & K1). destruct (IH s Fs Ad T Lv) as (_ & K2). split; [|apply cok_app; assumption].
    eapply seg_bind; [apply Lv|exact K2|exact S1|]. intros s1 C1 T1 L1. pose proof (IH s1 Fs (at_depth_conds _ _ _ C1 Ad) T1) as X. rewrite C1 in X. apply (X L1).
Qed.
Lemma somes_map {A} (l : list A) : somes (map Some l) = l.
Proof. unfold somes. induction l as [|a l IH]; [reflexivity|]. cbn in *. f_equal. exact IH. Qed.
Lemma rshift_acts d (r : list nat) : r <> [] -> NoDup r -> acts d rshift [r] (eff (rshift_c r)) /\ cok r (rshift_c r).
Proof.
  intros Hne N. assert (F : Forall (fun i => i < length r - 1) (rev (seq 0 (length r - 1)))).
  { apply Forall_forall. intros i Hi. apply in_rev in Hi. apply in_seq in Hi. lia. }
  assert (Ck : cok r (rshift_c r)).
  { assert (Z : cqs 0 (conds (fresh (big r))) = []) by reflexivity.
    apply (shifts_seg 0 r N _ (fresh (big r)) F (fresh_depth _) (fresh_tidy _)). rewrite Z. apply fresh_live; [exact N|]. intros q Hq. apply big_spec. exact Hq. }
  split; [|exact Ck]. split; [cbn [concat]; rewrite app_nil_r; apply only_eff; exact Ck|]. cbn [concat]. rewrite app_nil_r. intros s Ad T Lv. unfold rshift.
  eapply quiet_then_does; [apply quiet_lift; [apply split_all_ok; assumption|exact T|exact Lv]|apply incl_refl|apply incl_refl|]. intros s1 C1 T1 L1.
  eapply quiet_then_does with (a := length r - 1); [apply quiet_lift; [|exact T1|exact L1]|apply incl_refl|apply incl_refl|].
  { unfold chk_sub. destruct r; [congruence|]. reflexivity. }
  intros s2 C2 T2 L2. assert (C20 : conds s2 = conds s) by congruence.
  pose proof (shifts_seg d r N _ s2 F (at_depth_conds _ _ _ C20 Ad) T2) as X. unfold seg in X. rewrite C20 in X. destruct (X L2) as (Y & _).
  eapply does_then_quiet; [exact Y|]. intros s3 C3 T3 L3. rewrite somes_map.
  eapply quiet_bind; [apply quiet_lift; [apply merge_singles|exact T3|exact L3]|]. intros s4 C4 T4 L4.
  eapply quiet_bind; [apply quiet_lift; [apply unwrap_new_reg; exact Hne|exact T4|exact L4]|]. intros s5 C5 T5 L5. apply quiet_ret; assumption.
Qed.
