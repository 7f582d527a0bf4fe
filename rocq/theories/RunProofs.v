(** Rules for [does]. *)
From Coq Require Import Reals FunctionalExtensionality Lra Permutation.
From Coquelicot Require Import Complex.
From Verif Require Import Base BitsSpec BitsProofs OpsModel OpsSpec Instances BuilderModel RegProofs DenSpec DenProofs LocalProofs RunSpec.
Local Open Scope nat_scope.
Local Open Scope mon_scope.

Lemma live_incl s L L' : live s L -> NoDup L' -> incl L' L -> live s L'.
Proof. intros (_ & H) N I. split; [exact N|]. intros q Hq. apply H, I, Hq. Qed.
Lemma live_perm s L L' : live s L -> Permutation L L' -> live s L'.
Proof. intros (N & H) P. split; [eapply Permutation_NoDup; eauto|]. intros q Hq. apply H. eapply Permutation_in; [symmetry; exact P|exact Hq]. Qed.
Lemma local_incl L L' D : incl L L' -> local L D -> local L' D.
Proof. intros I H q psi Hq. apply H. intros X. apply Hq, I, X. Qed.
Lemma local_id L : local L (fun psi => psi).
Proof. intros q psi _ H. exact H. Qed.
Lemma local_comp L D1 D2 : local L D1 -> local L D2 -> local L (fun psi => D2 (D1 psi)).
Proof. intros H1 H2 q psi Hq Hc. apply H2; [exact Hq|]. apply H1; assumption. Qed.

Lemma wf_entry_mono n n' e : n <= n' -> wf_entry n e -> wf_entry n' e.
Proof. intros H (A & B & C). split; [exact A|]. split; [|exact C]. intros q Hq. specialize (B q Hq). lia. Qed.
Lemma wf_entries_mono n n' p : n <= n' -> Forall (wf_entry n) p -> Forall (wf_entry n') p.
Proof. intros H. apply Forall_impl. intros e. apply wf_entry_mono. exact H. Qed.

(** Change of the operation (same owner). *)
Lemma does_eq {A} s L (m : M A) a L' D D' : does s L m a L' D -> (forall psi, D psi = D' psi) -> does s L m a L' D'.
Proof.
  intros (s' & p & H1 & H2 & H3 & H4 & H5 & H6 & H7 & H8 & H9 & H10 & H11 & H12) E. exists s', p.
  do 10 (split; [assumption|]). split; [|intros psi Hp; rewrite <- E; auto].
  intros q psi Hq Hc. rewrite <- E. auto.
Qed.
(** Change of the order of the owned qubits. *)
Lemma does_perm {A} s L1 L (m : M A) a L1' L' D : Permutation L1 L -> Permutation L1' L' -> does s L1 m a L1' D -> does s L m a L' D.
Proof.
  intros P P' (s' & p & H1 & H2 & H3 & H4 & H5 & H6 & H7 & H8 & H9 & H10 & H11 & H12). exists s', p.
  do 8 (split; [assumption|]). split; [eapply live_perm; eauto|]. split; [|split; [|exact H12]].
  - intros q. specialize (H10 q).
    assert (E : In q L1 <-> In q L) by (split; apply Permutation_in; [exact P|symmetry; exact P]).
    assert (E' : In q L1' <-> In q L') by (split; apply Permutation_in; [exact P'|symmetry; exact P']). tauto.
  - eapply local_incl; [|exact H11]. intros q. apply Permutation_in. exact P.
Qed.
(** Owning more. *)
Lemma does_frame {A} s L (m : M A) a L' D F : live s (L ++ F) -> does s L m a L' D -> does s (L ++ F) m a (L' ++ F) D.
Proof.
  intros (N & Lv) (s' & p & H1 & H2 & H3 & H4 & H5 & H6 & H7 & H8 & (N' & H9) & H10 & H11 & H12). exists s', p.
  apply NoDup_app_iff in N. destruct N as (NL & NF & NLF).
  assert (X : forall q, In q F -> ~ idle s' q /\ ~ In q L').
  { intros q Hq. assert (Y : ~ (idle s' q \/ In q L')); [|tauto]. rewrite H10. intros [Hi|Hi]; [apply (Lv q); [apply in_or_app; right; exact Hq|exact Hi]|apply (NLF q); assumption]. }
  do 8 (split; [assumption|]). split; [split|split; [|split; [|exact H12]]].
  - apply NoDup_app_iff. split; [exact N'|]. split; [exact NF|]. intros q Hq HF. destruct (X q HF). contradiction.
  - intros q Hq. apply in_app_or in Hq. destruct Hq as [Hq|Hq]; [apply H9; exact Hq|apply X; exact Hq].
  - intros q. specialize (H10 q). rewrite !in_app_iff. tauto.
  - eapply local_incl; [|exact H11]. apply incl_appl, incl_refl.
Qed.

Lemma does_ret {A} s L (a : A) : tidy s -> live s L -> does s L (ret a) a L (fun psi => psi).
Proof.
  intros T Lv. exists s, []. rewrite app_nil_r. do 9 (split; [first [reflexivity|lia|assumption|constructor]|]).
  split; [tauto|]. split; [apply local_id|]. reflexivity.
Qed.
Lemma does_lift {A} s L (r : res A) a : r = Ok a -> tidy s -> live s L -> does s L (lift r) a L (fun psi => psi).
Proof. intros -> T Lv. apply (does_ret s L a T Lv). Qed.

(** Sequence; the first call gives up nothing. *)
Lemma does_bind {A B} s L (m : M A) a L1 D1 (f : A -> M B) b L2 D2 :
  does s L m a L1 D1 -> incl L L1 -> incl L1 L ->
  (forall s1, conds s1 = conds s -> tidy s1 -> live s1 L1 -> does s1 L1 (f a) b L2 D2) ->
  does s L (mbind m f) b L2 (fun psi => D2 (D1 psi)).
Proof.
  intros (s1 & p1 & H1 & H2 & H3 & H4 & H5 & H6 & H7 & H8 & H9 & H10 & H11 & H12) I1 I2 H.
  destruct (H s1 H2 H8 H9) as (s2 & p2 & G1 & G2 & G3 & G4 & G5 & G6 & G7 & G8 & G9 & G10 & G11 & G12).
  exists s2, (p1 ++ p2). split; [unfold mbind; rewrite H1; exact G1|]. split; [congruence|]. split; [congruence|]. split; [lia|].
  split; [rewrite G5, H5, app_assoc; reflexivity|]. split; [apply Forall_app; split; [eapply wf_entries_mono; [exact G4|exact H6]|exact G6]|].
  split; [apply Forall_app; auto|]. split; [exact G8|]. split; [exact G9|]. split; [intros q; rewrite G10; apply H10|].
  split; [apply local_comp; [exact H11|eapply local_incl; [exact I2|exact G11]]|].
  intros psi Hp. rewrite den_app, H12 by (intros q Hq Hlt; apply Hp; [exact Hq|lia]). apply G12.
  intros q Hq Hlt. assert (X : idle s q /\ ~ In q L).
  { assert (~ In q L1) by (intros HL; destruct H9 as (_ & Y); apply (Y q HL Hq)). pose proof (proj1 (H10 q) (or_introl Hq)) as Z.
    assert (~ In q L) by (intros HL; apply H0, I1, HL). tauto. }
  apply H11; [apply X|]. apply Hp; [apply X|exact Hlt].
Qed.

(** Calls that append nothing. *)
Definition quiet {A} (s : st) (L : list nat) (m : M A) (a : A) (L' : list nat) : Prop :=
  exists s', m s = Ret a s' /\ conds s' = conds s /\ meas (bld s') = meas (bld s) /\ bn (bld s) <= bn (bld s') /\
    pipeline (bld s') = pipeline (bld s) /\ tidy s' /\ live s' L' /\ (forall q, idle s' q \/ In q L' <-> idle s q \/ In q L).
Lemma quiet_does {A} s L (m : M A) a L' : quiet s L m a L' -> does s L m a L' (fun psi => psi).
Proof.
  intros (s' & H1 & H2 & H3 & H4 & H5 & H6 & H7 & H8). exists s', []. rewrite app_nil_r.
  do 9 (split; [first [reflexivity|lia|assumption|constructor]|]). split; [assumption|]. split; [apply local_id|]. reflexivity.
Qed.
Lemma quiet_ret {A} s L (a : A) : tidy s -> live s L -> quiet s L (ret a) a L.
Proof. intros T Lv. exists s. do 7 (split; [first [reflexivity|lia|assumption]|]). tauto. Qed.
Lemma quiet_lift {A} s L (r : res A) a : r = Ok a -> tidy s -> live s L -> quiet s L (lift r) a L.
Proof. intros -> T Lv. apply (quiet_ret s L a T Lv). Qed.
Lemma quiet_bind {A B} s L (m : M A) a L1 (f : A -> M B) b L2 : quiet s L m a L1 ->
  (forall s1, conds s1 = conds s -> tidy s1 -> live s1 L1 -> quiet s1 L1 (f a) b L2) -> quiet s L (mbind m f) b L2.
Proof.
  intros (s1 & H1 & H2 & H3 & H4 & H5 & H6 & H7 & H8) H.
  destruct (H s1 H2 H6 H7) as (s2 & G1 & G2 & G3 & G4 & G5 & G6 & G7 & G8).
  exists s2. unfold mbind. rewrite H1. split; [exact G1|]. do 6 (split; [first [congruence|lia|assumption]|]). intros q. rewrite G8. apply H8.
Qed.
(** A call followed by a quiet one (which may give up qubits). *)
Lemma does_then_quiet {A B} s L (m : M A) a L1 D (f : A -> M B) b L2 :
  does s L m a L1 D -> (forall s1, conds s1 = conds s -> tidy s1 -> live s1 L1 -> quiet s1 L1 (f a) b L2) -> does s L (mbind m f) b L2 D.
Proof.
  intros (s1 & p1 & H1 & H2 & H3 & H4 & H5 & H6 & H7 & H8 & H9 & H10 & H11 & H12) H.
  destruct (H s1 H2 H8 H9) as (s2 & G1 & G2 & G3 & G4 & G5 & G6 & G7 & G8).
  exists s2, p1. unfold mbind. rewrite H1. split; [exact G1|]. split; [congruence|]. split; [congruence|]. split; [lia|].
  split; [congruence|]. split; [eapply wf_entries_mono; [exact G4|exact H6]|]. split; [assumption|]. split; [assumption|]. split; [assumption|].
  split; [intros q; rewrite G8; apply H10|]. split; [assumption|]. intros psi Hp. apply H12. intros q Hq Hlt. apply Hp; [exact Hq|lia].
Qed.
Lemma quiet_then_does {A B} s L (m : M A) a L1 (f : A -> M B) b L2 D :
  quiet s L m a L1 -> incl L L1 -> incl L1 L ->
  (forall s1, conds s1 = conds s -> tidy s1 -> live s1 L1 -> does s1 L1 (f a) b L2 D) -> does s L (mbind m f) b L2 D.
Proof. intros H I1 I2 K. apply (does_bind s L m a L1 (fun psi => psi) f b L2 D); [apply quiet_does; exact H| | |]; assumption. Qed.

Lemma does_unwrap {A} s L (m : M A) a L' D : does s L m a L' D -> does s L (unwrapM m) a L' D.
Proof. intros (s' & p & H1 & H). exists s', p. unfold unwrapM. rewrite H1. auto. Qed.

(** Temporaries. *)
Lemma pool_singles s : tidy s -> zeroed (bld s) = singles (pool s).
Proof.
  intros (F & _ & _). unfold pool. induction F as [|r z Hr F IH]; [reflexivity|]. destruct r as [|q [|? ?]]; try discriminate.
  cbn. rewrite IH at 1. reflexivity.
Qed.
Lemma quiet_make s L : tidy s -> live s L -> exists t, idle s t /\ ~ In t L /\ quiet s L make_zeroed_temp_qubit [t] (t :: L).
Proof.
  intros T (N & Lv). pose proof (pool_singles s T) as P. destruct T as (F & NP & R).
  destruct (pool s) as [|t z] eqn:E using rev_ind; [|clear IHz].
  - exists (bn (bld s)). assert (I : idle s (bn (bld s))) by (left; lia).
    split; [exact I|]. split; [intros H; apply (Lv _ H I)|].
    exists (mkSt (mkB (pipeline (bld s)) (bn (bld s) + 1) (zeroed (bld s)) (meas (bld s))) (conds s)).
    split; [unfold make_zeroed_temp_qubit, qubit, register, mbind, get, lift, put; rewrite P; cbn; rewrite P; reflexivity|].
    cbn [conds bld meas bn pipeline]. split; [reflexivity|]. split; [reflexivity|]. split; [lia|]. split; [reflexivity|].
    assert (PE : pool (mkSt (mkB (pipeline (bld s)) (bn (bld s) + 1) (zeroed (bld s)) (meas (bld s))) (conds s)) = []) by exact E.
    unfold tidy, live, idle. rewrite PE. cbn [bld bn zeroed]. split; [|split].
    + split; [rewrite P; constructor|]. split; [constructor|intros q []].
    + split; [constructor; [intros H; apply (Lv _ H I)|exact N]|]. intros q [<-|Hq]; [intros [X|[]]; lia|].
      intros [X|[]]. apply (Lv q Hq). left. lia.
    + intros q. rewrite E. cbn [In]. destruct (Nat.eq_dec (bn (bld s)) q) as [->|Hne]; [|intuition lia].
      split; intros _; [left; left; lia|right; left; reflexivity].
  - exists t. assert (I : idle s t). { right. rewrite E. apply in_or_app. right. left. reflexivity. }
    split; [exact I|]. split; [intros H; apply (Lv _ H I)|].
    exists (mkSt (mkB (pipeline (bld s)) (bn (bld s)) (singles z) (meas (bld s))) (conds s)).
    unfold make_zeroed_temp_qubit, mbind, get. rewrite P. unfold singles. rewrite map_app, rev_app_distr. cbn [map rev app].
    split; [unfold put; rewrite rev_involutive; reflexivity|].
    cbn [conds bld meas bn pipeline]. split; [reflexivity|]. split; [reflexivity|]. split; [lia|]. split; [reflexivity|].
    assert (PE : pool (mkSt (mkB (pipeline (bld s)) (bn (bld s)) (map (fun q => [q]) z) (meas (bld s))) (conds s)) = z) by apply concat_singles.
    apply NoDup_app_iff in NP. destruct NP as (Nz & _ & Nzt).
    unfold tidy, live, idle. rewrite PE. cbn [bld bn zeroed]. split; [|split].
    + split; [apply Forall_forall; intros r Hr; apply in_map_iff in Hr; destruct Hr as (q & <- & _); reflexivity|]. split; [exact Nz|].
      intros q Hq. apply R. apply in_or_app. left. exact Hq.
    + split; [constructor; [intros H; apply (Lv _ H I)|exact N]|]. intros q [<-|Hq].
      * intros [X|X]; [assert (In t (z ++ [t])) by (apply in_or_app; right; left; reflexivity); specialize (R t H); lia|]. apply (Nzt t X). left. reflexivity.
      * intros X. apply (Lv q Hq). unfold idle. rewrite E, in_app_iff. tauto.
    + intros q. rewrite E, in_app_iff. cbn [In]. tauto.
Qed.
Lemma quiet_return s r L : tidy s -> live s (r ++ L) -> r <> [] -> quiet s (r ++ L) (return_zeroed_temp_register r) tt L.
Proof.
  intros (F & NP & R) (N & Lv) Hr. apply NoDup_app_iff in N. destruct N as (Nr & NL & NrL).
  unfold return_zeroed_temp_register, quiet, mbind, lift, get, put. rewrite split_all_ok by assumption.
  eexists. split; [reflexivity|]. cbn [conds bld meas bn pipeline]. split; [reflexivity|]. split; [reflexivity|]. split; [lia|]. split; [reflexivity|].
  match goal with |- tidy ?s1 /\ _ => assert (PE : pool s1 = pool s ++ r) by (unfold pool; cbn; rewrite concat_app, concat_singles; reflexivity) end.
  unfold tidy, live, idle. rewrite PE. cbn [bld bn zeroed].
  assert (Lr : forall q, In q r -> ~ idle s q) by (intros q Hq; apply Lv, in_or_app; left; exact Hq).
  split; [|split].
  - split; [apply Forall_app; split; [exact F|apply Forall_forall; intros x Hx; apply in_map_iff in Hx; destruct Hx as (q & <- & _); reflexivity]|].
    split.
    + apply NoDup_app_iff. split; [exact NP|]. split; [exact Nr|]. intros q Hq Hqr. apply (Lr q Hqr). right. exact Hq.
    + intros q Hq. apply in_app_or in Hq. destruct Hq as [Hq|Hq]; [apply R; exact Hq|]. specialize (Lr q Hq). unfold idle in Lr. lia.
  - split; [exact NL|]. intros q Hq. rewrite in_app_iff. intros [X|[X|X]].
    + apply (Lv q); [apply in_or_app; right; exact Hq|left; exact X].
    + apply (Lv q); [apply in_or_app; right; exact Hq|right; exact X].
    + apply (NrL q X Hq).
  - intros q. rewrite !in_app_iff. tauto.
Qed.

(** A temporary held for a while: the operation on states where it is 0. *)
Lemma does_with_temp {A} s L (k : reg -> M A) a L' D' : tidy s -> live s L -> local L D' ->
  (forall t s1, conds s1 = conds s -> tidy s1 -> live s1 (t :: L) ->
    exists D, does s1 (t :: L) (k [t]) a L' D /\ forall psi, clean [t] psi -> D psi = D' psi) ->
  does s L (mbind make_zeroed_temp_qubit k) a L' D'.
Proof.
  intros T Lv Lo H. destruct (quiet_make s L T Lv) as (t & It & Nt & s1 & H1 & H2 & H3 & H4 & H5 & H6 & H7 & H8).
  destruct (H t s1 H2 H6 H7) as (D & (s2 & p & G1 & G2 & G3 & G4 & G5 & G6 & G7 & G8 & G9 & G10 & G11 & G12) & E).
  exists s2, p. unfold mbind. rewrite H1. split; [exact G1|]. split; [congruence|]. split; [congruence|]. split; [lia|]. split; [congruence|].
  do 4 (split; [assumption|]). split; [intros q; rewrite G10; apply H8|]. split; [exact Lo|].
  intros psi Hp. rewrite G12.
  - apply E. apply Hp; [exact It|]. assert (~ idle s1 t) by (apply H7; left; reflexivity). unfold idle in *. lia.
  - intros q Hq Hlt. apply Hp; [|exact Hlt]. assert (X : ~ In q (t :: L)) by (intros X; apply (proj2 H7 q X Hq)).
    pose proof (proj1 (H8 q) (or_introl Hq)) as Y. cbn [In] in X. tauto.
Qed.

(** Appending one entry. *)
Lemma does_push s qs co L : tidy s -> live s L -> incl qs L -> NoDup qs ->
  (match co_obj co with OUnit u => wf_unitary u qs | OMeas _ => True end) -> proper_entry (qs, co) -> local L (oden co qs) ->
  does s L (push (qs, co)) tt L (oden co qs).
Proof.
  intros T (N & Lv) I Nq W Pl Lo. exists (appended s [(qs, co)]), [(qs, co)]. split; [reflexivity|].
  repeat (split; [reflexivity || (cbn; lia)|]).
  split; [constructor; [|constructor]; split; [exact Nq|split; [|exact W]]; intros q Hq; cbn; specialize (Lv q (I q Hq)); unfold idle in Lv; lia|].
  split; [constructor; [exact Pl|constructor]|]. split; [exact T|]. split; [split; assumption|]. split; [tauto|]. split; [exact Lo|]. reflexivity.
Qed.
