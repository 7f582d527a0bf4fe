(** Calls whose effect is known on some states only. *)
From Coq Require Import Reals FunctionalExtensionality Permutation.
From Coquelicot Require Import Complex.
From Verif Require Import Base BitsSpec BitsProofs OpsModel OpsSpec Instances BuilderModel RegProofs DenSpec DenProofs LocalProofs
  RunSpec RunProofs GateProofs ToffoliProofs CondProofs SubSpec SubProofs SubProofs2 SubProofs3 ProgramModel ProgramSpec ProgramProofs ProgramProofs2.
Local Open Scope nat_scope.
Local Open Scope mon_scope.

Definition rel := state -> state -> Prop.
Definition then_rel (R1 R2 : rel) : rel := fun psi chi => exists phi, R1 psi phi /\ R2 phi chi.
(** Like [does], but what the call appended is only known to take [psi] to [phi] when [R psi phi];
    the qubits it leaves unowned are then 0. *)
Definition wdoes {A} (R : rel) (s : st) (L : list nat) (m : M A) (a : A) (L' : list nat) : Prop :=
  exists s' p, m s = Ret a s' /\
    conds s' = conds s /\ meas (bld s') = meas (bld s) /\ bn (bld s) <= bn (bld s') /\
    pipeline (bld s') = pipeline (bld s) ++ p /\
    Forall (wf_entry (bn (bld s'))) p /\ Forall proper_entry p /\
    tidy s' /\ live s' L' /\ (forall q, idle s' q \/ In q L' <-> idle s q \/ In q L) /\
    forall B psi phi, bn (bld s') <= B -> R psi phi -> (forall q, idle s q -> q < B -> clean [q] psi) ->
      den p psi = phi /\ forall q, idle s' q -> q < B -> clean [q] phi.

Lemma w_weak {A} (R R' : rel) s L (m : M A) a L' : (forall psi phi, R' psi phi -> R psi phi) -> wdoes R s L m a L' -> wdoes R' s L m a L'.
Proof.
  intros I (s' & p & H1 & H2 & H3 & H4 & H5 & H6 & H7 & H8 & H9 & H10 & H11). exists s', p. do 10 (split; [assumption|]).
  intros B psi phi HB HR Hp. apply (H11 B psi phi HB (I _ _ HR) Hp).
Qed.
Lemma w_does {A} s L (m : M A) a L' D : does s L m a L' D -> incl L L' -> wdoes (fun psi phi => phi = D psi) s L m a L'.
Proof.
  intros (s' & p & H1 & H2 & H3 & H4 & H5 & H6 & H7 & H8 & H9 & H10 & H11 & H12) I. exists s', p. do 10 (split; [assumption|]).
  intros B psi phi HB -> Hp. split; [apply H12; intros q Hq Hlt; apply Hp; [exact Hq|lia]|].
  intros q Hq Hlt. assert (X : ~ In q L) by (intros X; destruct H9 as (_ & Y); apply (Y q (I q X) Hq)).
  apply H11; [exact X|]. apply Hp; [|exact Hlt]. destruct (proj1 (H10 q) (or_introl Hq)); tauto.
Qed.
Lemma w_quiet {A} s L (m : M A) a L' : quiet s L m a L' -> incl L L' -> wdoes eq s L m a L'.
Proof.
  intros Q I. eapply w_weak; [|apply w_does; [apply quiet_does; exact Q|exact I]]. intros psi phi ->. reflexivity.
Qed.
(** Giving up qubits that are 0. *)
Lemma w_quiet_drop {A} s L (m : M A) a L' : quiet s L m a L' ->
  wdoes (fun psi phi => phi = psi /\ forall q, In q L -> ~ In q L' -> clean [q] psi) s L m a L'.
Proof.
  intros (s' & H1 & H2 & H3 & H4 & H5 & H6 & H7 & H8). exists s', []. rewrite app_nil_r.
  do 9 (split; [first [reflexivity|lia|assumption|constructor]|]). split; [assumption|].
  intros B psi phi HB (-> & Hc) Hp. split; [reflexivity|]. intros q Hq Hlt. destruct H7 as (_ & Y).
  destruct (proj1 (H8 q) (or_introl Hq)) as [X|X]; [apply Hp; assumption|]. apply Hc; [exact X|]. intros Z. apply (Y q Z Hq).
Qed.
Lemma w_bind {A B} (R1 R2 : rel) s L (m : M A) a L1 (f : A -> M B) b L2 :
  wdoes R1 s L m a L1 -> (forall s1, conds s1 = conds s -> tidy s1 -> live s1 L1 -> wdoes R2 s1 L1 (f a) b L2) ->
  wdoes (then_rel R1 R2) s L (mbind m f) b L2.
Proof.
  intros (s1 & p1 & H1 & H2 & H3 & H4 & H5 & H6 & H7 & H8 & H9 & H10 & H11) H.
  destruct (H s1 H2 H8 H9) as (s2 & p2 & G1 & G2 & G3 & G4 & G5 & G6 & G7 & G8 & G9 & G10 & G11).
  exists s2, (p1 ++ p2). split; [unfold mbind; rewrite H1; exact G1|]. split; [congruence|]. split; [congruence|]. split; [lia|].
  split; [rewrite G5, H5, app_assoc; reflexivity|]. split; [apply Forall_app; split; [eapply wf_entries_mono; [exact G4|exact H6]|exact G6]|].
  split; [apply Forall_app; auto|]. split; [exact G8|]. split; [exact G9|]. split; [intros q; rewrite G10; apply H10|].
  intros N psi chi HN (phi & R & R') Hp. destruct (H11 N psi phi ltac:(lia) R Hp) as (E & Hp'). rewrite den_app, E. apply (G11 N phi chi HN R' Hp').
Qed.
Lemma w_perm {A} (R : rel) s L1 L (m : M A) a L1' L' : Permutation L1 L -> Permutation L1' L' -> wdoes R s L1 m a L1' -> wdoes R s L m a L'.
Proof.
  intros P P' (s' & p & H1 & H2 & H3 & H4 & H5 & H6 & H7 & H8 & H9 & H10 & H11). exists s', p.
  do 8 (split; [assumption|]). split; [eapply live_perm; eauto|]. split; [|exact H11].
  intros q. specialize (H10 q).
  assert (E : In q L1 <-> In q L) by (split; apply Permutation_in; [exact P|symmetry; exact P]).
  assert (E' : In q L1' <-> In q L') by (split; apply Permutation_in; [exact P'|symmetry; exact P']). tauto.
Qed.
Lemma w_frame {A} (R : rel) s L (m : M A) a L' F : live s (L ++ F) -> wdoes R s L m a L' -> wdoes R s (L ++ F) m a (L' ++ F).
Proof.
  intros (N & Lv) (s' & p & H1 & H2 & H3 & H4 & H5 & H6 & H7 & H8 & (N' & H9) & H10 & H11). exists s', p.
  apply NoDup_app_iff in N. destruct N as (NL & NF & NLF).
  assert (X : forall q, In q F -> ~ idle s' q /\ ~ In q L').
  { intros q Hq. assert (Y : ~ (idle s' q \/ In q L')); [|tauto]. rewrite H10. intros [Hi|Hi]; [apply (Lv q); [apply in_or_app; right; exact Hq|exact Hi]|apply (NLF q); assumption]. }
  do 8 (split; [assumption|]). split; [split|split; [|exact H11]].
  - apply NoDup_app_iff. split; [exact N'|]. split; [exact NF|]. intros q Hq HF. destruct (X q HF). contradiction.
  - intros q Hq. apply in_app_or in Hq. destruct Hq as [Hq|Hq]; [apply H9; exact Hq|apply X; exact Hq].
  - intros q. specialize (H10 q). rewrite !in_app_iff. tauto.
Qed.
Lemma w_ret {A} s L (a : A) : tidy s -> live s L -> wdoes eq s L (ret a) a L.
Proof. intros T Lv. apply w_quiet; [apply quiet_ret; assumption|apply incl_refl]. Qed.
Lemma w_fun {A} (R : rel) s L (m m' : M A) a L' : m s = m' s -> wdoes R s L m a L' -> wdoes R s L m' a L'.
Proof. intros E (s' & p & H1 & H). exists s', p. rewrite <- E. auto. Qed.
(** A temporary qubit or register is 0 to begin with. *)
Lemma w_fresh {A B} (R : rel) s L (m : M A) r T (f : A -> M B) b L' : quiet s L m r (T ++ L) -> (forall q, In q T -> idle s q) ->
  (forall s1, conds s1 = conds s -> tidy s1 -> live s1 (T ++ L) -> wdoes (fun psi phi => R psi phi /\ forall q, In q T -> clean [q] psi) s1 (T ++ L) (f r) b L') ->
  wdoes R s L (mbind m f) b L'.
Proof.
  intros (s1 & H1 & H2 & H3 & H4 & H5 & H6 & H7 & H8) I H.
  destruct (H s1 H2 H6 H7) as (s2 & p & G1 & G2 & G3 & G4 & G5 & G6 & G7 & G8 & G9 & G10 & G11).
  exists s2, p. unfold mbind. rewrite H1. split; [exact G1|]. split; [congruence|]. split; [congruence|]. split; [lia|]. split; [congruence|].
  do 4 (split; [assumption|]). split; [intros q; rewrite G10; apply H8|].
  intros N psi phi HN HR Hp. apply (G11 N); [exact HN| |].
  - split; [exact HR|]. intros q Hq. apply Hp; [apply I; exact Hq|]. assert (X : ~ idle s1 q) by (apply H7, in_or_app; left; exact Hq). unfold idle in X. lia.
  - intros q Hq Hlt. apply Hp; [|exact Hlt]. assert (X : ~ In q (T ++ L)) by (intros X; apply (proj2 H7 q X Hq)).
    pose proof (proj1 (H8 q) (or_introl Hq)) as Y. rewrite in_app_iff in X. tauto.
Qed.
Lemma w_temp {B} (R : rel) s L (f : reg -> M B) b L' : tidy s -> live s L ->
  (forall t s1, conds s1 = conds s -> tidy s1 -> live s1 (t :: L) -> wdoes (fun psi phi => R psi phi /\ clean [t] psi) s1 (t :: L) (f [t]) b L') ->
  wdoes R s L (mbind make_zeroed_temp_qubit f) b L'.
Proof.
  intros T Lv H. destruct (quiet_make s L T Lv) as (t & It & _ & Q). apply (w_fresh R s L _ [t] [t]); [exact Q|intros q [<-|[]]; exact It|].
  intros s1 C1 T1 L1. eapply w_weak; [|apply H; assumption]. intros psi phi (HR & Hc). split; [exact HR|]. apply Hc. left. reflexivity.
Qed.
Lemma w_temps {B} (R : rel) s L n (f : reg -> M B) b L' : tidy s -> live s L -> 0 < n ->
  (forall ts s1, length ts = n -> conds s1 = conds s -> tidy s1 -> live s1 (ts ++ L) ->
    wdoes (fun psi phi => R psi phi /\ forall q, In q ts -> clean [q] psi) s1 (ts ++ L) (f ts) b L') ->
  wdoes R s L (mbind (make_zeroed_temp_register n) f) b L'.
Proof.
  intros T Lv Hn H. destruct (quiet_make_reg s L n T Lv Hn) as (ts & Lt & Its & Q). apply (w_fresh R s L _ ts ts); [exact Q|intros q Hq; apply Its; exact Hq|].
  intros s1 C1 T1 L1. apply H; assumption.
Qed.
Lemma w_return s r L : tidy s -> live s (r ++ L) -> r <> [] ->
  wdoes (fun psi phi => phi = psi /\ forall q, In q r -> clean [q] psi) s (r ++ L) (return_zeroed_temp_register r) tt L.
Proof.
  intros T Lv Hr. eapply w_weak; [|apply w_quiet_drop, quiet_return; assumption]. intros psi phi (-> & H). split; [reflexivity|].
  intros q Hq Hn. apply in_app_or in Hq. destruct Hq as [Hq|Hq]; [apply H; exact Hq|contradiction].
Qed.

(** *** Functions called by [program!] *)
Definition wacts (d : nat) (f : nat -> list reg -> M (list reg)) (rs : list reg) (R : list nat -> rel) : Prop :=
  forall s, at_depth d s -> tidy s -> live s (cqs d (conds s) ++ concat rs) ->
    wdoes (R (cqs d (conds s))) s (cqs d (conds s) ++ concat rs) (f d rs) rs (cqs d (conds s) ++ concat rs).
Lemma acts_wacts d f rs D : acts d f rs D -> wacts d f rs (fun K psi phi => phi = controlled K D psi).
Proof. intros (_ & H) s A T Lv. apply w_does; [apply H; assumption|apply incl_refl]. Qed.
Lemma wacts_weak d f rs (R R' : list nat -> rel) : (forall K psi phi, R' K psi phi -> R K psi phi) -> wacts d f rs R -> wacts d f rs R'.
Proof. intros I H s A T Lv. eapply w_weak; [|apply H; assumption]. intros psi phi. apply I. Qed.

Definition wline (d : nat) (rs : list reg) (l : line) (R : list nat -> rel) : Prop :=
  line_ok rs l /\
  match l_ctl l with
  | None => wacts d (l_fun l) (line_regs rs l) R
  | Some None => l_args l <> [] /\ exists R', wacts (S d) (l_fun l) (tl (line_regs rs l)) R' /\ forall K psi phi, R K psi phi -> R' (hd [] (line_regs rs l) ++ K) psi phi
  | Some (Some _) => False
  end \/
  exists D, line_acts d rs l D /\ forall K psi phi, R K psi phi -> phi = controlled K (line_op rs l D) psi.

Lemma in_condition_wdoes d f cr rest (R : list nat -> rel) s : wacts (S d) f rest R -> cr <> [] -> at_depth d s -> tidy s -> live s (cqs d (conds s) ++ cr ++ concat rest) ->
  wdoes (R (cr ++ cqs d (conds s))) s (cqs d (conds s) ++ cr ++ concat rest) (in_condition cr (f (S d) rest)) (cr, rest) (cqs d (conds s) ++ cr ++ concat rest).
Proof.
  intros H Hc (El & Wr) T Lv. set (K := cqs d (conds s)) in *.
  set (s1 := mkSt (bld s) (conds s ++ [Some cr])).
  assert (EK : cqs (S d) (conds s1) = cr ++ K) by (unfold s1, K; cbn [conds]; rewrite <- El; apply cqs_last).
  assert (P : Permutation ((cr ++ K) ++ concat rest) (K ++ cr ++ concat rest)) by (rewrite app_assoc; apply Permutation_app_tail, Permutation_app_comm).
  apply (w_perm _ s ((cr ++ K) ++ concat rest) _ _ _ ((cr ++ K) ++ concat rest) _ P P).
  pose proof (H s1) as X. rewrite EK in X. destruct X as (s2 & p & H1 & H2 & H3 & H4 & H5 & H6 & H7 & H8 & H9 & H10 & H11).
  - split; [unfold s1; cbn [conds]; rewrite app_length; cbn; lia|]. unfold s1; cbn [conds]. rewrite <- El. apply wrapped_last; [exact Hc|]. rewrite El. exact Wr.
  - exact T.
  - eapply live_perm; [|symmetry; exact P]. exact Lv.
  - exists (mkSt (bld s2) (conds s)), p. assert (C1 : conds s1 = conds s ++ [Some cr]) by reflexivity. rewrite C1 in H2. split; [unfold in_condition, scoped, condition_with, mbind; change (mkSt (bld s) (conds s ++ [Some cr])) with s1; rewrite H1; unfold dissolve; rewrite H2, rev_app_distr; cbn; rewrite rev_involutive; reflexivity|].
    cbn [bld conds] in *. split; [reflexivity|]. do 8 (split; [assumption|]). exact H11.
Qed.
Lemma call_line_wacts d rs l R : wline d rs l R -> line_ok rs l /\ wacts d (fun d g => call_line d l g) (line_regs rs l) R.
Proof.
  intros [(Lo & H)|(D & LA & E)].
  - split; [exact Lo|]. unfold call_line. destruct (l_ctl l) as [[m|]|]; [destruct H| |exact H]. destruct H as (Na & R' & H & HR).
    destruct Lo as (_ & Ne & Nd). destruct (line_regs rs l) as [|cr rest] eqn:Er; [exfalso; apply Na; unfold line_regs in Er; destruct (l_args l); [reflexivity|discriminate]|].
    cbn [hd tl concat] in *. assert (Hc : cr <> []) by (inversion Ne; assumption).
    intros s A T Lv. cbn [concat] in *. set (K := cqs d (conds s)) in *.
    apply (w_weak (R' (cr ++ K))); [intros psi phi; apply HR|].
    destruct (in_condition_wdoes d (l_fun l) cr rest R' s H Hc A T Lv) as (s1 & p & H1 & X). exists s1, p. split; [|exact X].
    unfold mbind, ret. rewrite H1. reflexivity.
  - split; [apply LA|]. apply (wacts_weak d _ _ (fun K psi phi => phi = controlled K (line_op rs l D) psi)); [exact E|]. apply acts_wacts, call_line_acts. exact LA.
Qed.
Lemma run_line_w d rs l R s : NoDup (concat rs) -> wline d rs l R -> at_depth d s -> tidy s -> live s (cqs d (conds s) ++ concat rs) ->
  wdoes (R (cqs d (conds s))) s (cqs d (conds s) ++ concat rs) (run_line d (holes rs (fun _ => false)) l) (holes rs (fun _ => false)) (cqs d (conds s) ++ concat rs).
Proof.
  intros N W Ad T Lv. destruct (call_line_wacts d rs l R W) as (Lo & C). pose proof Lo as (Ao & Ne & Nd). set (K := cqs d (conds s)) in *.
  destruct (part_of (concat (line_regs rs l)) (concat rs) Nd N (line_regs_incl rs l Lo)) as (rest & P).
  assert (PK : Permutation ((K ++ concat (line_regs rs l)) ++ rest) (K ++ concat rs)) by (rewrite <- app_assoc; apply Permutation_app_head; exact P).
  assert (L1 : live s ((K ++ concat (line_regs rs l)) ++ rest)) by (eapply live_perm; [exact Lv|symmetry; exact PK]).
  assert (W1 : wdoes (R K) s (K ++ concat rs) (call_line d l (line_regs rs l)) (line_regs rs l) (K ++ concat rs)).
  { eapply w_perm; [exact PK|exact PK|]. apply w_frame; [exact L1|]. apply C; [exact Ad|exact T|].
    destruct L1 as (N1 & Y). apply NoDup_app_iff in N1. split; [apply N1|]. intros q Hq. apply Y, in_or_app. left. exact Hq. }
  destruct W1 as (s' & p & H1 & H). exists s', p. split; [|exact H].
  unfold run_line, mbind. rewrite take_groups_ok by (assumption || reflexivity). cbn [lift]. fold (line_regs rs l). rewrite H1. unfold line_regs. rewrite put_groups_ok by assumption.
  cbn [lift]. f_equal. apply holes_ext. intros q _. cbn [orb]. apply andb_negb_r.
Qed.
Fixpoint chain (K : list nat) (Rs : list (list nat -> rel)) : rel :=
  match Rs with [] => eq | R :: Rs' => then_rel (R K) (chain K Rs') end.
Lemma lines_w d rs : forall ls s, NoDup (concat rs) -> Forall (fun p => wline d rs (fst p) (snd p)) ls -> at_depth d s -> tidy s -> live s (cqs d (conds s) ++ concat rs) ->
  wdoes (chain (cqs d (conds s)) (map snd ls)) s (cqs d (conds s) ++ concat rs) (mfold (run_line d) (map fst ls) (holes rs (fun _ => false))) (holes rs (fun _ => false)) (cqs d (conds s) ++ concat rs).
Proof.
  induction ls as [|(l, R) ls IH]; intros s N F Ad T Lv; cbn [map mfold chain].
  - apply w_ret; assumption.
  - inversion F as [|? ? F1 F2]; subst. cbn [fst snd] in *. set (K := cqs d (conds s)) in *.
    eapply w_bind; [apply run_line_w; eassumption|]. intros s1 C1 T1 L1.
    pose proof (IH s1 N F2) as X. rewrite C1 in X. fold K in X. apply X; [eapply at_depth_conds; eassumption|exact T1|exact L1].
Qed.
Lemma program_w d rs ls : NoDup (concat rs) -> Forall (fun r => r <> []) rs -> Forall (fun p => wline d rs (fst p) (snd p)) ls ->
  wacts d (fun d rs => program d rs (map fst ls)) rs (fun K => chain K (map snd ls)).
Proof.
  intros N Ne F s Ad T Lv. unfold program.
  assert (Hin : forall r, In r rs -> NoDup r).
  { intros r Hr. apply In_nth with (d := []) in Hr. destruct Hr as (k & _ & <-). apply NoDup_register. exact N. }
  rewrite Forall_forall in Ne.
  assert (E1 : mapM (fun r => bind (split_all r) (fun l => Ok (map Some l))) rs = Ok (map (fun r : reg => map Some (singles r)) rs)).
  { apply mapM_ok. intros r Hr. rewrite split_all_ok; [reflexivity|apply Hin; exact Hr|apply Ne; exact Hr]. }
  destruct (lines_w d rs ls s N F Ad T Lv) as (s' & p & H1 & H). exists s', p. split; [|exact H].
  unfold mbind at 1. rewrite E1. cbn [lift]. rewrite <- holes_none. unfold mbind at 1. rewrite H1.
  match goal with |- lift ?e s' = _ => replace e with (Ok rs); [reflexivity|] end.
  symmetry. rewrite holes_none. transitivity (Ok (map (fun v => concat (somes v)) (map (fun r => map Some (singles r)) rs))).
    + apply mapM_ok. intros v Hv. apply in_map_iff in Hv. destruct Hv as (r & <- & Hr). rewrite somes_some, merge_singles. cbn [bind]. rewrite unwrap_new_reg by (apply Ne; exact Hr). f_equal. symmetry. rewrite somes_some. apply concat_singles.
    + f_equal. rewrite map_map. rewrite <- (map_id rs) at 2. apply map_ext. intros r. rewrite somes_some. apply concat_singles.
Qed.
