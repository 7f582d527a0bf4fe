(** Calls of which only some fact about what they append is known. *)
From Coq Require Import Reals FunctionalExtensionality Permutation.
From Coquelicot Require Import Complex.
From Verif Require Import Base BitsSpec BitsProofs OpsModel OpsSpec Instances BuilderModel RegProofs DenSpec DenProofs LocalProofs
  RunSpec RunProofs GateProofs ToffoliProofs CondProofs SubSpec SubProofs SubProofs2 SubProofs3 ProgramModel ProgramSpec ProgramProofs ProgramProofs2 WeakProofs.
Local Open Scope nat_scope.
Local Open Scope mon_scope.

(** A fact about the states before and after and the objects appended. *)
Definition tr := st -> st -> pipe -> Prop.
(** Like [does], with a fact in place of the operation. *)
Definition xdoes {A} (Q : tr) (s : st) (L : list nat) (m : M A) (a : A) (L' : list nat) : Prop :=
  exists s' p, m s = Ret a s' /\
    conds s' = conds s /\ meas (bld s') = meas (bld s) /\ bn (bld s) <= bn (bld s') /\
    pipeline (bld s') = pipeline (bld s) ++ p /\
    Forall (wf_entry (bn (bld s'))) p /\ Forall proper_entry p /\
    tidy s' /\ live s' L' /\ (forall q, idle s' q \/ In q L' <-> idle s q \/ In q L) /\ Q s s' p.
Definition then_tr (Q1 Q2 : tr) : tr := fun s s' p => exists s1 p1 p2, p = p1 ++ p2 /\ Q1 s s1 p1 /\ Q2 s1 s' p2.
Definition any : tr := fun _ _ _ => True.
(** Acts as [D] where the unowned qubits are 0. *)
Definition tr_does (D : state -> state) : tr := fun s s' p => bn (bld s) <= bn (bld s') /\ (forall q, idle s' q <-> idle s q) /\ Forall (wf_entry (bn (bld s'))) p /\ Forall proper_entry p /\
  forall psi, (forall q, idle s q -> q < bn (bld s') -> clean [q] psi) -> den p psi = D psi.

Lemma x_weak {A} (Q Q' : tr) s L (m : M A) a L' : (forall s s' p, Q s s' p -> Q' s s' p) -> xdoes Q s L m a L' -> xdoes Q' s L m a L'.
Proof. intros I (s' & p & H). exists s', p. intuition auto. Qed.
Lemma same_idle (s s' : st) L : live s L -> live s' L -> (forall q, idle s' q \/ In q L <-> idle s q \/ In q L) -> forall q, idle s' q <-> idle s q.
Proof.
  intros (_ & L1) (_ & L2) H q. specialize (H q). split; intros I.
  - destruct (proj1 H (or_introl I)) as [X|X]; [exact X|]. exfalso. apply (L2 q X I).
  - destruct (proj2 H (or_introl I)) as [X|X]; [exact X|]. exfalso. apply (L1 q X I).
Qed.
Lemma x_does {A} s L (m : M A) a D : live s L -> does s L m a L D -> xdoes (tr_does D) s L m a L.
Proof.
  intros Lv (s' & p & H1 & H2 & H3 & H4 & H5 & H6 & H7 & H8 & H9 & H10 & _ & H12). exists s', p. do 10 (split; [assumption|]). split; [exact H4|]. split; [eapply same_idle; eassumption|]. auto.
Qed.
Lemma x_wdoes {A} R s L (m : M A) a L' : wdoes R s L m a L' -> xdoes any s L m a L'.
Proof. intros (s' & p & H1 & H2 & H3 & H4 & H5 & H6 & H7 & H8 & H9 & H10 & _). exists s', p. do 10 (split; [assumption|]). exact I. Qed.
Lemma x_quiet {A} s L (m : M A) a L' : quiet s L m a L' -> xdoes (fun _ _ p => p = []) s L m a L'.
Proof.
  intros (s' & H1 & H2 & H3 & H4 & H5 & H6 & H7 & H8). exists s', []. rewrite app_nil_r.
  do 9 (split; [first [reflexivity|lia|assumption|constructor]|]). split; [assumption|reflexivity].
Qed.
Lemma x_bind {A B} (Q1 Q2 : tr) s L (m : M A) a L1 (f : A -> M B) b L2 :
  xdoes Q1 s L m a L1 -> (forall s1, conds s1 = conds s -> tidy s1 -> live s1 L1 -> xdoes Q2 s1 L1 (f a) b L2) ->
  xdoes (then_tr Q1 Q2) s L (mbind m f) b L2.
Proof.
  intros (s1 & p1 & H1 & H2 & H3 & H4 & H5 & H6 & H7 & H8 & H9 & H10 & H11) H.
  destruct (H s1 H2 H8 H9) as (s2 & p2 & G1 & G2 & G3 & G4 & G5 & G6 & G7 & G8 & G9 & G10 & G11).
  exists s2, (p1 ++ p2). split; [unfold mbind; rewrite H1; exact G1|]. split; [congruence|]. split; [congruence|]. split; [lia|].
  split; [rewrite G5, H5, app_assoc; reflexivity|]. split; [apply Forall_app; split; [eapply wf_entries_mono; [exact G4|exact H6]|exact G6]|].
  split; [apply Forall_app; auto|]. split; [exact G8|]. split; [exact G9|]. split; [intros q; rewrite G10; apply H10|].
  exists s1, p1, p2. auto.
Qed.
Lemma x_perm {A} (Q : tr) s L1 L (m : M A) a L1' L' : Permutation L1 L -> Permutation L1' L' -> xdoes Q s L1 m a L1' -> xdoes Q s L m a L'.
Proof.
  intros P P' (s' & p & H1 & H2 & H3 & H4 & H5 & H6 & H7 & H8 & H9 & H10 & H11). exists s', p.
  do 8 (split; [assumption|]). split; [eapply live_perm; eauto|]. split; [|exact H11].
  intros q. specialize (H10 q).
  assert (E : In q L1 <-> In q L) by (split; apply Permutation_in; [exact P|symmetry; exact P]).
  assert (E' : In q L1' <-> In q L') by (split; apply Permutation_in; [exact P'|symmetry; exact P']). tauto.
Qed.
Lemma x_frame {A} (Q : tr) s L (m : M A) a L' F : live s (L ++ F) -> xdoes Q s L m a L' -> xdoes Q s (L ++ F) m a (L' ++ F).
Proof.
  intros (N & Lv) (s' & p & H1 & H2 & H3 & H4 & H5 & H6 & H7 & H8 & (N' & H9) & H10 & H11). exists s', p.
  apply NoDup_app_iff in N. destruct N as (NL & NF & NLF).
  assert (X : forall q, In q F -> ~ idle s' q /\ ~ In q L').
  { intros q Hq. assert (Y : ~ (idle s' q \/ In q L')); [|tauto]. rewrite H10. intros [Hi|Hi]; [apply (Lv q); [apply in_or_app; right; exact Hq|exact Hi]|apply (NLF q); assumption]. }
  do 8 (split; [assumption|]). split; [split|split; [|exact H11]].
  - apply NoDup_app_iff. split; [exact N'|]. split; [exact NF|]. intros q Hq HF. destruct (X q HF). contradiction.
  - intros q Hq. apply in_app_or in Hq. destruct Hq as [Hq|Hq]; [apply H9; exact Hq|apply X; exact Hq].
  - intros q. specialize (H10 q). rewrite !in_app_iff. tauto.
Qed.
Lemma x_fun {A} (Q : tr) s L (m m' : M A) a L' : m s = m' s -> xdoes Q s L m a L' -> xdoes Q s L m' a L'.
Proof. intros E (s' & p & H1 & H). exists s', p. rewrite <- E. auto. Qed.
Lemma quiet_then_x {A B} (Q : tr) s L (m : M A) a L1 (f : A -> M B) b L2 : quiet s L m a L1 ->
  (forall s1, conds s1 = conds s -> tidy s1 -> live s1 L1 -> xdoes Q s1 L1 (f a) b L2) -> xdoes (fun s s' p => exists s1, quiet s L m a L1 /\ m s = Ret a s1 /\ Q s1 s' p) s L (mbind m f) b L2.
Proof.
  intros (s1 & H1 & H2 & H3 & H4 & H5 & H6 & H7 & H8) H.
  destruct (H s1 H2 H6 H7) as (s2 & p2 & G1 & G2 & G3 & G4 & G5 & G6 & G7 & G8 & G9 & G10 & G11).
  exists s2, p2. split; [unfold mbind; rewrite H1; exact G1|]. split; [congruence|]. split; [congruence|]. split; [lia|]. split; [congruence|].
  do 4 (split; [assumption|]). split; [intros q; rewrite G10; apply H8|]. exists s1. split; [|split; [exact H1|exact G11]]. exists s1. auto 10.
Qed.
Lemma x_then_quiet {A B} (Q : tr) s L (m : M A) a L1 (f : A -> M B) b L2 : xdoes Q s L m a L1 ->
  (forall s1, conds s1 = conds s -> tidy s1 -> live s1 L1 -> quiet s1 L1 (f a) b L2) -> xdoes (fun s s' p => exists s1, bn (bld s1) <= bn (bld s') /\ Q s s1 p) s L (mbind m f) b L2.
Proof.
  intros (s1 & p1 & H1 & H2 & H3 & H4 & H5 & H6 & H7 & H8 & H9 & H10 & H11) H.
  destruct (H s1 H2 H8 H9) as (s2 & G1 & G2 & G3 & G4 & G5 & G6 & G7 & G8).
  exists s2, p1. split; [unfold mbind; rewrite H1; exact G1|]. split; [congruence|]. split; [congruence|]. split; [lia|]. split; [congruence|].
  split; [eapply wf_entries_mono; [|exact H6]; lia|]. split; [exact H7|]. split; [exact G6|]. split; [exact G7|]. split; [intros q; rewrite G8; apply H10|]. exists s1. split; [lia|exact H11].
Qed.

(** *** Functions called by [program!] *)
Definition xacts (d : nat) (f : nat -> list reg -> M (list reg)) (rs : list reg) (Q : list nat -> tr) : Prop :=
  forall s, at_depth d s -> tidy s -> live s (cqs d (conds s) ++ concat rs) ->
    xdoes (Q (cqs d (conds s))) s (cqs d (conds s) ++ concat rs) (f d rs) rs (cqs d (conds s) ++ concat rs).
Lemma acts_xacts d f rs D : acts d f rs D -> xacts d f rs (fun K => tr_does (controlled K D)).
Proof. intros (_ & H) s A T Lv. apply x_does; [assumption|]. apply H; assumption. Qed.
Lemma xacts_weak d f rs (Q Q' : list nat -> tr) : (forall K s s' p, Q K s s' p -> Q' K s s' p) -> xacts d f rs Q -> xacts d f rs Q'.
Proof. intros I H s A T Lv. eapply x_weak; [|apply H; assumption]. intros s1 s' p. apply I. Qed.

(** A line without mask that calls a function with a known fact, or one with a known operation. *)
Definition xline (d : nat) (rs : list reg) (l : line) (Q : list nat -> tr) : Prop :=
  line_ok rs l /\
  match l_ctl l with
  | None => xacts d (l_fun l) (line_regs rs l) Q
  | Some None => l_args l <> [] /\ exists Q', xacts (S d) (l_fun l) (tl (line_regs rs l)) Q' /\
      forall K s s' s1 s2 p, bld s = bld s1 -> bld s' = bld s2 -> Q' (hd [] (line_regs rs l) ++ K) s1 s2 p -> Q K s s' p
  | Some (Some _) => False
  end \/
  exists D, line_acts d rs l D /\ forall K s s' p, tr_does (controlled K (line_op rs l D)) s s' p -> Q K s s' p.

Lemma in_condition_xdoes d f cr rest (Q Q' : list nat -> tr) s : xacts (S d) f rest Q' -> cr <> [] ->
  (forall K s s' s1 s2 p, bld s = bld s1 -> bld s' = bld s2 -> Q' (cr ++ K) s1 s2 p -> Q K s s' p) -> at_depth d s -> tidy s -> live s (cqs d (conds s) ++ cr ++ concat rest) ->
  xdoes (Q (cqs d (conds s))) s (cqs d (conds s) ++ cr ++ concat rest) (in_condition cr (f (S d) rest)) (cr, rest) (cqs d (conds s) ++ cr ++ concat rest).
Proof.
  intros H Hc HQ (El & Wr) T Lv. set (K := cqs d (conds s)) in *.
  set (s1 := mkSt (bld s) (conds s ++ [Some cr])).
  assert (EK : cqs (S d) (conds s1) = cr ++ K) by (unfold s1, K; cbn [conds]; rewrite <- El; apply cqs_last).
  assert (P : Permutation ((cr ++ K) ++ concat rest) (K ++ cr ++ concat rest)) by (rewrite app_assoc; apply Permutation_app_tail, Permutation_app_comm).
  apply (x_perm _ s ((cr ++ K) ++ concat rest) _ _ _ ((cr ++ K) ++ concat rest) _ P P).
  pose proof (H s1) as X. rewrite EK in X. destruct X as (s2 & p & H1 & H2 & H3 & H4 & H5 & H6 & H7 & H8 & H9 & H10 & H11).
  - split; [unfold s1; cbn [conds]; rewrite app_length; cbn; lia|]. unfold s1; cbn [conds]. rewrite <- El. apply wrapped_last; [exact Hc|]. rewrite El. exact Wr.
  - exact T.
  - eapply live_perm; [|symmetry; exact P]. exact Lv.
  - exists (mkSt (bld s2) (conds s)), p. assert (C1 : conds s1 = conds s ++ [Some cr]) by reflexivity. rewrite C1 in H2. split; [unfold in_condition, scoped, condition_with, mbind; change (mkSt (bld s) (conds s ++ [Some cr])) with s1; rewrite H1; unfold dissolve; rewrite H2, rev_app_distr; cbn; rewrite rev_involutive; reflexivity|].
    cbn [bld conds] in *. split; [reflexivity|]. do 8 (split; [assumption|]). apply (HQ K s _ s1 s2 p); [reflexivity|reflexivity|exact H11].
Qed.
Lemma call_line_xacts d rs l Q : xline d rs l Q -> line_ok rs l /\ xacts d (fun d g => call_line d l g) (line_regs rs l) Q.
Proof.
  intros [(Lo & H)|(D & LA & E)].
  - split; [exact Lo|]. unfold call_line. destruct (l_ctl l) as [[m|]|]; [destruct H| |exact H]. destruct H as (Na & Q' & H & HQ).
    destruct Lo as (_ & Ne & Nd). destruct (line_regs rs l) as [|cr rest] eqn:Er; [exfalso; apply Na; unfold line_regs in Er; destruct (l_args l); [reflexivity|discriminate]|].
    cbn [hd tl concat] in *. assert (Hc : cr <> []) by (inversion Ne; assumption).
    intros s A T Lv. cbn [concat] in *.
    destruct (in_condition_xdoes d (l_fun l) cr rest Q Q' s H Hc HQ A T Lv) as (s1 & p & H1 & X). exists s1, p. split; [|exact X].
    unfold mbind, ret. rewrite H1. reflexivity.
  - split; [apply LA|]. apply (xacts_weak d _ _ (fun K => tr_does (controlled K (line_op rs l D)))); [exact E|]. apply acts_xacts, call_line_acts. exact LA.
Qed.
Lemma run_line_x d rs l Q s : NoDup (concat rs) -> xline d rs l Q -> at_depth d s -> tidy s -> live s (cqs d (conds s) ++ concat rs) ->
  xdoes (Q (cqs d (conds s))) s (cqs d (conds s) ++ concat rs) (run_line d (holes rs (fun _ => false)) l) (holes rs (fun _ => false)) (cqs d (conds s) ++ concat rs).
Proof.
  intros N W Ad T Lv. destruct (call_line_xacts d rs l Q W) as (Lo & C). pose proof Lo as (Ao & Ne & Nd). set (K := cqs d (conds s)) in *.
  destruct (part_of (concat (line_regs rs l)) (concat rs) Nd N (line_regs_incl rs l Lo)) as (rest & P).
  assert (PK : Permutation ((K ++ concat (line_regs rs l)) ++ rest) (K ++ concat rs)) by (rewrite <- app_assoc; apply Permutation_app_head; exact P).
  assert (L1 : live s ((K ++ concat (line_regs rs l)) ++ rest)) by (eapply live_perm; [exact Lv|symmetry; exact PK]).
  assert (W1 : xdoes (Q K) s (K ++ concat rs) (call_line d l (line_regs rs l)) (line_regs rs l) (K ++ concat rs)).
  { eapply x_perm; [exact PK|exact PK|]. apply x_frame; [exact L1|]. apply C; [exact Ad|exact T|].
    destruct L1 as (N1 & Y). apply NoDup_app_iff in N1. split; [apply N1|]. intros q Hq. apply Y, in_or_app. left. exact Hq. }
  destruct W1 as (s' & p & H1 & H). exists s', p. split; [|exact H].
  unfold run_line, mbind. rewrite take_groups_ok by (assumption || reflexivity). cbn [lift]. fold (line_regs rs l). rewrite H1. unfold line_regs. rewrite put_groups_ok by assumption.
  cbn [lift]. f_equal. apply holes_ext. intros q _. cbn [orb]. apply andb_negb_r.
Qed.
Fixpoint chain_tr (K : list nat) (Qs : list (list nat -> tr)) : tr :=
  match Qs with [] => fun s s' p => bn (bld s) <= bn (bld s') /\ p = [] | Q :: Qs' => then_tr (Q K) (chain_tr K Qs') end.
Lemma lines_x d rs : forall ls s, NoDup (concat rs) -> Forall (fun p => xline d rs (fst p) (snd p)) ls -> at_depth d s -> tidy s -> live s (cqs d (conds s) ++ concat rs) ->
  xdoes (chain_tr (cqs d (conds s)) (map snd ls)) s (cqs d (conds s) ++ concat rs) (mfold (run_line d) (map fst ls) (holes rs (fun _ => false))) (holes rs (fun _ => false)) (cqs d (conds s) ++ concat rs).
Proof.
  induction ls as [|(l, Q) ls IH]; intros s N F Ad T Lv; cbn [map mfold chain_tr].
  - exists s, []. rewrite app_nil_r. do 9 (split; [first [reflexivity|lia|assumption|constructor]|]). split; [tauto|split; [lia|reflexivity]].
  - inversion F as [|? ? F1 F2]; subst. cbn [fst snd] in *. set (K := cqs d (conds s)) in *.
    eapply x_bind; [apply run_line_x; eassumption|]. intros s1 C1 T1 L1.
    pose proof (IH s1 N F2) as X. rewrite C1 in X. fold K in X. apply X; [eapply at_depth_conds; eassumption|exact T1|exact L1].
Qed.
Lemma program_x d rs ls : NoDup (concat rs) -> Forall (fun r => r <> []) rs -> Forall (fun p => xline d rs (fst p) (snd p)) ls ->
  xacts d (fun d rs => program d rs (map fst ls)) rs (fun K => chain_tr K (map snd ls)).
Proof.
  intros N Ne F s Ad T Lv. unfold program.
  assert (Hin : forall r, In r rs -> NoDup r).
  { intros r Hr. apply In_nth with (d := []) in Hr. destruct Hr as (k & _ & <-). apply NoDup_register. exact N. }
  rewrite Forall_forall in Ne.
  assert (E1 : mapM (fun r => bind (split_all r) (fun l => Ok (map Some l))) rs = Ok (map (fun r : reg => map Some (singles r)) rs)).
  { apply mapM_ok. intros r Hr. rewrite split_all_ok; [reflexivity|apply Hin; exact Hr|apply Ne; exact Hr]. }
  destruct (lines_x d rs ls s N F Ad T Lv) as (s' & p & H1 & H). exists s', p. split; [|exact H].
  unfold mbind at 1. rewrite E1. cbn [lift]. rewrite <- holes_none. unfold mbind at 1. rewrite H1.
  match goal with |- lift ?e s' = _ => replace e with (Ok rs); [reflexivity|] end.
  symmetry. rewrite holes_none. transitivity (Ok (map (fun v => concat (somes v)) (map (fun r => map Some (singles r)) rs))).
    + apply mapM_ok. intros v Hv. apply in_map_iff in Hv. destruct Hv as (r & <- & Hr). rewrite somes_some, merge_singles. cbn [bind]. rewrite unwrap_new_reg by (apply Ne; exact Hr). f_equal. symmetry. rewrite somes_some. apply concat_singles.
    + f_equal. rewrite map_map. rewrite <- (map_id rs) at 2. apply map_ext. intros r. rewrite somes_some. apply concat_singles.
Qed.
