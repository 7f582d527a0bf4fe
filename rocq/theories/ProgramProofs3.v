(** [program!]: routing for arbitrary functions, and what happens when a line misuses qubits. *)
From Coq Require Import Permutation.
From Verif Require Import Base BitsSpec BitsProofs OpsSpec BuilderModel RegProofs DenSpec RunSpec SubSpec ProgramModel ProgramSpec ProgramProofs.
Local Open Scope nat_scope.
Local Open Scope mon_scope.

Lemma take_at_inv (v : list (option reg)) i r w : take_at v i = Ok (r, w) -> nth_error v i = Some (Some r) /\ w = upd_nth i None v.
Proof. unfold take_at, idx. destruct (nth_error v i) as [[x|]|]; cbn; intros H; try discriminate. injection H as <- <-. auto. Qed.
Lemma upd_cell (r : reg) i P : NoDup r -> i < length r ->
  upd_nth i None (map (cell P) r) = map (cell (fun q => P q || (q =? nth i r 0))) r.
Proof.
  intros N L. apply nth_error_ext_eq. intros j. rewrite nth_error_upd_nth, !nth_error_map, map_length. destruct (Nat.eqb_spec j i) as [->|Hne]; cbn [andb].
  - destruct (Nat.ltb_spec i (length r)); [|lia]. rewrite (nth_error_nth' r 0 L). cbn. unfold cell. rewrite Nat.eqb_refl, orb_true_r. reflexivity.
  - destruct (nth_error r j) as [q|] eqn:E; [|reflexivity]. cbn. f_equal. unfold cell. destruct (Nat.eqb_spec q (nth i r 0)) as [Eq|]; [|rewrite orb_false_r; reflexivity].
    exfalso. apply Hne. assert (Lj : j < length r) by (apply nth_error_Some; congruence). apply (proj1 (NoDup_nth r 0) N); [exact Lj|exact L|].
    rewrite (nth_error_nth _ _ 0 E). exact Eq.
Qed.
Lemma take_all_inv (r : reg) : forall is P l v, NoDup r -> take_all (map (cell P) r) is = Ok (l, v) ->
  (forall i, In i is -> i < length r) /\ NoDup (map (fun i => nth i r 0) is) /\ forall i, In i is -> P (nth i r 0) = false.
Proof.
  induction is as [|i is IH]; intros P l v N H; cbn [take_all map] in *.
  - split; [intros i []|]. split; [constructor|intros i []].
  - destruct (take_at (map (cell P) r) i) as [(r1, v1)| |] eqn:E; try discriminate. apply take_at_inv in E. destruct E as (E & ->).
    rewrite nth_error_map in E. destruct (nth_error r i) as [q|] eqn:Eq; [|discriminate]. cbn in E. injection E as E.
    assert (Li : i < length r) by (apply nth_error_Some; congruence).
    assert (Pq : P q = false) by (unfold cell in E; destruct (P q); [discriminate|reflexivity]).
    pose proof (nth_error_nth _ _ 0 Eq) as Hq. cbn [bind] in H. rewrite upd_cell in H by assumption.
    destruct (take_all _ is) as [(l2, v2)| |] eqn:E2; try discriminate. apply IH in E2; [|exact N]. destruct E2 as (A & B & C).
    split; [intros j [<-|Hj]; [exact Li|apply A; exact Hj]|]. split.
    + constructor; [|exact B]. intros X. apply in_map_iff in X. destruct X as (j & X & Hj). specialize (C j Hj). cbn beta in C. apply orb_false_iff in C. destruct C as (_ & C).
      rewrite X, Nat.eqb_refl in C. discriminate.
    + intros j [<-|Hj]; [rewrite Hq; exact Pq|]. specialize (C j Hj). apply orb_false_iff in C. apply C.
Qed.
Lemma take_arg_inv (rs : list reg) P a l v : NoDup (concat rs) -> take_all (nth (fst a) (holes rs P) []) (arg_indices (holes rs P) a) = Ok (l, v) ->
  (fst a < length rs -> arg_ok rs a) /\ NoDup (arg_qubits rs a) /\ forall q, In q (arg_qubits rs a) -> P q = false.
Proof.
  intros N H. rewrite holes_nth in H. apply take_all_inv in H; [|apply NoDup_register; exact N]. destruct H as (A & B & C).
  rewrite <- (arg_qubits_indices rs P a). split; [|split; [exact B|]].
  - intros L. split; [exact L|]. unfold arg_indices in A. destruct (snd a); [exact A|exact I].
  - intros q Hq. apply in_map_iff in Hq. destruct Hq as (i & <- & Hi). apply C. exact Hi.
Qed.
Lemma take_group_inv (rs : list reg) : forall g P l e, NoDup (concat rs) -> Forall (fun a => fst a < length rs) g -> take_group (holes rs P) g = Ok (l, e) ->
  Forall (arg_ok rs) g /\ NoDup (gather rs g) /\ forall q, In q (gather rs g) -> P q = false.
Proof.
  induction g as [|a g IH]; intros P l e N L H; cbn [take_group] in *.
  - split; [constructor|]. split; [constructor|intros q []].
  - inversion L as [|? ? L1 L2]; subst. destruct (take_all _ _) as [(l1, v1)| |] eqn:E; try discriminate. pose proof (take_arg_inv rs P a l1 v1 N E) as (A & B & C).
    specialize (A L1). rewrite (take_arg_ok rs P a N A B C) in E. injection E as <- <-. cbn [bind] in H. rewrite holes_nth, holes_upd in H; [|exact N|].
    2:{ intros q Hq. destruct (inb (arg_qubits rs a) q) eqn:E; [|rewrite orb_false_r; reflexivity]. apply inb_In in E. exfalso. apply Hq. eapply arg_qubits_in; eassumption. }
    destruct (take_group _ g) as [(l2, e2)| |] eqn:E2; try discriminate. apply IH in E2; [|exact N|exact L2]. destruct E2 as (A2 & B2 & C2).
    split; [constructor; assumption|]. unfold gather in *. cbn [map concat]. split.
    + apply NoDup_app_iff. split; [exact B|]. split; [exact B2|]. intros q Hq Hq2. specialize (C2 q Hq2). apply orb_false_iff in C2. destruct C2 as (_ & C2).
      apply inb_In in Hq. rewrite Hq in C2. discriminate.
    + intros q Hq. apply in_app_or in Hq. destruct Hq as [Hq|Hq]; [apply C; exact Hq|]. specialize (C2 q Hq). apply orb_false_iff in C2. apply C2.
Qed.
Lemma take_groups_inv (rs : list reg) : forall gs P l e, NoDup (concat rs) -> Forall (Forall (fun a => fst a < length rs)) gs -> take_groups (holes rs P) gs = Ok (l, e) ->
  Forall (Forall (arg_ok rs)) gs /\ Forall (fun r => r <> []) (map (gather rs) gs) /\ NoDup (concat (map (gather rs) gs)) /\
  forall q, In q (concat (map (gather rs) gs)) -> P q = false.
Proof.
  induction gs as [|g gs IH]; intros P l e N L H; cbn [take_groups map concat] in *.
  - split; [constructor|]. split; [constructor|]. split; [constructor|intros q []].
  - inversion L as [|? ? L1 L2]; subst. destruct (take_group _ g) as [(l1, e1)| |] eqn:E; try discriminate. pose proof (take_group_inv rs g P l1 e1 N L1 E) as (A & B & C).
    rewrite (take_group_ok rs g P N A B C) in E. injection E as <- <-. cbn [bind] in H. rewrite merge_singles in H. cbn [bind] in H.
    assert (G : gather rs g <> []). { intros X. rewrite X in H. cbn in H. discriminate. }
    rewrite unwrap_new_reg in H by exact G. cbn [bind] in H.
    destruct (take_groups _ gs) as [(l2, e2)| |] eqn:E2; try discriminate. apply IH in E2; [|exact N|exact L2]. destruct E2 as (A2 & D2 & B2 & C2).
    split; [constructor; assumption|]. split; [constructor; assumption|]. split.
    + apply NoDup_app_iff. split; [exact B|]. split; [exact B2|]. intros q Hq Hq2. specialize (C2 q Hq2). apply orb_false_iff in C2. destruct C2 as (_ & C2).
      apply inb_In in Hq. rewrite Hq in C2. discriminate.
    + intros q Hq. apply in_app_or in Hq. destruct Hq as [Hq|Hq]; [apply C; exact Hq|]. specialize (C2 q Hq). apply orb_false_iff in C2. apply C2.
Qed.
(** Taking never returns an error value. *)
Lemma take_all_no_err : forall is (v : list (option reg)) e, take_all v is <> Err e.
Proof.
  induction is as [|i is IH]; intros v e; cbn [take_all]; [discriminate|]. unfold take_at, idx. destruct (nth_error v i) as [[r|]|]; cbn; try discriminate.
  destruct (take_all _ is) as [(l, w)| |] eqn:E; cbn; try discriminate. exfalso. eapply IH. exact E.
Qed.
Lemma take_group_no_err : forall g e x, take_group e g <> Err x.
Proof.
  induction g as [|a g IH]; intros e x; cbn [take_group]; [discriminate|]. destruct (take_all _ _) as [(l, w)| |] eqn:E; cbn; try discriminate.
  - destruct (take_group _ g) as [(l2, w2)| |] eqn:E2; cbn; try discriminate. exfalso. eapply IH. exact E2.
  - exfalso. eapply take_all_no_err. exact E.
Qed.
Lemma merge_no_err : forall rs acc e, foldM merge_step rs acc <> Err e.
Proof.
  induction rs as [|r rs IH]; intros acc e; cbn [foldM]; [discriminate|]. unfold merge_step. destruct acc as [r2|]; cbn; [|apply IH].
  unfold merge2. destruct (new_reg (r2 ++ r)); cbn; [apply IH|discriminate].
Qed.
Lemma take_groups_no_err : forall gs e x, take_groups e gs <> Err x.
Proof.
  induction gs as [|g gs IH]; intros e x; cbn [take_groups]; [discriminate|]. destruct (take_group e g) as [(l, w)| |] eqn:E; cbn; try discriminate.
  - destruct (merge_registers l) as [[r|]| |] eqn:Em; cbn; try discriminate; [|exfalso; eapply merge_no_err; exact Em].
    destruct (take_groups w gs) as [(l2, w2)| |] eqn:E2; cbn; try discriminate. exfalso. eapply IH. exact E2.
  - exfalso. eapply take_group_no_err. exact E.
Qed.
Lemma misuse_crashes (rs : list reg) d l : NoDup (concat rs) -> Forall (Forall (fun a => fst a < length rs)) (l_args l) -> ~ line_ok rs l ->
  exists p, forall s, run_line d (holes rs (fun _ => false)) l s = Crash p.
Proof.
  intros N L H. unfold run_line. destruct (take_groups (holes rs (fun _ => false)) (l_args l)) as [(x, e)|e|p] eqn:E.
  - exfalso. apply H. apply take_groups_inv in E; [|exact N|exact L]. destruct E as (A & B & C & _). split; [exact A|]. split; [exact B|exact C].
  - exfalso. eapply take_groups_no_err. exact E.
  - exists p. intros s. reflexivity.
Qed.

(** *** Routing *)
Lemma run_line_route d (rs : list reg) l s : NoDup (concat rs) -> line_ok rs l -> gives_back d rs [l] s ->
  run_line d (holes rs (fun _ => false)) l s = (_ <- call_line d l (line_regs rs l) ;; ret (holes rs (fun _ => false))) s.
Proof.
  intros N (A & Ne & Nd) G. unfold run_line. unfold mbind at 1. rewrite take_groups_ok by (assumption || reflexivity). cbn [lift gives_back] in *. unfold mbind. fold (line_regs rs l).
  destruct (call_line d l (line_regs rs l) s) as [rs' s'| |] eqn:E; [|reflexivity|reflexivity]. destruct G as (-> & _). unfold line_regs. rewrite put_groups_ok by assumption.
  unfold ret, lift. apply (f_equal (fun e => Ret e s')). apply holes_ext. intros q _. cbn [orb]. apply andb_negb_r.
Qed.
Lemma mfold_route d (rs : list reg) : forall ls s, NoDup (concat rs) -> Forall (line_ok rs) ls -> gives_back d rs ls s ->
  mfold (run_line d) ls (holes rs (fun _ => false)) s = (_ <- calls d rs ls ;; ret (holes rs (fun _ => false))) s.
Proof.
  induction ls as [|l ls IH]; intros s N A G; cbn [mfold calls gives_back] in *; [reflexivity|]. inversion A as [|? ? A1 A2]; subst.
  unfold mbind at 1. rewrite run_line_route; [|exact N|exact A1|cbn [gives_back]; destruct (call_line d l (line_regs rs l) s); tauto].
  unfold mbind. destruct (call_line d l (line_regs rs l) s) as [rs' s'| |]; [|reflexivity|reflexivity].
  cbn. destruct G as (_ & G). rewrite IH by assumption. reflexivity.
Qed.
Lemma program_open d (rs : list reg) ls s : NoDup (concat rs) -> Forall (fun r => r <> []) rs ->
  program d rs ls s = (e <- mfold (run_line d) ls (holes rs (fun _ => false)) ;; lift (mapM (fun v => bind (merge_registers (somes v)) unwrap_opt) e)) s.
Proof.
  intros N Ne. unfold program. unfold mbind at 1. rewrite (mapM_ok _ (fun r => map Some (singles r))); [rewrite <- holes_none; reflexivity|].
  rewrite Forall_forall in Ne. intros r Hr. rewrite split_all_ok; [reflexivity| |apply Ne; exact Hr].
  apply In_nth with (d := []) in Hr. destruct Hr as (k & _ & <-). apply NoDup_register. exact N.
Qed.
Lemma program_close (rs : list reg) : Forall (fun r => r <> []) rs ->
  mapM (fun v => bind (merge_registers (somes v)) unwrap_opt) (holes rs (fun _ => false)) = Ok rs.
Proof.
  intros Ne. rewrite Forall_forall in Ne. rewrite holes_none. transitivity (Ok (map (fun v => concat (somes v)) (map (fun r => map Some (singles r)) rs))).
  - apply mapM_ok. intros v Hv. apply in_map_iff in Hv. destruct Hv as (r & <- & Hr). rewrite somes_some, merge_singles. cbn [bind]. rewrite unwrap_new_reg by (apply Ne; exact Hr).
    f_equal. symmetry. rewrite somes_some. apply concat_singles.
  - f_equal. rewrite map_map. rewrite <- (map_id rs) at 2. apply map_ext. intros r. rewrite somes_some. apply concat_singles.
Qed.
Lemma program_route d (rs : list reg) ls s : NoDup (concat rs) -> Forall (fun r => r <> []) rs -> Forall (line_ok rs) ls -> gives_back d rs ls s ->
  program d rs ls s = (_ <- calls d rs ls ;; ret rs) s.
Proof.
  intros N Ne A G. rewrite program_open by assumption. unfold mbind at 1. rewrite mfold_route by assumption. unfold mbind. destruct (calls d rs ls s); [|reflexivity|reflexivity].
  cbn. rewrite program_close by exact Ne. reflexivity.
Qed.
Lemma mfold_app {A B} (f : A -> B -> M A) l1 l2 a s : mfold f (l1 ++ l2) a s = (a <- mfold f l1 a ;; mfold f l2 a) s.
Proof.
  revert a s. induction l1 as [|b l1 IH]; intros a s; cbn [mfold app]; [reflexivity|]. unfold mbind in *. destruct (f a b s); [apply IH|reflexivity|reflexivity].
Qed.
Lemma program_misuse d (rs : list reg) ls l ls' s s' : NoDup (concat rs) -> Forall (fun r => r <> []) rs -> Forall (line_ok rs) ls -> gives_back d rs ls s ->
  Forall (Forall (fun a => fst a < length rs)) (l_args l) -> ~ line_ok rs l -> calls d rs ls s = Ret tt s' ->
  exists p, program d rs (ls ++ l :: ls') s = Crash p.
Proof.
  intros N Ne A G L H E. destruct (misuse_crashes rs d l N L H) as (p & Hp). exists p. rewrite program_open by assumption. unfold mbind at 1. rewrite mfold_app. unfold mbind at 1.
  rewrite mfold_route by assumption. unfold mbind at 1. rewrite E. cbn [ret mfold]. unfold mbind. rewrite Hp. reflexivity.
Qed.
