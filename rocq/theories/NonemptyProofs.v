(** No call hands out, or keeps, an empty register. *)
From Coq Require Import Reals ZArith QArith.
From Coquelicot Require Import Complex.
From Verif Require Import Base BuilderModel HistorySpec.
Local Open Scope nat_scope.
Local Open Scope mon_scope.

Definition full (s : st) : Prop :=
  Forall (fun r => r <> []) (zeroed (bld s)) /\ Forall (fun r => r <> []) (somes (conds s)) /\ Forall (fun e => fst e <> []) (pipeline (bld s)).

(** What a value of each type has to satisfy. *)
Class NE (A : Type) := ne : A -> Prop.
#[export] Instance ne_reg : NE (list nat) := fun r => r <> [].
#[export] Instance ne_regs : NE (list (list nat)) := Forall (fun r => r <> []).
#[export] Instance ne_oreg : NE (option (list nat)) := fun o => match o with Some r => r <> [] | None => True end.
#[export] Instance ne_oregs : NE (list (option (list nat))) := Forall (fun o => match o with Some r => r <> [] | None => True end).
#[export] Instance ne_pair {A B} (a : NE A) (b : NE B) : NE (A * B) := fun p => a (fst p) /\ b (snd p).
#[export] Instance ne_prs : NE (list (list nat * list nat)) := Forall (fun p => fst p <> [] /\ snd p <> []).
#[export] Instance ne_unit : NE unit := fun _ => True.
#[export] Instance ne_nat : NE nat := fun _ => True.
#[export] Instance ne_q : NE Q := fun _ => True.
#[export] Instance ne_pipe : NE (list (list nat * cobj)) := fun _ => True.
#[export] Instance ne_builder : NE builder := fun b => Forall (fun r => r <> []) (zeroed b) /\ Forall (fun e => fst e <> []) (pipeline b).
#[export] Instance ne_split : NE split_result := fun sp => match sp with Selected r | Unselected r => r <> [] | Split a b => a <> [] /\ b <> [] end.
#[export] Instance ne_many : NE split_many := fun sm => match sm with AllSelected rs => Forall (fun r => r <> []) rs | Remaining rs r => Forall (fun r => r <> []) rs /\ r <> [] end.

Definition filled {A} {N : NE A} (m : M A) : Prop :=
  forall s, full s -> match m s with Ret a s' => N a /\ full s' | Fail _ s' => full s' | Crash _ => True end.

Lemma n_ret {A} {N : NE A} (a : A) : N a -> filled (ret a). Proof. intros H s F. split; assumption. Qed.
Lemma n_fail {A} {N : NE A} e : filled (@fail A e). Proof. intros s F. exact F. Qed.
Lemma n_crash {A} {N : NE A} p : filled (@crash A p). Proof. intros s F. exact I. Qed.
Lemma n_lift {A} {N : NE A} (r : res A) : (forall a, r = Ok a -> N a) -> filled (lift r).
Proof. intros H s F. unfold lift. destruct r; auto. Qed.
Lemma n_bind {A B} {NA : NE A} {NB : NE B} (m : M A) (f : A -> M B) : filled m -> (forall a, NA a -> filled (f a)) -> filled (mbind m f).
Proof. intros H1 H2 s F. unfold mbind. specialize (H1 s F). destruct (m s) as [a s1| |]; auto. destruct H1 as (Ha & F1). apply (H2 a Ha s1 F1). Qed.
Lemma n_unwrap {A} {N : NE A} (m : M A) : filled m -> filled (unwrapM m).
Proof. intros H1 s F. unfold unwrapM. specialize (H1 s F). destruct (m s); auto. Qed.
Lemma n_assert b : filled (massert b).
Proof. unfold massert. destruct b; [apply n_ret; exact I|apply n_crash]. Qed.
Lemma n_fold {A B} {N : NE A} (f : A -> B -> M A) (P : B -> Prop) l : (forall a b, N a -> P b -> filled (f a b)) -> Forall P l -> forall a, N a -> filled (mfold f l a).
Proof. intros H F. induction F as [|b l Hb F IH]; intros a Ha; cbn [mfold]; [apply n_ret; exact Ha|apply n_bind; [apply H; assumption|exact IH]]. Qed.
Lemma n_map_reg {A} (f : A -> M reg) (P : A -> Prop) l : (forall a, P a -> filled (f a)) -> Forall P l -> filled (mmap f l).
Proof.
  intros H F. induction F as [|b l Hb F IH]; cbn [mmap]; [apply n_ret; constructor|]. apply n_bind; [apply H; exact Hb|]. intros b' Hb'. apply n_bind; [exact IH|].
  intros bs Hbs. apply n_ret. constructor; assumption.
Qed.
Lemma n_map_prs {A} (f : A -> M (reg * reg)) (P : A -> Prop) l : (forall a, P a -> filled (f a)) -> Forall P l -> @filled _ ne_prs (mmap f l).
Proof.
  intros H F. induction F as [|b l Hb F IH]; cbn [mmap]; [apply n_ret; constructor|]. apply n_bind; [apply H; exact Hb|]. intros b' Hb'. apply n_bind; [exact IH|].
  intros bs Hbs. apply n_ret. constructor; assumption.
Qed.

(** *** Registers *)
Lemma new_reg_ne l r : new_reg l = Some r -> r <> [].
Proof. destruct l; cbn; [discriminate|]. intros H. inversion H. discriminate. Qed.
Lemma unwrap_new l r : unwrap_opt (new_reg l) = Ok r -> r <> [].
Proof. intros H. destruct (new_reg l) eqn:E; [|discriminate]. inversion H; subst. exact (new_reg_ne _ _ E). Qed.
Lemma merge2_ne a b r : merge2 a b = Ok r -> r <> []. Proof. apply unwrap_new. Qed.
Lemma merge_fold_ne rs : Forall (fun r => r <> []) rs -> forall o o', ne_oreg o -> foldM merge_step rs o = Ok o' -> ne_oreg o'.
Proof.
  intros F. induction F as [|r rs Hr F IH]; intros o o' Ho E; cbn [foldM] in E; [inversion E; subst; exact Ho|].
  unfold bind in E at 1. destruct (merge_step o r) as [o1| |] eqn:E1; try discriminate. apply (IH o1); [|exact E].
  unfold merge_step in E1. destruct o as [r2|]; [|inversion E1; subst; exact Hr].
  unfold bind in E1. destruct (merge2 r2 r) eqn:E2; try discriminate. inversion E1; subst. exact (merge2_ne _ _ _ E2).
Qed.
Lemma merge_ne rs o : Forall (fun r => r <> []) rs -> merge_registers rs = Ok o -> ne_oreg o.
Proof. intros F E. apply (merge_fold_ne rs F None o); [exact I|exact E]. Qed.
Lemma split_rel_ne r is sp : split_rel r is = Ok sp -> ne_split sp.
Proof.
  unfold split_rel, bind. destruct (select r is) as [sel| |]; try discriminate.
  destruct (new_reg sel) as [r1|] eqn:E1; destruct (new_reg (filter _ r)) as [r2|] eqn:E2; intros H; inversion H; subst; cbn.
  - split; [exact (new_reg_ne _ _ E1)|exact (new_reg_ne _ _ E2)].
  - exact (new_reg_ne _ _ E1).
  - exact (new_reg_ne _ _ E2).
Qed.
Lemma split_helper_ne f : forall r acc rs, Forall (fun r => r <> []) acc -> split_helper f r acc = Ok rs -> Forall (fun r => r <> []) rs.
Proof.
  induction f as [|f IH]; intros r acc rs Ha H; cbn [split_helper] in H; [discriminate|]. unfold bind in H. destruct (split_rel r [0]) as [sp| |] eqn:E; try discriminate.
  apply split_rel_ne in E. destruct sp; try discriminate; cbn in E.
  - inversion H; subst. apply Forall_app. auto.
  - apply IH in H; [exact H|]. apply Forall_app. split; [exact Ha|]. constructor; [apply E|constructor].
Qed.
Lemma split_all_ne r rs : split_all r = Ok rs -> Forall (fun r => r <> []) rs.
Proof. apply split_helper_ne. constructor. Qed.
Lemma split_first_ne r p : split_first_qubit r = Ok p -> ne_pair ne_oreg ne_reg p.
Proof.
  unfold split_first_qubit, bind. destruct (split_rel r [0]) as [sp| |] eqn:E; try discriminate. apply split_rel_ne in E.
  destruct sp; intros H; inversion H; subst; split; cbn in *; auto; apply E.
Qed.
Lemma split_last_ne r p : split_last_qubit r = Ok p -> ne_pair ne_reg ne_oreg p.
Proof.
  unfold split_last_qubit, bind. destruct (chk_sub _ _) as [n| |]; try discriminate. destruct (split_rel r [n]) as [sp| |] eqn:E; try discriminate. apply split_rel_ne in E.
  destruct sp; intros H; inversion H; subst; split; cbn in *; auto; apply E.
Qed.
Lemma upd_nth_Forall {A} (P : A -> Prop) n a l : P a -> Forall P l -> Forall P (upd_nth n a l).
Proof. intros Ha F. revert n. induction F as [|b l Hb F IH]; intros n; destruct n; cbn [upd_nth]; constructor; auto. Qed.
Lemma take_at_ne rs i r rs' : ne_oregs rs -> take_at rs i = Ok (r, rs') -> r <> [] /\ ne_oregs rs'.
Proof.
  intros F H. unfold take_at, bind, idx, reg in *. destruct (nth_error rs i) as [o|] eqn:E; try discriminate. apply nth_error_In in E. unfold ne_oregs in F. rewrite Forall_forall in F.
  pose proof (F _ E) as Ho. destruct o as [r0|]; try discriminate. inversion H; subst. split; [exact Ho|]. apply upd_nth_Forall; [exact I|]. apply Forall_forall. exact F.
Qed.
Lemma take_all_ne is : forall rs p, ne_oregs rs -> take_all rs is = Ok p -> ne_pair ne_regs ne_oregs p.
Proof.
  induction is as [|i is IH]; intros rs p F H; cbn [take_all] in H; [inversion H; subst; split; [constructor|exact F]|].
  unfold bind in H. destruct (take_at rs i) as [[r rs1]| |] eqn:E; try discriminate. apply take_at_ne in E; [|exact F]. destruct E as (Hr & F1).
  destruct (take_all rs1 is) as [[l rs2]| |] eqn:E2; try discriminate. apply (IH _ _ F1) in E2. destruct E2. inversion H; subst. split; [constructor; assumption|assumption].
Qed.
Lemma somes_ne rs : ne_oregs rs -> Forall (fun r => r <> []) (somes rs).
Proof.
  intros F. unfold somes. apply Forall_concat. apply Forall_map. eapply Forall_impl; [|exact F]. intros [r|] H; cbn in H; repeat constructor; assumption.
Qed.
Lemma group_ne gs : forall acc acc', ne_pair ne_regs ne_oregs acc -> foldM group_step gs acc = Ok acc' -> ne_pair ne_regs ne_oregs acc'.
Proof.
  induction gs as [|g gs IH]; intros acc acc' F H; cbn [foldM] in H; [inversion H; subst; exact F|].
  unfold bind in H at 1. destruct (group_step acc g) as [acc1| |] eqn:E; try discriminate. apply (IH acc1); [|exact H].
  destruct acc as [sel rs]. destruct F as (F1 & F2). cbn [fst snd] in *. unfold group_step, bind in E. destruct (take_all rs g) as [[l rs2]| |] eqn:E2; try discriminate.
  apply take_all_ne in E2; [|exact F2]. destruct E2 as (G1 & G2). cbn [fst snd] in *. destruct (merge_registers l) as [m| |] eqn:E3; try discriminate. apply merge_ne in E3; [|exact G1].
  inversion E; subst. split; cbn [fst snd]; [|exact G2]. apply Forall_app. split; [exact F1|]. destruct m; repeat constructor. exact E3.
Qed.
Lemma map_Some_ne rs : Forall (fun r => r <> []) rs -> ne_oregs (map Some rs).
Proof. intros F. apply Forall_map. exact F. Qed.
Lemma split_groups_ne r gs sm : split_groups r gs = Ok sm -> ne_many sm.
Proof.
  unfold split_groups, bind. destruct (split_all r) as [rs| |] eqn:E; try discriminate. apply split_all_ne in E.
  destruct (foldM group_step gs _) as [[sel rs1]| |] eqn:E1; try discriminate. apply group_ne in E1; [|split; [constructor|apply map_Some_ne, E]]. destruct E1 as (F1 & F2). cbn [fst snd] in *.
  destruct (merge_registers (somes rs1)) as [m| |] eqn:E2; try discriminate. apply merge_ne in E2; [|apply somes_ne, F2]. destruct m; intros H; inversion H; subst; cbn; auto.
Qed.
Lemma unwrap_opt_ne (o : option reg) r : ne_oreg o -> unwrap_opt o = Ok r -> r <> [].
Proof. destruct o; cbn; intros H E; inversion E; subst; exact H. Qed.
Lemma mapM_unwrap_ne rs l : ne_oregs rs -> mapM unwrap_opt rs = Ok l -> Forall (fun r => r <> []) l.
Proof.
  intros F. revert l. induction F as [|o rs Ho F IH]; intros l H; cbn [mapM] in H; [inversion H; constructor|].
  unfold bind in H. destruct (unwrap_opt o) as [r| |] eqn:E; try discriminate. destruct (mapM unwrap_opt rs) as [l'| |]; try discriminate. inversion H; subst. constructor; [exact (unwrap_opt_ne _ _ Ho E)|apply IH; reflexivity].
Qed.
Lemma put_back_ne l : forall rs rs', Forall (fun p => snd p <> []) l -> ne_oregs rs -> foldM put_back l rs = Ok rs' -> ne_oregs rs'.
Proof.
  induction l as [|[i r] l IH]; intros rs rs' Fl F H; cbn [foldM] in H; [inversion H; subst; exact F|].
  inversion Fl; subst. unfold bind in H at 1. destruct (put_back rs (i, r)) as [rs1| |] eqn:E; try discriminate. apply (IH rs1); auto.
  unfold put_back, bind, reg in *. destruct (idx rs i); try discriminate. inversion E; subst. apply upd_nth_Forall; [assumption|exact F].
Qed.
Lemma combine_snd_ne {A} (l : list A) (rs : list reg) : Forall (fun r => r <> []) rs -> Forall (fun p => snd p <> []) (combine l rs).
Proof. intros F. revert l. induction F as [|r rs Hr F IH]; intros [|a l]; cbn [combine]; constructor; auto. Qed.
Lemma combine_ne (ra rb : list reg) : Forall (fun r => r <> []) ra -> Forall (fun r => r <> []) rb -> Forall (fun p => fst p <> [] /\ snd p <> []) (combine ra rb).
Proof. intros F. revert rb. induction F as [|r rs Hr F IH]; intros [|b l] G; cbn [combine]; constructor; inversion G; subst; auto. Qed.
Lemma split_prs_ne l : ne_prs l -> Forall (fun r => r <> []) (fst (List.split l)) /\ Forall (fun r => r <> []) (snd (List.split l)).
Proof. intros F. induction F as [|[a b] l (Ha & Hb) F (I1 & I2)]; cbn [List.split]; [split; constructor|]. destruct (List.split l). cbn [fst snd] in *. split; constructor; assumption. Qed.

(** *** State *)
Lemma n_get : filled get. Proof. intros s (F1 & F2 & F3). repeat split; assumption. Qed.
Lemma n_put b : ne_builder b -> filled (put b). Proof. intros (F1 & F3) s (_ & F2 & _). split; [exact I|]. split; [exact F1|]. split; assumption. Qed.
Lemma n_push e : fst e <> [] -> filled (push e).
Proof. intros H. apply n_bind; [apply n_get|]. intros b (F1 & F3). apply n_put. split; [exact F1|]. apply Forall_app. auto. Qed.
Lemma n_register k : filled (register k).
Proof.
  apply n_bind; [apply n_get|]. intros b Hb. apply (@n_bind _ _ ne_reg); [apply n_lift; intros a; apply unwrap_new|]. intros r Hr. apply n_bind; [apply n_put; exact Hb|]. intros _ _. apply n_ret. exact Hr.
Qed.
Lemma n_qudit k : filled (qudit k).
Proof. unfold qudit. destruct (k =? 0); [apply n_ret; exact I|]. apply n_bind; [apply n_register|]. intros r Hr. apply n_ret. exact Hr. Qed.
Lemma n_make : filled make_zeroed_temp_qubit.
Proof.
  apply n_bind; [apply n_get|]. intros b (F1 & F2). destruct (rev (zeroed b)) as [|r z] eqn:E; [apply n_register|].
  assert (F : Forall (fun r => r <> []) (r :: z)) by (rewrite <- E; apply Forall_rev; exact F1). inversion F; subst.
  apply n_bind; [apply n_put; split; [apply Forall_rev; assumption|exact F2]|]. intros _ _. apply n_ret. assumption.
Qed.
Lemma n_return r : filled (return_zeroed_temp_register r).
Proof.
  apply (@n_bind _ _ ne_regs); [apply n_lift; intros a; apply split_all_ne|]. intros rs Hrs. apply n_bind; [apply n_get|]. intros b (F1 & F2). apply n_put. split; [|exact F2]. apply Forall_app. auto.
Qed.
Lemma somes_upd_ne k o (l : list (option reg)) : ne_oreg o -> Forall (fun r => r <> []) (somes l) -> Forall (fun r => r <> []) (somes (upd_nth k o l)).
Proof.
  intros Ho. revert k. induction l as [|a l IH]; intros k F; [destruct k; exact F|]. unfold somes in *. destruct k; cbn [upd_nth map concat] in *; apply Forall_app in F; destruct F as (F1 & F2); apply Forall_app; split; auto.
  destruct o; repeat constructor. exact Ho.
Qed.
Lemma n_take k : filled (take_cr k).
Proof.
  intros s (F1 & F2 & F3). unfold take_cr. destruct (nth_error (conds s) k) as [[r|]|] eqn:E; auto. split.
  - rewrite Forall_forall in F2. apply F2. unfold somes. apply in_concat. exists [r]. split; [|left; reflexivity]. apply in_map_iff. exists (Some r). split; [reflexivity|]. apply nth_error_In in E. exact E.
  - split; [exact F1|]. split; [|exact F3]. apply somes_upd_ne; [exact I|exact F2].
Qed.
Lemma n_putcr k r : r <> [] -> filled (put_cr k r).
Proof. intros H s (F1 & F2 & F3). split; [exact I|]. split; [exact F1|]. split; [|exact F3]. apply somes_upd_ne; assumption. Qed.
Lemma somes_app {A} (l l' : list (option A)) : somes (l ++ l') = somes l ++ somes l'.
Proof. unfold somes. rewrite map_app, concat_app. reflexivity. Qed.
Lemma n_condition r : r <> [] -> filled (condition_with r).
Proof. intros H s (F1 & F2 & F3). split; [exact I|]. split; [exact F1|]. split; [|exact F3]. cbn [conds]. unfold reg in *. rewrite somes_app. apply Forall_app. split; [exact F2|]. repeat constructor. exact H. Qed.
Lemma n_dissolve : filled dissolve.
Proof.
  intros s (F1 & F2 & F3). unfold dissolve, reg in *. destruct (conds s) as [|c l] using rev_ind; [exact I|]. rewrite rev_app_distr. cbn [rev app]. destruct c as [r|]; [|exact I].
  rewrite somes_app in F2. apply Forall_app in F2. destruct F2 as (F2 & F4). inversion F4; subst. split; [assumption|]. rewrite rev_involutive. repeat split; assumption.
Qed.
Lemma n_drop : filled drop_wrapper.
Proof.
  intros s (F1 & F2 & F3). split; [exact I|]. split; [exact F1|]. split; [|exact F3]. cbn [conds]. unfold reg in *. destruct (conds s) as [|c l] using rev_ind; [constructor|]. rewrite removelast_last.
  rewrite somes_app in F2. apply Forall_app in F2. apply F2.
Qed.
Lemma n_with {A} {N : NE A} c (m : M A) : Forall (fun r => r <> []) (somes c) -> filled m -> filled (with_conds c m).
Proof.
  intros Hc H s (F1 & F2 & F3). unfold with_conds. specialize (H (mkSt (bld s) c) (conj F1 (conj Hc F3))). destruct (m _) as [a s'|e s'|]; auto.
  - destruct H as (Ha & G1 & _ & G3). repeat split; assumption.
  - destruct H as (G1 & _ & G3). repeat split; assumption.
Qed.
Lemma n_on_new (m : M pipe) : filled (on_new m).
Proof. intros s F. unfold on_new. destruct (m _); auto. split; [exact I|exact F]. Qed.

Ltac na := repeat match goal with
  | H : ne_pair _ _ _ |- _ => destruct H
  | H : ne_builder _ |- _ => destruct H
  | H : _ /\ _ |- _ => destruct H
  | H : ne_split (Split _ _) |- _ => destruct H
  | H : ne_split (Selected _) |- _ => cbn in H
  end; cbn [fst snd] in *; try assumption.
Ltac nl := apply n_lift; let a := fresh "a" in let E := fresh "E" in intros a E; na;
  first [ exact (split_all_ne _ _ E) | eapply merge_ne; [|exact E]; na | exact (merge2_ne _ _ _ E) | exact (split_rel_ne _ _ _ E)
        | exact (split_first_ne _ _ E) | exact (split_last_ne _ _ E) | eapply unwrap_opt_ne; [|exact E]; na | exact (split_groups_ne _ _ _ E) | exact I
        | eapply take_all_ne; [|exact E]; na | eapply mapM_unwrap_ne; [|exact E]; na | eapply put_back_ne; [| |exact E]; [apply combine_snd_ne; na|na] ].
Ltac np := repeat first
  [ progress na
  | match goal with H : forall r c, ne_reg r -> filled _ |- _ => apply H; na | H : forall r, ne_reg r -> filled _ |- _ => apply H; na
      | H : forall a b, ne_reg a -> ne_reg b -> filled _ |- _ => apply H; na | H : forall a b c, ne_reg a -> ne_reg b -> filled _ |- _ => apply H; na end
  | apply n_ret; na; repeat match goal with |- ne_pair _ _ _ => split end; na; try exact I
  | apply n_fail | apply n_crash | apply n_get | apply n_register | apply n_make | apply n_return
  | apply n_take | apply n_putcr; na | apply n_assert | apply n_push; na
  | nl
  | match goal with |- filled (mbind _ (fun x : _ * _ => _)) => apply n_bind; [|intros [? ?] ?] end
  | apply n_bind; [|intros] | apply n_unwrap
  | match goal with |- filled (match ?x with _ => _ end) => destruct x end
  ].

Lemma n_local_aco r c : ne_reg r -> filled (local_aco r c).
Proof.
  intros Hr. unfold local_aco. destruct (_ || _); [|apply n_fail]. destruct (_ && _); [|np].
  apply (@n_bind _ _ ne_regs); [nl|]. intros rs Hrs. apply (@n_bind _ _ ne_unit).
  - apply (n_fold _ (fun r => r <> [])); [|exact Hrs|exact I]. intros [] q _ Hq. apply n_push. exact Hq.
  - intros _ _. np.
Qed.
Lemma n_make_reg n : filled (make_zeroed_temp_register n).
Proof.
  unfold make_zeroed_temp_register. apply (@n_bind _ _ ne_regs); [apply (n_map_reg _ (fun _ => True)); [intros; apply n_make|apply Forall_forall; auto]|]. intros rs Hrs. np.
Qed.
Section Ac.
Context (ac : reg -> cobj -> M reg) (H : forall r c, ne_reg r -> filled (ac r c)).
Lemma n_gate u r : ne_reg r -> filled (gate ac u r). Proof. intros Hr. unfold gate. np. Qed.
Lemma n_sdg r : ne_reg r -> filled (g_s_dagger ac r). Proof. intros Hr. unfold g_s_dagger. apply n_bind; intros; apply n_gate; assumption. Qed.
Lemma n_tdg r : ne_reg r -> filled (g_t_dagger ac r). Proof. intros Hr. unfold g_t_dagger. apply n_bind; intros; [apply n_sdg|apply n_gate]; assumption. Qed.
Lemma n_matrix r d : ne_reg r -> filled (apply_matrix ac r d). Proof. intros Hr. unfold apply_matrix. np. Qed.
Lemma n_broadcast r d : ne_reg r -> filled (broadcast_single_qubit_matrix ac r d). Proof. intros Hr. unfold broadcast_single_qubit_matrix. apply n_unwrap, n_matrix, Hr. Qed.
Lemma n_cnot a b : ne_reg a -> ne_reg b -> filled (cnot ac a b).
Proof.
  intros Ha Hb. unfold cnot. destruct (_ <? _); [apply n_fail|]. apply (@n_bind _ _ ne_regs); [nl|]. intros rs Hrs.
  apply (@n_bind _ _ (ne_pair ne_reg ne_regs)).
  - apply (n_fold _ (fun r => r <> [])); [|exact Hrs|split; [exact Ha|constructor]]. intros [cr acc] q (Hc & Hacc) Hq. cbn [fst snd] in *. unfold cnot_step. np.
    unfold ne_regs. apply Forall_app. auto.
  - intros [cr l] (Hc & Hl). cbn [fst snd] in *. np.
Qed.
Lemma n_swap a b : ne_reg a -> ne_reg b -> filled (swap ac a b).
Proof.
  intros Ha Hb. unfold swap. destruct (_ =? _); [|apply n_fail]. apply (@n_bind _ _ ne_regs); [nl|]. intros ras Hra. apply (@n_bind _ _ ne_regs); [nl|]. intros rbs Hrb.
  apply (@n_bind _ _ ne_prs).
  - apply (n_map_prs _ (fun p => fst p <> [] /\ snd p <> [])); [|apply combine_ne; assumption]. intros [x y] (Hx & Hy). cbn [fst snd] in *. unfold swap_pair. pose proof n_cnot. np.
  - intros prs Hp. apply split_prs_ne in Hp. unfold reg in *. destruct (List.split prs) as [l1 l2]. cbn [fst snd] in Hp. destruct Hp. np.
Qed.
Lemma n_basic a b : ne_reg a -> ne_reg b -> filled (basic_toffoli ac a b).
Proof. intros Ha Hb. unfold basic_toffoli, g_h, g_t. pose proof n_cnot. pose proof (n_gate UH). pose proof (n_gate UT). pose proof n_tdg. np. Qed.
Lemma n_toffoli_fuel f : forall a b, ne_reg a -> ne_reg b -> filled (toffoli_fuel ac f a b).
Proof. induction f as [|f IH]; intros a b Ha Hb; cbn [toffoli_fuel]; [apply n_crash|]. pose proof n_cnot. pose proof n_basic. np. Qed.
Lemma n_toffoli a b : ne_reg a -> ne_reg b -> filled (toffoli ac a b). Proof. apply n_toffoli_fuel. Qed.
Lemma n_svec (v : list reg) x : ne_regs v -> @filled _ (ne_pair ne_regs ne_regs) (split_vector_at v x).
Proof.
  intros Hv. unfold split_vector_at. apply n_bind; [apply n_assert|]. intros _ _. apply n_ret.
  unfold ne_regs in *. rewrite <- (firstn_skipn x v) in Hv. apply Forall_app in Hv. exact Hv.
Qed.
Lemma n_pipe sc r : ne_reg r -> filled (apply_pipeline_objects ac sc r).
Proof.
  intros Hr. unfold apply_pipeline_objects. apply (@n_bind _ _ ne_regs); [nl|]. intros rs Hrs. apply (@n_bind _ _ ne_nat); [nl|]. intros mx _. apply (@n_bind _ _ ne_nat); [nl|]. intros tn _.
  apply (@n_bind _ _ ne_regs).
  { destruct (tn =? 0); [apply n_ret; exact Hrs|]. pose proof n_make_reg as Hm. apply n_bind; [apply Hm|]. intros t Ht. apply (@n_bind _ _ ne_regs); [nl|]. intros ts Hts. apply n_ret. apply Forall_app. auto. }
  intros rs' Hrs'. apply (@n_bind _ _ ne_oregs).
  { apply (n_fold _ (fun _ => True)); [|apply Forall_forall; auto|apply map_Some_ne, Hrs']. intros o [is co] Ho _. unfold apply_entry.
    apply (@n_bind _ _ (ne_pair ne_regs ne_oregs)); [nl|]. intros [l o'] (Hl & Ho'). cbn [fst snd] in *. np. }
  intros o Ho. apply (@n_bind _ _ ne_regs); [nl|]. intros l Hl. apply (@n_bind _ _ (ne_pair ne_regs ne_regs)); [apply n_svec, Hl|]. intros [l1 l2] (H1 & H2). cbn [fst snd] in *. np.
Qed.
End Ac.
Lemma n_rz r t : ne_reg r -> filled (rz r t). Proof. intros Hr. unfold rz. pose proof n_local_aco. np. Qed.
Lemma n_rzr r t : ne_reg r -> filled (rz_ratio r t). Proof. apply n_rz. Qed.
Lemma n_rz_pi r m : ne_reg r -> filled (rz_pi_by r m). Proof. intros Hr. unfold rz_pi_by. pose proof n_local_aco. destruct (_ =? _)%Z; [apply n_fail|]. apply (@n_bind _ _ ne_q); [nl|]. intros. np. Qed.
Ltac gates := pose proof n_local_aco; pose proof (n_gate local_aco n_local_aco UH); pose proof (n_gate local_aco n_local_aco US); pose proof (n_gate local_aco n_local_aco UT);
  pose proof (n_sdg local_aco n_local_aco); pose proof (n_toffoli local_aco n_local_aco); pose proof (n_cnot local_aco n_local_aco);
  assert (forall t : R, forall r, ne_reg r -> filled (rz r t)) by (intros; apply n_rz; assumption); pose proof n_rz; pose proof n_rzr.
Ltac nq := repeat first [ apply n_rz; na | apply n_rzr; na | np ].
Lemma n_rx r t : ne_reg r -> filled (rx r t). Proof. intros Hr. unfold rx, g_h. gates. nq. Qed.
Lemma n_ry r t : ne_reg r -> filled (ry r t). Proof. intros Hr. unfold ry, g_h, g_s. gates. nq. Qed.
Lemma n_rxr r t : ne_reg r -> filled (rx_ratio r t). Proof. intros Hr. unfold rx_ratio, g_h. gates. nq. Qed.
Lemma n_ryr r t : ne_reg r -> filled (ry_ratio r t). Proof. intros Hr. unfold ry_ratio, g_h, g_s. gates. nq. Qed.
Lemma n_rxp r t : ne_reg r -> filled (rx_pi_by r t). Proof. intros Hr. unfold rx_pi_by. apply (@n_bind _ _ ne_q); [nl|]. intros. apply n_rxr, Hr. Qed.
Lemma n_ryp r t : ne_reg r -> filled (ry_pi_by r t). Proof. intros Hr. unfold ry_pi_by. apply (@n_bind _ _ ne_q); [nl|]. intros. apply n_ryr, Hr. Qed.
Lemma n_phase r t : ne_reg r -> filled (apply_global_phase r t). Proof. intros Hr. unfold apply_global_phase. gates. np. Qed.
Lemma n_phase_ratio r t : ne_reg r -> filled (apply_global_phase_ratio r t). Proof. intros Hr. unfold apply_global_phase_ratio. gates. np. Qed.
Lemma n_phase_pi r t : ne_reg r -> filled (apply_global_phase_pi_by r t). Proof. intros Hr. unfold apply_global_phase_pi_by. apply (@n_bind _ _ ne_q); [nl|]. intros. apply n_phase_ratio, Hr. Qed.

Lemma n_cphase (g : reg -> M reg) cr r : (forall q, ne_reg q -> filled (g q)) -> ne_reg cr -> ne_reg r -> filled (cond_phase g cr r).
Proof. intros Hg Hc Hr. unfold cond_phase. gates. nq. Qed.
Lemma n_chalf cr a b : ne_reg cr -> ne_reg a -> ne_reg b -> filled (cond_swap_half cr a b).
Proof. intros Hc Ha Hb. unfold cond_swap_half. gates. np. Qed.
Lemma n_cstep acc p : ne_pair (ne_pair ne_reg ne_regs) ne_regs acc -> fst p <> [] /\ snd p <> [] -> @filled _ (ne_pair (ne_pair ne_reg ne_regs) ne_regs) (cond_swap_step acc p).
Proof.
  intros Hacc Hp. destruct acc as [[cr l1] l2], p as [a b]. destruct Hacc as ((Hc & H1) & H2), Hp as (Ha & Hb). cbn [fst snd] in *. unfold cond_swap_step.
  apply n_bind; [apply n_assert|]. intros _ _. apply n_bind; [apply n_assert|]. intros _ _.
  do 3 (apply n_bind; [apply n_chalf; assumption|]; intros [[? ?] ?] ((? & ?) & ?); cbn [fst snd] in * ). apply n_ret. repeat split; cbn [fst snd]; auto; apply Forall_app; auto.
Qed.
Lemma n_local_try cr r co : ne_reg cr -> ne_reg r -> filled (local_try cr r co).
Proof.
  intros Hc Hr. unfold local_try. destruct (co_obj co) as [u|m]; [|apply n_fail]. pose proof n_ryp. gates. unfold g_h, g_s.
  destruct u; try solve [nq; try (apply n_ryp; assumption) | apply n_cphase; assumption].
  - apply n_bind; [apply n_assert|]. intros _ _. apply (@n_bind _ _ ne_regs); [nl|]. intros rs Hrs. apply (@n_bind _ _ (ne_pair ne_regs ne_regs)); [apply n_svec, Hrs|]. intros [l1 l2] (H1' & H2'). cbn [fst snd] in *.
    apply (@n_bind _ _ (ne_pair (ne_pair ne_reg ne_regs) ne_regs)).
    + apply (n_fold _ (fun p => fst p <> [] /\ snd p <> [])); [intros; apply n_cstep; assumption|apply combine_ne; assumption|]. repeat split; try constructor. exact Hc.
    + intros [[c x] y] ((? & ?) & ?). cbn [fst snd] in *. apply (@n_bind _ _ ne_oreg); [apply n_lift; intros o Eo; apply (merge_ne _ _ (proj2 (Forall_app _ _ _) (conj H11 H12)) Eo)|]. intros. np.
Qed.
Lemma n_give k m cr r : ne_reg r -> filled (give_back k m cr r). Proof. intros Hr. unfold give_back. np. Qed.
Lemma n_try d : forall cr r co, ne_reg cr -> ne_reg r -> filled (try_cond d cr r co).
Proof.
  induction d as [|d IH]; intros cr r co Hc Hr; cbn [try_cond]; [apply n_local_try; assumption|]. pose proof n_give. np.
Qed.
Lemma n_aco d r co : ne_reg r -> filled (aco d r co).
Proof. intros Hr. destruct d as [|d]; cbn [aco]; [apply n_local_aco, Hr|]. pose proof (n_try d). np. Qed.
Lemma n_csub d sc : forall cr r, ne_reg cr -> ne_reg r -> filled (apply_cond_subcircuit d sc cr r).
Proof.
  induction d as [|d IH]; intros cr r Hc Hr; cbn [apply_cond_subcircuit].
  - unfold local_cond_subcircuit. apply n_with; [repeat constructor; exact Hc|]. apply n_bind; [apply n_pipe; [intros; apply n_aco; assumption|exact Hr]|]. intros r' Hr'. apply n_bind; [apply n_dissolve|]. intros c' Hc'. np.
  - pose proof n_give. np.
Qed.
Lemma n_sub d sc r : ne_reg r -> filled (apply_subcircuit d sc r).
Proof. intros Hr. destruct d as [|d]; cbn [apply_subcircuit]; [apply n_pipe; [exact n_local_aco|exact Hr]|]. pose proof (n_csub d sc). np. Qed.
Lemma n_inverter d rs f : ne_regs rs -> filled (inverter d rs f).
Proof.
  intros Hrs. unfold inverter, apply_inverted_subcircuit. apply (@n_bind _ _ ne_pipe); [apply n_on_new|]. intros sc _. apply (@n_bind _ _ ne_oreg); [nl|]. intros m Hm. apply (@n_bind _ _ ne_reg); [nl|]. intros r Hr.
  apply (@n_bind _ _ ne_reg); [apply (@n_bind _ _ ne_pipe); [nl|]; intros sc' _; apply n_sub, Hr|]. intros r' Hr'. apply (@n_bind _ _ ne_many); [nl|]. intros [l|l x] Hl; [apply n_ret; exact Hl|apply n_crash].
Qed.
Lemma n_inv_macro d rs f : ne_regs rs -> filled (inv_macro d rs f).
Proof.
  intros Hrs. unfold inv_macro, apply_inverted_subcircuit. apply (@n_bind _ _ ne_pipe); [apply n_on_new|]. intros sc _. apply (@n_bind _ _ ne_oreg); [nl|]. intros m Hm. apply (@n_bind _ _ ne_reg); [nl|]. intros r Hr.
  apply (@n_bind _ _ ne_reg); [apply (@n_bind _ _ ne_pipe); [nl|]; intros sc' _; apply n_sub, Hr|]. intros r' Hr'. apply (@n_bind _ _ ne_many); [nl|]. intros [l|l x] Hl; [apply n_ret; exact Hl|apply n_crash].
Qed.
Lemma n_measure m r : ne_reg r -> filled (measure_with m r).
Proof. intros Hr. unfold measure_with. apply n_bind; [apply n_get|]. intros b (F1 & F3). apply n_bind; [apply n_put; split; [exact F1|apply Forall_app; auto]|]. intros _ _. apply n_ret. split; [exact Hr|exact I]. Qed.

(** *** Calls *)
Lemma n_one args k : ne_regs args -> (forall r, ne_reg r -> filled (k r)) -> filled (one args k).
Proof. intros Ha H. unfold one. destruct args as [|r [|]]; try apply n_crash. inversion Ha; subst. apply H. assumption. Qed.
Lemma n_two args k : ne_regs args -> (forall a b, ne_reg a -> ne_reg b -> filled (k a b)) -> filled (two args k).
Proof. intros Ha H. unfold two. destruct args as [|r [|q [|]]]; try apply n_crash. inversion Ha as [|? ? ? X]; subst. inversion X; subst. apply H; assumption. Qed.
Lemma n_out1 (m : M reg) : filled m -> filled (out1 m).
Proof. intros H. unfold out1. apply n_bind; [exact H|]. intros r Hr. apply n_ret. repeat constructor. exact Hr. Qed.
Lemma n_out2 (m : M (reg * reg)) : filled m -> filled (out2 m).
Proof. intros H. unfold out2. apply n_bind; [exact H|]. intros [a b] (Ha & Hb). apply n_ret. repeat constructor; assumption. Qed.
Lemma of_opt_ne o : ne_oreg o -> ne_regs (of_opt o).
Proof. destruct o; intros H; repeat constructor. exact H. Qed.
Lemma n_run_call d c args : ne_regs args -> filled (run_call d c args).
Proof.
  intros Ha. pose proof (n_aco d) as Hac.
  destruct c; cbn [run_call];
    try (apply n_one; [exact Ha|]; intros r Hr); try (apply n_two; [exact Ha|]; intros ra rb Hra Hrb);
    try (destruct (d =? 0); [|apply n_crash]; apply n_one; [exact Ha|]; intros r Hr);
    try apply n_out1; try apply n_out2.
  - apply n_register.
  - apply n_bind; [apply n_qudit|]. intros o Ho. apply n_ret, of_opt_ne, Ho.
  - nl.
  - apply (@n_bind _ _ ne_oreg); [nl|]. intros o Ho. apply n_ret, of_opt_ne, Ho.
  - apply (@n_bind _ _ ne_split); [nl|]. intros [x|x|x y] Hs; apply n_ret; cbn in Hs; repeat constructor; intuition.
  - apply (@n_bind _ _ ne_split); [unfold split_abs; nl|]. intros [x|x|x y] Hs; apply n_ret; cbn in Hs; repeat constructor; intuition.
  - nl.
  - apply (@n_bind _ _ (ne_pair ne_oreg ne_reg)); [nl|]. intros [o x] (Ho & Hx). apply n_ret. apply Forall_app. split; [apply of_opt_ne, Ho|repeat constructor; exact Hx].
  - apply (@n_bind _ _ (ne_pair ne_reg ne_oreg)); [nl|]. intros [x o] (Hx & Ho). apply n_ret. constructor; [exact Hx|apply of_opt_ne, Ho].
  - apply (@n_bind _ _ ne_many); [nl|]. intros [l|l x] Hs; apply n_ret; cbn in Hs; [exact Hs|]. apply Forall_app. intuition.
  - apply Hac, Hr.
  - apply n_gate; assumption.
  - apply n_sdg; assumption.
  - apply n_tdg; assumption.
  - apply n_matrix; assumption.
  - apply n_broadcast; assumption.
  - apply n_cnot; assumption.
  - apply n_swap; assumption.
  - apply n_toffoli; assumption.
  - apply n_rz; assumption.
  - apply n_rx; assumption.
  - apply n_ry; assumption.
  - apply n_rzr; assumption.
  - apply n_rxr; assumption.
  - apply n_ryr; assumption.
  - apply n_rz_pi; assumption.
  - apply n_rxp; assumption.
  - apply n_ryp; assumption.
  - apply n_phase; assumption.
  - apply n_phase_ratio; assumption.
  - apply n_phase_pi; assumption.
  - apply n_make.
  - apply n_make_reg.
  - apply n_bind; [apply n_return|]. intros _ _. apply n_ret. constructor.
  - apply n_bind; [apply n_measure, Hr|]. intros [x h] (Hx & _). apply n_ret. repeat constructor. exact Hx.
  - apply n_bind; [apply n_measure, Hr|]. intros [x h] (Hx & _). apply n_ret. repeat constructor. exact Hx.
  - apply n_bind; [apply n_condition, Hr|]. intros _ _. apply n_ret. constructor.
  - apply n_dissolve.
  - apply n_bind; [apply n_drop|]. intros _ _. apply n_ret. constructor.
  - apply n_sub, Hr.
  - apply n_inverter, Ha.
  - apply n_inv_macro, Ha.
  - apply n_ret. constructor.
Qed.

Definition all_full (cl : client) : Prop := full (fst cl) /\ Forall (fun r => r <> []) (snd cl).
Lemma pick_ne rs ps : legal rs ps -> Forall (fun r : reg => r <> []) rs -> ne_regs (pick rs ps).
Proof.
  intros (_ & L) F. unfold pick. apply Forall_map. apply Forall_forall. intros p Hp. rewrite Forall_forall in F. apply F, nth_In, L, Hp.
Qed.
Lemma keep_ne rs ps : Forall (fun r : reg => r <> []) rs -> Forall (fun r => r <> []) (keep rs ps).
Proof.
  intros F. unfold keep. apply Forall_map. apply Forall_forall. intros p Hp. apply filter_In in Hp. destruct Hp as (Hp & _). apply in_seq in Hp. rewrite Forall_forall in F. apply F, nth_In. lia.
Qed.
Lemma full_step cl c ps cl' : all_full cl -> legal (snd cl) ps -> do_call cl c ps = Some cl' -> all_full cl'.
Proof.
  intros (F & R) L E. destruct cl as [s rs]. cbn [fst snd] in *. unfold do_call in E. pose proof (n_run_call (length (conds s)) c (pick rs ps) (pick_ne _ _ L R) s F) as X.
  destruct (run_call _ _ _ s) as [o s'|e s'|]; inversion E; subst; cbn [fst snd].
  - destruct X as (Ho & F'). split; [exact F'|]. apply Forall_app. split; [apply keep_ne, R|exact Ho].
  - split; [exact X|apply keep_ne, R].
Qed.
Lemma full_reach ok cl : reach ok start cl -> all_full cl.
Proof.
  intros H. remember start as z eqn:Ez. induction H as [cl|cl1 cl2 cl3 c ps R IH O L E]; subst; [repeat split; constructor|].
  apply (full_step cl2 c ps); auto.
Qed.
