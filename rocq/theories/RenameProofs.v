(** The builder does not look at the numbers of qubits: calls given renamed registers append the renamed objects. *)
From Coq Require Import Reals ZArith QArith.
From Coquelicot Require Import Complex.
From Verif Require Import Base BuilderModel HistorySpec RenameSpec.
Local Open Scope nat_scope.
Local Open Scope mon_scope.

Section Shift.
Context (N : nat) (fq : nat -> nat) (INJ : forall p q, fq p = fq q -> p = q) (ID : forall q, N <= q -> fq q = q).
Definition sh (r : reg) : reg := map fq r.
Definition she (e : list nat * cobj) : list nat * cobj := (map fq (fst e), snd e).
Definition shb (b : builder) : builder := mkB (map she (pipeline b)) (bn b) (map sh (zeroed b)) (meas b).
Definition shs (s : st) : st := mkSt (shb (bld s)) (map (option_map sh) (conds s)).
Lemma shs_renamed s : shs s = renamed_state fq s.
Proof. reflexivity. Qed.
Definition large {A} (o : out A) : Prop := match o with Ret _ s | Fail _ s => N <= bn (bld s) | Crash _ => True end.
Definition sho {A} (g : A -> A) (o : out A) : out A := match o with Ret a s => Ret (g a) (shs s) | Fail e s => Fail e (shs s) | Crash p => Crash p end.
Definition rmap {A} (g : A -> A) (r : res A) : res A := match r with Ok a => Ok (g a) | Err e => Err e | Panic p => Panic p end.
Definition nat1 {A} (g : A -> A) (m m' : M A) : Prop := forall s, N <= bn (bld s) -> m' (shs s) = sho g (m s) /\ large (m s).

Lemma sh_len (r : reg) : length (sh r) = length r.
Proof. apply map_length. Qed.
Lemma sh_app (a b : reg) : sh (a ++ b) = sh a ++ sh b.
Proof. apply map_app. Qed.
Lemma nat_bind {A B} (g : A -> A) (h : B -> B) m m' k k' : nat1 g m m' -> (forall a, nat1 h (k a) (k' (g a))) -> nat1 h (mbind m k) (mbind m' k').
Proof. intros H K s HB. unfold mbind. destruct (H s HB) as [-> L]. destruct (m s); cbn [sho]; [apply K; exact L|split; [reflexivity|exact L]|split; [reflexivity|exact I]]. Qed.
Lemma nat_ret {A} (g : A -> A) a a' : a' = g a -> nat1 g (ret a) (ret a').
Proof. intros -> s B. split; [reflexivity|exact B]. Qed.
Lemma nat_fail {A} (g : A -> A) e : nat1 g (fail e) (fail e).
Proof. intros s B. split; [reflexivity|first [exact B|exact I]]. Qed.
Lemma nat_crash {A} (g : A -> A) p : nat1 g (crash p) (crash p).
Proof. intros s B. split; [reflexivity|first [exact B|exact I]]. Qed.
Lemma nat_lift {A} (g : A -> A) r r' : r' = rmap g r -> nat1 g (lift r) (lift r').
Proof. intros -> s B. destruct r; (split; [reflexivity|first [exact B|exact I]]). Qed.
Lemma nat_unwrap {A} (g : A -> A) m m' : nat1 g m m' -> nat1 g (unwrapM m) (unwrapM m').
Proof. intros H s B. unfold unwrapM. destruct (H s B) as [-> L]. destruct (m s); (split; [reflexivity|first [exact L|exact I]]). Qed.
Lemma nat_opt {A} (g : A -> A) o : nat1 g (lift (unwrap_opt o)) (lift (unwrap_opt (option_map g o))).
Proof. apply nat_lift. destruct o; reflexivity. Qed.
Lemma nat_assert b : nat1 (fun u => u) (massert b) (massert b).
Proof. destruct b; intros s B; (split; [reflexivity|first [exact B|exact I]]). Qed.
Lemma nat_const {A} (r : res A) : nat1 (fun a => a) (lift r) (lift r).
Proof. apply nat_lift. destruct r; reflexivity. Qed.
Lemma nat_fold {A B} (g : A -> A) (h : B -> B) f f' : (forall a b, nat1 g (f a b) (f' (g a) (h b))) -> forall l a, nat1 g (mfold f l a) (mfold f' (map h l) (g a)).
Proof. intros H. induction l as [|b l IH]; intros a; cbn [map mfold]; [apply nat_ret; reflexivity|]. eapply nat_bind; [apply H|exact IH]. Qed.
Lemma nat_mmap {A B} (g : A -> A) (h : B -> B) f f' : (forall a, nat1 h (f a) (f' (g a))) -> forall l, nat1 (map h) (mmap f l) (mmap f' (map g l)).
Proof.
  intros H. induction l as [|b l IH]; cbn [map mmap]; [apply nat_ret; reflexivity|]. eapply nat_bind; [apply H|]. intros c. eapply nat_bind; [exact IH|].
  intros cs. apply nat_ret. reflexivity.
Qed.

Lemma rmap_bind {A B} (g : A -> A) (h : B -> B) (r r' : res A) k k' : r' = rmap g r -> (forall a, k' (g a) = rmap h (k a)) -> bind r' k' = rmap h (bind r k).
Proof. intros -> H. destruct r; cbn; auto. Qed.
Lemma rmap_const {A B} (h : B -> B) (r : res A) k k' : (forall a, k' a = rmap h (k a)) -> bind r k' = rmap h (bind r k).
Proof. intros H. destruct r; cbn; auto. Qed.
Lemma foldM_rmap {A B} (g : A -> A) (h : B -> B) f f' : (forall a b, f' (g a) (h b) = rmap g (f a b)) -> forall l a, foldM f' (map h l) (g a) = rmap g (foldM f l a).
Proof. intros H. induction l as [|b l IH]; intros a; cbn [map foldM]; [reflexivity|]. rewrite H. destruct (f a b); cbn [rmap bind]; [apply IH|reflexivity|reflexivity]. Qed.

Definition sh_split (sp : split_result) : split_result := match sp with Selected r => Selected (sh r) | Unselected r => Unselected (sh r) | Split a b => Split (sh a) (sh b) end.
Definition sh_many (sp : split_many) : split_many := match sp with AllSelected rs => AllSelected (map sh rs) | Remaining rs r => Remaining (map sh rs) (sh r) end.
Definition both {A B} (g : A -> A) (h : B -> B) (p : A * B) : A * B := (g (fst p), h (snd p)).
Lemma new_sh l : new_reg (sh l) = option_map sh (new_reg l).
Proof. destruct l; reflexivity. Qed.
Lemma unwrap_sh {A} (g : A -> A) o : unwrap_opt (option_map g o) = rmap g (unwrap_opt o).
Proof. destruct o; reflexivity. Qed.
Lemma merge2_sh a b : merge2 (sh a) (sh b) = rmap sh (merge2 a b).
Proof. unfold merge2. rewrite <- sh_app, new_sh. apply unwrap_sh. Qed.
Lemma merge_sh rs : merge_registers (map sh rs) = rmap (option_map sh) (merge_registers rs).
Proof.
  unfold merge_registers. apply (foldM_rmap (option_map sh) sh merge_step merge_step) with (a := None). intros [a|] b; cbn [merge_step option_map]; [|reflexivity].
  apply (rmap_bind sh); [apply merge2_sh|]. reflexivity.
Qed.
Lemma idx_map {A B} (g : A -> B) l i : idx (map g l) i = match idx l i with Ok a => Ok (g a) | Err e => Err e | Panic p => Panic p end.
Proof. unfold idx. rewrite nth_error_map. destruct (nth_error l i); reflexivity. Qed.
Lemma idx_sh {A} (g : A -> A) l i : idx (map g l) i = rmap g (idx l i).
Proof. apply idx_map. Qed.
Lemma select_sh r is : select (sh r) is = rmap sh (select r is).
Proof.
  induction is as [|i is IH]; [reflexivity|]. cbn [select]. rewrite sh_len. destruct (i <=? length r); [|exact IH].
  apply (rmap_bind fq); [apply idx_sh|]. intros q. apply (rmap_bind sh); [exact IH|]. reflexivity.
Qed.
Lemma existsb_sh q r : existsb (Nat.eqb (fq q)) (sh r) = existsb (Nat.eqb q) r.
Proof.
  induction r as [|a r IH]; [reflexivity|]. cbn [sh map existsb]. fold (sh r). rewrite IH. f_equal. destruct (Nat.eqb_spec (fq q) (fq a)) as [E|E], (Nat.eqb_spec q a) as [E'|E']; try reflexivity; [apply INJ in E; contradiction|subst; contradiction].
Qed.
Lemma filter_sh P P' r : (forall q, P' (fq q) = P q) -> filter P' (sh r) = sh (filter P r).
Proof. intros H. induction r as [|a r IH]; [reflexivity|]. cbn [sh map filter]. fold (sh r). rewrite H, IH. destruct (P a); reflexivity. Qed.
Lemma split_rel_sh r is : split_rel (sh r) is = rmap sh_split (split_rel r is).
Proof.
  unfold split_rel. apply (rmap_bind sh); [apply select_sh|]. intros sel. cbv zeta. rewrite new_sh.
  erewrite (filter_sh (fun oi => match new_reg sel with Some r1 => negb (existsb (Nat.eqb oi) r1) | None => true end)).
  2:{ intros q. destruct (new_reg sel); cbn [option_map]; [rewrite existsb_sh|]; reflexivity. }
  rewrite new_sh. destruct (new_reg sel) as [r1|]; cbn [option_map]; match goal with |- context [option_map sh ?o] => destruct o end; reflexivity.
Qed.
Lemma split_helper_sh fuel : forall r acc, split_helper fuel (sh r) (map sh acc) = rmap (map sh) (split_helper fuel r acc).
Proof.
  induction fuel as [|fuel IH]; intros r acc; [reflexivity|]. cbn [split_helper]. apply (rmap_bind sh_split); [apply split_rel_sh|].
  intros [a|a|a b]; cbn [sh_split rmap]; [rewrite map_app; reflexivity|reflexivity|]. rewrite <- IH, map_app. reflexivity.
Qed.
Lemma split_all_sh r : split_all (sh r) = rmap (map sh) (split_all r).
Proof. unfold split_all. rewrite sh_len. apply (split_helper_sh _ r []). Qed.
Lemma split_first_sh r : split_first_qubit (sh r) = rmap (both (option_map sh) sh) (split_first_qubit r).
Proof. apply (rmap_bind sh_split); [apply split_rel_sh|]. intros [a|a|a b]; reflexivity. Qed.
Lemma split_last_sh r : split_last_qubit (sh r) = rmap (both sh (option_map sh)) (split_last_qubit r).
Proof. unfold split_last_qubit. rewrite sh_len. apply rmap_const. intros k. apply (rmap_bind sh_split); [apply split_rel_sh|]. intros [a|a|a b]; reflexivity. Qed.
Lemma upd_nth_map {A} (g : A -> A) l : forall i a, upd_nth i (g a) (map g l) = map g (upd_nth i a l).
Proof. induction l as [|b l IH]; intros [|i] a; cbn; rewrite ?IH; reflexivity. Qed.
Lemma take_at_sh rs i : take_at (map (option_map sh) rs) i = rmap (both sh (map (option_map sh))) (take_at rs i).
Proof.
  unfold take_at. apply (rmap_bind (option_map sh)); [apply idx_sh|]. intros o. apply (rmap_bind sh); [apply unwrap_sh|]. intros r. unfold both. cbn [rmap fst snd].
  rewrite <- (upd_nth_map (option_map sh)). reflexivity.
Qed.
Lemma take_all_sh is : forall rs, take_all (map (option_map sh) rs) is = rmap (both (map sh) (map (option_map sh))) (take_all rs is).
Proof.
  induction is as [|i is IH]; intros rs; [reflexivity|]. cbn [take_all]. apply (rmap_bind (both sh (map (option_map sh)))); [apply take_at_sh|]. intros [r rs1]. cbn [both fst snd].
  apply (rmap_bind (both (map sh) (map (option_map sh)))); [apply IH|]. intros [l rs2]. reflexivity.
Qed.
Lemma somes_sh l : somes (map (option_map sh) l) = map sh (somes l).
Proof. unfold somes. induction l as [|[a|] l IH]; cbn [map option_map concat app]; rewrite ?IH; reflexivity. Qed.
Lemma split_groups_sh r gs : split_groups (sh r) gs = rmap sh_many (split_groups r gs).
Proof.
  unfold split_groups. apply (rmap_bind (map sh)); [apply split_all_sh|]. intros rs.
  apply (rmap_bind (both (map sh) (map (option_map sh)))).
  - rewrite <- (map_id gs) at 1. replace ([], map Some (map sh rs)) with (both (map sh) (map (option_map sh)) ([], map Some rs)) by (unfold both; cbn [fst snd map]; rewrite !map_map; reflexivity).
    apply foldM_rmap. intros [sel l] is. unfold group_step, both at 1. cbn [fst snd]. apply (rmap_bind (both (map sh) (map (option_map sh)))); [apply take_all_sh|].
    intros [subs l2]. cbn [both fst snd]. apply (rmap_bind (option_map sh)); [apply merge_sh|]. intros [m|]; cbn [option_map rmap both fst snd]; unfold both; cbn [fst snd]; rewrite map_app; reflexivity.
  - intros [sel l]. cbn [both fst snd]. apply (rmap_bind (option_map sh)); [rewrite somes_sh; apply merge_sh|]. intros [m|]; reflexivity.
Qed.

(** *** The calls *)
Definition same {A} (a : A) : A := a.
Lemma n_merge2 a b : nat1 sh (lift (merge2 a b)) (lift (merge2 (sh a) (sh b))).
Proof. apply nat_lift, merge2_sh. Qed.
Lemma n_merge rs : nat1 (option_map sh) (lift (merge_registers rs)) (lift (merge_registers (map sh rs))).
Proof. apply nat_lift, merge_sh. Qed.
Lemma n_split_rel r is : nat1 sh_split (lift (split_rel r is)) (lift (split_rel (sh r) is)).
Proof. apply nat_lift, split_rel_sh. Qed.
Lemma n_split_all r : nat1 (map sh) (lift (split_all r)) (lift (split_all (sh r))).
Proof. apply nat_lift, split_all_sh. Qed.
Lemma n_split_first r : nat1 (both (option_map sh) sh) (lift (split_first_qubit r)) (lift (split_first_qubit (sh r))).
Proof. apply nat_lift, split_first_sh. Qed.
Lemma n_split_last r : nat1 (both sh (option_map sh)) (lift (split_last_qubit r)) (lift (split_last_qubit (sh r))).
Proof. apply nat_lift, split_last_sh. Qed.
Lemma n_split_groups r gs : nat1 sh_many (lift (split_groups r gs)) (lift (split_groups (sh r) gs)).
Proof. apply nat_lift, split_groups_sh. Qed.
Lemma n_take_all rs is : nat1 (both (map sh) (map (option_map sh))) (lift (take_all rs is)) (lift (take_all (map (option_map sh) rs) is)).
Proof. apply nat_lift, take_all_sh. Qed.
Lemma seq_sh k : forall a, N <= a -> seq a k = sh (seq a k).
Proof. induction k as [|k IH]; intros a Ha; [reflexivity|]. cbn [seq sh map]. rewrite (ID a Ha); fold (sh (seq (S a) k)); rewrite <- IH by lia. reflexivity. Qed.
Lemma n_register k : nat1 sh (register k) (register k).
Proof.
  intros s B. unfold register, get, put, mbind, lift. cbn [bld shs shb bn]. pose proof (seq_sh k _ B) as E. revert E. generalize (seq (bn (bld s)) k). intros X E.
  destruct X as [|q X]; cbn [new_reg unwrap_opt sho]; [split; [reflexivity|exact I]|]. split; [|cbn; lia]. cbn [ret]. unfold ret. cbn [sho]. rewrite <- E. reflexivity.
Qed.
Lemma n_qubit : nat1 sh qubit qubit.
Proof. apply n_register. Qed.
Lemma n_push e : nat1 same (push e) (push (she e)).
Proof. intros s B. unfold push, get, put, mbind. cbn. split; [|exact B]. unfold shs, shb. cbn. rewrite map_app. reflexivity. Qed.
Lemma n_temp : nat1 sh make_zeroed_temp_qubit make_zeroed_temp_qubit.
Proof.
  intros s B. unfold make_zeroed_temp_qubit, get, put, mbind, ret. cbn [bld shs shb zeroed]. rewrite <- map_rev. destruct (rev (zeroed (bld s))) as [|r z]; cbn [map]; [apply n_qubit; exact B|].
  cbn [sho]. split; [|exact B]. unfold shs, shb. cbn. rewrite map_rev. reflexivity.
Qed.
Lemma n_return r : nat1 same (return_zeroed_temp_register r) (return_zeroed_temp_register (sh r)).
Proof.
  eapply nat_bind; [apply n_split_all|]. intros rs s B. unfold get, put, mbind. cbn. split; [|exact B]. unfold shs, shb. cbn. rewrite map_app. reflexivity.
Qed.
Lemma n_temps k : nat1 sh (make_zeroed_temp_register k) (make_zeroed_temp_register k).
Proof.
  unfold make_zeroed_temp_register. eapply nat_bind; [rewrite <- (map_id (seq 0 k)) at 2; apply (nat_mmap (fun a => a)); intros _; apply n_temp|]. intros rs.
  eapply nat_bind; [apply n_merge|]. intros m. apply nat_opt.
Qed.
Lemma n_measure mo r : nat1 (both sh same) (measure_with mo r) (measure_with mo (sh r)).
Proof.
  intros s B. unfold measure_with, get, put, mbind, ret. cbn. split; [|exact B]. unfold shs, shb, both, same. cbn. rewrite map_app, sh_len. reflexivity.
Qed.
Lemma n_local r c : nat1 sh (local_aco r c) (local_aco (sh r) c).
Proof.
  unfold local_aco. rewrite sh_len. destruct ((co_n c =? 1) || (co_n c =? length r)); [|apply nat_fail]. destruct ((co_n c =? 1) && (1 <? length r)).
  - eapply nat_bind; [apply n_split_all|]. intros rs. eapply nat_bind; [apply (nat_fold same sh); intros [] q; apply (n_push (q, c))|]. intros _.
    eapply nat_bind; [apply n_merge|]. intros m. apply nat_opt.
  - eapply nat_bind; [apply (n_push (r, c))|]. intros _. apply nat_ret. reflexivity.
Qed.
Lemma n_qudit k : nat1 (option_map sh) (qudit k) (qudit k).
Proof. unfold qudit. destruct (k =? 0); [apply nat_ret; reflexivity|]. eapply nat_bind; [apply n_register|]. intros r. apply nat_ret. reflexivity. Qed.

Section Aco.
Context (ac : reg -> cobj -> M reg) (Hac : forall r c, nat1 sh (ac r c) (ac (sh r) c)).
Lemma n_gate u r : nat1 sh (BuilderModel.gate ac u r) (BuilderModel.gate ac u (sh r)).
Proof. apply nat_unwrap, Hac. Qed.
Lemma n_sdag r : nat1 sh (g_s_dagger ac r) (g_s_dagger ac (sh r)).
Proof. eapply nat_bind; [apply n_gate|]. intros a. apply n_gate. Qed.
Lemma n_tdag r : nat1 sh (g_t_dagger ac r) (g_t_dagger ac (sh r)).
Proof. eapply nat_bind; [apply n_sdag|]. intros a. apply n_gate. Qed.
Lemma n_matrix r d : nat1 sh (apply_matrix ac r d) (apply_matrix ac (sh r) d).
Proof. unfold apply_matrix. rewrite sh_len. apply Hac. Qed.
Lemma n_broadcast r d : nat1 sh (broadcast_single_qubit_matrix ac r d) (broadcast_single_qubit_matrix ac (sh r) d).
Proof. apply nat_unwrap, n_matrix. Qed.
Lemma n_cnot_step acc r : nat1 (both sh (map sh)) (cnot_step ac acc r) (cnot_step ac (both sh (map sh) acc) (sh r)).
Proof.
  destruct acc as [cr acc]. unfold both at 2. cbn [fst snd cnot_step]. eapply nat_bind; [apply n_merge2|]. intros a. eapply nat_bind; [apply Hac|]. intros b. eapply nat_bind; [apply n_split_rel|].
  intros [x|x|x y]; cbn [sh_split]; try apply nat_crash. apply nat_ret. unfold both. cbn [fst snd]. rewrite map_app. reflexivity.
Qed.
Lemma n_cnot a b : nat1 (both sh sh) (cnot ac a b) (cnot ac (sh a) (sh b)).
Proof.
  unfold cnot. rewrite sh_len. destruct (1 <? length a); [apply nat_fail|]. eapply nat_bind; [apply n_split_all|]. intros rs.
  eapply nat_bind; [apply (nat_fold (both sh (map sh)) sh (cnot_step ac) (cnot_step ac) n_cnot_step rs (a, []))|]. intros [cr l]. cbn [both fst snd].
  eapply nat_bind; [apply n_merge|]. intros m. eapply nat_bind; [apply nat_opt|]. intros r. apply nat_ret. reflexivity.
Qed.
Lemma n_swap_pair p : nat1 (both sh sh) (swap_pair ac p) (swap_pair ac (both sh sh p)).
Proof.
  destruct p as [a b]. cbn [both fst snd swap_pair]. rewrite !sh_len. eapply nat_bind; [apply nat_assert|]. intros _. eapply nat_bind; [apply nat_assert|]. intros _.
  apply nat_unwrap. eapply nat_bind; [apply n_cnot|]. intros [x y]. cbn [both fst snd]. eapply nat_bind; [apply n_cnot|]. intros [z w]. cbn [both fst snd]. apply n_cnot.
Qed.
Lemma combine_map {A B} (g : A -> A) (h : B -> B) l : forall l', combine (map g l) (map h l') = map (both g h) (combine l l').
Proof. induction l as [|a l IH]; intros [|b l']; cbn; rewrite ?IH; reflexivity. Qed.
Lemma split_map {A B} (g : A -> A) (h : B -> B) l : List.split (map (both g h) l) = both (map g) (map h) (List.split l).
Proof. induction l as [|[a b] l IH]; cbn [map List.split both fst snd]; [reflexivity|]. rewrite IH. destruct (List.split l). reflexivity. Qed.
Lemma n_swap a b : nat1 (both sh sh) (swap ac a b) (swap ac (sh a) (sh b)).
Proof.
  unfold swap. rewrite !sh_len. destruct (length a =? length b); [|apply nat_fail]. eapply nat_bind; [apply n_split_all|]. intros ras. eapply nat_bind; [apply n_split_all|]. intros rbs.
  rewrite combine_map. eapply nat_bind; [apply (nat_mmap (both sh sh) (both sh sh)); apply n_swap_pair|]. intros prs. rewrite split_map. destruct (List.split prs) as [xs ys]. cbn [both fst snd].
  eapply nat_bind; [apply n_merge|]. intros ma. eapply nat_bind; [apply nat_opt|]. intros ra. eapply nat_bind; [apply n_merge|]. intros mb. eapply nat_bind; [apply nat_opt|]. intros rb. apply nat_ret. reflexivity.
Qed.
Ltac step1 := first [apply n_gate | apply n_sdag | apply n_tdag | apply n_cnot | apply nat_unwrap, n_cnot | apply n_merge2 | apply n_merge | apply nat_opt | apply n_split_last | apply n_split_rel | apply n_temp | apply n_return].
Ltac steps := repeat (eapply nat_bind; [step1|]; let x := fresh "x" in intros x; try (destruct x as [? ?]; cbn [both fst snd])).
Lemma n_basic a b : nat1 (both sh sh) (basic_toffoli ac a b) (basic_toffoli ac (sh a) (sh b)).
Proof.
  unfold basic_toffoli. rewrite sh_len. destruct (length a =? 2); [|apply nat_fail]. eapply nat_bind; [apply n_split_rel|].
  intros [x|x|x y]; cbn [sh_split]; try apply nat_crash. unfold g_h, g_t.
  do 14 (eapply nat_bind; [step1|]; let x := fresh "x" in intros x; try (destruct x as [? ?]; cbn [both fst snd]));
  eapply nat_bind; [step1|]. intros []. cbn [both fst snd].
  eapply nat_bind; [step1|]. intros ?. apply nat_ret. reflexivity.
Qed.
Lemma n_toffoli_fuel fuel : forall a b, nat1 (both sh sh) (toffoli_fuel ac fuel a b) (toffoli_fuel ac fuel (sh a) (sh b)).
Proof.
  induction fuel as [|fuel IH]; intros a b; [apply nat_crash|]. cbn [toffoli_fuel]. rewrite sh_len. destruct (length a =? 1); [apply n_cnot|]. destruct (length a =? 2); [apply n_basic|].
  eapply nat_bind; [apply n_split_rel|]. intros [x|x|hd tl]; cbn [sh_split]; try apply nat_crash.
  eapply nat_bind; [apply n_temp|]. intros tr. eapply nat_bind; [apply nat_unwrap, IH|]. intros [h1 t1]. cbn [both fst snd].
  eapply nat_bind; [apply n_merge2|]. intros cr. eapply nat_bind; [apply nat_unwrap, IH|]. intros [cr1 r1]. cbn [both fst snd].
  eapply nat_bind; [apply n_split_last|]. intros [tl1 t2]. cbn [both fst snd]. eapply nat_bind; [apply nat_opt|]. intros t3.
  eapply nat_bind; [apply nat_unwrap, IH|]. intros [h2 t4]. cbn [both fst snd]. eapply nat_bind; [apply n_return|]. intros _. eapply nat_bind; [apply n_merge2|]. intros c. apply nat_ret. reflexivity.
Qed.
Lemma n_toffoli a b : nat1 (both sh sh) (toffoli ac a b) (toffoli ac (sh a) (sh b)).
Proof. unfold toffoli. rewrite sh_len. apply n_toffoli_fuel. Qed.
Lemma put_back_sh rs p : put_back (map (option_map sh) rs) (both same sh p) = rmap (map (option_map sh)) (put_back rs p).
Proof.
  destruct p as [i r]. cbn [both fst snd put_back same]. apply (rmap_bind (option_map sh)); [apply idx_sh|]. intros _. cbn [rmap]. rewrite <- (upd_nth_map (option_map sh)). reflexivity.
Qed.
Lemma n_entry rs e : nat1 (map (option_map sh)) (apply_entry ac rs e) (apply_entry ac (map (option_map sh) rs) e).
Proof.
  destruct e as [is co]. cbn [apply_entry]. eapply nat_bind; [apply n_take_all|]. intros [subs l]. cbn [both fst snd]. eapply nat_bind; [apply n_merge|]. intros m. eapply nat_bind; [apply nat_opt|]. intros r.
  eapply nat_bind; [apply Hac|]. intros r'. eapply nat_bind; [apply n_split_all|]. intros subs'.
  eapply nat_bind. { apply nat_lift. rewrite <- (map_id is) at 1. rewrite (combine_map (fun i => i) sh). apply (foldM_rmap (map (option_map sh)) (both (fun i => i) sh)). apply put_back_sh. }
  intros l'. replace (forallb (fun o : option reg => match o with Some _ => true | None => false end) (map (option_map sh) l')) with (forallb (fun o : option reg => match o with Some _ => true | None => false end) l')
    by (induction l' as [|[q|] l' IH]; cbn; auto). eapply nat_bind; [apply nat_assert|]. intros _. apply nat_ret. reflexivity.
Qed.
Lemma mapM_unwrap l : mapM unwrap_opt (map (option_map sh) l) = rmap (map sh) (mapM unwrap_opt l).
Proof. induction l as [|[q|] l IH]; cbn [map mapM option_map unwrap_opt bind]; [reflexivity| |reflexivity]. rewrite IH. destruct (mapM unwrap_opt l); reflexivity. Qed.
Lemma n_vector l x : nat1 (both (map sh) (map sh)) (split_vector_at l x) (split_vector_at (map sh l) x).
Proof.
  unfold split_vector_at. rewrite map_length. eapply nat_bind; [apply nat_assert|]. intros _. apply nat_ret. unfold both. cbn [fst snd]. rewrite firstn_map, skipn_map. reflexivity.
Qed.
Lemma n_pipeline sc r : nat1 sh (apply_pipeline_objects ac sc r) (apply_pipeline_objects ac sc (sh r)).
Proof.
  unfold apply_pipeline_objects. cbv zeta. rewrite sh_len. eapply nat_bind; [apply n_split_all|]. intros rs. eapply nat_bind; [apply nat_const|]. intros mx. eapply nat_bind; [apply nat_const|]. intros tn.
  eapply nat_bind with (g := map sh).
  { destruct (tn =? 0); [apply nat_ret; reflexivity|]. eapply nat_bind; [apply n_temps|]. intros t. eapply nat_bind; [apply n_split_all|]. intros ts. apply nat_ret. symmetry. apply map_app. }
  intros all. eapply nat_bind with (g := map (option_map sh)).
  { replace (map Some (map sh all)) with (map (option_map sh) (map Some all)) by (rewrite !map_map; reflexivity). rewrite <- (map_id sc) at 2. apply (nat_fold (map (option_map sh)) (fun e => e)). apply n_entry. }
  intros l. eapply nat_bind; [apply nat_lift, mapM_unwrap|]. intros l'. eapply nat_bind; [apply n_vector|]. intros [rs' trs]. cbn [both fst snd].
  eapply nat_bind; [apply n_merge|]. intros m. eapply nat_bind with (g := same). { destruct m; cbn [option_map]; [apply n_return|apply nat_ret; reflexivity]. }
  intros _. eapply nat_bind; [apply n_merge|]. intros m'. apply nat_opt.
Qed.
End Aco.
Definition Hl := n_local.
Lemma n_rz r t : nat1 sh (rz r t) (rz (sh r) t).
Proof. unfold rz. rewrite sh_len. apply nat_unwrap, n_local. Qed.
Lemma n_rz_pi_by r m : nat1 sh (rz_pi_by r m) (rz_pi_by (sh r) m).
Proof. unfold rz_pi_by. rewrite sh_len. destruct (m =? 0)%Z; [apply nat_fail|]. eapply nat_bind; [apply nat_const|]. intros q. apply n_local. Qed.
Ltac rot := repeat (eapply nat_bind; [first [apply (n_gate _ n_local) | apply (n_sdag _ n_local) | apply n_rz]|]; intros ?); first [apply (n_gate _ n_local) | apply (n_sdag _ n_local) | apply n_rz].
Lemma n_rx r t : nat1 sh (rx r t) (rx (sh r) t).
Proof. unfold rx. rot. Qed.
Lemma n_ry r t : nat1 sh (ry r t) (ry (sh r) t).
Proof. unfold ry. rot. Qed.
Lemma n_rz_ratio r t : nat1 sh (rz_ratio r t) (rz_ratio (sh r) t).
Proof. apply n_rz. Qed.
Lemma n_rx_ratio r t : nat1 sh (rx_ratio r t) (rx_ratio (sh r) t).
Proof. unfold rx_ratio, rz_ratio. rot. Qed.
Lemma n_ry_ratio r t : nat1 sh (ry_ratio r t) (ry_ratio (sh r) t).
Proof. unfold ry_ratio, rz_ratio. rot. Qed.
Lemma n_rx_pi_by r m : nat1 sh (rx_pi_by r m) (rx_pi_by (sh r) m).
Proof. eapply nat_bind; [apply nat_const|]. intros q. apply n_rx_ratio. Qed.
Lemma n_ry_pi_by r m : nat1 sh (ry_pi_by r m) (ry_pi_by (sh r) m).
Proof. eapply nat_bind; [apply nat_const|]. intros q. apply n_ry_ratio. Qed.
Lemma n_phase r t : nat1 sh (apply_global_phase r t) (apply_global_phase (sh r) t).
Proof. unfold apply_global_phase. rewrite sh_len. apply nat_unwrap, n_local. Qed.
Lemma n_phase_ratio r t : nat1 sh (apply_global_phase_ratio r t) (apply_global_phase_ratio (sh r) t).
Proof. unfold apply_global_phase_ratio. rewrite sh_len. apply nat_unwrap, n_local. Qed.
Lemma n_phase_pi_by r m : nat1 sh (apply_global_phase_pi_by r m) (apply_global_phase_pi_by (sh r) m).
Proof. eapply nat_bind; [apply nat_const|]. intros q. apply n_phase_ratio. Qed.

(** *** Conditions *)
Ltac go := first [apply n_merge2 | apply n_merge | apply nat_opt | apply n_split_last | apply n_split_first | apply n_split_all | apply n_temp | apply n_return | apply (n_toffoli _ n_local) | apply (n_cnot _ n_local)
  | apply (n_gate _ n_local) | apply (n_sdag _ n_local) | apply n_ry_pi_by | apply nat_assert | apply n_vector].
Ltac gos := repeat (eapply nat_bind; [go|]; let x := fresh "x" in intros x; try (destruct x as [? ?]; cbn [both fst snd])).
Lemma n_cond_phase g cr r : (forall q, nat1 sh (g q) (g (sh q))) -> nat1 (both sh sh) (cond_phase g cr r) (cond_phase g (sh cr) (sh r)).
Proof.
  intros Hg. unfold cond_phase. gos. eapply nat_bind; [apply Hg|]. intros tq. gos. apply nat_ret. reflexivity.
Qed.
Definition sh3 (p : reg * reg * reg) : reg * reg * reg := both (both sh sh) sh p.
Lemma n_swap_half cr a b : nat1 sh3 (cond_swap_half cr a b) (cond_swap_half (sh cr) (sh a) (sh b)).
Proof. unfold cond_swap_half. gos. apply nat_ret. reflexivity. Qed.
Definition sh3l (p : reg * list reg * list reg) : reg * list reg * list reg := both (both sh (map sh)) (map sh) p.
Lemma n_swap_step acc p : nat1 sh3l (cond_swap_step acc p) (cond_swap_step (sh3l acc) (both sh sh p)).
Proof.
  destruct acc as [[cr ras] rbs]. destruct p as [a b]. cbn [sh3l both fst snd cond_swap_step]. rewrite !sh_len. gos. unfold sh3l, both. cbn [fst snd].
  eapply nat_bind; [apply n_swap_half|]. intros [[c1 a1] b1]. unfold sh3, both. cbn [fst snd]. eapply nat_bind; [apply n_swap_half|]. intros [[c2 a2] b2]. unfold sh3, both. cbn [fst snd].
  eapply nat_bind; [apply n_swap_half|]. intros [[c3 a3] b3]. unfold sh3, both. cbn [fst snd]. apply nat_ret. unfold sh3l, both. cbn [fst snd]. rewrite !map_app. reflexivity.
Qed.
Lemma n_local_try cr r co : nat1 (both sh sh) (local_try cr r co) (local_try (sh cr) (sh r) co).
Proof.
  unfold local_try. destruct (co_obj co) as [u|m]; [|apply nat_fail]. destruct u.
  - apply n_toffoli, n_local.
  - unfold g_s. gos. apply nat_ret. reflexivity.
  - unfold g_h. gos. apply nat_ret. reflexivity.
  - gos. apply nat_ret. reflexivity.
  - apply n_cond_phase. intros q. apply n_gate, n_local.
  - apply n_cond_phase. intros q. apply n_gate, n_local.
  - rewrite sh_len. gos. apply nat_ret. reflexivity.
  - cbv zeta. rewrite sh_len. gos. rewrite combine_map. eapply nat_bind; [apply (nat_fold sh3l (both sh sh) _ _ n_swap_step _ (cr, [], []))|]. intros [[c ras] rbs]. unfold sh3l, both. cbn [fst snd].
    rewrite <- map_app. gos. apply nat_ret. reflexivity.
  - cbv zeta. rewrite sh_len. gos. eapply nat_bind with (g := sh). { destruct theta; [apply n_rz|apply n_rz_ratio]. } intros tq. gos. eapply nat_bind; [apply n_split_rel|]. intros [y|y|y z]; cbn [sh_split]; try apply nat_crash. apply nat_ret. reflexivity.
  - apply nat_crash.
  - gos. eapply nat_bind with (g := sh). { destruct theta; (eapply nat_bind; [first [apply n_rz|apply n_rz_ratio]|]; intros ?; first [apply n_phase|apply n_phase_ratio]). } intros tq. gos. apply nat_ret. reflexivity.
Qed.
Lemma n_take_cr k : nat1 sh (take_cr k) (take_cr k).
Proof.
  intros s B. unfold take_cr. cbn [shs conds]. rewrite nth_error_map. destruct (nth_error (conds s) k) as [[r|]|]; cbn [option_map sho]; (split; [|first [exact B|exact I]]); try reflexivity.
  f_equal. unfold shs. cbn [bld conds]. f_equal. apply (upd_nth_map (option_map sh) _ k None).
Qed.
Lemma n_put_cr k r : nat1 same (put_cr k r) (put_cr k (sh r)).
Proof. intros s B. unfold put_cr. cbn [sho]. split; [|exact B]. f_equal. unfold shs. cbn [bld conds]. f_equal. apply (upd_nth_map (option_map sh) _ k (Some r)). Qed.
Lemma n_give_back k ncr cr r : nat1 (both sh sh) (give_back k ncr cr r) (give_back k ncr (sh cr) (sh r)).
Proof.
  unfold give_back. eapply nat_bind; [apply n_split_rel|]. intros [y|y|y z]; cbn [sh_split]; try apply nat_crash. eapply nat_bind; [apply n_put_cr|]. intros _. apply nat_ret. reflexivity.
Qed.
Lemma n_try_cond d : forall cr r co, nat1 (both sh sh) (try_cond d cr r co) (try_cond d (sh cr) (sh r) co).
Proof.
  induction d as [|k IH]; intros cr r co; [apply n_local_try|]. cbn [try_cond]. cbv zeta. rewrite sh_len. eapply nat_bind; [apply n_take_cr|]. intros c. eapply nat_bind; [apply n_merge2|]. intros c2.
  eapply nat_bind; [apply IH|]. intros [a b]. cbn [both fst snd]. apply n_give_back.
Qed.
Lemma n_aco d r c : nat1 sh (aco d r c) (aco d (sh r) c).
Proof.
  destruct d as [|k]; [apply n_local|]. cbn [aco]. eapply nat_bind; [apply n_take_cr|]. intros cr. eapply nat_bind; [apply n_try_cond|]. intros [a b]. cbn [both fst snd].
  eapply nat_bind; [apply n_put_cr|]. intros _. apply nat_ret. reflexivity.
Qed.
Lemma n_condition cr : nat1 same (condition_with cr) (condition_with (sh cr)).
Proof. intros s B. unfold condition_with. cbn [sho]. split; [|exact B]. f_equal. unfold shs. cbn [bld conds]. rewrite map_app. reflexivity. Qed.
Lemma n_dissolve : nat1 sh dissolve dissolve.
Proof.
  intros s B. unfold dissolve. cbn [shs conds]. rewrite <- map_rev. destruct (rev (conds s)) as [|[r|] l]; cbn [map option_map sho]; (split; [|first [exact B|exact I]]); try reflexivity. unfold shs. cbn [bld conds]. rewrite map_rev. reflexivity.
Qed.
Lemma n_drop_wrapper : nat1 same drop_wrapper drop_wrapper.
Proof.
  intros s B. unfold drop_wrapper. cbn [sho]. split; [|exact B]. f_equal. unfold shs. cbn [bld conds]. f_equal. induction (conds s) as [|a l IH]; [reflexivity|]. cbn [map removelast]. destruct l; [reflexivity|]. cbn [map] in *. rewrite IH. reflexivity.
Qed.
Lemma n_with_conds {A} (g : A -> A) c m m' : nat1 g m m' -> nat1 g (with_conds c m) (with_conds (map (option_map sh) c) m').
Proof.
  intros H s B. unfold with_conds. specialize (H (mkSt (bld s) c) B). unfold shs at 1 in H. cbn [bld conds] in H. cbn [shs bld conds]. destruct H as [-> L]. destruct (m (mkSt (bld s) c)); (split; [reflexivity|first [exact L|exact I]]).
Qed.
Lemma n_cond_sub d sc : forall cr r, nat1 (both sh sh) (apply_cond_subcircuit d sc cr r) (apply_cond_subcircuit d sc (sh cr) (sh r)).
Proof.
  induction d as [|k IH]; intros cr r; cbn [apply_cond_subcircuit].
  - unfold local_cond_subcircuit. apply (n_with_conds (both sh sh) [Some cr]). eapply nat_bind; [apply n_pipeline, n_aco|]. intros a. eapply nat_bind; [apply n_dissolve|]. intros b. apply nat_ret. reflexivity.
  - cbv zeta. rewrite sh_len. eapply nat_bind; [apply n_take_cr|]. intros c. eapply nat_bind; [apply n_merge2|]. intros c2. eapply nat_bind; [apply IH|]. intros [a b]. cbn [both fst snd]. apply n_give_back.
Qed.
Lemma n_sub d sc r : nat1 sh (apply_subcircuit d sc r) (apply_subcircuit d sc (sh r)).
Proof.
  destruct d as [|k]; [apply n_pipeline, n_local|]. cbn [apply_subcircuit]. eapply nat_bind; [apply n_take_cr|]. intros cr. eapply nat_bind; [apply n_cond_sub|]. intros [a b]. cbn [both fst snd].
  eapply nat_bind; [apply n_put_cr|]. intros _. apply nat_ret. reflexivity.
Qed.
Lemma n_inverted d sc r : nat1 sh (apply_inverted_subcircuit d sc r) (apply_inverted_subcircuit d sc (sh r)).
Proof. eapply nat_bind; [apply nat_const|]. intros q. apply n_sub. Qed.
Lemma n_on_new {A} (m : M A) : nat1 same (on_new m) (on_new m).
Proof. intros s B. unfold on_new. destruct (m (mkSt empty_builder [])); (split; [reflexivity|first [exact B|exact I]]). Qed.
Lemma mmap_lengths rs : mmap (fun r : reg => register (length r)) (map sh rs) = mmap (fun r => register (length r)) rs.
Proof. induction rs as [|r rs IH]; [reflexivity|]. cbn [map mmap]. rewrite sh_len, IH. reflexivity. Qed.
Lemma lengths_sh rs : map (@length nat) (map sh rs) = map (@length nat) rs.
Proof. rewrite map_map. apply map_ext. apply sh_len. Qed.
Lemma n_inverter d rs f : nat1 (map sh) (inverter d rs f) (inverter d (map sh rs) f).
Proof.
  unfold inverter. rewrite mmap_lengths, lengths_sh. eapply nat_bind; [apply n_on_new|]. intros sc. eapply nat_bind; [apply n_merge|]. intros m. eapply nat_bind; [apply nat_opt|]. intros r.
  eapply nat_bind; [apply n_inverted|]. intros r'. eapply nat_bind; [apply n_split_groups|]. intros [l|l q]; cbn [sh_many]; [apply nat_ret; reflexivity|apply nat_crash].
Qed.
Lemma n_inv_macro d rs f : nat1 (map sh) (inv_macro d rs f) (inv_macro d (map sh rs) f).
Proof.
  unfold inv_macro. rewrite mmap_lengths, lengths_sh. eapply nat_bind; [apply n_on_new|]. intros sc. eapply nat_bind; [apply n_merge|]. intros m. eapply nat_bind; [apply nat_opt|]. intros r.
  eapply nat_bind; [apply n_inverted|]. intros r'. eapply nat_bind; [apply n_split_groups|]. intros [l|l q]; cbn [sh_many]; [apply nat_ret; reflexivity|apply nat_crash].
Qed.

Lemma n_one args k : (forall r, nat1 (map sh) (k r) (k (sh r))) -> nat1 (map sh) (one args k) (one (map sh args) k).
Proof. intros H. destruct args as [|r [|? ?]]; cbn [map one]; [apply nat_crash|apply H|apply nat_crash]. Qed.
Lemma n_two args k : (forall a b, nat1 (map sh) (k a b) (k (sh a) (sh b))) -> nat1 (map sh) (two args k) (two (map sh args) k).
Proof. intros H. destruct args as [|r [|q [|? ?]]]; cbn [map two]; [apply nat_crash|apply nat_crash|apply H|apply nat_crash]. Qed.
Lemma n_out1 m m' : nat1 sh m m' -> nat1 (map sh) (out1 m) (out1 m').
Proof. intros H. eapply nat_bind; [exact H|]. intros r. apply nat_ret. reflexivity. Qed.
Lemma n_out2 m m' : nat1 (both sh sh) m m' -> nat1 (map sh) (out2 m) (out2 m').
Proof. intros H. eapply nat_bind; [exact H|]. intros [a b]. apply nat_ret. reflexivity. Qed.
Lemma n_call d c args : (forall is, c <> CSplitAbs is) -> nat1 (map sh) (run_call d c args) (run_call d c (map sh args)).
Proof.
  intros NA. assert (O : forall o, of_opt (option_map sh o) = map sh (of_opt o)) by (intros []; reflexivity).
  destruct c; cbn [run_call]; try (apply n_one; intros r; apply n_out1); try (apply n_two; intros a b; apply n_out2).
  - apply n_out1, n_register.
  - eapply nat_bind; [apply n_qudit|]. intros o. apply nat_ret, O.
  - apply n_two. intros a b. apply n_out1, n_merge2.
  - eapply nat_bind; [apply n_merge|]. intros o. apply nat_ret, O.
  - apply n_one. intros r. eapply nat_bind; [apply n_split_rel|]. intros [a|a|a b]; apply nat_ret; reflexivity.
  - destruct (NA is eq_refl).
  - apply n_one. intros r. apply n_split_all.
  - apply n_one. intros r. eapply nat_bind; [apply n_split_first|]. intros [o a]. cbn [both fst snd]. apply nat_ret. rewrite map_app, O. reflexivity.
  - apply n_one. intros r. eapply nat_bind; [apply n_split_last|]. intros [a o]. cbn [both fst snd]. apply nat_ret. rewrite O. reflexivity.
  - apply n_one. intros r. eapply nat_bind; [apply n_split_groups|]. intros [l|l a]; apply nat_ret; cbn [sh_many of_many]; rewrite ?map_app; reflexivity.
  - apply n_aco.
  - apply n_gate, n_aco.
  - apply n_sdag, n_aco.
  - apply n_tdag, n_aco.
  - apply n_matrix, n_aco.
  - apply n_broadcast, n_aco.
  - apply n_cnot, n_aco.
  - apply n_swap, n_aco.
  - apply n_toffoli, n_aco.
  - apply n_rz.
  - apply n_rx.
  - apply n_ry.
  - apply n_rz_ratio.
  - apply n_rx_ratio.
  - apply n_ry_ratio.
  - apply n_rz_pi_by.
  - apply n_rx_pi_by.
  - apply n_ry_pi_by.
  - destruct (d =? 0); [|apply nat_crash]. apply n_one; intros r; apply n_out1, n_phase.
  - destruct (d =? 0); [|apply nat_crash]. apply n_one; intros r; apply n_out1, n_phase_ratio.
  - destruct (d =? 0); [|apply nat_crash]. apply n_one; intros r; apply n_out1, n_phase_pi_by.
  - apply n_out1, n_temp.
  - apply n_out1, n_temps.
  - apply n_one. intros r. eapply nat_bind; [apply n_return|]. intros _. apply nat_ret. reflexivity.
  - destruct (d =? 0); [|apply nat_crash]. apply n_one. intros r. eapply nat_bind; [apply n_measure|]. intros [a h]. cbn [both fst snd]. apply nat_ret. reflexivity.
  - destruct (d =? 0); [|apply nat_crash]. apply n_one. intros r. eapply nat_bind; [apply n_measure|]. intros [a h]. cbn [both fst snd]. apply nat_ret. reflexivity.
  - apply n_one. intros r. eapply nat_bind; [apply n_condition|]. intros _. apply nat_ret. reflexivity.
  - apply n_out1, n_dissolve.
  - eapply nat_bind; [apply n_drop_wrapper|]. intros _. apply nat_ret. reflexivity.
  - apply n_sub.
  - apply n_inverter.
  - apply n_inv_macro.
  - apply nat_ret. reflexivity.
Qed.
End Shift.
