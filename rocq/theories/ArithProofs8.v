(** Which objects [add] appends, and what [add_inv] is under conditions. *)
From Coq Require Import Reals Lra FunctionalExtensionality Permutation.
From Coquelicot Require Import Complex.
From Verif Require Import Base BitsSpec BitsProofs OpsModel OpsSpec Instances BuilderModel RegProofs DenSpec DenProofs LocalProofs LinkProofs
  RunSpec RunProofs GateProofs ToffoliProofs CondProofs SubSpec InvertProofs SubProofs SubProofs2 SubProofs3 SubProofs4 SubProofs5 ProgramModel ProgramSpec ProgramProofs ProgramProofs2 ProgramProofs3 CircProofs CircProofs2
  ArithModel ArithSpec ArithProofs ArithProofs2 ArithProofs5 ArithProofs6.
Local Open Scope nat_scope.
Local Open Scope mon_scope.

(** *** Calls that append objects and do nothing else *)
Definition puts {A} (c : list (option reg)) (m : M A) (a : A) (p : pipe) : Prop := forall s, conds s = c -> m s = Ret a (appended s p).
Lemma appended_app s p q : appended (appended s p) q = appended s (p ++ q).
Proof. unfold appended. cbn. rewrite app_assoc. reflexivity. Qed.
Lemma puts_bind {A B} c (m : M A) a p (f : A -> M B) b q : puts c m a p -> puts c (f a) b q -> puts c (mbind m f) b (p ++ q).
Proof. intros H1 H2 s C. unfold mbind. rewrite H1 by exact C. rewrite H2 by exact C. rewrite appended_app. reflexivity. Qed.
Lemma puts_ret {A} c (a : A) : puts c (ret a) a [].
Proof. intros s _. rewrite appended_nil. reflexivity. Qed.
Lemma puts_lift {A} c (r : res A) a : r = Ok a -> puts c (lift r) a [].
Proof. intros -> s _. rewrite appended_nil. reflexivity. Qed.
Lemma puts_lift_bind {A B} c (r : res A) a (f : A -> M B) b q : r = Ok a -> puts c (f a) b q -> puts c (mbind (lift r) f) b q.
Proof. intros E H. apply (puts_bind c (lift r) a [] f b q); [apply puts_lift; exact E|exact H]. Qed.
Lemma puts_then_ret {A B} c (m : M A) a p (f : A -> M B) b : puts c m a p -> puts c (f a) b [] -> puts c (mbind m f) b p.
Proof. intros H G. rewrite <- (app_nil_r p). eapply puts_bind; eassumption. Qed.
Lemma puts_push c e : puts c (push e) tt [e].
Proof. intros s _. reflexivity. Qed.
Lemma puts_unwrap {A} c (m : M A) a p : puts c m a p -> puts c (unwrapM m) a p.
Proof. intros H s C. unfold unwrapM. rewrite H by exact C. reflexivity. Qed.
Lemma puts_aco c qs co : co_n co = length qs -> puts c (local_aco qs co) qs [(qs, co)].
Proof.
  intros Sz. unfold local_aco. rewrite Sz, Nat.eqb_refl, orb_true_r. replace ((length qs =? 1) && (1 <? length qs)) with false.
  2:{ destruct (Nat.eqb_spec (length qs) 1) as [->|]; reflexivity. }
  eapply puts_then_ret; [apply puts_push|apply puts_ret].
Qed.
Lemma puts_gate c u q : puts c (BuilderModel.gate local_aco u [q]) [q] [([q], mkCO 1 (OUnit u))].
Proof. apply puts_unwrap, puts_aco. reflexivity. Qed.

Lemma split_two a b : a <> b -> split_rel [a; b] [0] = Ok (Split [a] [b]).
Proof.
  intros H. unfold split_rel. cbn [select length Nat.leb idx nth_error bind new_reg filter existsb].
  cbn. rewrite Nat.eqb_refl, (neq_eqb b a) by congruence. reflexivity.
Qed.
Lemma split_one b : split_all [b] = Ok [[b]].
Proof. apply (split_all_ok [b]); [constructor; [intros []|constructor]|discriminate]. Qed.
Lemma puts_cnot c a b : a <> b -> puts c (cnot local_aco [a] [b]) ([a], [b]) [([a; b], mkCO 2 (OUnit UCNOT))].
Proof.
  intros H. unfold cnot. cbn [length Nat.ltb Nat.leb]. eapply puts_lift_bind; [apply split_one|].
  eapply puts_then_ret with (a := ([a], [[b]])).
  - cbn [mfold]. eapply puts_then_ret with (a := ([a], [[b]])); [|apply puts_ret]. unfold cnot_step.
    eapply puts_lift_bind with (a := [a; b]); [reflexivity|]. eapply puts_then_ret; [apply puts_aco; reflexivity|].
    eapply puts_lift_bind; [apply split_two; exact H|]. apply puts_ret.
  - cbn beta iota. eapply puts_lift_bind with (a := Some [b]); [reflexivity|]. eapply puts_lift_bind with (a := [b]); [reflexivity|]. apply puts_ret.
Qed.
Definition oH q : list nat * cobj := ([q], mkCO 1 (OUnit UH)).
Definition oT q : list nat * cobj := ([q], mkCO 1 (OUnit UT)).
Definition oCX a b : list nat * cobj := ([a; b], mkCO 2 (OUnit UCNOT)).
Definition oTd q : pipe := [([q], mkCO 1 (OUnit UZ)); ([q], mkCO 1 (OUnit US)); ([q], mkCO 1 (OUnit UT))].
Definition toff_pipe a b t : pipe :=
  [oH t] ++ [oCX b t] ++ oTd t ++ [oCX a t] ++ [oT t] ++ [oCX b t] ++ oTd t ++ [oCX a t] ++ [oT b] ++ [oT t] ++ [oCX a b] ++ [oH t] ++ [oT a] ++ oTd b ++ [oCX a b].
Lemma puts_Td c q : puts c (g_t_dagger local_aco [q]) [q] (oTd q).
Proof.
  unfold g_t_dagger, g_s_dagger, oTd. change (oTd q) with (firstn 2 (oTd q) ++ skipn 2 (oTd q)).
  eapply (puts_bind c _ [q] [_; _] _ _ [_]); [|apply puts_gate]. eapply (puts_bind c _ [q] [_] _ _ [_]); apply puts_gate.
Qed.
Lemma puts_toff c a b t : NoDup [a; b; t] -> puts c (toffoli local_aco [a; b] [t]) ([a; b], [t]) (toff_pipe a b t).
Proof.
  intros N. assert (D : a <> b /\ a <> t /\ b <> t) by (inversion_clear N as [|? ? A N']; inversion_clear N' as [|? ? B _]; cbn in *; intuition congruence).
  destruct D as (D1 & D2 & D3). unfold toffoli. cbn [length toffoli_fuel Nat.eqb]. unfold basic_toffoli. cbn [length Nat.eqb].
  eapply puts_lift_bind; [apply split_two; exact D1|]. cbn beta iota. unfold toff_pipe.
  Ltac pstep x := first [eapply (puts_bind _ _ x); [first [apply puts_gate|apply puts_Td|apply puts_unwrap, puts_cnot; congruence]|cbn beta iota]].
  pstep [t]. pstep ([b], [t]). pstep [t]. pstep ([a], [t]). pstep [t]. pstep ([b], [t]). pstep [t]. pstep ([a], [t]). pstep [b]. pstep [t]. pstep ([a], [b]). pstep [t]. pstep [a]. pstep [b].
  eapply (puts_then_ret _ _ ([a], [b])); [apply puts_unwrap, puts_cnot; congruence|]. cbn beta iota.
  eapply puts_lift_bind with (a := [a; b]); [reflexivity|]. apply puts_ret.
Qed.

(** *** Lines *)
Lemma puts_cond_x (cr : reg) t p : (forall c, puts c (toffoli local_aco cr [t]) (cr, [t]) p) ->
  forall gs, puts [] (call_line 0 (control op_x gs) [cr; [t]]) [cr; [t]] p.
Proof.
  intros H gs s C. unfold call_line, control. cbn [l_ctl l_fun]. unfold in_condition, scoped, op_x, op1, g_x, BuilderModel.gate, mbind, ret, condition_with, unwrapM. cbn [aco conds]. rewrite C. cbn [app].
  unfold mbind, take_cr. cbn [conds nth_error upd_nth bld]. unfold try_cond, local_try. cbn [co_obj]. rewrite (H [None]) by reflexivity.
  unfold put_cr, ret, dissolve, appended. cbn. rewrite C. reflexivity.
Qed.
Lemma puts_line d (rs : list reg) ls ps c : d = length c -> Forall2 (fun l p => puts c (call_line d l (line_regs rs l)) (line_regs rs l) p) ls ps ->
  NoDup (concat rs) -> Forall (fun r => r <> []) rs -> Forall (line_ok rs) ls -> puts c (program d rs ls) rs (concat ps).
Proof.
  intros _ F N Ne A s C. assert (G : forall s, conds s = c -> gives_back d rs ls s /\ calls d rs ls s = Ret tt (appended s (concat ps))).
  { clear - F. induction F as [|l p ls ps H F IH]; intros s C; cbn [gives_back calls concat].
    - rewrite appended_nil. split; [exact I|reflexivity].
    - unfold mbind. rewrite H by exact C. destruct (IH (appended s p) C) as (G1 & G2). split; [split; [reflexivity|exact G1]|]. rewrite G2, appended_app. reflexivity. }
  destruct (G s C) as (G1 & G2). rewrite program_route by assumption. unfold mbind. rewrite G2. reflexivity.
Qed.

(** *** Replayed subcircuits that need no temporary qubits *)
Lemma entry_puts c rho e : NoDup rho -> sized_entry (length rho) e ->
  puts c (apply_entry local_aco (map Some (singles rho)) e) (map Some (singles rho)) (ren rho [e]).
Proof.
  intros Nr (N & R & Hne & Sz). destruct e as [is co]. cbn [fst snd ren map] in *.
  set (qs := map (fun j => nth j rho 0) is). assert (Nq : NoDup qs) by (apply map_inj_NoDup; assumption).
  assert (Hq : qs <> []) by (unfold qs; destruct is; [congruence|discriminate]).
  assert (Es : map (fun i => [nth i rho 0]) is = singles qs) by (unfold qs, singles; rewrite map_map; reflexivity).
  unfold apply_entry. rewrite <- blanked_nil.
  eapply puts_lift_bind; [apply (take_all_ok rho is []); [exact N|exact R]|].
  cbn beta iota. cbn [app]. rewrite Es.
  eapply puts_lift_bind; [apply merge_singles|].
  eapply puts_lift_bind; [apply unwrap_new_reg; exact Hq|].
  eapply puts_then_ret; [apply puts_aco; unfold qs; rewrite map_length; exact Sz|].
  eapply puts_lift_bind; [apply split_all_ok; assumption|].
  eapply puts_lift_bind; [etransitivity; [|apply (put_back_ok rho is); assumption]; rewrite Es; reflexivity|]. rewrite blanked_nil.
  replace (forallb _ (map Some (singles rho))) with true; [eapply puts_then_ret; [apply puts_ret|]; apply puts_ret|].
  symmetry. apply forallb_forall. intros o Ho'. apply in_map_iff in Ho'. destruct Ho' as (r & <- & _). reflexivity.
Qed.
Lemma entries_put c rho sc : NoDup rho -> Forall (sized_entry (length rho)) sc ->
  puts c (mfold (apply_entry local_aco) sc (map Some (singles rho))) (map Some (singles rho)) (ren rho sc).
Proof.
  intros N. induction sc as [|e sc IH]; intros W; cbn [mfold]; [apply puts_ret|].
  inversion_clear W as [|? ? W1 W2]. apply (puts_bind c _ (map Some (singles rho)) (ren rho [e])); [apply entry_puts; assumption|]. apply IH; assumption.
Qed.
Lemma pipe_puts c (r : reg) sc : NoDup r -> r <> [] -> Forall (sized_entry (length r)) sc -> (exists e, In e sc /\ In (length r - 1) (fst e)) ->
  puts c (apply_pipeline_objects local_aco sc r) r (ren r sc).
Proof.
  intros Nr Hr W Top. assert (Hn : 0 < length r) by (destruct r; [congruence|cbn; lia]).
  unfold apply_pipeline_objects. cbv zeta. eapply puts_lift_bind; [apply split_all_ok; assumption|].
  eapply puts_lift_bind; [rewrite (top_index_sized (length r) sc W Top); reflexivity|].
  eapply puts_lift_bind; [apply chk_sub_ok; lia|]. replace (1 + (length r - 1) - length r) with 0 by lia. cbn [Nat.eqb].
  eapply (puts_bind c _ (singles r) []); [apply puts_ret|]. eapply puts_then_ret; [apply entries_put; assumption|].
  assert (Mu : mapM unwrap_opt (map Some (singles r)) = Ok (singles r)).
  { clear. induction (singles r) as [|a l IH]; [reflexivity|]. cbn. cbn in IH. rewrite IH. reflexivity. }
  eapply puts_lift_bind; [exact Mu|].
  assert (Hs : puts c (split_vector_at (singles r) (length r)) (singles r, []) []).
  { unfold split_vector_at. rewrite length_singles. rewrite Nat.leb_refl. eapply puts_then_ret; [apply puts_ret|].
    rewrite <- (length_singles r) at 1. rewrite firstn_all, <- (length_singles r), skipn_all. apply puts_ret. }
  eapply (puts_bind c _ _ []); [exact Hs|]. cbn beta iota. eapply puts_lift_bind with (a := None); [reflexivity|].
  eapply (puts_bind c _ tt []); [apply puts_ret|]. eapply puts_lift_bind; [apply merge_singles|]. apply puts_lift, unwrap_new_reg. exact Hr.
Qed.

(** *** sum, carry, carry_inv *)
Definition sum_fwd : pipe := [oCX 1 2; oCX 0 2].
Lemma sum_puts c a b : NoDup [c; a; b] -> puts [] (sum 0 [[c]; [a]; [b]]) [[c]; [a]; [b]] (ren [c; a; b] sum_fwd).
Proof.
  intros N. set (rs := [[c]; [a]; [b]] : list reg). assert (D : a <> b /\ c <> b) by (inversion_clear N as [|? ? A N']; inversion_clear N' as [|? ? B _]; cbn in *; intuition congruence).
  apply (puts_line 0 rs _ [[oCX a b]; [oCX c b]]); [reflexivity| |exact N|repeat constructor; discriminate|].
  - repeat constructor; apply puts_cond_x; intros c0; apply puts_cnot; tauto.
  - repeat apply Forall_cons; try apply Forall_nil; (split; [repeat constructor; cbn; lia|split; [repeat constructor; discriminate|]]); unfold line_regs, gather; cbn; eapply sub_pick; [reflexivity| |exact N| reflexivity| |exact N]; auto 12 using sub, sub_all.
Qed.
Lemma carry_puts c a b p : NoDup [c; a; b; p] -> puts [] (carry 0 [[c]; [a]; [b]; [p]]) [[c]; [a]; [b]; [p]] (ren [c; a; b; p] carry_fwd).
Proof.
  intros N. set (rs := [[c]; [a]; [b]; [p]] : list reg).
  assert (N1 : NoDup [a; b; p]) by (eapply sub_NoDup; [|exact N]; auto 12 using sub, sub_all).
  assert (N2 : NoDup [c; b; p]) by (eapply sub_NoDup; [|exact N]; auto 12 using sub, sub_all).
  assert (D : a <> b) by (inversion_clear N1; cbn in *; intuition congruence).
  apply (puts_line 0 rs _ [toff_pipe a b p; [oCX a b]; toff_pipe c b p; [oCX a b]]); [reflexivity| |exact N|repeat constructor; discriminate|].
  - repeat constructor; apply puts_cond_x; intros c0; first [apply puts_cnot; exact D|apply puts_toff; assumption].
  - repeat apply Forall_cons; try apply Forall_nil; (split; [repeat constructor; cbn; lia|split; [repeat constructor; discriminate|]]); unfold line_regs, gather; cbn; (eapply sub_pick; [reflexivity| |exact N]); auto 12 using sub, sub_all.
Qed.
Lemma wf_sized n e : wf_entry n e -> proper_entry e -> sized_entry n e.
Proof.
  destruct e as [qs [k o]]. intros (A & B & W) (Pl & _ & Sz). cbn [fst snd co_n co_obj] in *. split; [exact A|]. split; [exact B|]. split; [|exact Sz].
  cbn. destruct qs; [|discriminate]. exfalso. destruct o as [u|m]; [|exact Pl]. destruct u; cbn in W; try discriminate W; try (destruct W as (W & _); congruence); try exact Pl.
Qed.
Lemma carry_inv_puts c a b p : NoDup [c; a; b; p] -> puts [] (carry_inv 0 [[c]; [a]; [b]; [p]]) [[c]; [a]; [b]; [p]] (ren [c; a; b; p] carry_back).
Proof.
  intros N. unfold carry_inv, inv_macro.
  eapply (puts_bind [] _ carry_fwd []); [intros s _; rewrite appended_nil; apply carry_new|].
  assert (Hne : forall r, In r [[c]; [a]; [b]; [p]] -> r <> []) by (intros r [<-|[<-|[<-|[<-|[]]]]]; discriminate).
  eapply puts_lift_bind; [apply merge_registers_ok; exact Hne|]. eapply puts_lift_bind; [apply unwrap_new_reg; discriminate|].
  change (concat [[c]; [a]; [b]; [p]]) with [c; a; b; p]. eapply puts_then_ret.
  - unfold apply_inverted_subcircuit. eapply puts_lift_bind; [exact carry_back_ok|]. cbn [apply_subcircuit]. apply (pipe_puts [] [c; a; b; p]); [exact N|discriminate| |].
    + cbn [length]. pose proof carry_back_wf as W. pose proof carry_back_proper as Pr. rewrite Forall_forall in *. intros e He. apply wf_sized; [apply W|apply Pr]; exact He.
    + eexists. split; [right; right; right; right; right; right; right; right; right; right; right; left; reflexivity|left; reflexivity].
  - eapply puts_lift_bind; [apply (split_groups_ranges [[c]; [a]; [b]; [p]]); [exact N|discriminate|exact Hne]|]. apply puts_ret.
Qed.

(** *** add *)
Fixpoint add_pipe (rc ra rb : list nat) : pipe :=
  match rc, ra, rb with
  | [c], [a], [b; b1] => ren [c; a; b; b1] carry_fwd ++ ren [c; a; b] sum_fwd
  | c :: ((c1 :: _) as rc'), a :: ra', b :: rb' => ren [c; a; b; c1] carry_fwd ++ add_pipe rc' ra' rb' ++ ren [c; a; b; c1] carry_back ++ ren [c; a; b] sum_fwd
  | _, _, _ => []
  end.
Lemma add_puts : forall rc ra rb fuel, length ra = length rc -> length rb = S (length rc) -> rc <> [] -> length rc <= fuel -> NoDup (rc ++ ra ++ rb) ->
  puts [] (add_fuel fuel 0 [rc; ra; rb]) [rc; ra; rb] (add_pipe rc ra rb).
Proof.
  induction rc as [|c rc IH]; intros ra rb fuel La Lb Hne Hf N; [congruence|].
  destruct ra as [|a ra]; [discriminate|]. destruct rb as [|b rb]; [discriminate|]. destruct fuel as [|fuel]; [cbn in Hf; lia|].
  destruct rc as [|c1 cs].
  - destruct ra; [|discriminate]. destruct rb as [|b1 [|]]; try discriminate. cbn [app] in N.
    assert (N3 : NoDup [c; a; b]) by (eapply sub_NoDup; [|exact N]; auto 12 using sub, sub_all).
    cbn [add_fuel length Nat.eqb andb add_pipe]. replace (ren [c; a; b; b1] carry_fwd ++ ren [c; a; b] sum_fwd) with (concat [ren [c; a; b; b1] carry_fwd; ren [c; a; b] sum_fwd]) by (cbn [concat]; rewrite app_nil_r; reflexivity).
    set (rs := [[c]; [a]; [b; b1]] : list reg). apply (puts_line 0 rs); [reflexivity| |exact N|repeat constructor; discriminate|].
    + apply Forall2_cons; [apply (carry_puts c a b b1 N)|]. apply Forall2_cons; [|constructor]. apply (sum_puts c a b N3).
    + apply Forall_cons; [|apply Forall_cons; [|apply Forall_nil]]; (split; [args_ok|split; [repeat constructor; discriminate|]]); [exact N|exact N3].
  - cbn [length] in La, Lb, Hf. injection La as La. injection Lb as Lb.
    set (rs := [c :: c1 :: cs; a :: ra; b :: rb] : list reg).
    assert (N' : NoDup (c :: c1 :: cs ++ a :: ra ++ b :: rb)) by exact N.
    assert (Nt : NoDup ((c1 :: cs) ++ ra ++ rb)) by (eapply sub_NoDup; [|exact N']; cbn [app]; auto 12 using sub, sub_all).
    assert (N4 : NoDup [c; a; b; c1]).
    { eapply (sub_pick _ _ [c; c1; a; b]); [|cbn [app]|exact N']; [apply perm_skip; apply (Permutation_app_comm [a; b] [c1])|]. auto 12 using sub, sub_all. }
    assert (N3 : NoDup [c; a; b]) by (eapply sub_NoDup; [|exact N4]; auto 12 using sub, sub_all).
    assert (X1 : c1 :: cs <> []) by discriminate. assert (X2 : length (c1 :: cs) <= fuel) by (cbn [length]; lia).
    pose proof (IH ra rb fuel La Lb X1 X2 Nt) as A.
    assert (E1 : gather rs [(0, Some (seq 1 (length (c :: c1 :: cs) - 1)))] = c1 :: cs).
    { unfold gather. cbn [map concat arg_qubits snd fst]. rewrite app_nil_r. apply (map_nth_tail c (c1 :: cs)). }
    assert (E2 : gather rs [(1, Some (seq 1 (length (c :: c1 :: cs) - 1)))] = ra).
    { unfold gather. cbn [map concat arg_qubits snd fst]. rewrite app_nil_r. replace (length (c :: c1 :: cs) - 1) with (length ra) by (cbn [length]; lia). apply (map_nth_tail a ra). }
    assert (E3 : gather rs [(2, Some (seq 1 (length (c :: c1 :: cs))))] = rb).
    { unfold gather. cbn [map concat arg_qubits snd fst]. rewrite app_nil_r. replace (length (c :: c1 :: cs)) with (length rb) by (cbn [length]; lia). apply (map_nth_tail b rb). }
    assert (Carg : forall f, line_ok rs (call f [part 0 [0]; part 1 [0]; part 2 [0]; part 0 [1]])).
    { intros f. split; [|split; [repeat constructor; discriminate|exact N4]]. args_ok. }
    set (l2 := call (add_fuel fuel) [part 0 (seq 1 (length (c :: c1 :: cs) - 1)); part 1 (seq 1 (length (c :: c1 :: cs) - 1)); part 2 (seq 1 (length (c :: c1 :: cs)))]).
    assert (Er : line_regs rs l2 = [c1 :: cs; ra; rb]) by (unfold l2, line_regs, call, part; cbn [l_args map]; rewrite E1, E2, E3; reflexivity).
    assert (Nrs : NoDup (concat rs)) by (cbn [rs concat]; rewrite app_nil_r; exact N).
    assert (P : puts [] (program 0 rs [call carry [part 0 [0]; part 1 [0]; part 2 [0]; part 0 [1]]; l2; call carry_inv [part 0 [0]; part 1 [0]; part 2 [0]; part 0 [1]]; call sum [part 0 [0]; part 1 [0]; part 2 [0]]]) rs
      (concat [ren [c; a; b; c1] carry_fwd; add_pipe (c1 :: cs) ra rb; ren [c; a; b; c1] carry_back; ren [c; a; b] sum_fwd])).
    { apply puts_line; [reflexivity| |exact Nrs|repeat constructor; discriminate|].
      - apply Forall2_cons; [apply (carry_puts c a b c1 N4)|]. apply Forall2_cons; [|apply Forall2_cons; [apply (carry_inv_puts c a b c1 N4)|apply Forall2_cons; [|constructor]]].
        + rewrite Er. exact A.
        + apply (sum_puts c a b N3).
      - apply Forall_cons; [apply Carg|]. apply Forall_cons; [|apply Forall_cons; [apply Carg|apply Forall_cons; [|apply Forall_nil]]].
        + unfold line_ok. rewrite Er. split; [|split].
          * unfold l2. repeat apply Forall_cons; try apply Forall_nil; split; cbn [fst snd rs length nth]; try lia; intros i Hi; apply in_seq in Hi; cbn [length] in *; lia.
          * repeat apply Forall_cons; try apply Forall_nil; [discriminate| |]; [destruct ra|destruct rb]; discriminate.
          * cbn [concat]. rewrite app_nil_r. exact Nt.
        + split; [args_ok|]. split; [repeat constructor; discriminate|]. exact N3. }
    cbn [concat] in P. rewrite app_nil_r in P. intros s C. etransitivity; [|exact (P s C)]. cbn [add_fuel rs]. change (length (c :: c1 :: cs) =? 1) with false. cbn [andb].
    replace (length (c :: c1 :: cs) =? length (a :: ra)) with true by (symmetry; apply Nat.eqb_eq; cbn [length]; lia).
    replace (length (c :: c1 :: cs) + 1 =? length (b :: rb)) with true by (symmetry; apply Nat.eqb_eq; cbn [length]; lia). reflexivity.
Qed.

(** *** Its inverse *)
Definition inv_step (acc : pipe) (e : list nat * cobj) : res pipe :=
  let '(indices, co) := e in bind (invert_circuit_object co) (fun cos => Ok (acc ++ map (fun co => (indices, co)) cos)).
Lemma invert_unfold sc : invert_subcircuit sc = foldM inv_step (rev sc) [].
Proof. reflexivity. Qed.
Lemma invert_acc sc : forall acc q, foldM inv_step sc [] = Ok q ->
  foldM inv_step sc acc = Ok (acc ++ q).
Proof.
  induction sc as [|(is, co) sc IH]; intros acc q H; cbn [foldM inv_step] in *; [injection H as <-; rewrite app_nil_r; reflexivity|].
  destruct (invert_circuit_object co) as [cos| |]; cbn [bind] in *; try discriminate H. cbn [app] in H.
  destruct (foldM inv_step sc []) as [q0| |] eqn:E.
  - rewrite (IH _ q0 eq_refl) in H. injection H as <-. rewrite (IH _ q0 eq_refl), app_assoc. reflexivity.
  - exfalso. revert H. clear - E. assert (G : forall acc, foldM inv_step sc acc = Err e).
    { revert E. generalize (@nil (list nat * cobj)). induction sc as [|(is', co') sc IH]; intros l E acc; cbn [foldM inv_step] in *; [discriminate|]. destruct (invert_circuit_object co'); cbn [bind] in *; try congruence. eapply IH. exact E. }
    rewrite G. discriminate.
  - exfalso. revert H. clear - E. assert (G : forall acc, foldM inv_step sc acc = Panic p).
    { revert E. generalize (@nil (list nat * cobj)). induction sc as [|(is', co') sc IH]; intros l E acc; cbn [foldM inv_step] in *; [discriminate|]. destruct (invert_circuit_object co'); cbn [bind] in *; try congruence. eapply IH. exact E. }
    rewrite G. discriminate.
Qed.
Lemma foldM_app {A B} (f : A -> B -> res A) l1 l2 a : foldM f (l1 ++ l2) a = bind (foldM f l1 a) (foldM f l2).
Proof. revert a. induction l1 as [|b l1 IH]; intros a; [reflexivity|]. cbn. destruct (f a b); [apply IH|reflexivity|reflexivity]. Qed.
Lemma invert_app p p' q q' : invert_subcircuit p = Ok p' -> invert_subcircuit q = Ok q' -> invert_subcircuit (p ++ q) = Ok (q' ++ p').
Proof. rewrite !invert_unfold. intros Hp Hq. rewrite rev_app_distr, foldM_app, Hq. cbn [bind]. apply invert_acc. exact Hp. Qed.
Lemma invert_ren rho p q : invert_subcircuit p = Ok q -> invert_subcircuit (ren rho p) = Ok (ren rho q).
Proof.
  rewrite !invert_unfold. unfold ren at 1. rewrite <- map_rev. generalize (rev p). clear p. intros p.
  assert (G : forall acc q, foldM inv_step p acc = Ok q ->
    foldM inv_step (map (fun e => (map (fun j => nth j rho 0) (fst e), snd e)) p) (ren rho acc) = Ok (ren rho q)); [|intros H; apply (G [] q H)].
  induction p as [|(is, co) p IH]; intros acc q' H; cbn [foldM map fst snd inv_step] in *; [injection H as <-; reflexivity|].
  destruct (invert_circuit_object co) as [cos| |]; cbn [bind] in *; try discriminate H. rewrite <- (IH _ _ H). f_equal. unfold ren. rewrite map_app, !map_map. reflexivity.
Qed.
Definition sum_back : pipe := [oCX 0 2; oCX 1 2].
Lemma sum_back_ok : invert_subcircuit sum_fwd = Ok sum_back.
Proof. reflexivity. Qed.
Definition carry_twice : pipe := Eval vm_compute in match invert_subcircuit carry_back with Ok q => q | _ => [] end.
Lemma carry_twice_ok : invert_subcircuit carry_back = Ok carry_twice.
Proof. vm_compute. reflexivity. Qed.
Fixpoint add_back (rc ra rb : list nat) : pipe :=
  match rc, ra, rb with
  | [c], [a], [b; b1] => ren [c; a; b] sum_back ++ ren [c; a; b; b1] carry_back
  | c :: ((c1 :: _) as rc'), a :: ra', b :: rb' => ((ren [c; a; b] sum_back ++ ren [c; a; b; c1] carry_twice) ++ add_back rc' ra' rb') ++ ren [c; a; b; c1] carry_back
  | _, _, _ => []
  end.
Lemma add_back_ok : forall rc ra rb, invert_subcircuit (add_pipe rc ra rb) = Ok (add_back rc ra rb).
Proof.
  induction rc as [|c [|c1 cs] IH]; intros ra rb; [reflexivity| |].
  - destruct ra as [|a [|]]; [reflexivity| |]; destruct rb as [|b [|b1 [|]]]; reflexivity.
  - destruct ra as [|a ra]; [reflexivity|]. destruct rb as [|b rb]; [reflexivity|].
    change (add_pipe (c :: c1 :: cs) (a :: ra) (b :: rb)) with (ren [c; a; b; c1] carry_fwd ++ add_pipe (c1 :: cs) ra rb ++ ren [c; a; b; c1] carry_back ++ ren [c; a; b] sum_fwd).
    change (add_back (c :: c1 :: cs) (a :: ra) (b :: rb)) with (((ren [c; a; b] sum_back ++ ren [c; a; b; c1] carry_twice) ++ add_back (c1 :: cs) ra rb) ++ ren [c; a; b; c1] carry_back).
    apply invert_app; [apply invert_ren, carry_back_ok|]. apply invert_app; [apply IH|]. apply invert_app; apply invert_ren; [apply carry_twice_ok|apply sum_back_ok].
Qed.

(** *** What the inverse is under conditions *)
Lemma Td10 q psi : each mTd [q] psi = on1 mZ q (on1 mS q (on1 mZ q (on1 mT q (on1 mS q (on1 mZ q (on1 mZ q (on1 mS q (on1 mZ q (on1 mZ q psi))))))))).
Proof.
  rewrite !(on1_inv mZ mZ) by apply mZ_inv. assert (N : NoDup [q]) by (constructor; [intros []|constructor]).
  change (on1 mZ q (on1 mS q (on1 mZ q (on1 mT q (on1 mS q (on1 mS q psi)))))) with (each mZ [q] (each mS [q] (each mZ [q] (each mT [q] (each mS [q] (each mS [q] psi)))))).
  rewrite !each_mul by exact N. f_equal. rewrite <- mTd_ok. unfold mZ, mS, mT. rewrite !mmul_diag. f_equal; [ring|]. rewrite !rn_1.
  transitivity (Cmult (Cmult (Copp (RtoC 1)) Ci) (expi (PI / 4))); [ring|]. transitivity (Cmult (Cmult Ci (Cmult Ci Ci)) (expi (PI / 4))); [rewrite Ci2, ?rn_1; ring|]. ring.
Qed.
Lemma carry_twice_den psi : den (cond_pipe carry_twice) psi = ctl_nots [1] [2] (toffU (mTilt (/ 4)) 0 2 3 (ctl_nots [1] [2] (toffU (mTilt (/ 4)) 1 2 3 psi))).
Proof.
  unfold toffU. rewrite !T6, !Td10, !ctl_not_nots. unfold cond_pipe, carry_twice, den. cbn [map fold_left fst snd cond_obj co_obj oden uden].
  change (each (mTilt (/ 4)) [3]) with (fun psi => on1 (mTilt (/ 4)) 3 psi). cbv beta. rewrite <- !tilt_den. reflexivity.
Qed.
Lemma mV_inv : mmul mV mV = mI.
Proof. exact (VV (mTilt (/ 4)) mV (tilt_inv _) tilt_Z). Qed.
Lemma tilts_tilts c a b p psi : NoDup [c; a; b; p] -> tilts c a b p (tilts c a b p psi) = psi.
Proof.
  intros N. repeat (apply NoDup_cons_iff in N; let X := fresh in destruct N as (X & N)). cbn in *. extensionality x. unfold tilts at 1. destruct (maj (x a) (x b) (x c)) eqn:E.
  - transitivity (on1 mV p (on1 mV p psi) x); [|rewrite on1_inv by exact mV_inv; reflexivity].
    unfold on1 at 1 2. assert (X : forall v, tilts c a b p psi (upd x p v) = on1 mV p psi (upd x p v)); [|rewrite !X; reflexivity].
    intros v. unfold tilts. rewrite !(upd_other x p) by intuition congruence. rewrite E. reflexivity.
  - unfold tilts. rewrite E. reflexivity.
Qed.
Lemma carry_twice_tilts psi : den (cond_pipe carry_twice) psi = tilts 0 1 2 3 psi.
Proof.
  rewrite carry_twice_den. assert (N4 : NoDup [0; 1; 2; 3]) by (repeat constructor; cbn; intuition lia).
  assert (NA : NoDup [1; 2; 3]) by (repeat constructor; cbn; intuition lia). assert (NB : NoDup [0; 2; 3]) by (repeat constructor; cbn; intuition lia).
  set (A := toffU (mTilt (/ 4)) 1 2 3). set (B := toffU (mTilt (/ 4)) 0 2 3).
  assert (EA : forall phi, untoffU (mTilt (/ 4)) 1 2 3 phi = A phi) by (intros phi; unfold A; rewrite (untoffU_ok (mTilt (/ 4)) mV (tilt_inv _) tilt_Z), (toffU_ok (mTilt (/ 4)) mV (tilt_inv _) tilt_Z) by assumption; reflexivity).
  assert (EB : forall phi, untoffU (mTilt (/ 4)) 0 2 3 phi = B phi) by (intros phi; unfold B; rewrite (untoffU_ok (mTilt (/ 4)) mV (tilt_inv _) tilt_Z), (toffU_ok (mTilt (/ 4)) mV (tilt_inv _) tilt_Z) by assumption; reflexivity).
  assert (FF : forall a b t phi, NoDup [a; b; t] -> toffU (mTilt (/ 4)) a b t (toffU (mTilt (/ 4)) a b t phi) = phi).
  { intros a b t phi N. rewrite !(toffU_ok (mTilt (/ 4)) mV (tilt_inv _) tilt_Z) by assumption. repeat (apply NoDup_cons_iff in N; let X := fresh in destruct N as (X & N)). cbn in *.
    extensionality x. destruct (x a && x b) eqn:E; [|reflexivity]. transitivity (on1 mV t (on1 mV t phi) x); [|rewrite on1_inv by exact mV_inv; reflexivity].
    unfold on1 at 1 3. rewrite !(upd_other x t) by intuition congruence. rewrite E. reflexivity. }
  transitivity (tilts 0 1 2 3 (tilts 0 1 2 3 (ctl_nots [1] [2] (B (ctl_nots [1] [2] (A psi)))))); [rewrite tilts_tilts by exact N4; reflexivity|]. f_equal.
  rewrite <- carry_back_tilts, carry_back_den, EA, EB. rewrite nots_cancel by lia. unfold B at 1. rewrite FF by exact NB. rewrite nots_cancel by lia. unfold A at 1. apply FF. exact NA.
Qed.
Fixpoint addInvT (rc ra rb : list nat) (psi : state) : state :=
  match rc, ra, rb with
  | [c], [a], [b; b1] => tilts c a b b1 (eff (rev (sum_c c a b)) psi)
  | c :: ((c1 :: _) as rc'), a :: ra', b :: rb' => tilts c a b c1 (addInvT rc' ra' rb' (tilts c a b c1 (eff (rev (sum_c c a b)) psi)))
  | _, _, _ => psi
  end.
Lemma cond_pipe_app p q : cond_pipe (p ++ q) = cond_pipe p ++ cond_pipe q.
Proof. apply map_app. Qed.
Lemma cond_pipe_ren rho p : cond_pipe (ren rho p) = ren rho (cond_pipe p).
Proof. unfold cond_pipe, ren. rewrite !map_map. reflexivity. Qed.
Lemma carry_twice_wf : Forall (wf_entry 4) carry_twice.
Proof.
  destruct (invert_ok 4 carry_back carry_back_wf carry_back_proper) as (q & E & W & _). rewrite carry_twice_ok in E. injection E as <-. exact W.
Qed.
Lemma carry_twice_proper : Forall proper_entry carry_twice.
Proof.
  destruct (invert_ok 4 carry_back carry_back_wf carry_back_proper) as (q & E & _ & W & _). rewrite carry_twice_ok in E. injection E as <-. exact W.
Qed.
Lemma carry_twice_carried : Forall carried carry_twice.
Proof. unfold carry_twice. repeat (apply Forall_cons; [exact I|]). apply Forall_nil. Qed.
Lemma sum_back_wf : Forall (wf_entry 3) sum_back.
Proof.
  unfold sum_back. repeat (apply Forall_cons; [|]); try apply Forall_nil; (split; [|split; [|reflexivity]]); cbn [fst oCX].
  all: try (repeat constructor; cbn; intuition lia). all: intros q Hq; cbn in Hq; intuition lia.
Qed.
Lemma sum_back_proper : Forall proper_entry sum_back.
Proof. repeat constructor. Qed.
Lemma sum_back_carried : Forall carried sum_back.
Proof. repeat constructor. Qed.
Lemma sum_back_den c a b psi : NoDup [c; a; b] -> den (cond_pipe (ren [c; a; b] sum_back)) psi = eff (rev (sum_c c a b)) psi.
Proof.
  intros N. unfold sum_back, cond_pipe, ren, den. cbn [map nth fst snd oCX cond_obj co_obj fold_left oden uden]. extensionality x.
  unfold eff, sum_c, ctl_not, cflip. cbn [rev app run fold_left step fst snd forallb sat]. unfold run, step, sat. cbn [fold_left fst snd forallb].
  repeat (apply NoDup_cons_iff in N; let X := fresh in destruct N as (X & N)). cbn in *.
  destruct (x a) eqn:Ea; cbn [Bool.eqb andb]; rewrite ?(flip_other x b c) by intuition congruence.
  all: destruct (x c); reflexivity.
Qed.
Lemma den_app2 p q psi : den (p ++ q) psi = den q (den p psi).
Proof. unfold den. apply fold_left_app. Qed.
Lemma carry_part_den sc c a b p psi : NoDup [c; a; b; p] -> Forall (wf_entry 4) sc -> Forall proper_entry sc -> Forall carried sc -> (forall psi, den (cond_pipe sc) psi = tilts 0 1 2 3 psi) ->
  den (cond_pipe (ren [c; a; b; p] sc)) psi = tilts c a b p psi.
Proof.
  intros N W Pr Ca H. rewrite cond_pipe_ren. rewrite (den_ren [c; a; b; p] N); [|apply cond_pipe_proper; assumption]. rewrite <- embed_tilts by exact N.
  f_equal. extensionality phi. apply H.
Qed.
Lemma add_back_den : forall rc ra rb psi, length ra = length rc -> length rb = S (length rc) -> NoDup (rc ++ ra ++ rb) -> den (cond_pipe (add_back rc ra rb)) psi = addInvT rc ra rb psi.
Proof.
  induction rc as [|c [|c1 cs] IH]; intros ra rb psi La Lb N; [reflexivity| |]; (destruct ra as [|a ra]; [discriminate|]); (destruct rb as [|b rb]; [discriminate|]).
  - destruct ra; [|discriminate]. destruct rb as [|b1 [|]]; try discriminate. cbn [app] in N. cbn [add_back addInvT].
    assert (N3 : NoDup [c; a; b]) by (eapply sub_NoDup; [|exact N]; auto 12 using sub, sub_all).
    rewrite cond_pipe_app, den_app2, sum_back_den by exact N3. apply carry_part_den; [exact N|apply carry_back_wf|apply carry_back_proper|apply carry_back_carried|apply carry_back_tilts].
  - cbn [length] in La, Lb. injection La as La. injection Lb as Lb.
    assert (N' : NoDup (c :: c1 :: cs ++ a :: ra ++ b :: rb)) by exact N.
    assert (Nt : NoDup ((c1 :: cs) ++ ra ++ rb)) by (eapply sub_NoDup; [|exact N']; cbn [app]; auto 12 using sub, sub_all).
    assert (N4 : NoDup [c; a; b; c1]).
    { eapply (sub_pick _ _ [c; c1; a; b]); [|cbn [app]|exact N']; [apply perm_skip; apply (Permutation_app_comm [a; b] [c1])|]. auto 12 using sub, sub_all. }
    assert (N3 : NoDup [c; a; b]) by (eapply sub_NoDup; [|exact N4]; auto 12 using sub, sub_all).
    change (add_back (c :: c1 :: cs) (a :: ra) (b :: rb)) with (((ren [c; a; b] sum_back ++ ren [c; a; b; c1] carry_twice) ++ add_back (c1 :: cs) ra rb) ++ ren [c; a; b; c1] carry_back).
    change (addInvT (c :: c1 :: cs) (a :: ra) (b :: rb) psi) with (tilts c a b c1 (addInvT (c1 :: cs) ra rb (tilts c a b c1 (eff (rev (sum_c c a b)) psi)))).
    rewrite !cond_pipe_app, !den_app2, sum_back_den, IH by (assumption || (cbn [length]; lia)).
    rewrite !carry_part_den; try assumption; try reflexivity; try apply carry_back_wf; try apply carry_back_proper; try apply carry_back_carried; try apply carry_twice_wf; try apply carry_twice_proper; try apply carry_twice_carried; try apply carry_back_tilts; apply carry_twice_tilts.
Qed.
Lemma add_back_carried : forall rc ra rb, Forall carried (add_back rc ra rb).
Proof.
  assert (R : forall rho p, Forall carried p -> Forall carried (ren rho p)) by (intros rho p H; unfold ren; apply Forall_map; exact H).
  induction rc as [|c [|c1 cs] IH]; intros ra rb; [constructor| |]; (destruct ra as [|a ra]; [constructor|]).
  - destruct ra; [|constructor]. destruct rb as [|b [|b1 [|]]]; try apply Forall_nil. cbn [add_back]. apply Forall_app. split; apply R; [apply sum_back_carried|apply carry_back_carried].
  - destruct rb as [|b rb]; [constructor|].
    change (add_back (c :: c1 :: cs) (a :: ra) (b :: rb)) with (((ren [c; a; b] sum_back ++ ren [c; a; b; c1] carry_twice) ++ add_back (c1 :: cs) ra rb) ++ ren [c; a; b; c1] carry_back).
    rewrite !Forall_app. repeat split; try apply R; [apply sum_back_carried|apply carry_twice_carried|apply IH|apply carry_back_carried].
Qed.
Lemma add_back_proper : forall rc ra rb, Forall proper_entry (add_back rc ra rb).
Proof.
  assert (R : forall rho p, Forall proper_entry p -> Forall proper_entry (ren rho p)) by (intros rho p H; unfold ren; apply Forall_map; eapply Forall_impl; [|exact H]; intros e He; apply proper_ren; exact He).
  induction rc as [|c [|c1 cs] IH]; intros ra rb; [constructor| |]; (destruct ra as [|a ra]; [constructor|]).
  - destruct ra; [|constructor]. destruct rb as [|b [|b1 [|]]]; try apply Forall_nil. cbn [add_back]. apply Forall_app. split; apply R; [apply sum_back_proper|apply carry_back_proper].
  - destruct rb as [|b rb]; [constructor|].
    change (add_back (c :: c1 :: cs) (a :: ra) (b :: rb)) with (((ren [c; a; b] sum_back ++ ren [c; a; b; c1] carry_twice) ++ add_back (c1 :: cs) ra rb) ++ ren [c; a; b; c1] carry_back).
    rewrite !Forall_app. repeat split; try apply R; [apply sum_back_proper|apply carry_twice_proper|apply IH|apply carry_back_proper].
Qed.
Lemma add_back_wf m : forall rc ra rb, NoDup (rc ++ ra ++ rb) -> (forall q, In q (rc ++ ra ++ rb) -> q < m) -> Forall (wf_entry m) (add_back rc ra rb).
Proof.
  assert (R : forall rho p, NoDup rho -> (forall q, In q rho -> q < m) -> Forall (wf_entry (length rho)) p -> Forall (wf_entry m) (ren rho p)).
  { intros rho p N B W. unfold ren. apply Forall_map. eapply Forall_impl; [|exact W]. intros e He. apply wf_ren; assumption. }
  induction rc as [|c [|c1 cs] IH]; intros ra rb N B; [constructor| |]; (destruct ra as [|a ra]; [constructor|]).
  - destruct ra; [|constructor]. destruct rb as [|b [|b1 [|]]]; try apply Forall_nil. cbn [add_back app] in *.
    assert (N3 : NoDup [c; a; b]) by (eapply sub_NoDup; [|exact N]; auto 12 using sub, sub_all).
    apply Forall_app. split; apply R; try assumption; [|apply sum_back_wf|apply carry_back_wf]. intros q Hq. apply B. cbn in Hq |- *. tauto.
  - destruct rb as [|b rb]; [constructor|].
    assert (N' : NoDup (c :: c1 :: cs ++ a :: ra ++ b :: rb)) by exact N.
    assert (Nt : NoDup ((c1 :: cs) ++ ra ++ rb)) by (eapply sub_NoDup; [|exact N']; cbn [app]; auto 12 using sub, sub_all).
    assert (N4 : NoDup [c; a; b; c1]).
    { eapply (sub_pick _ _ [c; c1; a; b]); [|cbn [app]|exact N']; [apply perm_skip; apply (Permutation_app_comm [a; b] [c1])|]. auto 12 using sub, sub_all. }
    assert (N3 : NoDup [c; a; b]) by (eapply sub_NoDup; [|exact N4]; auto 12 using sub, sub_all).
    assert (B4 : forall q, In q [c; a; b; c1] -> q < m) by (intros q Hq; apply B; cbn in Hq |- *; rewrite !in_app_iff; cbn; rewrite in_app_iff; cbn; tauto).
    change (add_back (c :: c1 :: cs) (a :: ra) (b :: rb)) with (((ren [c; a; b] sum_back ++ ren [c; a; b; c1] carry_twice) ++ add_back (c1 :: cs) ra rb) ++ ren [c; a; b; c1] carry_back).
    rewrite !Forall_app. repeat split; try apply R; try assumption; [|apply sum_back_wf|apply carry_twice_wf| |apply carry_back_wf].
    + intros q Hq. apply B4. cbn in Hq |- *. tauto.
    + apply IH; [exact Nt|]. intros q Hq. apply B. cbn in Hq |- *. rewrite !in_app_iff in *. cbn. rewrite in_app_iff. cbn. tauto.
Qed.
Lemma ren_ren rho l n p : length l = n -> Forall (wf_entry n) p -> ren rho (ren l p) = ren (map (fun j => nth j rho 0) l) p.
Proof.
  intros <- W. unfold ren. rewrite map_map. apply map_ext_in. intros e He. rewrite Forall_forall in W. destruct (W e He) as (_ & B & _). cbn [fst snd]. f_equal. rewrite map_map. apply map_ext_in. intros j Hj.
  rewrite (nth_indep (map (fun j => nth j rho 0) l) 0 (nth 0 rho 0)) by (rewrite map_length; apply B; exact Hj). rewrite (map_nth (fun j => nth j rho 0)). reflexivity.
Qed.
Lemma ren_app rho p q : ren rho (p ++ q) = ren rho p ++ ren rho q.
Proof. apply map_app. Qed.
Lemma add_back_ren rho : let f := fun j => nth j rho 0 in forall rc ra rb, ren rho (add_back rc ra rb) = add_back (map f rc) (map f ra) (map f rb).
Proof.
  intros f. induction rc as [|c [|c1 cs] IH]; intros ra rb; [reflexivity| |]; (destruct ra as [|a ra]; [reflexivity|]).
  - destruct ra; [|reflexivity]. destruct rb as [|b [|b1 [|]]]; reflexivity.
  - destruct rb as [|b rb]; [reflexivity|].
    change (add_back (c :: c1 :: cs) (a :: ra) (b :: rb)) with (((ren [c; a; b] sum_back ++ ren [c; a; b; c1] carry_twice) ++ add_back (c1 :: cs) ra rb) ++ ren [c; a; b; c1] carry_back).
    change (add_back (map f (c :: c1 :: cs)) (map f (a :: ra)) (map f (b :: rb))) with (((ren [f c; f a; f b] sum_back ++ ren [f c; f a; f b; f c1] carry_twice) ++ add_back (map f (c1 :: cs)) (map f ra) (map f rb)) ++ ren [f c; f a; f b; f c1] carry_back).
    rewrite !ren_app, IH. rewrite (ren_ren rho [c; a; b] 3), !(ren_ren rho [c; a; b; c1] 4) by (reflexivity || apply sum_back_wf || apply carry_back_wf || apply carry_twice_wf). reflexivity.
Qed.
Lemma add_back_top : forall rc ra rb, length ra = length rc -> length rb = S (length rc) -> rc <> [] -> exists e, In e (add_back rc ra rb) /\ In (last rb 0) (fst e).
Proof.
  induction rc as [|c [|c1 cs] IH]; intros ra rb La Lb Hne; [congruence| |]; (destruct ra as [|a ra]; [discriminate|]); (destruct rb as [|b rb]; [discriminate|]).
  - destruct ra; [|discriminate]. destruct rb as [|b1 [|]]; try discriminate. cbn [add_back last]. eexists. split.
    + apply in_or_app. right. unfold ren. apply in_map. right; right; right; right; right; right; right; right; right; right; right; left; reflexivity.
    + left. reflexivity.
  - cbn [length] in La, Lb. injection La as La. injection Lb as Lb. destruct (IH ra rb) as (e & He & Hl); [cbn [length]; lia|cbn [length]; lia|discriminate|]. exists e. split.
    + change (In e (((ren [c; a; b] sum_back ++ ren [c; a; b; c1] carry_twice) ++ add_back (c1 :: cs) ra rb) ++ ren [c; a; b; c1] carry_back)). rewrite !in_app_iff. tauto.
    + destruct rb; [discriminate|]. exact Hl.
Qed.
Lemma only_addInvT : forall rc ra rb, length ra = length rc -> length rb = S (length rc) -> NoDup (rc ++ ra ++ rb) -> only (rc ++ ra ++ rb) (addInvT rc ra rb).
Proof.
  induction rc as [|c [|c1 cs] IH]; intros ra rb La Lb N; [apply only_id| |]; (destruct ra as [|a ra]; [discriminate|]); (destruct rb as [|b rb]; [discriminate|]).
  - destruct ra; [|discriminate]. destruct rb as [|b1 [|]]; try discriminate. cbn [app] in *. cbn [addInvT].
    assert (N3 : NoDup [c; a; b]) by (eapply sub_NoDup; [|exact N]; auto 12 using sub, sub_all).
    apply (only_comp _ (eff (rev (sum_c c a b))) (tilts c a b b1)); [|apply only_tilts; exact N].
    apply (only_incl [c; a; b]); [|apply only_eff, cok_rev, (sum_acts 0); exact N3]. intros q Hq. cbn in Hq |- *. tauto.
  - cbn [length] in La, Lb. injection La as La. injection Lb as Lb.
    assert (N' : NoDup (c :: c1 :: cs ++ a :: ra ++ b :: rb)) by exact N.
    assert (Nt : NoDup ((c1 :: cs) ++ ra ++ rb)) by (eapply sub_NoDup; [|exact N']; cbn [app]; auto 12 using sub, sub_all).
    assert (N4 : NoDup [c; a; b; c1]).
    { eapply (sub_pick _ _ [c; c1; a; b]); [|cbn [app]|exact N']; [apply perm_skip; apply (Permutation_app_comm [a; b] [c1])|]. auto 12 using sub, sub_all. }
    assert (N3 : NoDup [c; a; b]) by (eapply sub_NoDup; [|exact N4]; auto 12 using sub, sub_all).
    assert (I4 : incl [c; a; b; c1] ((c :: c1 :: cs) ++ (a :: ra) ++ b :: rb)) by (intros q Hq; cbn in Hq |- *; rewrite !in_app_iff; cbn; rewrite in_app_iff; cbn; tauto).
    set (L := (c :: c1 :: cs) ++ (a :: ra) ++ b :: rb) in *.
    assert (O1 : only L (eff (rev (sum_c c a b)))).
    { apply (only_incl [c; a; b]); [|apply only_eff, cok_rev, (sum_acts 0); exact N3]. intros q Hq. apply I4. cbn in Hq |- *. tauto. }
    assert (O2 : only L (tilts c a b c1)) by (apply (only_incl [c; a; b; c1]); [exact I4|apply only_tilts; exact N4]).
    assert (O3 : only L (addInvT (c1 :: cs) ra rb)).
    { apply (only_incl ((c1 :: cs) ++ ra ++ rb)); [|apply IH; [cbn [length]; lia|cbn [length]; lia|exact Nt]]. intros q Hq. unfold L. cbn in Hq |- *. rewrite !in_app_iff in *. cbn. rewrite in_app_iff. cbn. tauto. }
    change (only L (fun psi => tilts c a b c1 ((fun psi => addInvT (c1 :: cs) ra rb ((fun psi => tilts c a b c1 (eff (rev (sum_c c a b)) psi)) psi)) psi))).
    apply only_comp; [|exact O2]. apply only_comp; [|exact O3]. apply only_comp; assumption.
Qed.
(** Inverters of calls that only append objects, on conditioned builders. *)
Lemma inv_carried d (rs : list reg) (f : list reg -> M (list reg)) out sc bk n D E : 0 < d -> NoDup (concat rs) -> (forall r, In r rs -> r <> []) -> rs <> [] ->
  puts [] (f (ranges 0 (map (@length nat) rs))) out sc -> invert_subcircuit sc = Ok bk -> realizes n (length (concat rs)) (cond_pipe bk) D -> Forall carried bk ->
  (forall psi, embed (concat rs) D psi = E psi) -> only (concat rs) E -> acts d (fun d rs => inv_macro d rs f) rs E.
Proof.
  intros Hd N Hne Hrs P Iv Re Ca Em On. split; [exact On|]. intros s (Ad & W) T Lv. set (K := cqs d (conds s)) in *.
  assert (Hc : concat rs <> []) by (destruct rs as [|r rs']; [congruence|]; specialize (Hne r (or_introl eq_refl)); destruct r; [congruence|discriminate]).
  assert (New : forall s0, on_new (sub_rs <- mmap (fun r => register (length r)) rs ;; _ <- f sub_rs ;; make_subcircuit) s0 = Ret sc s0).
  { intros s0. unfold on_new, empty_builder. unfold mbind at 1. rewrite registers_new by exact Hne. cbn [Nat.add]. unfold mbind at 1. rewrite P by reflexivity. reflexivity. }
  unfold inv_macro. eapply quiet_then_does.
  { exists s. split; [apply New|]. do 5 (split; [reflexivity || exact T|]). split; [exact Lv|]. tauto. }
  { apply incl_refl. } { apply incl_refl. } intros s2 C2 T2 L2.
  eapply quiet_then_does; [apply quiet_lift; [apply merge_registers_ok; exact Hne|exact T2|exact L2]|apply incl_refl|apply incl_refl|]. intros s3 C3 T3 L3.
  eapply quiet_then_does; [apply quiet_lift; [apply unwrap_new_reg; exact Hc|exact T3|exact L3]|apply incl_refl|apply incl_refl|]. intros s4 C4 T4 L4.
  eapply does_then_quiet.
  - unfold apply_inverted_subcircuit. eapply quiet_then_does; [apply quiet_lift; [exact Iv|exact T4|exact L4]|apply incl_refl|apply incl_refl|]. intros s5 C5 T5 L5.
    assert (E5 : conds s5 = conds s) by congruence. pose proof (carried_depth_does n (concat rs) bk D d s5 Re Ca Hd) as H.
    rewrite E5 in H. fold K in H. eapply does_eq; [apply H; [exact W|exact T5|exact L5|exact Hc]|].
    intros psi. extensionality x. unfold controlled. rewrite Em. reflexivity.
  - intros s5 C5 T5 L5. eapply quiet_bind; [apply quiet_lift; [apply split_groups_ranges; [exact N|exact Hrs|exact Hne]|exact T5|exact L5]|]. intros s6 C6 T6 L6. apply quiet_ret; assumption.
Qed.
Lemma ranges_add n (rc ra rb : reg) : length rc = S n -> length ra = S n -> length rb = S (S n) ->
  ranges 0 (map (@length nat) [rc; ra; rb]) = [seq 0 (S n); seq (S n) (S n); seq (S n + S n) (S (S n))].
Proof. intros Lc La Lb. cbn [map ranges]. rewrite Lc, La, Lb. reflexivity. Qed.
Lemma map_nth_mid {A} (d : A) l1 l2 l3 : map (fun j => nth j (l1 ++ l2 ++ l3) d) (seq (length l1) (length l2)) = l2.
Proof.
  rewrite <- (Nat.add_0_r (length l1)). revert l1. induction l2 as [|x l2 IH]; intros l1; [reflexivity|]. cbn [length seq map].
  f_equal; [rewrite app_nth2 by lia; replace (length l1 + 0 - length l1) with 0 by lia; reflexivity|].
  specialize (IH (l1 ++ [x])). rewrite app_length in IH. cbn [length] in IH. replace (S (length l1 + 0)) with (length l1 + 1 + 0) by lia. rewrite <- app_assoc in IH. exact IH.
Qed.
Lemma add_inv_carried d rc ra rb : 0 < d -> length ra = length rc -> length rb = S (length rc) -> rc <> [] -> NoDup (rc ++ ra ++ rb) -> acts d add_inv [rc; ra; rb] (addInvT rc ra rb).
Proof.
  intros Hd La Lb Hc N. destruct rc as [|c cs]; [congruence|]. set (n := length cs). cbn [length] in La, Lb. fold n in La, Lb. set (rc := c :: cs) in *. assert (Lc : length rc = S n) by reflexivity.
  set (qc := seq 0 (S n)). set (qa := seq (S n) (S n)). set (qb := seq (S n + S n) (S (S n))).
  assert (Eq : qc ++ qa ++ qb = seq 0 (S n + (S n + S (S n)))) by (unfold qc, qa, qb; rewrite (seq_app (S n) (S n + S (S n)) 0), (seq_app (S n) (S (S n)) (0 + S n)); reflexivity).
  assert (Nq : NoDup (qc ++ qa ++ qb)) by (rewrite Eq; apply seq_NoDup).
  assert (Lq : length qc = S n /\ length qa = S n /\ length qb = S (S n)) by (unfold qc, qa, qb; rewrite !seq_length; auto). destruct Lq as (Lqc & Lqa & Lqb).
  assert (Ec : concat [rc; ra; rb] = rc ++ ra ++ rb) by (cbn [concat]; rewrite app_nil_r; reflexivity).
  assert (Lk : length (concat [rc; ra; rb]) = S n + (S n + S (S n))) by (rewrite Ec, !app_length; lia).
  assert (Pr : Forall proper_entry (add_back qc qa qb)) by apply add_back_proper.
  assert (Wf : Forall (wf_entry (S n + (S n + S (S n)))) (add_back qc qa qb)) by (apply add_back_wf; [exact Nq|]; intros q Hq; rewrite Eq in Hq; apply in_seq in Hq; lia).
  destruct (cond_pipe_proper _ _ Wf (add_back_carried qc qa qb) Pr) as (Wc & Pc).
  apply (inv_carried d [rc; ra; rb] (add 0) [qc; qa; qb] (add_pipe qc qa qb) (add_back qc qa qb) (S n + (S n + S (S n))) (addInvT qc qa qb)); try assumption.
  - rewrite Ec. exact N.
  - intros r [<-|[<-|[<-|[]]]]; [discriminate|destruct ra|destruct rb]; discriminate.
  - discriminate.
  - rewrite (ranges_add n) by assumption. fold qc qa qb. unfold add. cbn [nth]. apply add_puts; try lia; try assumption. unfold qc; discriminate.
  - apply add_back_ok.
  - rewrite Lk. split; [lia|]. split; [exact Wc|]. split; [exact Pc|]. split; [|split].
    + destruct (add_back_top qc qa qb ltac:(lia) ltac:(lia) ltac:(unfold qc; discriminate)) as (e & He & Hl). exists (fst e, cond_obj (snd e)). split; [unfold cond_pipe; apply in_map_iff; exists e; auto|]. cbn [fst].
      replace (S n + (S n + S (S n)) - 1) with (last qb 0); [exact Hl|]. unfold qb. rewrite last_seq. lia.
    + pose proof (only_addInvT qc qa qb ltac:(lia) ltac:(lia) Nq) as O. rewrite Eq in O. apply O.
    + exists (S n + (S n + S (S n))). split; [lia|]. intros phi _. apply add_back_den; [lia|lia|exact Nq].
  - apply add_back_carried.
  - intros psi. rewrite Ec. rewrite <- (add_back_den rc ra rb) by (assumption || lia).
    assert (Er : add_back rc ra rb = ren (rc ++ ra ++ rb) (add_back qc qa qb)).
    { rewrite add_back_ren. unfold qc, qa, qb. f_equal.
      - symmetry. rewrite <- Lc. apply (map_nth_mid 0 [] rc (ra ++ rb)).
      - symmetry. pose proof (map_nth_mid 0 rc ra rb) as X. rewrite Lc, La in X. exact X.
      - symmetry. pose proof (map_nth_mid 0 (rc ++ ra) rb []) as X. rewrite app_length, Lc, La, Lb, app_nil_r, <- app_assoc in X. exact X. }
    rewrite Er, cond_pipe_ren. rewrite (den_ren (rc ++ ra ++ rb)).
    + f_equal. extensionality phi. symmetry. apply add_back_den; [lia|lia|exact Nq].
    + exact N.
    + rewrite <- Ec, Lk. exact Wc.
  - rewrite Ec. apply only_addInvT; [lia|lia|exact N].
Qed.
