(** Lines and programs carry out the operations of their functions. *)
From Coq Require Import Reals FunctionalExtensionality Permutation.
From Coquelicot Require Import Complex.
From Verif Require Import Base BitsSpec BitsProofs OpsModel OpsSpec Instances BuilderModel RegProofs DenSpec DenProofs LocalProofs
  RunSpec RunProofs GateProofs ToffoliProofs CondProofs SubSpec SubProofs SubProofs2 SubProofs3 ProgramModel ProgramSpec ProgramProofs.
Local Open Scope nat_scope.
Local Open Scope mon_scope.

(** *** Operations on some qubits *)
Lemma only_incl L L' D : incl L L' -> only L D -> only L' D.
Proof. intros I (W & F). split; [eapply within_incl; eassumption|]. intros q psi Hq. apply F. intros X. apply Hq, I, X. Qed.
Lemma only_id L : only L (fun psi => psi).
Proof. split; [apply within_id|reflexivity]. Qed.
Lemma only_comp L D1 D2 : only L D1 -> only L D2 -> only L (fun psi => D2 (D1 psi)).
Proof.
  intros (W1 & F1) (W2 & F2). split; [apply within_comp; assumption|]. intros q psi Hq. rewrite F1, F2 by exact Hq. reflexivity.
Qed.
Lemma forallb_flip x q K : ~ In q K -> forallb (flip x q) K = forallb x K.
Proof. intros H. apply forallb_ext_in. intros p Hp. unfold flip. apply upd_other. intros ->. contradiction. Qed.
Lemma only_controlled K L D : only L D -> only (K ++ L) (controlled K D).
Proof.
  intros (W & F). split.
  - intros phi phi' z H. unfold controlled. destruct (forallb z K); [|apply H; reflexivity]. apply W. intros y Hy. apply H. intros q Hq. apply Hy. intros X. apply Hq, in_or_app. right. exact X.
  - intros q psi Hq. extensionality x. unfold controlled. rewrite F by (intros X; apply Hq, in_or_app; right; exact X).
    rewrite forallb_flip by (intros X; apply Hq, in_or_app; left; exact X). reflexivity.
Qed.
Lemma flip_flip x q : flip (flip x q) q = x.
Proof.
  extensionality p. unfold flip. destruct (Nat.eq_dec p q) as [->|H]; [rewrite !upd_same; apply negb_involutive|]. rewrite !upd_other by exact H. reflexivity.
Qed.
Lemma only_flips L D ts : only L D -> NoDup ts -> (forall q, In q ts -> ~ In q L) -> forall psi, D (fun x => psi (flips ts x)) = fun x => D psi (flips ts x).
Proof.
  intros (W & F). induction ts as [|t ts IH]; intros N H psi.
  - replace (fun x => psi (flips [] x)) with psi by (extensionality x; rewrite flips_nil; reflexivity). extensionality x. rewrite flips_nil. reflexivity.
  - inversion N; subst. assert (E : forall x, flips (t :: ts) x = flips ts (flip x t)).
    { intros x. extensionality q. unfold flips, flip, upd. cbn [existsb]. destruct (Nat.eqb_spec q t) as [->|]; cbn [orb]; [|reflexivity].
      apply existsb_eqb_false in H2. rewrite H2. destruct (x t); reflexivity. }
    replace (fun x => psi (flips (t :: ts) x)) with (fun x => (fun y => psi (flips ts y)) (flip x t)) by (extensionality x; rewrite E; reflexivity).
    rewrite (F t (fun y => psi (flips ts y))) by (apply H; left; reflexivity). extensionality x. rewrite IH; [rewrite E; reflexivity|assumption|]. intros q Hq. apply H. right. exact Hq.
Qed.

(** *** Depth *)
Lemma at_depth_conds d s s' : conds s' = conds s -> at_depth d s -> at_depth d s'.
Proof. unfold at_depth. intros ->. auto. Qed.
Lemma acts_eq d f rs D D' : acts d f rs D -> (forall psi, D psi = D' psi) -> acts d f rs D'.
Proof. intros H E. replace D' with D; [exact H|]. extensionality psi. apply E. Qed.
Lemma acts_fun d f g rs D : (forall s, f d rs s = g d rs s) -> acts d f rs D -> acts d g rs D.
Proof.
  intros E (O & H). split; [exact O|]. intros s A T Lv. destruct (H s A T Lv) as (s' & p & X & Y). exists s', p. rewrite <- E. auto.
Qed.
Lemma does_scoped {A} s L (m : M A) a L' D : does s L m a L' D -> does s L (scoped m) a L' D.
Proof. intros (s' & p & H1 & H). exists s', p. unfold scoped. rewrite H1. auto. Qed.

(** Inside a condition. *)
Lemma in_condition_does d f cr rest D s : acts (S d) f rest D -> cr <> [] -> at_depth d s -> tidy s -> live s (cqs d (conds s) ++ cr ++ concat rest) ->
  does s (cqs d (conds s) ++ cr ++ concat rest) (in_condition cr (f (S d) rest)) (cr, rest) (cqs d (conds s) ++ cr ++ concat rest)
    (controlled (cqs d (conds s)) (controlled cr D)).
Proof.
  intros (O & H) Hc (El & Wr) T Lv. set (K := cqs d (conds s)) in *.
  set (s1 := mkSt (bld s) (conds s ++ [Some cr])).
  assert (EK : cqs (S d) (conds s1) = cr ++ K) by (unfold s1, K; cbn [conds]; rewrite <- El; apply cqs_last).
  assert (P : Permutation ((cr ++ K) ++ concat rest) (K ++ cr ++ concat rest)) by (rewrite app_assoc; apply Permutation_app_tail, Permutation_app_comm).
  apply does_scoped, does_section. fold s1. apply (does_perm s1 ((cr ++ K) ++ concat rest) _ _ _ ((cr ++ K) ++ concat rest) _ _ P P).
  pose proof (H s1) as X. rewrite EK in X. eapply does_eq; [apply X|].
  - split; [unfold s1; cbn [conds]; rewrite app_length; cbn; lia|]. unfold s1; cbn [conds]. rewrite <- El. apply wrapped_last; [exact Hc|]. rewrite El. exact Wr.
  - exact T.
  - eapply live_perm; [|symmetry; exact P]. exact Lv.
  - intros psi. extensionality x. unfold controlled. rewrite forallb_app. destruct (forallb x cr), (forallb x K); reflexivity.
Qed.

(** *** Gates *)
Lemma on1_X q psi : on1 mX q psi = fun x => psi (flip x q).
Proof.
  extensionality x. unfold on1, mX, flip. destruct (x q); cbn [eqb negb]; ring.
Qed.
Lemma only_X q : only [q] (fun psi x => psi (flip x q)).
Proof.
  split; [apply (within_point [q] (fun x => flip x q)); intros x p Hp; unfold flip; apply upd_other; intros ->; apply Hp; left; reflexivity|].
  intros p psi Hp. extensionality x. f_equal. extensionality r. unfold flip, upd. destruct (Nat.eqb_spec r q), (Nat.eqb_spec r p), (Nat.eqb_spec q p), (Nat.eqb_spec p q); subst; try reflexivity; try (exfalso; apply Hp; left; congruence).
Qed.
Lemma x_does d s q : at_depth d s -> tidy s -> live s (cqs d (conds s) ++ [q]) ->
  does s (cqs d (conds s) ++ [q]) (g_x (aco d) [q]) [q] (cqs d (conds s) ++ [q]) (controlled (cqs d (conds s)) (fun psi x => psi (flip x q))).
Proof.
  intros (El & Wr) T Lv. destruct d as [|d].
  - cbn [cqs app] in *. eapply does_eq; [apply (gate_does UX); [reflexivity|exact T|exact Lv|apply incl_refl|apply Lv|discriminate]|].
    intros psi. exact (on1_X q psi).
  - eapply does_eq; [apply does_unwrap; apply (aco_does _ _ _ (try_X1 1 q)); try assumption; lia|]. intros psi. extensionality x. unfold controlled, each. cbn [fold_left]. rewrite on1_X. reflexivity.
Qed.
Lemma x_acts d q : acts d op_x [[q]] (fun psi x => psi (flip x q)).
Proof.
  split; [apply only_X|]. intros s A T Lv. cbn [op_x op1]. cbn [concat app] in *. unfold op_x, op1.
  eapply does_then_quiet; [apply x_does; assumption|]. intros s1 C1 T1 L1. apply quiet_ret; assumption.
Qed.

(** *** negate_bitmask *)
Fixpoint zeros (cr : list nat) (m : nat) : list nat :=
  match cr with [] => [] | q :: cr' => (if Nat.even m then [q] else []) ++ zeros cr' (Nat.div2 m) end.
Lemma zeros_incl cr : forall m, incl (zeros cr m) cr.
Proof.
  induction cr as [|q cr IH]; intros m p Hp; [exact Hp|]. cbn in Hp. apply in_app_or in Hp. destruct Hp as [Hp|Hp]; [|right; eapply IH; exact Hp].
  destruct (Nat.even m); [destruct Hp as [<-|[]]; left; reflexivity|destruct Hp].
Qed.
Lemma zeros_NoDup cr : forall m, NoDup cr -> NoDup (zeros cr m).
Proof.
  induction cr as [|q cr IH]; intros m N; [constructor|]. inversion N; subst. cbn. destruct (Nat.even m); cbn; [constructor|]; try apply IH; try assumption.
  intros X. apply H1. eapply zeros_incl. exact X.
Qed.
Lemma only_nots L ts : incl ts L -> NoDup ts -> only L (fun psi x => psi (flips ts x)).
Proof.
  intros I N. split; [apply within_point; intros x q Hq; apply flips_notin; intros X; apply Hq, I, X|].
  intros q psi Hq. extensionality x. f_equal. extensionality p. unfold flips, flip, upd. destruct (Nat.eqb_spec p q) as [->|]; [|reflexivity].
  replace (existsb (Nat.eqb q) ts) with false; [destruct (x q); reflexivity|]. symmetry. apply existsb_eqb_false. intros X. apply Hq, I, X.
Qed.
Lemma flips_cons' t ts x : ~ In t ts -> flips (t :: ts) x = flips ts (flip x t).
Proof.
  intros H. extensionality q. unfold flips, flip, upd. cbn [existsb]. destruct (Nat.eqb_spec q t) as [->|]; cbn [orb]; [|reflexivity].
  apply existsb_eqb_false in H. rewrite H. destruct (x t); reflexivity.
Qed.
Lemma negate_fold d : forall cr m done s, at_depth d s -> tidy s -> live s (cqs d (conds s) ++ cr) ->
  does s (cqs d (conds s) ++ cr) (mfold (negate_step d) (singles cr) (done, m)) (done ++ singles cr, fold_left (fun m _ => Nat.div2 m) cr m) (cqs d (conds s) ++ cr)
    (controlled (cqs d (conds s)) (fun psi x => psi (flips (zeros cr m) x))).
Proof.
  induction cr as [|q cr IH]; intros m done s A T Lv; cbn [singles map mfold fold_left].
  - pose proof (app_nil_r done) as E0. unfold reg in *. rewrite E0. eapply does_eq; [apply does_ret; assumption|]. intros psi. extensionality x. unfold controlled. cbn [zeros]. rewrite flips_nil.
    destruct (forallb x _); reflexivity.
  - set (K := cqs d (conds s)) in *.
    assert (P : Permutation ((K ++ [q]) ++ cr) (K ++ q :: cr)) by (rewrite <- app_assoc; reflexivity).
    assert (Q : Permutation ((K ++ cr) ++ [q]) (K ++ q :: cr)).
    { rewrite <- app_assoc. apply Permutation_app_head. symmetry. apply Permutation_cons_append. }
    pose proof Lv as (N & _). apply NoDup_app_iff in N. destruct N as (NK & Nq & ND). inversion Nq as [|? ? Hq Nc]; subst.
    assert (IHs : forall s1, conds s1 = conds s -> tidy s1 -> live s1 (K ++ q :: cr) -> does s1 (K ++ q :: cr)
      (mfold (negate_step d) (singles cr) (done ++ [[q]], Nat.div2 m)) (done ++ [q] :: singles cr, fold_left (fun m _ => Nat.div2 m) cr (Nat.div2 m)) (K ++ q :: cr)
      (controlled K (fun psi x => psi (flips (zeros cr (Nat.div2 m)) x)))).
    { intros s1 C1 T1 L1. assert (L1' : live s1 ((K ++ cr) ++ [q])) by (eapply live_perm; [exact L1|symmetry; exact Q]).
      eapply does_perm; [exact Q|exact Q|]. apply does_frame; [exact L1'|].
      replace (done ++ [q] :: singles cr) with ((done ++ [[q]]) ++ singles cr) by (rewrite <- app_assoc; reflexivity).
      pose proof (IH (Nat.div2 m) (done ++ [[q]]) s1) as X. rewrite C1 in X. fold K in X. apply X; [eapply at_depth_conds; eassumption|exact T1|].
      destruct L1' as (N' & Y). apply NoDup_app_iff in N'. split; [apply N'|]. intros p Hp. apply Y, in_or_app. left. exact Hp. }
    unfold negate_step at 1. destruct (Nat.even m) eqn:Em.
    + eapply does_eq.
      { eapply does_bind with (L1 := K ++ q :: cr) (a := (done ++ [[q]], Nat.div2 m)) (D1 := controlled K (fun psi x => psi (flip x q))); [|apply incl_refl|apply incl_refl|].
        - eapply does_then_quiet with (L1 := K ++ q :: cr) (a := [q]).
          + eapply does_perm; [exact P|exact P|]. apply does_frame; [eapply live_perm; [exact Lv|symmetry; exact P]|]. apply x_does; [exact A|exact T|].
            eapply live_incl; [exact Lv| |].
            * apply NoDup_app_iff. split; [exact NK|]. split; [repeat constructor; intros []|]. intros p Hp [<-|[]]. apply (ND q Hp). left. reflexivity.
            * intros p Hp. apply in_app_or in Hp. apply in_or_app. cbn [In] in *. tauto.
          + intros s1 C1 T1 L1. apply quiet_ret; assumption.
        - cbn beta iota. exact IHs. }
      intros psi. cbn beta. rewrite (controlled_comp K cr).
      * extensionality x. unfold controlled. destruct (forallb x K); [|reflexivity]. cbn [zeros]. rewrite Em. cbn [app]. f_equal.
        rewrite flips_cons; [|intros X; apply Hq; eapply zeros_incl; exact X]. unfold flip. f_equal.
        rewrite flips_notin; [reflexivity|]. intros X. apply Hq. eapply zeros_incl; exact X.
      * apply within_point. intros x p Hp. apply flips_notin. intros X. apply Hp. eapply zeros_incl; exact X.
      * intros p Hp X. apply (ND p Hp). right. exact X.
    + eapply does_eq.
      { eapply quiet_then_does with (L1 := K ++ q :: cr) (a := (done ++ [[q]], Nat.div2 m)); [|apply incl_refl|apply incl_refl|].
        - eapply quiet_bind; [apply quiet_ret; [exact T|exact Lv]|]. intros s1 C1 T1 L1. apply quiet_ret; assumption.
        - cbn beta iota. exact IHs. }
      intros psi. cbn [zeros]. rewrite Em. reflexivity.
Qed.
Lemma negate_does d cr m s : cr <> [] -> at_depth d s -> tidy s -> live s (cqs d (conds s) ++ cr) ->
  does s (cqs d (conds s) ++ cr) (negate_bitmask d cr m) cr (cqs d (conds s) ++ cr) (controlled (cqs d (conds s)) (fun psi x => psi (flips (zeros cr m) x))).
Proof.
  intros Hc A T Lv. unfold negate_bitmask.
  eapply quiet_then_does; [apply quiet_lift; [apply split_all_ok; [|exact Hc]|exact T|exact Lv]|apply incl_refl|apply incl_refl|].
  { destruct Lv as (N & _). apply NoDup_app_iff in N. apply N. }
  intros s1 C1 T1 L1.
  eapply does_then_quiet with (L1 := cqs d (conds s) ++ cr).
  - pose proof (negate_fold d cr m [] s1) as X. rewrite C1 in X. apply X; [eapply at_depth_conds; eassumption|exact T1|exact L1].
  - intros s2 C2 T2 L2. cbn beta iota. cbn [app]. eapply quiet_bind; [apply quiet_lift; [apply merge_singles|exact T2|exact L2]|].
    intros s3 C3 T3 L3. apply quiet_lift; [apply unwrap_new_reg; exact Hc|exact T3|exact L3].
Qed.
Lemma forallb_map {A B} (f : A -> B) p l : forallb p (map f l) = forallb (fun a => p (f a)) l.
Proof. induction l as [|a l IH]; [reflexivity|]. cbn. rewrite IH. reflexivity. Qed.
Lemma matches_cons q cr m x : matches (q :: cr) m x = Bool.eqb (x q) (Nat.testbit m 0) && matches cr (Nat.div2 m) x.
Proof.
  unfold matches. cbn [length seq forallb nth]. f_equal. rewrite <- seq_shift. rewrite forallb_map. apply forallb_ext_in. intros i _. cbn [nth]. reflexivity.
Qed.
Lemma matches_flips cr : forall m x, NoDup cr -> forallb (flips (zeros cr m) x) cr = matches cr m x.
Proof.
  induction cr as [|q cr IH]; intros m x N; [reflexivity|]. inversion N; subst. rewrite matches_cons, <- (IH (Nat.div2 m)) by assumption. cbn [forallb].
  assert (Z : ~ In q (zeros cr (Nat.div2 m))) by (intros X; apply H1; eapply zeros_incl; exact X).
  f_equal.
  - rewrite Nat.bit0_odd, <- Nat.negb_even. cbn [zeros]. destruct (Nat.even m); cbn [app negb].
    + rewrite flips_in by (left; reflexivity). destruct (x q); reflexivity.
    + rewrite flips_notin by exact Z. destruct (x q); reflexivity.
  - apply forallb_ext_in. intros p Hp. cbn [zeros]. destruct (Nat.even m); [|reflexivity]. cbn [app]. rewrite flips_cons by exact Z. apply upd_other. intros ->. contradiction.
Qed.
Lemma only_selected cr m L D : only L D -> only (cr ++ L) (selected cr m D).
Proof.
  intros (W & F). split.
  - intros phi phi' z H. unfold selected. destruct (matches cr m z); [|apply H; reflexivity]. apply W. intros y Hy. apply H. intros q Hq. apply Hy. intros X. apply Hq, in_or_app. right. exact X.
  - intros q psi Hq. extensionality x. unfold selected. rewrite F by (intros X; apply Hq, in_or_app; right; exact X).
    replace (matches cr m (flip x q)) with (matches cr m x); [reflexivity|]. apply forallb_ext_in. intros i Hi. apply in_seq in Hi.
    unfold flip. rewrite upd_other; [reflexivity|]. intros <-. apply Hq, in_or_app. left. apply nth_In. lia.
Qed.
(** Negate, act under the control, negate again. *)
Lemma selected_eq cr m L D psi : NoDup cr -> only L D -> (forall q, In q cr -> ~ In q L) ->
  (fun x => controlled cr D (fun x => psi (flips (zeros cr m) x)) (flips (zeros cr m) x)) = selected cr m D psi.
Proof.
  intros N O H. extensionality x. unfold controlled, selected. rewrite matches_flips by exact N. destruct (matches cr m x).
  - rewrite (only_flips L D _ O); [rewrite flips_flips; reflexivity|apply zeros_NoDup; exact N|]. intros q Hq. apply H. eapply zeros_incl; exact Hq.
  - rewrite flips_flips. reflexivity.
Qed.

(** *** Lines *)
Lemma call_acts d l (g : list reg) D : Forall (fun r => r <> []) g -> NoDup (concat g) -> (l_ctl l <> None -> g <> []) ->
  acts (call_depth d l) (l_fun l) (call_targets l g) D -> acts d (fun d g => call_line d l g) g (call_op l g D).
Proof.
  intros Ne Nd Hne A. unfold call_depth, call_targets, call_op, call_line in *. destruct (l_ctl l) as [mask|] eqn:E; [|exact A].
  destruct g as [|cr rest]; [exfalso; apply Hne; [discriminate|reflexivity]|].
  cbn [hd tl concat] in *. assert (Hc : cr <> []) by (inversion Ne; assumption). apply NoDup_app_iff in Nd. destruct Nd as (Nc & Nr & Ncr).
  pose proof A as (O & _).
  split; [destruct mask; [apply only_selected|apply only_controlled]; exact O|].
  intros s Ad T Lv. cbn [concat] in *. set (K := cqs d (conds s)) in *.
  assert (HK : forall q, In q K -> ~ In q (cr ++ concat rest)) by (destruct Lv as (N & _); apply NoDup_app_iff in N; apply N).
  assert (Mid : forall s1, conds s1 = conds s -> tidy s1 -> live s1 (K ++ cr ++ concat rest) ->
    does s1 (K ++ cr ++ concat rest) (in_condition cr (l_fun l (S d) rest)) (cr, rest) (K ++ cr ++ concat rest) (controlled K (controlled cr D))).
  { intros s1 C1 T1 L1. pose proof (in_condition_does d (l_fun l) cr rest D s1 A Hc) as X. rewrite C1 in X. apply X; [eapply at_depth_conds; eassumption|exact T1|exact L1]. }
  destruct mask as [m|].
  - assert (Neg : forall s1, conds s1 = conds s -> tidy s1 -> live s1 (K ++ cr ++ concat rest) ->
      does s1 (K ++ cr ++ concat rest) (negate_bitmask d cr m) cr (K ++ cr ++ concat rest) (controlled K (fun psi x => psi (flips (zeros cr m) x)))).
    { intros s1 C1 T1 L1. rewrite app_assoc in *. apply does_frame; [exact L1|]. pose proof (negate_does d cr m s1 Hc) as X. rewrite C1 in X. apply X; [eapply at_depth_conds; eassumption|exact T1|].
      destruct L1 as (N & Y). apply NoDup_app_iff in N. split; [apply N|]. intros q Hq. apply Y, in_or_app. left. exact Hq. }
    eapply does_eq.
    { eapply does_bind; [apply Neg; [reflexivity|exact T|exact Lv]|apply incl_refl|apply incl_refl|]. intros s1 C1 T1 L1.
      eapply does_bind; [apply Mid; assumption|apply incl_refl|apply incl_refl|]. intros s2 C2 T2 L2. cbn beta iota.
      eapply does_then_quiet; [apply Neg; [congruence|exact T2|exact L2]|]. intros s3 C3 T3 L3. apply quiet_ret; assumption. }
    intros psi. cbn beta.
    assert (W1 : within (cr ++ concat rest) (fun psi x => psi (flips (zeros cr m) x))).
    { apply within_point. intros x q Hq. apply flips_notin. intros X. apply Hq, in_or_app. left. eapply zeros_incl. exact X. }
    rewrite (controlled_comp K (cr ++ concat rest)) with (D2 := controlled cr D); [|apply only_controlled; exact O|exact HK].
    rewrite (controlled_comp K (cr ++ concat rest)) with (D2 := fun psi x => psi (flips (zeros cr m) x)); [|exact W1|exact HK].
    extensionality x. unfold controlled at 1. unfold controlled at 2. destruct (forallb x K); [|reflexivity].
    pose proof (selected_eq cr m (concat rest) D psi Nc O Ncr) as X. apply (f_equal (fun f => f x)) in X. exact X.
  - eapply quiet_then_does; [apply quiet_ret; [exact T|exact Lv]|apply incl_refl|apply incl_refl|]. intros s1 C1 T1 L1.
    eapply does_then_quiet; [apply Mid; assumption|]. intros s2 C2 T2 L2. cbn beta iota.
    eapply quiet_bind; [apply quiet_ret; assumption|]. intros s3 C3 T3 L3. apply quiet_ret; assumption.
Qed.

Lemma call_line_acts d rs l D : line_acts d rs l D -> acts d (fun d g => call_line d l g) (line_regs rs l) (line_op rs l D).
Proof.
  intros ((_ & Ne & Nd) & Hne & A). apply call_acts; try assumption. intros H X. apply Hne; [exact H|]. unfold line_regs in X. destruct (l_args l); [reflexivity|discriminate].
Qed.
Lemma gather_incl rs g : Forall (arg_ok rs) g -> incl (gather rs g) (concat rs).
Proof.
  intros F q Hq. apply in_concat in Hq. destruct Hq as (l & Hl & Hq). apply in_map_iff in Hl. destruct Hl as (a & <- & Ha).
  rewrite Forall_forall in F. eapply in_register, arg_qubits_in; [apply F; exact Ha|exact Hq].
Qed.
Lemma line_regs_incl rs l : line_ok rs l -> incl (concat (line_regs rs l)) (concat rs).
Proof.
  intros (A & _) q Hq. apply in_concat in Hq. destruct Hq as (r & Hr & Hq). apply in_map_iff in Hr. destruct Hr as (g & <- & Hg).
  rewrite Forall_forall in A. eapply gather_incl; [apply A; exact Hg|exact Hq].
Qed.
Lemma run_line_does d rs l D s : NoDup (concat rs) -> line_acts d rs l D -> at_depth d s -> tidy s -> live s (cqs d (conds s) ++ concat rs) ->
  does s (cqs d (conds s) ++ concat rs) (run_line d (holes rs (fun _ => false)) l) (holes rs (fun _ => false)) (cqs d (conds s) ++ concat rs)
    (controlled (cqs d (conds s)) (line_op rs l D)).
Proof.
  intros N LA Ad T Lv. pose proof (call_line_acts d rs l D LA) as (O & C). destruct LA as (Lo & _). pose proof Lo as (Ao & Ne & Nd).
  set (K := cqs d (conds s)) in *.
  destruct (part_of (concat (line_regs rs l)) (concat rs) Nd N (line_regs_incl rs l Lo)) as (rest & P).
  assert (PK : Permutation ((K ++ concat (line_regs rs l)) ++ rest) (K ++ concat rs)) by (rewrite <- app_assoc; apply Permutation_app_head; exact P).
  unfold run_line.
  eapply quiet_then_does; [apply quiet_lift; [apply take_groups_ok; try assumption; reflexivity|exact T|exact Lv]|apply incl_refl|apply incl_refl|].
  intros s1 C1 T1 L1. cbn beta iota.
  assert (L1' : live s1 ((K ++ concat (line_regs rs l)) ++ rest)) by (eapply live_perm; [exact L1|symmetry; exact PK]).
  eapply does_then_quiet with (L1 := K ++ concat rs).
  - eapply does_perm; [exact PK|exact PK|]. apply does_frame; [exact L1'|]. pose proof (C s1) as X. rewrite C1 in X. fold K in X. apply X; [eapply at_depth_conds; eassumption|exact T1|].
    destruct L1' as (N1 & Y). apply NoDup_app_iff in N1. split; [apply N1|]. intros q Hq. apply Y, in_or_app. left. exact Hq.
  - intros s2 C2 T2 L2. apply quiet_lift; [|exact T2|exact L2].
    unfold line_regs. rewrite put_groups_ok by assumption. f_equal. apply holes_ext. intros q _. cbn [orb]. apply andb_negb_r.
Qed.
Lemma only_line d rs l D : line_acts d rs l D -> only (concat rs) (line_op rs l D).
Proof.
  intros LA. pose proof (call_line_acts d rs l D LA) as (O & _). eapply only_incl; [|exact O]. apply line_regs_incl. apply LA.
Qed.
Lemma lines_do d rs : forall ls s, NoDup (concat rs) -> Forall (fun p => line_acts d rs (fst p) (snd p)) ls -> at_depth d s -> tidy s -> live s (cqs d (conds s) ++ concat rs) ->
  does s (cqs d (conds s) ++ concat rs) (mfold (run_line d) (map fst ls) (holes rs (fun _ => false))) (holes rs (fun _ => false)) (cqs d (conds s) ++ concat rs)
    (controlled (cqs d (conds s)) (lines_op rs ls)) /\ only (concat rs) (lines_op rs ls).
Proof.
  induction ls as [|(l, D) ls IH]; intros s N F Ad T Lv; cbn [map mfold lines_op].
  - split; [|apply only_id]. eapply does_eq; [apply does_ret; assumption|]. intros psi. extensionality x. unfold controlled. destruct (forallb x _); reflexivity.
  - inversion F as [|? ? F1 F2]; subst. cbn [fst snd] in *. destruct (IH s N F2 Ad T Lv) as (_ & O). pose proof (only_line d rs l D F1) as O1.
    split; [|apply only_comp; assumption]. set (K := cqs d (conds s)) in *.
    eapply does_eq.
    + eapply does_bind; [apply run_line_does; eassumption|apply incl_refl|apply incl_refl|]. intros s1 C1 T1 L1.
      pose proof (IH s1 N F2) as X. rewrite C1 in X. fold K in X. apply X; [eapply at_depth_conds; eassumption|exact T1|exact L1].
    + intros psi. cbn beta. apply (controlled_comp K (concat rs)); [apply O|]. destruct Lv as (N1 & _). apply NoDup_app_iff in N1. apply N1.
Qed.
Lemma program_does d rs ls s : NoDup (concat rs) -> Forall (fun r => r <> []) rs -> Forall (fun p => line_acts d rs (fst p) (snd p)) ls ->
  at_depth d s -> tidy s -> live s (cqs d (conds s) ++ concat rs) ->
  does s (cqs d (conds s) ++ concat rs) (program d rs (map fst ls)) rs (cqs d (conds s) ++ concat rs) (controlled (cqs d (conds s)) (lines_op rs ls)) /\
  only (concat rs) (lines_op rs ls).
Proof.
  intros N Ne F Ad T Lv. split; [|eapply lines_do; eassumption]. unfold program.
  assert (Hin : forall r, In r rs -> NoDup r).
  { intros r Hr. apply In_nth with (d := []) in Hr. destruct Hr as (k & _ & <-). apply NoDup_register. exact N. }
  rewrite Forall_forall in Ne.
  eapply quiet_then_does; [apply quiet_lift; [|exact T|exact Lv]|apply incl_refl|apply incl_refl|].
  { apply (mapM_ok _ (fun r => map Some (singles r))). intros r Hr. rewrite split_all_ok; [reflexivity|apply Hin; exact Hr|apply Ne; exact Hr]. }
  intros s1 C1 T1 L1. rewrite <- holes_none.
  eapply does_then_quiet with (L1 := cqs d (conds s) ++ concat rs).
  - pose proof (lines_do d rs ls s1 N F) as X. rewrite C1 in X. apply X; [eapply at_depth_conds; eassumption|exact T1|exact L1].
  - intros s2 C2 T2 L2. apply quiet_lift; [|exact T2|exact L2].
    rewrite holes_none. transitivity (Ok (map (fun v => concat (somes v)) (map (fun r => map Some (singles r)) rs))).
    + apply mapM_ok. intros v Hv. apply in_map_iff in Hv. destruct Hv as (r & <- & Hr). rewrite somes_some, merge_singles. cbn [bind]. rewrite unwrap_new_reg by (apply Ne; exact Hr). f_equal. symmetry. rewrite somes_some. apply concat_singles.
    + f_equal. rewrite map_map. rewrite <- (map_id rs) at 2. apply map_ext. intros r. rewrite somes_some. apply concat_singles.
Qed.
Lemma program_acts d rs ls : NoDup (concat rs) -> Forall (fun r => r <> []) rs -> Forall (fun p => line_acts d rs (fst p) (snd p)) ls ->
  only (concat rs) (lines_op rs ls) -> acts d (fun d rs => program d rs (map fst ls)) rs (lines_op rs ls).
Proof. intros N Ne F O. split; [exact O|]. intros s Ad T Lv. eapply program_does; eassumption. Qed.
