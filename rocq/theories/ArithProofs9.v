(** add_mod at any depth. *)
From Coq Require Import Reals Lra FunctionalExtensionality Permutation.
From Coquelicot Require Import Complex.
From Verif Require Import Base BitsSpec BitsProofs OpsModel OpsSpec Instances BuilderModel RegProofs DenSpec DenProofs LocalProofs LinkProofs
  RunSpec RunProofs GateProofs ToffoliProofs CondProofs SubSpec SubProofs SubProofs2 SubProofs3 SubProofs5 ProgramModel ProgramSpec ProgramProofs ProgramProofs2 CircProofs CircProofs2
  ArithModel ArithSpec ArithProofs ArithProofs2 ArithProofs4 ArithProofs5 ArithProofs6 ArithProofs7 ArithProofs8 WeakProofs.
Local Open Scope nat_scope.
Local Open Scope mon_scope.

(** What add and add_inv do at depth [d]. *)
Definition addD (d : nat) (rc ra rb : list nat) : state -> state := match d with 0 => eff (add_c rc ra rb) | S _ => addT rc ra rb end.
Definition addInvD (d : nat) (rc ra rb : list nat) : state -> state := match d with 0 => eff (rev (add_c rc ra rb)) | S _ => addInvT rc ra rb end.
Lemma addD_acts d rc ra rb : length ra = length rc -> length rb = S (length rc) -> rc <> [] -> NoDup (rc ++ ra ++ rb) -> acts d add [rc; ra; rb] (addD d rc ra rb).
Proof.
  intros La Lb H N. destruct d as [|d]; [apply add_acts; assumption|]. apply (addT_acts (S d) ltac:(lia) rc ra rb (S (length rc))); try assumption; lia.
Qed.
Lemma addInvD_acts d rc ra rb : length ra = length rc -> length rb = S (length rc) -> rc <> [] -> NoDup (rc ++ ra ++ rb) -> acts d add_inv [rc; ra; rb] (addInvD d rc ra rb).
Proof.
  intros La Lb H N. destruct d as [|d]; [apply add_inv_acts; assumption|]. apply add_inv_carried; try assumption; lia.
Qed.

(** A condition that does not hold. *)
Lemma inactive {A} s L (m : M A) a L' K D L0 q psi : does s L m a L' (controlled K D) -> within L0 D -> In q K -> ~ In q L0 -> clean [q] psi -> controlled K D psi = psi.
Proof.
  intros (s' & p & H1 & H2 & H3 & H4 & H5 & H6 & H7 & H8 & H9 & H10 & H11 & H12) W Hq Hn Hc.
  assert (Z : forall x, forallb x K = true -> D (fun _ => RtoC 0) x = RtoC 0).
  { intros x Hx. pose proof (H12 (fun _ => RtoC 0)) as X. rewrite (den_zero p : den p (fun _ => RtoC 0) = fun _ => RtoC 0) in X.
    assert (Y : forall q0, idle s q0 -> q0 < bn (bld s') -> clean [q0] (fun _ => RtoC 0)) by (intros q0 I0 B0 y v Hv Hy; reflexivity). specialize (X Y). apply (f_equal (fun f => f x)) in X. unfold controlled in X. rewrite Hx in X. symmetry. exact X. }
  extensionality x. unfold controlled. destruct (forallb x K) eqn:E; [|reflexivity].
  assert (Xq : x q = true) by (rewrite forallb_forall in E; apply E; exact Hq).
  assert (P0 : forall y, y q = true -> psi y = RtoC 0).
  { intros y Hy. apply (Hc y q (or_introl eq_refl) Hy). }
  rewrite (P0 x Xq). rewrite (W psi (fun _ => RtoC 0) x); [apply Z; exact E|]. intros y Hy. apply P0. rewrite Hy by exact Hn. exact Xq.
Qed.

Section Run.
Context (d : nat) (ra rb rm rc : list nat) (t : nat) (Lm : length ra = length rm) (Lb : length rb = S (length ra)) (Ha : ra <> []) (Lc : length rc = length ra)
  (N : NoDup (ra ++ rb ++ rm ++ t :: rc)).
Notation n := (length ra).
Notation top := (nth n rb 0).
Notation rs := ([ra; rb; rm; [t]; rc] : list reg).
Definition mod_lines_at : list (line * (state -> state)) :=
  [(call add [whole 4; whole 0; whole 1], addD d rc ra rb);
   (call add_inv [whole 4; whole 2; whole 1], addInvD d rc rm rb);
   (control op_x [part 1 [n]; whole 3], eff (one_x t));
   (control add [whole 3; whole 4; whole 2; whole 1], addD (S d) rc rm rb);
   (call add_inv [whole 4; whole 0; whole 1], addInvD d rc ra rb);
   (control_mask 0 op_x [part 1 [n]; whole 3], eff (one_x t));
   (call add [whole 4; whole 0; whole 1], addD d rc ra rb)].
Lemma mod_lines_at_ok : Forall (fun p => line_acts d rs (fst p) (snd p)) mod_lines_at.
Proof.
  pose proof (mod_nodup1 ra rb rm rc t N) as N1. pose proof (mod_nodup2 ra rb rm rc t N) as N2. pose proof (rc_ne ra rb rm rc t Lm Lb Ha Lc N) as Hc. destruct (mod_disj ra rb rm rc t N) as (_ & (T1 & T2 & T3 & T4) & _).
  assert (Nb : rb <> []) by (intros E; rewrite E in Lb; discriminate). assert (Nm : rm <> []) by (intros E; rewrite E in Lm; destruct ra; [congruence|discriminate]).
  assert (E1 : forall f, line_regs rs (call f [whole 4; whole 0; whole 1]) = [rc; ra; rb]) by (intros f; unfold line_regs, gather; cbn; rewrite !app_nil_r; reflexivity).
  assert (E2 : forall f, line_regs rs (call f [whole 4; whole 2; whole 1]) = [rc; rm; rb]) by (intros f; unfold line_regs, gather; cbn; rewrite !app_nil_r; reflexivity).
  assert (E3 : line_regs rs (control add [whole 3; whole 4; whole 2; whole 1]) = [[t]; rc; rm; rb]) by (unfold line_regs, gather; cbn; rewrite !app_nil_r; reflexivity).
  assert (A1 : forall f, line_ok rs (call f [whole 4; whole 0; whole 1])).
  { intros f. split; [args_ok|]. rewrite E1. split; [repeat constructor; assumption|]. cbn [concat]. rewrite app_nil_r. exact N1. }
  assert (A2 : forall f, line_ok rs (call f [whole 4; whole 2; whole 1])).
  { intros f. split; [args_ok|]. rewrite E2. split; [repeat constructor; assumption|]. cbn [concat]. rewrite app_nil_r. exact N2. }
  assert (A3 : Forall (Forall (arg_ok rs)) [part 1 [n]; whole 3]).
  { repeat apply Forall_cons; try apply Forall_nil; split; cbn [fst snd length nth]; try lia; try exact I. intros i [<-|[]]. lia. }
  assert (N3 : NoDup [top; t]) by (pose proof (top_t ra rb rm rc t Lm Lb Lc N); repeat constructor; cbn; intuition congruence).
  unfold mod_lines_at. repeat apply Forall_cons; try apply Forall_nil; cbn [fst snd].
  - split; [apply A1|]. split; [intros X; exfalso; apply X; reflexivity|]. unfold call_targets, call_depth. cbn [call l_ctl l_fun]. rewrite E1. apply addD_acts; try assumption; lia.
  - split; [apply A2|]. split; [intros X; exfalso; apply X; reflexivity|]. unfold call_targets, call_depth. cbn [call l_ctl l_fun]. rewrite E2. apply addInvD_acts; try assumption; lia.
  - split; [split; [exact A3|]; split; [repeat constructor; discriminate|exact N3]|]. split; [intros _; discriminate|]. apply x_is.
  - split; [split; [args_ok|]; rewrite E3; split; [repeat constructor; try assumption; discriminate|cbn [concat]; rewrite app_nil_r; cbn [app]; constructor; [rewrite !in_app_iff; tauto|exact N2]]|].
    split; [intros _; discriminate|]. unfold call_targets, call_depth. cbn [control l_ctl l_fun]. rewrite E3. cbn [tl]. apply addD_acts; try assumption; lia.
  - split; [apply A1|]. split; [intros X; exfalso; apply X; reflexivity|]. unfold call_targets, call_depth. cbn [call l_ctl l_fun]. rewrite E1. apply addInvD_acts; try assumption; lia.
  - split; [split; [exact A3|]; split; [repeat constructor; discriminate|exact N3]|]. split; [intros _; discriminate|]. apply x_is.
  - split; [apply A1|]. split; [intros X; exfalso; apply X; reflexivity|]. unfold call_targets, call_depth. cbn [call l_ctl l_fun]. rewrite E1. apply addD_acts; try assumption; lia.
Qed.
End Run.

(** Some condition qubit is 0, nothing happens. *)
Definition off (K : list nat) : rel := fun psi phi => phi = psi /\ exists q, In q K /\ clean [q] psi.

Lemma add_mod_w d ra rb rm : length ra = length rm -> length rb = S (length ra) -> ra <> [] -> wacts d add_mod [ra; rb; rm] off.
Proof.
  intros Lm Lb Ha s Ad T Lv. set (K := cqs d (conds s)) in *. set (L := K ++ concat [ra; rb; rm]) in *.
  assert (Hn : 0 < length ra) by (destruct ra; [congruence|cbn; lia]).
  apply (w_fun _ s L (rt <- make_zeroed_temp_qubit ;; rc <- make_zeroed_temp_register (length ra) ;;
     rs <- program d [ra; rb; rm; rt; rc] (map fst (mod_lines_at d ra rb rm [] 0)) ;;
     match rs with [ra; rb; rm; rt; rc] => _ <- return_zeroed_temp_register rt ;; _ <- return_zeroed_temp_register rc ;; ret [ra; rb; rm] | _ => crash PUnreachable end)).
  { unfold add_mod. rewrite Lm, Nat.eqb_refl. replace (length rb =? length rm + 1) with true by (symmetry; apply Nat.eqb_eq; lia). cbn [negb]. rewrite <- Lm. reflexivity. }
  apply w_temp; [exact T|exact Lv|]. intros t s1 C1 T1 L1. apply w_temps; [exact T1|exact L1|exact Hn|]. intros rc s2 Lc C2 T2 L2.
  set (rs := [ra; rb; rm; [t]; rc] : list reg).
  assert (Ec : concat rs = ra ++ rb ++ rm ++ t :: rc) by (cbn [rs concat app]; rewrite app_nil_r; reflexivity).
  assert (P : Permutation (K ++ concat rs) (rc ++ t :: L)).
  { unfold L. rewrite Ec. cbn [concat]. rewrite app_nil_r. symmetry. eapply Permutation_trans; [apply Permutation_app_comm|]. cbn [app]. rewrite <- !app_assoc.
    rewrite (app_assoc rb rm (t :: rc)), (app_assoc ra (rb ++ rm) (t :: rc)), (app_assoc K _ (t :: rc)), (app_assoc rb rm rc), (app_assoc ra (rb ++ rm) rc), (app_assoc K _ rc). apply Permutation_middle. }
  assert (L2' : live s2 (K ++ concat rs)) by (eapply live_perm; [exact L2|symmetry; exact P]).
  assert (NK := proj1 L2'). apply NoDup_app_iff in NK. destruct NK as (_ & N & DK). assert (N' := N). rewrite Ec in N'.
  assert (Hb : rb <> []) by (intros E; rewrite E in Lb; discriminate). assert (Hm : rm <> []) by (intros E; rewrite E in Lm; destruct ra; [congruence|discriminate]).
  assert (Hc : rc <> []) by (intros E; rewrite E in Lc; destruct ra; [congruence|discriminate]).
  assert (EK : cqs d (conds s2) = K) by (rewrite C2, C1; reflexivity).
  destruct (program_does d rs (mod_lines_at d ra rb rm rc t) s2) as (D & O).
  { exact N. }
  { repeat constructor; try assumption. discriminate. }
  { apply mod_lines_at_ok; assumption. }
  { eapply at_depth_conds; [|exact Ad]. congruence. }
  { exact T2. }
  { rewrite EK. exact L2'. }
  rewrite EK in D. pose proof D as D0.
  change (map fst (mod_lines_at d ra rb rm [] 0)) with (map fst (mod_lines_at d ra rb rm rc t)).
  eapply w_weak; [|eapply w_bind with (a := rs) (L1 := rc ++ t :: L); [eapply w_perm; [exact P|exact P|]; apply w_does; [exact D|apply incl_refl]|]].
  2:{ intros s3 C3 T3 L3. cbn [rs].
      assert (P3 : Permutation (rc ++ t :: L) ([t] ++ rc ++ L)) by (symmetry; exact (Permutation_middle rc L t)).
      assert (L3' : live s3 ([t] ++ rc ++ L)) by (eapply live_perm; eassumption).
      eapply w_bind with (L1 := rc ++ L); [eapply w_perm; [symmetry; exact P3|reflexivity|]; apply (w_return s3 [t] (rc ++ L)); [exact T3|exact L3'|discriminate]|]. intros s4 C4 T4 L4.
      eapply w_bind with (L1 := L); [apply (w_return s4 rc L); [exact T4|exact L4|exact Hc]|]. intros s5 C5 T5 L5. apply w_ret; assumption. }
  intros psi phi (((-> & q & Hq & Hc0) & Ht) & Hrc). cbn beta in Ht, Hrc. exists psi. split.
  - symmetry. eapply inactive; [exact D0|apply O|exact Hq|apply DK; exact Hq|exact Hc0].
  - exists psi. split; [split; [reflexivity|]; intros p [<-|[]]; exact Ht|]. exists psi. split; [split; [reflexivity|exact Hrc]|reflexivity].
Qed.
