(** The inverse of add_mod made by [#[invert]]: C58. *)
From Coq Require Import Reals Lra FunctionalExtensionality Permutation.
From Coquelicot Require Import Complex.
From Verif Require Import Base BitsSpec BitsProofs OpsModel OpsSpec Instances BuilderModel RegProofs DenSpec DenProofs LocalProofs LinkProofs
  RunSpec RunProofs GateProofs ToffoliProofs CondProofs SubSpec SubProofs SubProofs2 SubProofs3 SubProofs5 SubProofs6 ProgramModel ProgramSpec ProgramProofs ProgramProofs2 CircProofs CircProofs2
  ArithModel ArithSpec ArithProofs ArithProofs2 ArithProofs3 ArithProofs4 ArithProofs5 ArithProofs6 ArithProofs7 ArithProofs8 WeakProofs TraceProofs ArithProofs9 ArithProofs10 ArithProofs11 ArithProofs12 ArithProofs14 KindProofs ArithProofs15 ArithProofs17
  PropMod PropExp.
Local Open Scope nat_scope.
Local Open Scope mon_scope.
Local Ltac nd := repeat constructor; cbn; intuition lia.

(** add_mod records an object on its temporary qubit. *)
Lemma add_mod_touch ra rb rm s : length ra = length rm -> length rb = S (length ra) -> ra <> [] -> at_depth 0 s -> tidy s -> live s (concat [ra; rb; rm]) ->
  exists s' p, add_mod 0 [ra; rb; rm] s = Ret [ra; rb; rm] s' /\ pipeline (bld s') = pipeline (bld s) ++ p /\ touching (idle s) p.
Proof.
  intros Lm Lb Ha Ad T Lv. cbn [concat] in Lv. rewrite app_nil_r in Lv.
  destruct (quiet_make s _ T Lv) as (t & It & Nt & s1 & H1 & H2 & H3 & H4 & H5 & H6 & H7 & H8).
  assert (Hn : 0 < length ra) by (destruct ra; [congruence|cbn; lia]).
  destruct (quiet_make_reg s1 _ (length ra) H6 H7 Hn) as (rc & Lc & Hrc & s2 & G1 & G2 & G3 & G4 & G5 & G6 & G7 & G8).
  assert (P : Permutation (rc ++ t :: ra ++ rb ++ rm) (ra ++ rb ++ rm ++ t :: rc)).
  { eapply Permutation_trans; [apply Permutation_app_comm|]. cbn [app]. rewrite <- !app_assoc. rewrite (app_assoc rb rm (t :: rc)), (app_assoc ra (rb ++ rm) (t :: rc)), (app_assoc rb rm rc), (app_assoc ra (rb ++ rm) rc). apply Permutation_middle. }
  assert (L2 : live s2 (ra ++ rb ++ rm ++ t :: rc)) by (eapply live_perm; eassumption).
  assert (N : NoDup (ra ++ rb ++ rm ++ t :: rc)) by apply L2.
  set (rs := [ra; rb; rm; [t]; rc] : list reg).
  assert (Ec : concat rs = ra ++ rb ++ rm ++ t :: rc) by (cbn [rs concat app]; rewrite app_nil_r; reflexivity).
  assert (Hb : rb <> []) by (intros E; rewrite E in Lb; discriminate). assert (Hm : rm <> []) by (intros E; rewrite E in Lm; destruct ra; [congruence|discriminate]).
  assert (Hc : rc <> []) by (intros E; rewrite E in Lc; destruct ra; [congruence|discriminate]).
  set (top := nth (length ra) rb 0).
  set (qs := map (fun l => (fst l, (fun K => tr_does (controlled K (line_op rs (fst l) (snd l)))) : list nat -> tr)) (mod_lines ra rb rm rc t)).
  destruct (program_x 0 rs qs) with (s := s2) as (s3 & p & D1 & D2 & D3 & D4 & D5 & D6 & D7 & D8 & D9 & D10 & D11).
  { rewrite Ec. exact N. }
  { repeat constructor; try assumption. discriminate. }
  { unfold qs. apply Forall_map. eapply Forall_impl; [|apply (mod_lines_ok ra rb rm rc t Lm Lb Ha Lc N)]. intros (l, D) Hl. right. exists D. split; [exact Hl|]. intros K u u' v Hu. exact Hu. }
  { destruct Ad as (A1 & A2). split; [congruence|]. rewrite G2, H2. exact A2. }
  { exact G6. }
  { cbn [cqs app]. rewrite Ec. exact L2. }
  cbn [cqs app] in D9. rewrite Ec in D9.
  assert (L3 : live s3 ([t] ++ rc ++ ra ++ rb ++ rm)).
  { eapply live_perm; [exact D9|]. symmetry. eapply Permutation_trans; [|exact P]. cbn [app]. apply Permutation_middle. }
  destruct (quiet_return s3 [t] _ D8 L3 ltac:(discriminate)) as (s4 & R1 & R2 & R3 & R4 & R5 & R6 & R7 & R8).
  destruct (quiet_return s4 rc _ R6 R7 Hc) as (s5 & Q1 & Q2 & Q3 & Q4 & Q5 & Q6 & Q7 & Q8).
  exists s5, p. split.
  { unfold add_mod. rewrite Lm, Nat.eqb_refl. replace (length rb =? length rm + 1) with true by (symmetry; apply Nat.eqb_eq; lia). cbn [negb]. rewrite <- Lm. unfold mbind at 1. rewrite H1. unfold mbind at 1. rewrite G1.
    unfold mbind at 1. change (program 0 [ra; rb; rm; [t]; rc] _ s2) with (program 0 rs (map fst qs) s2). rewrite D1. cbn [rs]. unfold mbind at 1. rewrite R1. unfold mbind at 1. rewrite Q1. reflexivity. }
  split; [congruence|]. unfold qs, mod_lines in D11. cbn [map fst snd chain_tr cqs] in D11.
  destruct D11 as (u1 & p1 & p1' & -> & (_ & I1 & _) & u2 & p2 & p2' & -> & (_ & I2 & _) & u3 & p3 & p3' & -> & X3 & _).
  destruct (cnot_touch top t u2 u3 p3) as (e & He & Hj).
  - destruct X3 as (B1 & B2 & B3 & B4 & B5). do 4 (split; [assumption|]). intros psi Hp. rewrite (B5 psi Hp). reflexivity.
  - intros E. assert (In top rb) by (apply nth_In; lia). destruct (mod_disj ra rb rm rc t N) as (_ & (_ & X & _) & _). apply X. rewrite <- E. assumption.
  - rewrite I2, I1. intros X. destruct L2 as (_ & Y). apply (Y top); [|exact X]. rewrite !in_app_iff. right. left. apply nth_In. lia.
  - exists e, t. split; [rewrite !in_app_iff; tauto|]. split; [exact Hj|exact It].
Qed.
(** *** C58: the inverse *)
Theorem C58_inverse_total : forall d ra rb rm s, length ra = length rm -> length rb = S (length ra) -> ra <> [] -> at_depth d s -> tidy s ->
  live s (cqs d (conds s) ++ concat [ra; rb; rm]) -> in_order d add_mod_inv [ra; rb; rm] s.
Proof.
  intros d ra rb rm s Lm Lb Ha. apply (in_order_x d (fun d rs => add_mod_inv d rs) _ (fun _ => any)). apply (inv_total add_mod).
  - discriminate.
  - repeat constructor; try assumption; apply ne_length; apply ne_length in Ha; lia.
  - intros r. apply n_add_mod.
  - intros R E. destruct (same3 R _ _ _ E) as (r1 & r2 & r3 & -> & L1 & L2 & L3). eapply wacts_xacts, add_mod_w; [congruence|congruence|rewrite ne_length in *; lia].
  - intros R u E Ad T Lv. destruct (same3 R _ _ _ E) as (r1 & r2 & r3 & -> & L1 & L2 & L3). apply add_mod_touch; try assumption; [congruence|congruence|rewrite ne_length in *; lia].
Qed.
Print Assumptions C58_inverse_total.
Theorem C58_total : forall d ra rb rm s, length ra = length rm -> length rb = S (length ra) -> ra <> [] -> at_depth d s -> tidy s ->
  live s (cqs d (conds s) ++ concat [ra; rb; rm]) -> in_order d add_mod [ra; rb; rm] s.
Proof.
  intros d ra rb rm s Lm Lb Ha. apply (in_order_x d add_mod _ (fun _ => any)). eapply wacts_xacts, add_mod_w; assumption.
Qed.
Print Assumptions C58_total.
Example C58_inverse_example : in_order 0 add_mod_inv [[0; 1]; [2; 3; 4]; [5; 6]] (fresh 7).
Proof.
  apply C58_inverse_total; try reflexivity; try discriminate; [apply fresh_depth|apply fresh_tidy|]. apply fresh_live; [nd|]. intros q Hq. cbn in Hq. lia.
Qed.
(** Wrong sizes are errors that leave the builder as it is, for the inverse too. *)
Theorem C58_inverse_sizes : forall d ra rb rm s, ra <> [] -> rb <> [] -> rm <> [] -> ~ (length ra = length rm /\ length rb = S (length ra)) -> exists e, add_mod_inv d [ra; rb; rm] s = Fail e s.
Proof.
  intros d ra rb rm s Ha Hb Hm H. destruct (PropMod.C58_sizes 0 (seq 0 (length ra)) (seq (length ra) (length rb)) (seq (length ra + length rb) (length rm)) (fresh (length (concat [ra; rb; rm])))) as (e & E).
  { rewrite !seq_length. exact H. }
  exists e. unfold add_mod_inv, inv_macro. unfold mbind at 1. unfold on_new, empty_builder. unfold mbind at 1. rewrite registers_new by (intros r [<-|[<-|[<-|[]]]]; assumption). cbn [Nat.add].
  cbn [map ranges Nat.add]. unfold mbind at 1. unfold fresh in E. rewrite E. reflexivity.
Qed.
Print Assumptions C58_inverse_sizes.
