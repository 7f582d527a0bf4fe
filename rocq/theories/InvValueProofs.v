(** What the inverse of a function does to basis states, when the function is known on basis states only. *)
From Coq Require Import Reals Lra FunctionalExtensionality Permutation.
From Coquelicot Require Import Complex.
From Verif Require Import Base BitsSpec BitsProofs OpsModel OpsSpec ConjSpec Instances BuilderModel RegProofs DenSpec DenProofs LocalProofs LinkProofs
  RunSpec RunProofs GateProofs ToffoliProofs CondProofs SubSpec InvertProofs SubProofs SubProofs2 SubProofs3 SubProofs5 SubProofs6 SimSpec SimProofs ProgramModel ProgramSpec ProgramProofs ProgramProofs2 CircProofs CircProofs2
  ArithModel ArithSpec ArithProofs ArithProofs2 ArithProofs3 ArithProofs4 ArithProofs5 ArithProofs6 ArithProofs7 ArithProofs8 WeakProofs TraceProofs ArithProofs9 ArithProofs10 ArithProofs11 ArithProofs12 ArithProofs14 KindProofs ArithProofs15 ArithProofs17.
Local Open Scope nat_scope.
Local Open Scope mon_scope.

Lemma within_wf n p : Forall (wf_entry n) p -> within (seq 0 n) (den p).
Proof. intros W. apply within_den. intros e He q Hq. rewrite Forall_forall in W. apply in_seq. pose proof (W e He) as (_ & X & _). specialize (X q Hq). lia. Qed.

(** Renamed objects on basis states. *)
Section Slice.
Context (rho : list nat) (ND : NoDup rho) (p : pipe) (W : Forall (wf_entry (length rho)) p) (m : nat) (Hm : forall q, In q rho -> q < m).
Lemma slice_in x z B : length rho <= B -> (forall q, q < m -> ~ In q rho -> z q = x q) ->
  den (ren rho p) (ket m x) z = den p (ket B (at_regs rho x)) (at_regs rho z).
Proof.
  intros HB H. rewrite den_ren by assumption. rewrite embed_unfold. apply (within_wf _ _ W). intros y Hy.
  assert (Y : forall j, length rho <= j -> y j = false).
  { intros j Hj. rewrite Hy by (rewrite in_seq; lia). unfold at_regs. destruct (Nat.ltb_spec j (length rho)); [lia|reflexivity]. }
  unfold ket. assert (X : enc m x = enc m (put_regs rho z y) <-> enc B (at_regs rho x) = enc B y).
  - split; intros E.
    + apply enc_ext. intros j Hj. unfold at_regs. destruct (Nat.ltb_spec j (length rho)) as [L|L]; [|symmetry; apply Y; exact L].
      rewrite (enc_inj _ _ _ E) by (apply Hm, nth_In, L). apply put_at; assumption.
    + apply enc_ext. intros q Hq. destruct (in_dec Nat.eq_dec q rho) as [I|I].
      * destruct (In_nth _ _ 0 I) as (j & Hj & <-). rewrite put_at by assumption. rewrite <- (enc_inj _ _ _ E) by lia. symmetry. apply at_in. exact Hj.
      * rewrite put_out by assumption. symmetry. apply H; assumption.
  - destruct (Nat.eqb_spec (enc m x) (enc m (put_regs rho z y))) as [E|E], (Nat.eqb_spec (enc B (at_regs rho x)) (enc B y)) as [F|F]; try reflexivity; tauto.
Qed.
Lemma slice_out x z q : q < m -> ~ In q rho -> z q <> x q -> den (ren rho p) (ket m x) z = RtoC 0.
Proof.
  intros Hq I H. rewrite den_ren by assumption. rewrite embed_unfold.
  replace (fun y => ket m x (put_regs rho z y)) with zero; [rewrite den_zero; reflexivity|]. extensionality y. symmetry. apply (ket_ne _ _ _ q Hq). rewrite put_out by assumption. congruence.
Qed.
End Slice.

Lemma at_app r ts x : (forall q, In q ts -> x q = false) -> at_regs (r ++ ts) x = at_regs r x.
Proof.
  intros H. extensionality j. unfold at_regs. rewrite app_length. destruct (Nat.ltb_spec j (length r)) as [L|L].
  - rewrite (proj2 (Nat.ltb_lt j (length r + length ts))) by lia. rewrite app_nth1 by exact L. reflexivity.
  - destruct (Nat.ltb_spec j (length r + length ts)) as [L'|L']; [|reflexivity]. rewrite app_nth2 by lia. apply H, nth_In. lia.
Qed.
Lemma steps_nil q psi : steps (act_under []) q psi = den q psi.
Proof. reflexivity. Qed.

Lemma ip_flip n phi psi : ip CN Cconj n phi psi = Cconj (ip CN Cconj n psi phi).
Proof.
  unfold ip, bsum. cbn [nmul CN]. induction (seq 0 (2 ^ n)) as [|i l IH].
  - apply injective_projections; cbn; lra.
  - cbn [OpsSpec.big]. rewrite IH. cbn [nadd CN]. apply injective_projections; cbn; lra.
Qed.
Section Inv.
Context (f : nat -> list reg -> M (list reg)) (rs : list reg).
Notation k := (length (concat rs)).
Notation R := (ranges 0 (map (@length nat) rs)).
Context (s1 : st) (a : list reg) (L' : list nat) (Kn : knd (f 0 R)) (E : f 0 R (fresh k) = Ret a s1)
  (Hx : xdoes any (fresh k) (seq 0 k) (f 0 R) a L') (Tc : touching (fun j => k <= S j) (pipeline (bld s1))) (Hrs : rs <> []) (Hne : Forall (fun r => r <> []) rs).
Notation p0 := (pipeline (bld s1)).
Lemma inv_value s : at_depth 0 s -> tidy s -> live s (concat rs) ->
  exists s' p, inv_macro 0 rs (f 0) s = Ret rs s' /\ conds s' = conds s /\ tidy s' /\ live s' (concat rs) /\ bn (bld s) <= bn (bld s') /\
    pipeline (bld s') = pipeline (bld s) ++ p /\ Forall (wf_entry (bn (bld s'))) p /\ Forall proper_entry p /\
    forall x y, only_in (concat rs) x y -> (forall q, idle s q -> q < bn (bld s') -> x q = false) -> (forall q, bn (bld s') <= q -> x q = false) ->
      (forall c, (forall B, bn (bld s1) <= B -> k <= B -> den p0 (ket B (at_regs (concat rs) x)) (at_regs (concat rs) y) = c) -> den p (ket (bn (bld s')) y) x = Cconj c) /\
      ((forall B, bn (bld s1) <= B -> k <= B -> den p0 (ket B (at_regs (concat rs) x)) = ket B (at_regs (concat rs) y)) ->
        forall phi, (forall q, idle s q -> q < bn (bld s') -> clean [q] phi) -> den p phi x = phi y).
Proof.
  intros Ad T Lv. destruct (inverse_x f rs s1 a L' Kn E Hx Tc Hrs Hne) as (N & q & Eq & HN & W0 & P0 & Wq & Pq & Iq & X).
  destruct (X 0 s Ad T) as (s' & p & H1 & H2 & H3 & H4 & H5 & H6 & H7 & H8 & H9 & H10 & _ & Id & _ & _ & ts & Lt & Nd & It & D); [exact Lv|].
  cbn [cqs app] in *. exists s', p. do 8 (split; [assumption|]). intros x y O Z Zb. set (m := bn (bld s')) in *. set (r := concat rs) in *. set (rho := r ++ ts) in *.
  assert (Lr : length rho = N) by (unfold rho; rewrite app_length; exact Lt).
  assert (Hr : forall j, In j rho -> j < m).
  { intros j Hj. unfold rho in Hj. apply in_app_or in Hj. destruct Hj as [Hj|Hj]; [|apply It; exact Hj].
    destruct (Nat.lt_ge_cases j m) as [Y|Y]; [exact Y|]. destruct H9 as (_ & F). exfalso. apply (F j Hj). left. exact Y. }
  assert (W0' : Forall (wf_entry (length rho)) p0) by (rewrite Lr; exact W0).
  assert (Wr : Forall (wf_entry m) (ren rho p0)) by (unfold ren; apply Forall_map; eapply Forall_impl; [|exact W0']; intros e He; apply wf_ren; assumption).
  assert (Pr : Forall proper_entry (ren rho p0)).
  { unfold ren. apply Forall_map. eapply Forall_impl; [|exact P0]. intros e (A1 & A2 & A3). split; [exact A1|]. split; [unfold unitary2_entry in *; cbn [fst snd]; rewrite map_length; exact A2|]. cbn [fst snd]. rewrite map_length. exact A3. }
  assert (Iv : inverses (den (ren rho p0)) (den (ren rho q))).
  { destruct (invert_ok m _ Wr Pr) as (q' & Eq' & _ & _ & I & _). rewrite (invert_ren rho p0 q Eq) in Eq'. injection Eq' as <-. exact I. }
  assert (Zt : forall j, In j ts -> x j = false) by (intros j Hj; apply Z; apply It; exact Hj).
  assert (Zt' : forall j, In j ts -> y j = false).
  { intros j Hj. rewrite O; [apply Zt; exact Hj|]. intros I. apply NoDup_app_iff in Nd. apply (proj2 (proj2 Nd) j I Hj). }
  assert (Zi : forall j, idle s j -> ~ In j r) by (intros j Ij I; destruct Lv as (_ & F); apply (F j I Ij)).
  assert (In1 : forall z B, N <= B -> (forall j, j < m -> ~ In j rho -> z j = x j) -> den (ren rho p0) (ket m x) z = den p0 (ket B (at_regs r x)) (at_regs rho z)).
  { intros z B HB Hz. rewrite (slice_in rho Nd p0 W0' m Hr x z B ltac:(lia) Hz). unfold rho at 1. rewrite at_app by exact Zt. reflexivity. }
  set (B := bn (bld s1) + N + k).
  split.
  - intros c Hc. rewrite D by (intros j Ij Hj; apply ket_clean; [exact Hj|]; rewrite O by (apply Zi; exact Ij); apply Z; assumption).
    rewrite steps_nil, <- (ip_ket m x _ Zb), <- (den_isometry m _ Wr (proper_unitary _ Pr)). rewrite (proj2 (Iv (ket m y))).
    rewrite ip_flip, ip_ket.
    + f_equal. rewrite (In1 y B); [|unfold B; lia|intros j _ Hj; apply O; intros I; apply Hj; unfold rho; apply in_or_app; left; exact I].
      unfold rho. rewrite at_app by exact Zt'. apply Hc; unfold B; lia.
    + intros j Hj. rewrite O; [apply Zb; exact Hj|]. intros I. assert (j < m); [apply Hr; unfold rho; apply in_or_app; left; exact I|lia].
  - intros Hk phi Cl. rewrite D by exact Cl. rewrite steps_nil, <- (ip_ket m x _ Zb), <- (den_isometry m _ Wr (proper_unitary _ Pr)), (proj2 (Iv phi)).
    replace (den (ren rho p0) (ket m x)) with (ket m y).
    + apply ip_ket. intros j Hj. rewrite O; [apply Zb; exact Hj|]. intros I. assert (j < m); [apply Hr; unfold rho; apply in_or_app; left; exact I|lia].
    + extensionality z. destruct (existsb (fun j => negb (existsb (Nat.eqb j) rho) && negb (Bool.eqb (z j) (x j))) (seq 0 m)) eqn:G.
      * apply existsb_exists in G. destruct G as (j & Hj & G). apply in_seq in Hj. apply Bool.andb_true_iff in G. destruct G as (G1 & G2).
        assert (Nj : ~ In j rho). { intros I. apply Bool.negb_true_iff in G1. assert (existsb (Nat.eqb j) rho = true); [|congruence]. apply existsb_exists. exists j. split; [exact I|apply Nat.eqb_refl]. }
        assert (Ne : z j <> x j) by (intros e; rewrite e, Bool.eqb_reflx in G2; discriminate).
        rewrite (slice_out rho Nd p0 W0' m x z j) by (assumption || lia). apply (ket_ne _ _ _ j); [lia|]. rewrite O; [congruence|]. intros I. apply Nj. unfold rho. apply in_or_app. left. exact I.
      * assert (G' : forall j, j < m -> ~ In j rho -> z j = x j).
        { intros j Hj Nj. destruct (Bool.bool_dec (z j) (x j)) as [e|e]; [exact e|]. exfalso. assert (F : existsb (fun j => negb (existsb (Nat.eqb j) rho) && negb (Bool.eqb (z j) (x j))) (seq 0 m) = true); [|congruence].
          apply existsb_exists. exists j. split; [apply in_seq; lia|]. apply Bool.andb_true_iff. split; apply Bool.negb_true_iff.
          - apply Bool.not_true_is_false. intros F. apply existsb_exists in F. destruct F as (j' & Ij & F). apply Nat.eqb_eq in F. subst j'. contradiction.
          - apply Bool.eqb_false_iff. exact e. }
        rewrite (In1 z B) by (first [exact G'|unfold B; lia]). rewrite Hk by (unfold B; lia). unfold ket.
        assert (Q : enc m y = enc m z <-> enc B (at_regs r y) = enc B (at_regs rho z)).
        { rewrite <- (at_app r ts y Zt'). fold rho. split; intros e; apply enc_ext; intros j Hj.
          - unfold at_regs. destruct (Nat.ltb_spec j (length rho)) as [L|L]; [|reflexivity]. apply (enc_inj _ _ _ e). apply Hr, nth_In, L.
          - destruct (in_dec Nat.eq_dec j rho) as [I|I].
            + destruct (In_nth _ _ 0 I) as (i & Hi & <-). pose proof (enc_inj _ _ _ e i ltac:(unfold B; lia)) as F. unfold at_regs in F. rewrite (proj2 (Nat.ltb_lt i (length rho)) Hi) in F. exact F.
            + rewrite G' by assumption. apply O. intros I'. apply I. unfold rho. apply in_or_app. left. exact I'. }
        destruct (Nat.eqb_spec (enc m y) (enc m z)) as [e|e], (Nat.eqb_spec (enc B (at_regs r y)) (enc B (at_regs rho z))) as [F|F]; try reflexivity; tauto.
Qed.
End Inv.
