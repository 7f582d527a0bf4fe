(** C112: on basis states a program! does what its lines say, if the functions they call do what is said of them. *)
From Coq Require Import Reals FunctionalExtensionality Bool Permutation.
From Coquelicot Require Import Complex.
From Verif Require Import Base BitsSpec BitsProofs OpsModel OpsSpec Instances BuilderModel DenSpec DenProofs RunSpec SubSpec ProgramModel ProgramSpec ProgramProofs2
  GateProofs ArithModel ArithSpec ArithProofs ArithProofs6 ArithProofs7 TextModel ReadSpec ReadProofs SoundSpec ReadProofs4 PropArith.
Local Open Scope nat_scope.

Lemma le_num l : le l = num l.
Proof. induction l as [|b l IH]; [reflexivity|]. cbn [le num]. rewrite IH. destruct b; reflexivity. Qed.
Lemma val_num r x : val r x = num (map x r).
Proof. apply le_num. Qed.
Lemma map_agree (r : list nat) (x y : bs) : map x r = map y r -> forall q, In q r -> x q = y q.
Proof. induction r as [|a r IH]; intros H q Hq; [contradiction|]. cbn [map] in H. injection H as H1 H2. destruct Hq as [<-|Hq]; [exact H1|now apply IH]. Qed.
Lemma nth_map_bs (r : list nat) (x : bs) i : i < length r -> nth i (map x r) false = x (nth i r 0).
Proof. intros H. rewrite (nth_indep _ false (x 0)) by (now rewrite map_length). apply map_nth. Qed.
Lemma zero_zero_in r x : zero (map x r) = true -> zero_in r x.
Proof. unfold zero. intros H q Hq. pose proof (proj1 (forallb_forall _ _) H (x q) (in_map x r q Hq)) as B. now destruct (x q). Qed.
Lemma bits_mod_num n v : num (bits n v) = v mod 2 ^ n.
Proof. rewrite <- bits_mod. apply num_bits. apply Nat.mod_upper_bound. apply Nat.pow_nonzero. lia. Qed.

(** What is said in [doc] keeps sizes. *)
Theorem C112_documented_sized : sized doc.
Proof.
  intros f vs vs' H. destruct f, vs as [|a [|b [|c [|e [|]]]]]; cbn [doc] in H; try discriminate;
    repeat match type of H with context [if ?c then _ else _] => let B := fresh "B" in destruct c eqn:B; try discriminate | context [match ?a with [] => _ | _ :: _ => _ end] => destruct a; try discriminate end;
    injection H as <-; cbn [map]; rewrite ?bits_length, ?map_length; try reflexivity.
  - f_equal. cbn [length]. f_equal. change (length (removelast (b :: a)) = length a). clear. revert b. induction a as [|c a IH]; intros b; [reflexivity|]. change (S (length (removelast (c :: a))) = S (length a)). f_equal. apply IH.
  - rewrite app_length. cbn [length]. do 2 f_equal. lia.
  - apply Nat.eqb_eq in B. rewrite combine_length, B, Nat.min_id. reflexivity.
  - apply Nat.eqb_eq in B. rewrite combine_length, B, Nat.min_id. reflexivity.
Qed.
Print Assumptions C112_documented_sized.

(** Called at depth [d] with [rs], the function named does what is documented. *)
Definition realised (d : nat) (f : fname) (rs : list reg) : Prop := exists D, acts d (code 0 f) rs D /\ takes (means rs (doc f)) D.
(** x on a qubit and copy at any depth, rshift and lshift too; add and add_inv without conditions. *)
Theorem C112_parts :
  (forall d q, realised d Nx [[q]]) /\
  (forall d ra rb, length ra = length rb -> ra <> [] -> NoDup (ra ++ rb) -> realised d Ncopy [ra; rb] /\ realised d Ncopy_inv [ra; rb]) /\
  (forall d r, r <> [] -> NoDup r -> realised d Nrshift [r] /\ (2 <= length r -> realised d Nlshift [r])) /\
  (forall rc ra rb, length ra = length rc -> length rb = S (length rc) -> rc <> [] -> NoDup (rc ++ ra ++ rb) -> realised 0 Nadd [rc; ra; rb] /\ realised 0 Nadd_inv [rc; ra; rb]).
Proof.
  split; [|split; [|split]].
  - intros d q. exists (fun psi x => psi (flip x q)). split; [apply x_acts|]. intros psi x y (E & O). cbn [map doc negb] in E. injection E as E. f_equal. extensionality p.
    unfold flip, upd. destruct (Nat.eqb_spec p q) as [->|Ne]; [rewrite <- E; apply negb_involutive|]. apply O. cbn. intros [H|[]]. congruence.
  - intros d ra rb L Hne N. destruct (C55_copy d ra rb L Hne N) as ((D & A & T) & (D' & A' & T' & _)).
    assert (G : forall f x y, f = Ncopy \/ f = Ncopy_inv -> means [ra; rb] (doc f) x y -> copies ra rb x y).
    { intros f x y Hf (E & O). assert (E' : doc Ncopy (map (map x) [ra; rb]) = Some (map (map y) [ra; rb])) by (destruct Hf as [-> | ->]; exact E). clear E. cbn [map doc] in E'.
      rewrite !map_length, L, Nat.eqb_refl in E'. apply some_inj in E'. injection E' as E1 E2. split.
      - intros q Hq. destruct (in_dec Nat.eq_dec q ra) as [Ha|Ha]; [symmetry; now apply (map_agree ra x y E1)|]. apply O. cbn. rewrite app_nil_r, in_app_iff. tauto.
      - intros i Hi. rewrite <- (nth_map_bs rb y i) by lia. rewrite <- E2.
        rewrite (nth_indep _ false ((fun p => xorb (fst p) (snd p)) (false, false))) by (rewrite map_length, combine_length, !map_length; lia).
        rewrite (map_nth (fun p => xorb (fst p) (snd p))), combine_nth by (now rewrite !map_length). cbn [fst snd]. rewrite !nth_map_bs by lia. apply xorb_comm. }
    split; [exists D|exists D']; (split; [assumption|]); intros psi x y H; [apply T|apply T']; eapply G; eauto.
  - intros d r Hne N. assert (Hl : forall x : bs, exists b v, map x r = b :: v) by (intros x; destruct r; [congruence|]; cbn; eauto). split.
    + destruct (C57_rshift d r Hne N) as (D & A & T). exists D. split; [exact A|]. intros psi x y (E & O). apply T. cbn [map concat] in *. rewrite app_nil_r in O.
      assert (E' : last (map x r) false :: removelast (map x r) = map y r).
      { destruct (Hl x) as (b & v & Ev). rewrite Ev in *. cbn [doc] in E. apply some_inj in E. now injection E. } clear E.
      destruct r as [|q0 r _] using rev_ind; [congruence|]. rewrite (map_app x) in E'. change (map x [q0]) with [x q0] in E'. rewrite last_last, removelast_last in E'. unfold rotates. rewrite last_last.
      split; [exact O|]. split.
      * rewrite <- (nth_map_bs _ y) by (rewrite app_length; cbn; lia). rewrite <- E'. reflexivity.
      * intros i Hi. rewrite app_length in Hi. cbn in Hi. rewrite <- (nth_map_bs _ y) by (rewrite app_length; cbn; lia). rewrite <- E'. cbn [nth]. rewrite nth_map_bs by lia. now rewrite app_nth1 by lia.
    + intros L. destruct (C57_lshift d r L N) as (D & A & T). exists D. split; [exact A|]. intros psi x y (E & O). apply T. cbn [map concat] in *. rewrite app_nil_r in O.
      destruct r as [|q0 r]; [congruence|]. cbn [map doc] in E. apply some_inj in E. injection E as E. change (map x r ++ [x q0] = map y (q0 :: r)) in E.
      split; [intros q Hq; symmetry; now apply O|]. split.
      * assert (Z : y (last (q0 :: r) 0) = nth (length r) (map y (q0 :: r)) false).
        { rewrite nth_map_bs by (cbn; lia). f_equal. clear. revert q0. induction r as [|a r IH]; intros q0; [reflexivity|]. change (last (a :: r) 0 = nth (length r) (a :: r) 0). apply IH. }
        rewrite Z, <- E, app_nth2 by (rewrite map_length; lia). rewrite map_length, Nat.sub_diag. reflexivity.
      * intros i Hi. cbn [length] in Hi. rewrite <- (nth_map_bs _ y) by (cbn; lia). rewrite <- E, app_nth1 by (rewrite map_length; lia). rewrite nth_map_bs by lia. reflexivity.
  - intros rc ra rb La Lb Hne N. split.
    + destruct (C56_add rc ra rb La Lb Hne N) as (D & A & T). exists D. split; [exact A|]. intros psi x y (E & O). apply T. cbn [map doc] in E. rewrite !map_length in E.
      destruct ((length rc =? length ra) && (length rb =? length ra + 1) && zero (map x rc)) eqn:B; [|discriminate]. apply some_inj in E. injection E as E1 E2 E3.
      apply andb_true_iff in B. destruct B as [_ B]. apply zero_zero_in in B. split; [intros q Hq; apply B; destruct rc; [destruct Hq|now right]|]. split.
      * intros q Hq. destruct (in_dec Nat.eq_dec q ra) as [Ha|Ha]; [symmetry; now apply (map_agree ra x y E2)|]. destruct (in_dec Nat.eq_dec q rc) as [Hc|Hc]; [symmetry; now apply (map_agree rc x y E1)|].
        apply O. cbn. rewrite app_nil_r, !in_app_iff. tauto.
      * rewrite !val_num, <- E3, bits_mod_num. destruct rc as [|c rc]; [congruence|]. cbn [hd]. rewrite (B c (or_introl eq_refl)). cbn [b2n]. rewrite Nat.add_0_r, (Nat.add_comm (num (map x rb))). reflexivity.
    + destruct (C56_add_inv rc ra rb La Lb Hne N) as (D & A & T). exists D. split; [exact A|]. intros psi x y (E & O). apply T. cbn [map doc] in E. rewrite !map_length in E.
      destruct ((length rc =? length ra) && (length rb =? length ra + 1) && zero (map x rc)) eqn:B; [|discriminate]. apply some_inj in E. injection E as E1 E2 E3.
      apply andb_true_iff in B. destruct B as [_ B]. apply zero_zero_in in B.
      assert (B' : zero_in rc y) by (intros q Hq; rewrite <- (map_agree rc x y E1 q Hq); now apply B).
      split; [intros q Hq; apply B'; destruct rc; [destruct Hq|now right]|]. split.
      * intros q Hq. destruct (in_dec Nat.eq_dec q ra) as [Ha|Ha]; [now apply (map_agree ra x y E2)|]. destruct (in_dec Nat.eq_dec q rc) as [Hc|Hc]; [now apply (map_agree rc x y E1)|].
        symmetry. apply O. cbn. rewrite app_nil_r, !in_app_iff. tauto.
      * rewrite !val_num, <- E3, <- E2, bits_mod_num. destruct rc as [|c rc]; [congruence|]. cbn [hd]. rewrite (B' c (or_introl eq_refl)). cbn [b2n]. rewrite Nat.add_0_r.
        pose proof (num_lt (map x rb)) as H1. pose proof (num_lt (map x ra)) as H2. rewrite map_length in H1, H2.
        assert (H3 : 2 ^ length ra <= 2 ^ length rb) by (apply Nat.pow_le_mono_r; lia).
        rewrite Nat.add_mod_idemp_r by (apply Nat.pow_nonzero; lia).
        replace (num (map x ra) + (num (map x rb) + 2 ^ length rb - num (map x ra))) with (num (map x rb) + 1 * 2 ^ length rb) by lia.
        rewrite Nat.mod_add by (apply Nat.pow_nonzero; lia). symmetry. now apply Nat.mod_small.
Qed.
Print Assumptions C112_parts.

(** Any program!, at any depth of conditions, with any meaning of the names that keeps the sizes of registers. *)
Theorem C112_program : forall d rs F sem ts, sized sem -> NoDup (concat rs) -> Forall (fun r => r <> []) rs ->
  Forall (fun t => let l := compile F t in line_ok rs l /\ (t_ctl t <> None -> t_args t <> []) /\
    exists D, acts (call_depth d l) (F (t_name t)) (call_targets l (line_regs rs l)) D /\ takes (means (call_targets l (line_regs rs l)) (sem (t_name t))) D) ts ->
  exists D, acts d (fun d rs => program d rs (map (compile F) ts)) rs D /\ takes (means rs (fun st => text_read sem st ts)) D.
Proof.
  intros d rs F sem ts Sz N Ne H.
  assert (exists tds, map fst tds = ts /\ Forall (fun td => line_acts d rs (compile F (fst td)) (snd td) /\
    takes (means (call_targets (compile F (fst td)) (line_regs rs (compile F (fst td)))) (sem (t_name (fst td)))) (snd td)) tds) as (tds & E & H').
  { clear - H. induction H as [|t ts (K & Hc & D & A & T) H IH]; [exists []; split; [reflexivity|constructor]|]. destruct IH as (tds & <- & H').
    exists ((t, D) :: tds). split; [reflexivity|]. constructor; [|exact H']. cbn [fst snd]. split; [|exact T]. split; [exact K|]. split; [exact Hc|exact A]. }
  subst ts. exists (lines_op rs (map (fun td => (compile F (fst td), snd td)) tds)). split; [|now apply text_sound with d].
  assert (L : Forall (fun p => line_acts d rs (fst p) (snd p)) (map (fun td => (compile F (fst td), snd td)) tds)).
  { apply Forall_map. eapply Forall_impl; [|exact H']. intros [t D] [A _]. exact A. }
  assert (M : map fst (map (fun td => (compile F (fst td), snd td)) tds) = map (compile F) (map fst tds)) by (rewrite !map_map; reflexivity).
  split; [exact (only_lines d rs _ L)|]. intros s Ad T Lv. rewrite <- M. exact (proj1 (program_does d rs _ s N Ne L Ad T Lv)).
Qed.
Print Assumptions C112_program.

(** A program of such parts, of any size: copy ra, rt; add rc, rt, rb; copy_inv ra, rt; control(0) x ra[0], rf.  It adds
    a to b, leaves rt and rc at 0 and flips rf where a is even. *)
Definition ex_text : list tline :=
  [Tl None Ncopy [whole 0; whole 3]; Tl None Nadd [whole 2; whole 3; whole 1]; Tl None Ncopy_inv [whole 0; whole 3];
   Tl (Some (Some 0)) Nx [part 0 [0]; whole 4]].
Ltac fetched := cbn [map fetch flat_map whole fetch1 fst snd nth app]; rewrite ?app_nil_r.
Ltac reflexivity_stores := f_equal; cbn [stores];
  repeat match goal with |- context [store (?h :: ?t) (whole ?k) ?v] => rewrite (store_whole (h :: t) k v) by (cbn [nth length]; rewrite ?bits_length; reflexivity); cbn [upd_nth] end; reflexivity.
Lemma ex_read n a b u : 0 < n -> a < 2 ^ n -> b < 2 ^ S n ->
  text_read doc [bits n a; bits (S n) b; bits n 0; bits n 0; [u]] ex_text = Some [bits n a; bits (S n) (b + a); bits n 0; bits n 0; [xorb u (Nat.even a)]].
Proof.
  intros Hn Ha Hb. destruct n as [|n]; [lia|]. unfold ex_text. set (N := S n) in *.
  rewrite (text_cons _ _ _ _ [bits N a; bits (S N) b; bits N 0; bits N a; [u]]).
  2: { rewrite (line_plain doc _ Ncopy _ [bits N a; bits N a]); [reflexivity_stores|]. fetched. apply doc_copy. }
  rewrite (text_cons _ _ _ _ [bits N a; bits (S N) (b + a); bits N 0; bits N a; [u]]).
  2: { rewrite (line_plain doc _ Nadd _ [bits N 0; bits N a; bits (S N) (b + a)]); [reflexivity_stores|]. fetched.
       cbn [doc]. rewrite !bits_length, zero_bits, !num_bits by assumption. rewrite Nat.eqb_refl, Nat.add_1_r, Nat.eqb_refl. reflexivity. }
  rewrite (text_cons _ _ _ _ [bits N a; bits (S N) (b + a); bits N 0; bits N 0; [u]]).
  2: { rewrite (line_plain doc _ Ncopy_inv _ [bits N a; bits N 0]); [reflexivity_stores|]. fetched. apply doc_copy_inv. }
  cbn [text_read]. unfold line_read. cbn [t_ctl t_name t_args map fetch flat_map whole part fetch1 fst snd nth app].
  replace (nth 0 (bits N a) false) with (Nat.odd a) by (unfold N; now rewrite bits_S). rewrite chosen_not, Nat.negb_odd.
  assert (U : upd_nth 0 (Nat.odd a) (bits N a) = bits N a) by (unfold N; now rewrite bits_S).
  destruct (Nat.even a); cbn [doc option_map map]; f_equal; cbn [stores]; rewrite store_bit; cbn [nth]; rewrite U, ?xorb_true_r, ?xorb_false_r; reflexivity.
Qed.
Theorem C112_program_example : forall ra rb rc rt f, length ra = length rc -> length rt = length rc -> length rb = S (length rc) -> rc <> [] ->
  NoDup (ra ++ rb ++ rc ++ rt ++ [f]) ->
  exists D, acts 0 (fun d rs => program d rs (map (compile (code 0)) ex_text)) [ra; rb; rc; rt; [f]] D /\
    forall psi x y, zero_in rc x -> zero_in rt x -> only_in (rb ++ [f]) x y -> val rb y = (val ra x + val rb x) mod 2 ^ length rb ->
      y f = xorb (x f) (Nat.even (val ra x)) -> D psi y = psi x.
Proof.
  intros ra rb rc rt f L1 L2 L3 Hne N. set (rs := [ra; rb; rc; rt; [f]]).
  assert (Nc : NoDup (concat rs)) by (unfold rs; cbn [concat]; exact N).
  assert (Ha : ra <> []) by (destruct ra, rc; cbn in *; congruence). assert (Hb : rb <> []) by (destruct rb; cbn in *; congruence). assert (Ht : rt <> []) by (destruct rt, rc; cbn in *; congruence).
  assert (N1 : NoDup (ra ++ rt)) by (eapply sub_NoDup; [|exact N]; apply sub_both, sub_left, sub_left; rewrite <- (app_nil_r rt) at 1; apply sub_both; constructor).
  assert (N2 : NoDup (rc ++ rt ++ rb)).
  { assert (N2 : NoDup (rb ++ rc ++ rt)) by (eapply sub_NoDup; [|exact N]; apply sub_left, sub_both, sub_both; rewrite <- (app_nil_r rt) at 1; apply sub_both; constructor).
    eapply Permutation_NoDup; [|exact N2]. rewrite (app_assoc rc). apply Permutation_app_comm. }
  assert (N3 : NoDup [hd 0 ra; f]).
  { destruct ra as [|a ra']; [congruence|]. cbn [hd]. eapply sub_NoDup; [|exact N]. cbn [app]. apply sub_take. do 4 apply sub_left. apply sub_all. }
  destruct C112_parts as (Px & Pc & _ & Pa).
  destruct (C112_program 0 rs (code 0) doc ex_text C112_documented_sized Nc) as (D & A & T).
  { unfold rs. repeat constructor; assumption || discriminate. }
  { assert (Lr : length rs = 5) by reflexivity. unfold ex_text. repeat apply Forall_cons; try apply Forall_nil; cbv zeta.
    - assert (G : line_regs rs (compile (code 0) (Tl None Ncopy [whole 0; whole 3])) = [ra; rt]) by (unfold line_regs, gather; cbn; now rewrite !app_nil_r).
      split; [split; [args_ok|rewrite G; split; [repeat constructor; assumption|cbn [concat]; now rewrite app_nil_r]]|]. split; [discriminate|]. rewrite G. apply Pc; congruence.
    - assert (G : line_regs rs (compile (code 0) (Tl None Nadd [whole 2; whole 3; whole 1])) = [rc; rt; rb]) by (unfold line_regs, gather; cbn; now rewrite !app_nil_r).
      split; [split; [args_ok|rewrite G; split; [repeat constructor; assumption|cbn [concat]; now rewrite app_nil_r]]|]. split; [discriminate|]. rewrite G. apply Pa; assumption || congruence.
    - assert (G : line_regs rs (compile (code 0) (Tl None Ncopy_inv [whole 0; whole 3])) = [ra; rt]) by (unfold line_regs, gather; cbn; now rewrite !app_nil_r).
      split; [split; [args_ok|rewrite G; split; [repeat constructor; assumption|cbn [concat]; now rewrite app_nil_r]]|]. split; [discriminate|]. rewrite G. apply Pc; congruence.
    - assert (G : line_regs rs (compile (code 0) (Tl (Some (Some 0)) Nx [part 0 [0]; whole 4])) = [[hd 0 ra]; [f]]) by (destruct ra; [congruence|reflexivity]).
      split; [split; [|rewrite G; split; [repeat constructor; discriminate|exact N3]]|].
      { repeat apply Forall_cons; try apply Forall_nil; split; cbn; try lia; try exact I. intros i [<-|[]]. destruct ra; [congruence|cbn; lia]. }
      split; [discriminate|]. rewrite G. apply Px. }
  exists D. split; [exact A|]. intros psi x y Zc Zt O Hv Hf. apply T. split.
  - assert (Nd : NoDup ((ra ++ rc ++ rt) ++ rb ++ [f])).
    { eapply Permutation_NoDup; [|exact N]. rewrite <- !app_assoc. apply Permutation_app_head. rewrite (app_assoc rc rt (rb ++ [f])), (app_assoc rc rt [f]). apply Permutation_app_swap_app. }
    apply NoDup_app_iff in Nd. destruct Nd as (_ & _ & Nd).
    assert (Same : forall r, incl r (ra ++ rc ++ rt) -> map y r = map x r) by (intros r Hr; apply map_ext_in; intros q Hq; apply O; intros Hx; exact (Nd q (Hr q Hq) Hx)).
    assert (Z : forall r, zero_in r x -> map x r = bits (length r) 0).
    { intros r Hz. apply (nth_ext _ _ false false); [now rewrite map_length, bits_length|]. intros i Hi. rewrite map_length in Hi. rewrite nth_map_bs by exact Hi. rewrite (Hz _ (nth_In _ _ Hi)).
      unfold bits. rewrite (nth_indep _ false (Nat.testbit 0 0)) by (now rewrite map_length, seq_length). rewrite map_nth. symmetry. apply Nat.bits_0. }
    assert (V : forall r z, map z r = bits (length r) (val r z)) by (intros r z; rewrite val_num, <- (map_length z r); symmetry; apply bits_num).
    assert (Vl : forall r z, val r z < 2 ^ length r) by (intros r z; rewrite val_num, <- (map_length z r); apply num_lt).
    unfold rs. cbn [map]. rewrite (Same ra), (Same rc), (Same rt) by (intros q Hq; rewrite !in_app_iff; tauto).
    rewrite (Z rc Zc), (Z rt Zt), (V ra x), (V rb x), (V rb y), Hv, bits_mod, L1, L2, L3, Hf, (Nat.add_comm (val ra x)).
    apply ex_read; [destruct rc; [congruence|cbn; lia]|rewrite <- L1; apply Vl|rewrite <- L3; apply Vl].
  - intros q Hq. apply O. intros Hx. apply Hq. unfold rs. cbn [concat]. rewrite !in_app_iff in *. tauto.
Qed.
Print Assumptions C112_program_example.
