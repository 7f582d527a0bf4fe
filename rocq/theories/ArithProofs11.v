(** times_mod at any depth. *)
From Coq Require Import Reals Lra FunctionalExtensionality Permutation.
From Coquelicot Require Import Complex.
From Verif Require Import Base BitsSpec BitsProofs OpsModel OpsSpec Instances BuilderModel RegProofs DenSpec DenProofs LocalProofs LinkProofs
  RunSpec RunProofs GateProofs ToffoliProofs CondProofs SubSpec SubProofs SubProofs2 SubProofs3 SubProofs5 ProgramModel ProgramSpec ProgramProofs ProgramProofs2 CircProofs CircProofs2
  ArithModel ArithSpec ArithProofs ArithProofs2 ArithProofs3 ArithProofs4 ArithProofs5 ArithProofs6 ArithProofs7 ArithProofs8 WeakProofs ArithProofs9 ArithProofs10.
Local Open Scope nat_scope.
Local Open Scope mon_scope.

(** *** Lines naming each register at most once *)
Lemma NoDup_map_nth (r : list nat) is : NoDup r -> NoDup is -> (forall i, In i is -> i < length r) -> NoDup (map (fun i => nth i r 0) is).
Proof.
  intros N Ni H. induction is as [|i is IH]; [constructor|]. apply NoDup_cons_iff in Ni. destruct Ni as (Hi & Ni). cbn [map]. constructor; [|apply IH; [exact Ni|intros j Hj; apply H; right; exact Hj]].
  intros X. apply in_map_iff in X. destruct X as (j & E & Hj). apply Hi. replace i with j; [exact Hj|]. apply (proj1 (NoDup_nth r 0) N); [apply H; right; exact Hj|apply H; left; reflexivity|exact E].
Qed.
Definition arg_set (a : arg) : Prop := match snd a with Some is => NoDup is /\ is <> [] | None => True end.
Lemma args_NoDup rs : forall args, NoDup (concat rs) -> Forall (arg_ok rs) args -> Forall arg_set args -> NoDup (map fst args) -> NoDup (concat (map (arg_qubits rs) args)).
Proof.
  induction args as [|a args IH]; intros N Ao As D; cbn [map concat]; [constructor|]. inversion Ao as [|? ? A1 A2]; subst. inversion As as [|? ? S1 S2]; subst. cbn [map] in D. apply NoDup_cons_iff in D. destruct D as (D1 & D2).
  apply NoDup_app_iff. split; [|split; [apply IH; assumption|]].
  - unfold arg_qubits. destruct A1 as (_ & A1). unfold arg_set in S1. destruct (snd a); [apply NoDup_map_nth; [apply NoDup_register; exact N|apply S1|exact A1]|apply NoDup_register; exact N].
  - intros q Hq X. apply in_concat in X. destruct X as (l & Hl & X). apply in_map_iff in Hl. destruct Hl as (b & <- & Hb). apply D1. rewrite Forall_forall in A2.
    rewrite (registers_disjoint rs (fst a) (fst b) q N (arg_qubits_in rs a q A1 Hq) (arg_qubits_in rs b q (A2 b Hb) X)). apply in_map. exact Hb.
Qed.
Lemma gathers_concat rs gs : concat (map (gather rs) gs) = concat (map (arg_qubits rs) (concat gs)).
Proof. induction gs as [|g gs IH]; [reflexivity|]. cbn [map concat]. rewrite IH, map_app, concat_app. reflexivity. Qed.
Lemma line_ok_set rs l : NoDup (concat rs) -> Forall (fun r => r <> []) rs -> Forall (fun g => g <> []) (l_args l) -> Forall (arg_ok rs) (concat (l_args l)) -> Forall arg_set (concat (l_args l)) ->
  NoDup (map fst (concat (l_args l))) -> line_ok rs l.
Proof.
  intros N Ne Hg Ao As D. split; [|split].
  - apply Forall_forall. intros g Hg'. apply Forall_forall. intros a Ha. rewrite Forall_forall in Ao. apply Ao. apply in_concat. eauto.
  - apply Forall_forall. intros r Hr. apply in_map_iff in Hr. destruct Hr as (g & <- & Hg'). rewrite Forall_forall in Hg. specialize (Hg g Hg'). destruct g as [|a g]; [congruence|].
    assert (Ia : In a (concat (l_args l))) by (apply in_concat; exists (a :: g); split; [exact Hg'|left; reflexivity]).
    rewrite Forall_forall in Ao, As. specialize (Ao a Ia). specialize (As a Ia). unfold gather. cbn [map concat]. intros X. apply app_eq_nil in X. destruct X as (X & _).
    unfold arg_qubits in X. unfold arg_set in As. destruct Ao as (Al & _). destruct (snd a) as [is|]; [destruct is; [tauto|discriminate]|].
    rewrite Forall_forall in Ne. apply (Ne (nth (fst a) rs [])); [apply nth_In; exact Al|exact X].
  - unfold line_regs. rewrite gathers_concat. apply args_NoDup; assumption.
Qed.

(** *** Operations that keep 0 *)
Lemma addInvT_zero : forall rc ra rb, addInvT rc ra rb zero = zero.
Proof.
  induction rc as [|c rc IH]; intros ra rb; [reflexivity|]. destruct rc as [|c1 cs].
  - destruct ra as [|a [|]]; [reflexivity| |]; destruct rb as [|b [|b1 [|]]]; try reflexivity. extensionality x. cbn [addInvT]. unfold tilts, eff, on1, zero. destruct (maj _ _ _); [ring|reflexivity].
  - destruct ra as [|a ra]; [reflexivity|]. destruct rb as [|b rb]; [reflexivity|].
    change (addInvT (c :: c1 :: cs) (a :: ra) (b :: rb) zero) with (tilts c a b c1 (addInvT (c1 :: cs) ra rb (tilts c a b c1 (eff (rev (sum_c c a b)) zero)))).
    replace (tilts c a b c1 (eff (rev (sum_c c a b)) zero)) with (zero : state).
    + rewrite IH. extensionality x. unfold tilts, on1, zero. destruct (maj _ _ _); [ring|reflexivity].
    + extensionality x. unfold tilts, eff, on1, zero. destruct (maj _ _ _); [ring|reflexivity].
Qed.
Lemma addD_zero d rc ra rb : addD d rc ra rb zero = zero.
Proof. destruct d; [reflexivity|apply addT_zero]. Qed.
Lemma addInvD_zero d rc ra rb : addInvD d rc ra rb zero = zero.
Proof. destruct d; [reflexivity|apply addInvT_zero]. Qed.
Lemma controlled_zero K D : D zero = zero -> controlled K D zero = zero.
Proof. intros H. extensionality x. unfold controlled. rewrite H. destruct (forallb x K); reflexivity. Qed.
Lemma within_clean L D q psi : within L D -> D zero = zero -> ~ In q L -> clean [q] psi -> clean [q] (D psi).
Proof.
  intros W Z Hq Hc x p [<-|[]] Hp. rewrite (W psi zero x); [rewrite Z; reflexivity|]. intros y Hy. apply (Hc y q (or_introl eq_refl)). rewrite Hy by exact Hq. exact Hp.
Qed.

(** *** Loops *)
Fixpoint chain_ix (R : nat -> rel) (is : list nat) : rel := match is with [] => eq | i :: is' => then_rel (R i) (chain_ix R is') end.
Lemma w_mfold {A} (f : A -> nat -> M A) (a : A) L (R : nat -> rel) : forall is s, tidy s -> live s L ->
  (forall i s1, In i is -> conds s1 = conds s -> tidy s1 -> live s1 L -> wdoes (R i) s1 L (f a i) a L) -> wdoes (chain_ix R is) s L (mfold f is a) a L.
Proof.
  induction is as [|i is IH]; intros s T Lv H; cbn [mfold chain_ix]; [apply w_ret; assumption|].
  eapply w_bind with (a := a) (L1 := L); [apply H; [left; reflexivity|reflexivity|exact T|exact Lv]|]. intros s1 C1 T1 L1. apply IH; [exact T1|exact L1|].
  intros j s2 Hj C2 T2 L2. apply H; [right; exact Hj|congruence|exact T2|exact L2].
Qed.
Lemma chain_fun (D : nat -> state -> state) : forall is psi, chain_ix (fun i psi phi => phi = D i psi) is psi (fold_left (fun phi i => D i phi) is psi).
Proof. induction is as [|i is IH]; intros psi; cbn [chain_ix fold_left]; [reflexivity|]. exists (D i psi). split; [reflexivity|apply IH]. Qed.

(** *** The two loops *)
Section Times.
Context (d : nat) (ra rb rm rp rt rc : list nat) (Hm : rm <> []) (Hb : rb <> []) (La : length ra = S (length rm)) (Lp : length rp = S (length rm)) (Lt : length rt = length rb) (Lc : length rc = length rm)
  (Nd : NoDup (concat [ra; rb; rm; rp; rt; rc])).
Notation n := (length rm).
Notation k := (length rb).
Notation top := (nth n ra 0).
Notation ti i := (nth i rt 0).
Notation rs6 := ([ra; rb; rm; rp; rt; rc] : list reg).
Notation rs4 := ([ra; rm; rt; rc] : list reg).

Definition D0 (i : nat) (psi : state) : state := controlled [ti i] (addD (S d) rc rm ra) (controlled [top] (eff (one_x (ti i))) (addInvD d rc rm ra psi)).
Definition D1 (i : nat) (psi : state) : state := eff (rshift_c ra) (D0 i psi).
Definition D2 (i : nat) (psi : state) : state :=
  addD d rc rm ra (controlled [top] (eff (one_x (ti i))) (controlled [ti i] (addInvD (S d) rc rm ra) (eff (rev (rshift_c ra)) psi))).

Lemma t_ne : ra <> [] /\ rp <> [] /\ rt <> [] /\ rc <> [] /\ 0 < n /\ 0 < k.
Proof. destruct ra, rp, rt, rc, rm, rb; cbn in *; try congruence; try lia; repeat split; try discriminate; lia. Qed.
Lemma t_ne6 : Forall (fun r => r <> []) rs6.
Proof. destruct t_ne as (H1 & H2 & H3 & H4 & _). repeat constructor; assumption. Qed.
Lemma t_nodup : NoDup (ra ++ rb ++ rm ++ rp ++ rt ++ rc).
Proof. cbn [concat] in Nd. rewrite app_nil_r in Nd. exact Nd. Qed.
Lemma t_sep : (forall q, In q ra -> ~ In q rb /\ ~ In q rm /\ ~ In q rp /\ ~ In q rt /\ ~ In q rc) /\ (forall q, In q rb -> ~ In q rm /\ ~ In q rp /\ ~ In q rt /\ ~ In q rc) /\
  (forall q, In q rm -> ~ In q rp /\ ~ In q rt /\ ~ In q rc) /\ (forall q, In q rp -> ~ In q rt /\ ~ In q rc) /\ (forall q, In q rt -> ~ In q rc).
Proof.
  pose proof t_nodup as X. apply NoDup_app_iff in X. destruct X as (_ & X & E1). apply NoDup_app_iff in X. destruct X as (_ & X & E2). apply NoDup_app_iff in X. destruct X as (_ & X & E3).
  apply NoDup_app_iff in X. destruct X as (_ & X & E4). apply NoDup_app_iff in X. destruct X as (_ & _ & E5).
  split; [|split; [|split; [|split]]]; intros q H; [pose proof (E1 q H) as Y|pose proof (E2 q H) as Y|pose proof (E3 q H) as Y|pose proof (E4 q H) as Y|pose proof (E5 q H) as Y]; rewrite ?in_app_iff in Y; tauto.
Qed.

Ltac line_set Ne := apply line_ok_set; [exact Nd|exact Ne|repeat constructor; discriminate| | |];
  [repeat apply Forall_cons; try apply Forall_nil; split; cbn [fst snd length nth]; try lia; try exact I
  |repeat apply Forall_cons; try apply Forall_nil; unfold arg_set; cbn [snd]; try exact I
  |repeat constructor; cbn; intuition discriminate].
Lemma first_lines_ok i : i < k -> let n := length rm in
  line_acts d rs6 (call add_inv [whole 5; whole 2; whole 0]) (addInvD d rc rm ra) /\
  line_acts d rs6 (control op_x [part 0 [n]; part 4 [i]]) (eff (one_x (ti i))) /\
  line_acts d rs6 (control add [part 4 [i]; whole 5; whole 2; whole 0]) (addD (S d) rc rm ra) /\
  line_ok rs6 (control add_mod [part 1 [i]; part 0 (seq 0 n); whole 3; whole 2]) /\
  line_acts d rs6 (call rshift [whole 0]) (eff (rshift_c ra)).
Proof.
  intros Hi nn. destruct t_ne as (Ha & Hp & Ht & Hc & Hn & Hk). pose proof t_ne6 as Ne.
  assert (O1 : forall f, line_ok rs6 (call f [whole 5; whole 2; whole 0])) by (intros f; line_set Ne).
  assert (E1 : forall f, line_regs rs6 (call f [whole 5; whole 2; whole 0]) = [rc; rm; ra]) by (intros f; unfold line_regs, gather; cbn; rewrite !app_nil_r; reflexivity).
  assert (O3 : line_ok rs6 (control add [part 4 [i]; whole 5; whole 2; whole 0])).
  { line_set Ne; [intros j [<-|[]]; cbn; lia|split; [repeat constructor; intros []|discriminate]]. }
  assert (E3 : line_regs rs6 (control add [part 4 [i]; whole 5; whole 2; whole 0]) = [[ti i]; rc; rm; ra]) by (unfold line_regs, gather; cbn; rewrite !app_nil_r; reflexivity).
  assert (N1 : NoDup (rc ++ rm ++ ra)) by (destruct (O1 add) as (_ & _ & X); rewrite E1 in X; cbn [concat] in X; rewrite app_nil_r in X; exact X).
  split; [|split; [|split; [|split]]].
  - split; [apply O1|]. split; [intros X; exfalso; apply X; reflexivity|]. unfold call_targets, call_depth. cbn [call l_ctl l_fun]. rewrite E1. apply addInvD_acts; try assumption; lia.
  - split; [line_set Ne; [intros j [<-|[]]; cbn; unfold nn; lia|intros j [<-|[]]; cbn; lia|split; [repeat constructor; intros []|discriminate]|split; [repeat constructor; intros []|discriminate]]|].
    split; [intros _; discriminate|]. apply x_is.
  - split; [exact O3|]. split; [intros _; discriminate|]. unfold call_targets, call_depth. cbn [control l_ctl l_fun]. rewrite E3. cbn [tl]. apply addD_acts; try assumption; lia.
  - line_set Ne.
    + intros j [<-|[]]. cbn. lia.
    + intros j Hj. apply in_seq in Hj. cbn. unfold nn in Hj. lia.
    + split; [repeat constructor; intros []|discriminate].
    + split; [apply seq_NoDup|]. unfold nn. destruct n; [lia|discriminate].
  - split; [line_set Ne|]. split; [intros X; exfalso; apply X; reflexivity|]. unfold call_targets, call_depth. cbn [call l_ctl l_fun]. unfold line_regs, gather. cbn. rewrite !app_nil_r.
    apply rshift_acts; [exact Ha|]. pose proof t_nodup as X. apply NoDup_app_iff in X. apply X.
Qed.

Lemma nodup_add : NoDup (rc ++ rm ++ ra).
Proof.
  destruct t_sep as (S1 & S2 & S3 & S4 & S5). pose proof t_nodup as X. apply NoDup_app_iff in X. destruct X as (Na & X & _). apply NoDup_app_iff in X. destruct X as (_ & X & _). apply NoDup_app_iff in X. destruct X as (Nm & X & _).
  apply NoDup_app_iff in X. destruct X as (_ & X & _). apply NoDup_app_iff in X. destruct X as (_ & Nc & _).
  apply NoDup_app_iff. split; [exact Nc|]. split; [apply NoDup_app_iff; split; [exact Nm|]; split; [exact Na|]; intros q Hq X; apply S1 in X; tauto|].
  intros q Hq X. apply in_app_or in X. destruct X as [X|X]; [apply S3 in X|apply S1 in X]; tauto.
Qed.
Lemma only_addD e : only (rc ++ rm ++ ra) (addD e rc rm ra).
Proof.
  destruct t_ne as (Ha & Hp & Ht & Hc & Hn & Hk). destruct (addD_acts e rc rm ra ltac:(lia) ltac:(lia) Hc nodup_add) as (O & _). cbn [concat] in O. rewrite app_nil_r in O. exact O.
Qed.
Lemma only_addInvD e : only (rc ++ rm ++ ra) (addInvD e rc rm ra).
Proof.
  destruct t_ne as (Ha & Hp & Ht & Hc & Hn & Hk). destruct (addInvD_acts e rc rm ra ltac:(lia) ltac:(lia) Hc nodup_add) as (O & _). cbn [concat] in O. rewrite app_nil_r in O. exact O.
Qed.
Lemma top_ra : In top ra.
Proof. apply nth_In. lia. Qed.
Notation Li i := (ti i :: rc ++ rm ++ ra).
Lemma only_x i : only (Li i) (controlled [top] (eff (one_x (ti i)))).
Proof.
  eapply only_incl; [|apply (only_controlled [top] [ti i]); apply only_eff, cok_one]. intros q [<-|[<-|[]]]; [right; rewrite !in_app_iff; right; right; apply top_ra|left; reflexivity].
Qed.
Lemma only_ct i D : only (rc ++ rm ++ ra) D -> only (Li i) (controlled [ti i] D).
Proof. intros O. eapply only_incl; [|apply (only_controlled [ti i]); exact O]. apply incl_refl. Qed.
Lemma only_Li i D : only (rc ++ rm ++ ra) D -> only (Li i) D.
Proof. apply only_incl. intros q Hq. right. exact Hq. Qed.
Lemma only_D0 i : only (Li i) (D0 i).
Proof.
  unfold D0. apply (only_comp _ (fun psi => controlled [top] (eff (one_x (ti i))) (addInvD d rc rm ra psi)) (controlled [ti i] (addD (S d) rc rm ra))).
  - apply (only_comp _ (addInvD d rc rm ra)); [apply only_Li, only_addInvD|apply only_x].
  - apply only_ct, only_addD.
Qed.
Lemma cok_shift : cok (rc ++ rm ++ ra) (rshift_c ra).
Proof.
  destruct t_ne as (Ha & _). eapply cok_incl; [|apply (rshift_acts 0); [exact Ha|]]; [intros q Hq; rewrite !in_app_iff; tauto|]. pose proof t_nodup as X. apply NoDup_app_iff in X. apply X.
Qed.
Lemma only_D1 i : only (Li i) (D1 i).
Proof. apply (only_comp _ (D0 i)); [apply only_D0|]. apply only_Li, only_eff, cok_shift. Qed.
Lemma only_D2 i : only (Li i) (D2 i).
Proof.
  unfold D2. apply (only_comp _ (fun psi => controlled [top] (eff (one_x (ti i))) (controlled [ti i] (addInvD (S d) rc rm ra) (eff (rev (rshift_c ra)) psi))) (addD d rc rm ra)).
  - apply (only_comp _ (fun psi => controlled [ti i] (addInvD (S d) rc rm ra) (eff (rev (rshift_c ra)) psi))); [|apply only_x].
    apply (only_comp _ (eff (rev (rshift_c ra)))); [apply only_Li, only_eff, cok_rev, cok_shift|apply only_ct, only_addInvD].
  - apply only_Li, only_addD.
Qed.
Lemma D0_zero i : D0 i zero = zero.
Proof. unfold D0. rewrite addInvD_zero, (controlled_zero [top]), (controlled_zero [ti i]); [reflexivity|apply addD_zero|reflexivity]. Qed.
Lemma D1_zero i : D1 i zero = zero.
Proof. unfold D1. rewrite D0_zero. reflexivity. Qed.
Lemma D2_zero i : D2 i zero = zero.
Proof.
  unfold D2. change (eff (rev (rshift_c ra)) zero) with (zero : state). rewrite (controlled_zero [ti i]) by apply addInvD_zero. rewrite (controlled_zero [top]) by reflexivity. apply addD_zero.
Qed.
Lemma Li_sep i q : i < k -> In q rb \/ In q rp -> ~ In q (Li i).
Proof.
  intros Hi Hq [X|X].
  - assert (It : In (ti i) rt) by (apply nth_In; lia). rewrite X in It. destruct t_sep as (S1 & S2 & S3 & S4 & S5). destruct Hq as [Hq|Hq]; [apply S2 in Hq|apply S4 in Hq]; tauto.
  - destruct t_sep as (S1 & S2 & S3 & S4 & S5). rewrite !in_app_iff in X. destruct Hq as [Hq|Hq]; [pose proof (S2 q Hq)|pose proof (S4 q Hq)]; destruct X as [X|[X|X]]; try tauto; try (pose proof (S1 q X); tauto); try (pose proof (S3 q X); tauto).
Qed.

(** *** Runs *)
Definition first_rel (i : nat) (K : list nat) : rel := fun psi phi => clean [nth i rb 0] psi /\ phi = controlled K (D1 i) psi.
Lemma first_w i : i < k -> wacts d (fun d rs => times_first d n i rs) rs6 (fun K => fun psi phi => (forall q, In q K -> ~ In q (concat rs6)) /\ first_rel i K psi phi).
Proof.
  intros Hi. destruct (first_lines_ok i Hi) as (A1 & A2 & A3 & O4 & A5). destruct t_ne as (Ha & Hp & Ht & Hc & Hn & Hk).
  set (ls := [(call add_inv [whole 5; whole 2; whole 0], (fun K psi phi => phi = controlled K (addInvD d rc rm ra) psi) : list nat -> rel);
    (control op_x [part 0 [n]; part 4 [i]], fun K psi phi => phi = controlled K (controlled [top] (eff (one_x (ti i)))) psi);
    (control add [part 4 [i]; whole 5; whole 2; whole 0], fun K psi phi => phi = controlled K (controlled [ti i] (addD (S d) rc rm ra)) psi);
    (control add_mod [part 1 [i]; part 0 (seq 0 n); whole 3; whole 2], fun K => off (nth i rb 0 :: K));
    (call rshift [whole 0], fun K psi phi => phi = controlled K (eff (rshift_c ra)) psi)]).
  eapply wacts_weak; [|apply (program_w d rs6 ls Nd t_ne6)].
  - intros K psi phi (HK & Hcl & ->). cbn [ls map snd chain].
    assert (HL : forall q, In q K -> ~ In q (Li i)).
    { intros q Hq X. apply (HK q Hq). cbn [concat]. rewrite app_nil_r, !in_app_iff. destruct X as [<-|X]; [do 4 right; left; apply nth_In; lia|]. rewrite !in_app_iff in X. tauto. }
    assert (E3 : controlled K (controlled [ti i] (addD (S d) rc rm ra)) (controlled K (controlled [top] (eff (one_x (ti i)))) (controlled K (addInvD d rc rm ra) psi)) = controlled K (D0 i) psi).
    { rewrite (controlled_comp K (Li i) (addInvD d rc rm ra)); [|apply only_x|exact HL]. rewrite (controlled_comp K (Li i)); [reflexivity|apply only_ct, only_addD|exact HL]. }
    eexists. split; [reflexivity|]. eexists. split; [reflexivity|]. eexists. split; [reflexivity|]. rewrite E3.
    exists (controlled K (D0 i) psi). split.
    + split; [reflexivity|]. exists (nth i rb 0). split; [left; reflexivity|]. 
      assert (Ib : In (nth i rb 0) rb) by (apply nth_In; exact Hi).
      apply (within_clean (K ++ Li i)); [apply (only_controlled K), only_D0|apply controlled_zero, D0_zero| |exact Hcl].
      intros X. apply in_app_or in X. destruct X as [X|X]; [apply (HK _ X); cbn [concat]; rewrite !in_app_iff; tauto|apply (Li_sep i (nth i rb 0) Hi); tauto].
    + eexists. split; [reflexivity|]. rewrite (controlled_comp K (Li i)); [reflexivity|apply only_Li, only_eff, cok_shift|exact HL].
  - unfold ls. repeat apply Forall_cons; try apply Forall_nil; cbn [fst snd].
    + right. exists (addInvD d rc rm ra). split; [exact A1|]. intros K psi phi ->. reflexivity.
    + right. exists (eff (one_x (ti i))). split; [exact A2|]. intros K psi phi ->. reflexivity.
    + right. exists (addD (S d) rc rm ra). split; [exact A3|]. intros K psi phi ->. reflexivity.
    + left. split; [exact O4|]. cbn [control l_ctl]. split; [discriminate|]. exists off. split.
      * unfold line_regs, gather. cbn [control l_args map concat arg_qubits whole part fst snd nth app tl]. rewrite !app_nil_r. apply add_mod_w.
        -- rewrite map_length, seq_length. reflexivity.
        -- rewrite map_length, seq_length. exact Lp.
        -- destruct n; [lia|discriminate].
      * intros K psi phi H. exact H.
    + right. exists (eff (rshift_c ra)). split; [exact A5|]. intros K psi phi ->. reflexivity.
Qed.
Lemma rs4_rs6 K : Permutation ((K ++ concat rs4) ++ rb ++ rp) (K ++ concat rs6).
Proof.
  cbn [concat]. rewrite !app_nil_r, <- app_assoc. apply Permutation_app_head. rewrite <- !app_assoc. apply Permutation_app_head.
  replace (rm ++ rt ++ rc ++ rb ++ rp) with ((rm ++ rt ++ rc) ++ rb ++ rp) by (rewrite <- !app_assoc; reflexivity).
  eapply Permutation_trans; [apply Permutation_app_comm|]. rewrite <- app_assoc. apply Permutation_app_head. rewrite !app_assoc. do 2 apply Permutation_app_tail. apply Permutation_app_comm.
Qed.
Lemma second_lines_ok i : i < k -> let n := length rm in
  line_acts d rs4 (call lshift [whole 0]) (eff (rev (rshift_c ra))) /\
  line_acts d rs4 (control add_inv [part 2 [i]; whole 3; whole 1; whole 0]) (addInvD (S d) rc rm ra) /\
  line_acts d rs4 (control op_x [part 0 [n]; part 2 [i]]) (eff (one_x (ti i))) /\
  line_acts d rs4 (call add [whole 3; whole 1; whole 0]) (addD d rc rm ra).
Proof.
  intros Hi nn. destruct t_ne as (Ha & Hp & Ht & Hc & Hn & Hk).
  assert (Ne : Forall (fun r => r <> []) rs4) by (repeat constructor; assumption).
  assert (Nd4 : NoDup (concat rs4)).
  { pose proof (Permutation_NoDup (Permutation_sym (rs4_rs6 [])) Nd) as X. cbn [app] in X. apply NoDup_app_iff in X. apply X. }
  assert (O3 : line_ok rs4 (control add_inv [part 2 [i]; whole 3; whole 1; whole 0])).
  { apply line_ok_set; [exact Nd4|exact Ne|repeat constructor; discriminate| | |].
    - repeat apply Forall_cons; try apply Forall_nil; split; cbn [fst snd length nth]; try lia; try exact I. intros j [<-|[]]. cbn. lia.
    - repeat apply Forall_cons; try apply Forall_nil; unfold arg_set; cbn [snd]; try exact I. split; [repeat constructor; intros []|discriminate].
    - repeat constructor; cbn; intuition discriminate. }
  assert (E3 : line_regs rs4 (control add_inv [part 2 [i]; whole 3; whole 1; whole 0]) = [[ti i]; rc; rm; ra]) by (unfold line_regs, gather; cbn; rewrite !app_nil_r; reflexivity).
  pose proof nodup_add as N1.
  split; [|split; [|split]].
  - split; [apply line_ok_set; [exact Nd4|exact Ne|repeat constructor; discriminate| | |]; [|repeat constructor|repeat constructor; cbn; intuition discriminate]; repeat constructor; cbn; lia|].
    split; [intros X; exfalso; apply X; reflexivity|]. unfold call_targets, call_depth. cbn [call l_ctl l_fun]. unfold line_regs, gather. cbn. rewrite !app_nil_r.
    apply lshift_acts; [rewrite La; lia|]. pose proof t_nodup as X. apply NoDup_app_iff in X. apply X.
  - split; [exact O3|]. split; [intros _; discriminate|]. unfold call_targets, call_depth. cbn [control l_ctl l_fun]. rewrite E3. cbn [tl]. apply addInvD_acts; try assumption; lia.
  - split; [|split; [intros _; discriminate|apply x_is]]. apply line_ok_set; [exact Nd4|exact Ne|repeat constructor; discriminate| | |].
    + repeat apply Forall_cons; try apply Forall_nil; split; cbn [fst snd length nth]; try lia; intros j [<-|[]]; cbn; unfold nn; lia.
    + repeat apply Forall_cons; try apply Forall_nil; unfold arg_set; cbn [snd]; (split; [repeat constructor; intros []|discriminate]).
    + repeat constructor; cbn; intuition discriminate.
  - split; [|split; [intros X; exfalso; apply X; reflexivity|]].
    + apply line_ok_set; [exact Nd4|exact Ne|repeat constructor; discriminate| | |].
      * repeat apply Forall_cons; try apply Forall_nil; split; cbn [fst snd length nth]; try lia; exact I.
      * repeat apply Forall_cons; try apply Forall_nil; unfold arg_set; cbn [snd]; exact I.
      * repeat constructor; cbn; intuition discriminate.
    + unfold call_targets, call_depth. cbn [call l_ctl l_fun]. unfold line_regs, gather. cbn. rewrite !app_nil_r. apply addD_acts; try assumption; lia.
Qed.
Lemma second_w i : i < k -> wacts d (fun d rs => times_second d n i rs) rs6 (fun K => fun psi phi => (forall q, In q K -> ~ In q (concat rs6)) /\ phi = controlled K (D2 i) psi).
Proof.
  intros Hi s Ad T Lv. set (K := cqs d (conds s)) in *. destruct (second_lines_ok i Hi) as (A1 & A2 & A3 & A4). destruct t_ne as (Ha & Hp & Ht & Hc & Hn & Hk).
  set (ls := [(call lshift [whole 0], (fun K psi phi => phi = controlled K (eff (rev (rshift_c ra))) psi) : list nat -> rel);
    (control add_inv [part 2 [i]; whole 3; whole 1; whole 0], fun K psi phi => phi = controlled K (controlled [ti i] (addInvD (S d) rc rm ra)) psi);
    (control op_x [part 0 [n]; part 2 [i]], fun K psi phi => phi = controlled K (controlled [top] (eff (one_x (ti i)))) psi);
    (call add [whole 3; whole 1; whole 0], fun K psi phi => phi = controlled K (addD d rc rm ra) psi)]).
  assert (Lv4 : live s ((K ++ concat rs4) ++ rb ++ rp)) by (eapply live_perm; [exact Lv|symmetry; apply rs4_rs6]).
  assert (N4 : NoDup (concat rs4)) by (destruct Lv4 as (X & _); apply NoDup_app_iff in X; destruct X as (X & _); apply NoDup_app_iff in X; apply X).
  assert (W : wacts d (fun d rs => program d rs (map fst ls)) rs4 (fun K => chain K (map snd ls))).
  { apply program_w; [exact N4|repeat constructor; assumption|]. unfold ls. repeat apply Forall_cons; try apply Forall_nil; cbn [fst snd]; right.
    - exists (eff (rev (rshift_c ra))). split; [exact A1|]. intros K' psi phi ->. reflexivity.
    - exists (addInvD (S d) rc rm ra). split; [exact A2|]. intros K' psi phi ->. reflexivity.
    - exists (eff (one_x (ti i))). split; [exact A3|]. intros K' psi phi ->. reflexivity.
    - exists (addD d rc rm ra). split; [exact A4|]. intros K' psi phi ->. reflexivity. }
  eapply w_perm; [apply rs4_rs6|apply rs4_rs6|]. eapply w_weak; [|cbn [times_second]; eapply w_bind with (a := rs4) (L1 := (K ++ concat rs4) ++ rb ++ rp)].
  2:{ apply w_frame; [exact Lv4|]. apply (W s); [exact Ad|exact T|]. destruct Lv4 as (X & Y). apply NoDup_app_iff in X. split; [apply X|]. intros q Hq. apply Y. apply in_or_app. left. exact Hq. }
  2:{ intros s1 C1 T1 L1. apply w_ret; assumption. }
  intros psi phi (HK & ->). exists (controlled K (D2 i) psi). split; [|reflexivity]. fold K. cbn [ls map snd chain].
  assert (HL : forall q, In q K -> ~ In q (Li i)).
  { intros q Hq X. apply (HK q Hq). cbn [concat]. rewrite app_nil_r, !in_app_iff. destruct X as [<-|X]; [do 4 right; left; apply nth_In; lia|]. rewrite !in_app_iff in X. tauto. }
  eexists. split; [reflexivity|]. eexists. split; [reflexivity|]. eexists. split; [reflexivity|]. eexists. split; [reflexivity|].
  rewrite (controlled_comp K (Li i) (eff (rev (rshift_c ra)))); [|apply only_ct, only_addInvD|exact HL]. rewrite (controlled_comp K (Li i) _ (controlled [top] (eff (one_x (ti i))))); [|apply only_x|exact HL]. rewrite (controlled_comp K (Li i)); [reflexivity|apply only_Li, only_addD|exact HL].
Qed.
(** Both loops. *)
Definition times_d (K : list nat) (psi : state) : state :=
  fold_left (fun phi i => controlled K (D2 i) phi) (rev (seq 0 k)) (fold_left (fun phi i => controlled K (D1 i) phi) (seq 0 k) psi).
Lemma first_chain K : (forall q, In q K -> ~ In q (concat rs6)) -> forall is psi, (forall i, In i is -> i < k) -> clean rb psi ->
  chain_ix (fun i psi phi => (forall q, In q K -> ~ In q (concat rs6)) /\ first_rel i K psi phi) is psi (fold_left (fun phi i => controlled K (D1 i) phi) is psi).
Proof.
  intros HK. induction is as [|i is IH]; intros psi H Hc; cbn [chain_ix fold_left]; [reflexivity|].
  assert (Hi : i < k) by (apply H; left; reflexivity).
  exists (controlled K (D1 i) psi). split; [split; [exact HK|]; split; [|reflexivity]; intros x q [<-|[]]; apply Hc; apply nth_In; exact Hi|].
  apply IH; [intros j Hj; apply H; right; exact Hj|]. intros x q Hq Hx.
  assert (X : clean [q] (controlled K (D1 i) psi)).
  { apply (within_clean (K ++ Li i)); [apply (only_controlled K), only_D1|apply controlled_zero, D1_zero| |intros y p [<-|[]]; apply Hc; exact Hq].
    intros X. apply in_app_or in X. destruct X as [X|X]; [apply (HK _ X); cbn [concat]; rewrite !in_app_iff; tauto|apply (Li_sep i q Hi); tauto]. }
  apply (X x q); [left; reflexivity|exact Hx].
Qed.
Lemma loops_w s : at_depth d s -> tidy s -> let K := cqs d (conds s) in live s (K ++ concat rs6) ->
  wdoes (fun psi phi => clean rb psi /\ phi = times_d K psi) s (K ++ concat rs6)
    (rs <- mfold (fun rs i => times_first d n i rs) (seq 0 k) rs6 ;; mfold (fun rs i => times_second d n i rs) (rev (seq 0 k)) rs) rs6 (K ++ concat rs6).
Proof.
  intros Ad T K Lv.
  assert (HK : forall q, In q K -> ~ In q (concat rs6)) by (destruct Lv as (X & _); apply NoDup_app_iff in X; apply X).
  eapply w_weak; [|eapply w_bind with (a := rs6) (L1 := K ++ concat rs6)].
  2:{ apply (w_mfold (fun rs i => times_first d n i rs) rs6 _ (fun i psi phi => (forall q, In q K -> ~ In q (concat rs6)) /\ first_rel i K psi phi)); [exact T|exact Lv|].
      intros i s1 Hi C1 T1 L1. apply in_seq in Hi. assert (EK : cqs d (conds s1) = K) by (rewrite C1; reflexivity).
      pose proof (first_w i ltac:(lia) s1 (at_depth_conds d s s1 C1 Ad) T1) as X. rewrite EK in X. apply X. exact L1. }
  2:{ intros s1 C1 T1 L1. apply (w_mfold (fun rs i => times_second d n i rs) rs6 _ (fun i psi phi => phi = controlled K (D2 i) psi)); [exact T1|exact L1|].
      intros i s2 Hi C2 T2 L2. apply in_rev, in_seq in Hi. assert (EK : cqs d (conds s2) = K) by (rewrite C2, C1; reflexivity).
      pose proof (second_w i ltac:(lia) s2 (at_depth_conds d s s2 ltac:(congruence) Ad) T2) as X. rewrite EK in X. eapply w_weak; [|apply X; exact L2]. intros psi phi ->. split; [exact HK|reflexivity]. }
  intros psi phi (Hc & ->). exists (fold_left (fun phi i => controlled K (D1 i) phi) (seq 0 k) psi). split.
  - apply first_chain; [exact HK| |exact Hc]. intros i Hi. apply in_seq in Hi. lia.
  - apply chain_fun.
Qed.
End Times.

(** *** times_mod *)
Lemma times_run d ra rb rm rp s : length ra = S (length rm) -> length rp = S (length rm) -> rm <> [] -> rb <> [] -> at_depth d s -> tidy s ->
  let K := cqs d (conds s) in live s (K ++ concat [ra; rb; rm; rp]) ->
  exists rt rc s' p, length rt = length rb /\ length rc = length rm /\ NoDup (K ++ concat [ra; rb; rm; rp; rt; rc]) /\ (forall q, In q (rt ++ rc) -> idle s q /\ q < bn (bld s')) /\
    times_mod d [ra; rb; rm; rp] s = Ret [ra; rb; rm; rp] s' /\ conds s' = conds s /\ meas (bld s') = meas (bld s) /\ bn (bld s) <= bn (bld s') /\
    pipeline (bld s') = pipeline (bld s) ++ p /\ Forall (wf_entry (bn (bld s'))) p /\ Forall proper_entry p /\ tidy s' /\ live s' (K ++ concat [ra; rb; rm; rp]) /\
    (forall q, idle s' q \/ In q (K ++ concat [ra; rb; rm; rp]) <-> idle s q \/ In q (K ++ concat [ra; rb; rm; rp])) /\
    forall B psi, bn (bld s') <= B -> (forall q, idle s q -> q < B -> clean [q] psi) -> clean rb psi -> den p psi = times_d d ra rb rm rt rc K psi.
Proof.
  intros La Lp Hm Hb Ad T K Lv. set (L := K ++ concat [ra; rb; rm; rp]) in *.
  assert (Hn : 0 < length rm) by (destruct rm; [congruence|cbn; lia]). assert (Hk : 0 < length rb) by (destruct rb; [congruence|cbn; lia]).
  destruct (quiet_make_reg s _ (length rb) T Lv Hk) as (rt & Lt & Hrt & s1 & H1 & H2 & H3 & H4 & H5 & H6 & H7 & H8).
  destruct (quiet_make_reg s1 _ (length rm) H6 H7 Hn) as (rc & Lc & Hrc & s2 & G1 & G2 & G3 & G4 & G5 & G6 & G7 & G8).
  assert (P : Permutation (rc ++ rt ++ L) (K ++ concat [ra; rb; rm; rp; rt; rc])).
  { unfold L. cbn [concat]. rewrite !app_nil_r. eapply Permutation_trans; [apply Permutation_app_comm|]. rewrite <- app_assoc. eapply Permutation_trans; [apply Permutation_app_comm|].
    rewrite <- !app_assoc. do 5 apply Permutation_app_head. apply Permutation_app_comm. }
  assert (L2 : live s2 (K ++ concat [ra; rb; rm; rp; rt; rc])) by (eapply live_perm; eassumption).
  assert (N : NoDup (K ++ concat [ra; rb; rm; rp; rt; rc])) by apply L2.
  assert (N6 : NoDup (concat [ra; rb; rm; rp; rt; rc])) by (apply NoDup_app_iff in N; apply N).
  assert (EK : cqs d (conds s2) = K) by (rewrite G2, H2; reflexivity).
  pose proof (loops_w d ra rb rm rp rt rc Hm Hb La Lp Lt Lc N6 s2 (at_depth_conds d s s2 ltac:(congruence) Ad) G6) as W. cbv zeta in W. rewrite EK in W. specialize (W L2).
  destruct W as (s3 & p & D1' & D2' & D3 & D4 & D5 & D6 & D7 & D8 & D9 & D10 & D11).
  assert (Hrc' : rc <> []) by (intros E; rewrite E in Lc; cbn in Lc; lia). assert (Hrt' : rt <> []) by (intros E; rewrite E in Lt; cbn in Lt; lia).
  assert (L3 : live s3 (rc ++ rt ++ L)) by (eapply live_perm; [exact D9|symmetry; exact P]).
  destruct (quiet_return s3 rc _ D8 L3 Hrc') as (s4 & R1 & R2 & R3 & R4 & R5 & R6 & R7 & R8).
  destruct (quiet_return s4 rt _ R6 R7 Hrt') as (s5 & Q1 & Q2 & Q3 & Q4 & Q5 & Q6 & Q7 & Q8).
  exists rt, rc, s5, p. split; [exact Lt|]. split; [exact Lc|]. split; [exact N|].
  assert (I1 : forall q, idle s1 q -> idle s q).
  { intros q Iq. destruct (proj1 (H8 q) (or_introl Iq)) as [X|X]; [exact X|]. exfalso. destruct H7 as (_ & Y). apply (Y q); [apply in_or_app; right; exact X|exact Iq]. }
  assert (I2 : forall q, idle s2 q -> idle s q).
  { intros q Iq. apply I1. destruct (proj1 (G8 q) (or_introl Iq)) as [X|X]; [exact X|]. exfalso. destruct G7 as (_ & Y). apply (Y q); [apply in_or_app; right; exact X|exact Iq]. }
  split.
  { intros q Hq. split.
    - apply in_app_or in Hq. destruct Hq as [Hq|Hq]; [apply (Hrt q Hq)|apply I1, (Hrc q Hq)].
    - destruct L2 as (_ & X). destruct (Nat.lt_ge_cases q (bn (bld s5))) as [Y|Y]; [exact Y|]. exfalso. apply (X q); [cbn [concat]; rewrite !in_app_iff; apply in_app_or in Hq; tauto|]. left. lia. }
  split.
  { unfold times_mod. rewrite La, Lp, !Nat.add_1_r, !Nat.eqb_refl. cbn [negb]. unfold mbind at 1. rewrite H1. unfold mbind at 1. rewrite G1.
    revert D1'. unfold mbind. destruct (mfold (fun rs i => times_first d (length rm) i rs) (seq 0 (length rb)) _ s2) as [rs' s'|e s'|e s']; try discriminate.
    intros ->. rewrite R1, Q1. reflexivity. }
  split; [congruence|]. split; [congruence|]. split; [lia|]. split; [congruence|]. split; [eapply wf_entries_mono; [|exact D6]; lia|]. split; [exact D7|]. split; [exact Q6|]. split; [exact Q7|]. split.
  { intros q. assert (X : In q (rc ++ rt ++ L) <-> In q (K ++ concat [ra; rb; rm; rp; rt; rc])) by (split; apply Permutation_in; [exact P|symmetry; exact P]).
    assert (Z : idle s3 q \/ In q (rc ++ rt ++ L) <-> idle s2 q \/ In q (rc ++ rt ++ L)) by (rewrite X; exact (D10 q)).
    eapply iff_trans; [exact (Q8 q)|]. eapply iff_trans; [exact (R8 q)|]. eapply iff_trans; [exact Z|]. eapply iff_trans; [exact (G8 q)|]. exact (H8 q). }
  intros B psi HB Hp Hc. apply (D11 B); [lia| |].
  - split; [exact Hc|reflexivity].
  - intros q Iq Hq. apply Hp; [apply I2; exact Iq|exact Hq].
Qed.
