(** The text of operators: C110. *)
From Coq Require Import String Ascii DecimalString DecimalNat.
From Verif Require Import Base BitsSpec OpsModel OpsSpec StateOpsModel DebugModel DebugSpec.
Local Open Scope nat_scope.

Lemma app_string_assoc a b c : ((a ++ b) ++ c = a ++ b ++ c)%string.
Proof. induction a as [|x a IH]; cbn; [reflexivity|]. rewrite IH. reflexivity. Qed.
Definition digit (c : ascii) : bool := let k := nat_of_ascii c in (48 <=? k) && (k <=? 57).
Fixpoint digits (s : string) : bool := match s with EmptyString => true | String c s => digit c && digits s end.
Definition stops (s : string) : Prop := match s with EmptyString => True | String c _ => digit c = false end.
Lemma digits_split a : forall b s t, digits a = true -> digits b = true -> stops s -> stops t -> (a ++ s = b ++ t)%string -> a = b /\ s = t.
Proof.
  induction a as [|x a IH]; intros b s t Ha Hb Hs Ht E.
  - destruct b as [|y b]; [split; [reflexivity|exact E]|]. cbn in *. subst s. cbn in Hs. rewrite Hs in Hb. discriminate.
  - destruct b as [|y b]; cbn in *.
    + subst t. cbn in Ht. rewrite Ht in Ha. discriminate.
    + injection E as -> E. apply andb_prop in Ha. apply andb_prop in Hb. destruct (IH b s t) as [-> ->]; [tauto..|split; reflexivity].
Qed.
Lemma digits_uint d : digits (NilEmpty.string_of_uint d) = true.
Proof. induction d; cbn; auto. Qed.
Lemma dec_digits n : digits (dec_string n) = true.
Proof. unfold dec_string. destruct (Nat.to_uint n) eqn:E; [reflexivity|..]; apply digits_uint. Qed.
Lemma dec_inj a b : dec_string a = dec_string b -> a = b.
Proof.
  assert (NN : forall n, Nat.to_uint n <> Decimal.Nil).
  { intros n E. assert (H := Unsigned.of_to n). rewrite E in H. cbn in H. subst n. discriminate. }
  intros E. apply Unsigned.to_uint_inj. assert (A := NilZero.usu _ (NN a)). assert (B := NilZero.usu _ (NN b)). unfold dec_string in E. rewrite E in A. congruence.
Qed.
Lemma dec_nonempty n : exists c s, dec_string n = String c s /\ digit c = true.
Proof.
  assert (H := dec_digits n). destruct (dec_string n) as [|c s] eqn:E.
  - exfalso. unfold dec_string in E. destruct (Nat.to_uint n); discriminate.
  - exists c, s. split; [reflexivity|]. cbn in H. apply andb_prop in H. tauto.
Qed.
Lemma list_split l1 : forall l2 s t, (join (map dec_string l1) ++ String "]" s = join (map dec_string l2) ++ String "]" t)%string -> l1 = l2 /\ s = t.
Proof.
  unfold join. induction l1 as [|a l1 IH]; intros [|b l2] s t E.
  - cbn in E. injection E as ->. split; reflexivity.
  - exfalso. cbn [map] in E. destruct (dec_nonempty b) as (c & r & Eb & D). cbn in E. rewrite Eb in E. destruct (map dec_string l2); cbn in E; injection E as E _; subst c; discriminate.
  - exfalso. cbn [map] in E. destruct (dec_nonempty a) as (c & r & Eb & D). cbn in E. rewrite Eb in E. destruct (map dec_string l1); cbn in E; injection E as E _; subst c; discriminate.
  - assert (F : forall a l s, exists r, (String.concat ", " (map dec_string (a :: l)) ++ String "]" s = dec_string a ++ r)%string /\ stops r /\
      (match l with [] => r = String "]" s | _ => r = (String "," (String " " (String.concat ", " (map dec_string l) ++ String "]" s)))%string end)).
    { clear. intros a [|b l] s; cbn [map String.concat].
      - eexists. split; [reflexivity|]. split; reflexivity.
      - exists (String "," (String " " (String.concat ", " (map dec_string (b :: l)) ++ String "]" s)))%string. split; [|split; reflexivity].
        rewrite !app_string_assoc. reflexivity. }
    destruct (F a l1 s) as (r1 & E1 & S1 & R1). destruct (F b l2 t) as (r2 & E2 & S2 & R2). rewrite E1, E2 in E.
    apply digits_split in E; try apply dec_digits; try assumption. destruct E as [Ed Er]. apply dec_inj in Ed. subst b.
    destruct l1 as [|b1 l1], l2 as [|b2 l2]; rewrite R1, R2 in Er; try discriminate.
    + injection Er as ->. split; reflexivity.
    + injection Er as Er. destruct (IH (b2 :: l2) s t Er) as [El ->]. rewrite El. split; reflexivity.
Qed.

Fixpoint text (o : outline) : string :=
  match o with
  | Dense qs => named "Matrix" qs
  | Rows qs => named "SparseMatrix" qs
  | Exchange qs => named "Swap" qs
  | Under cs o => named ("C(" ++ text o ++ ")")%string cs
  end.
Lemma text_split o1 : forall o2 s t, (text o1 ++ s = text o2 ++ t)%string -> o1 = o2 /\ s = t.
Proof.
  induction o1 as [q1|q1|q1|c1 o1 IH]; intros [q2|q2|q2|c2 o2] s t E; cbn [text] in E; unfold named in E; rewrite !app_string_assoc in E; cbn [append] in E; try discriminate.
  - injection E as E. apply list_split in E. destruct E as [-> ->]. split; reflexivity.
  - injection E as E. apply list_split in E. destruct E as [-> ->]. split; reflexivity.
  - injection E as E. apply list_split in E. destruct E as [-> ->]. split; reflexivity.
  - injection E as E. apply IH in E. destruct E as [-> E]. injection E as E. apply list_split in E. destruct E as [-> ->]. split; reflexivity.
Qed.
Lemma text_inj o1 o2 : text o1 = text o2 -> o1 = o2.
Proof. intros E. apply (text_split o1 o2 "" ""). rewrite E. reflexivity. Qed.

Lemma debug_text {P} (op : mop P) : counts_fit op -> debug op = Ok (text (outline_of op)).
Proof.
  induction op as [ind d|ind d|k ind|k ind op IH]; intros H; try reflexivity. destruct H as [H1 H2]. cbn [debug outline_of text]. rewrite (IH H2). cbn [bind].
  unfold slice. cbn [Nat.leb]. rewrite (proj2 (Nat.leb_le k (length ind)) H1). cbn [andb]. rewrite Nat.sub_0_r. reflexivity.
Qed.

(** *** C110: the text of an operator tells its kinds and the qubits it was made with, and nothing else. *)
Theorem C110_tells : forall P P' (a : mop P) (b : mop P'), counts_fit a -> counts_fit b -> (debug a = debug b <-> outline_of a = outline_of b).
Proof.
  intros P P' a b Ha Hb. rewrite (debug_text a Ha), (debug_text b Hb). split; [|intros ->; reflexivity]. intros E. injection E as E. apply text_inj. exact E.
Qed.
Print Assumptions C110_tells.
Theorem C110_panics : forall P (a : mop P), (exists t, debug a = Ok t) /\ counts_fit a \/ debug a = Panic PIndex /\ ~ counts_fit a.
Proof.
  intros P. induction a as [ind d|ind d|k ind|k ind op IH]; try (left; split; [eexists; reflexivity|exact I]).
  cbn [debug counts_fit]. destruct IH as [[[t ->] H]|[-> H]]; cbn [bind]; [|right; split; [reflexivity|tauto]].
  unfold slice. cbn [Nat.leb]. destruct (k <=? length ind) eqn:E; cbn [andb bind].
  - apply Nat.leb_le in E. left. split; [eexists; reflexivity|tauto].
  - apply Nat.leb_gt in E. right. split; [reflexivity|]. intros [H1 _]. lia.
Qed.
Print Assumptions C110_panics.

(** Operators of the checked constructors: the text shows the qubits acted on. *)
Lemma consistent_fit {P} (a : mop P) : consistent a -> counts_fit a.
Proof. induction a; cbn; tauto. Qed.
Lemma shown_consistent {P} (a : mop P) : consistent a -> shown (outline_of a) = op_indices a.
Proof. induction a as [ind d|ind d|k ind|k ind op IH]; try reflexivity. intros (H1 & H2 & H3). cbn [outline_of shown op_indices]. rewrite (IH H3), <- H2. apply firstn_skipn. Qed.
Theorem C110_qubits : forall P P' (a : mop P) (b : mop P'), consistent a -> consistent b -> debug a = debug b -> op_indices a = op_indices b.
Proof.
  intros P P' a b Ha Hb E. apply C110_tells in E; try apply consistent_fit; try assumption. rewrite <- (shown_consistent a Ha), <- (shown_consistent b Hb), E. reflexivity.
Qed.
Print Assumptions C110_qubits.
Theorem C110_constructors : forall P,
  (forall ind dat (a : mop P), make_matrix_op ind dat = Ok a -> consistent a) /\
  (forall ind dat nat_order (a : mop P), make_sparse_matrix_op ind dat nat_order = Ok a -> consistent a) /\
  (forall x y (a : mop P), make_swap_op x y = Ok a -> consistent a) /\
  (forall c op (a : mop P), consistent op -> make_control_op c op = Ok a -> consistent a).
Proof.
  intros P. split; [|split; [|split]].
  - intros ind dat a E. unfold make_matrix_op in E. cbn zeta in E. destruct (length ind =? 0); [discriminate|]. destruct (negb _); [discriminate|]. injection E as <-. exact I.
  - intros ind dat o a E. unfold make_sparse_matrix_op in E. cbn zeta in E.
    destruct (length ind =? 0); [discriminate|]. destruct (negb _); [discriminate|]. destruct (existsb _ _); [discriminate|]. destruct o; [|destruct (flip_rows _ dat) as [d'| |]]; cbn [bind] in E; try discriminate; injection E as <-; exact I.
  - intros x y a E. unfold make_swap_op in E. destruct (_ || _)%bool; [discriminate|]. destruct (negb _); [discriminate|]. injection E as <-. exact I.
  - intros c op a H E. unfold make_control_op in E. destruct (length c =? 0); [discriminate|].
    destruct op as [ind d|ind d|k ind|k ind op]; injection E as <-; cbn [consistent op_indices].
    1-3: (split; [rewrite app_length; lia|split; [rewrite skipn_app, skipn_all, Nat.sub_diag; reflexivity|exact I]]).
    destruct H as (H1 & H2 & H3). split; [rewrite app_length; lia|]. split; [|exact H3].
    rewrite skipn_app. rewrite skipn_all2 by lia. replace (length c + k - length c) with k by lia. exact H2.
Qed.
Print Assumptions C110_constructors.
(** The text of a swap tells everything about it. *)
Theorem C110_swap : forall P n m ia ib, wf_op (@Swap P n ia) -> wf_op (@Swap P m ib) -> debug (@Swap P n ia) = debug (@Swap P m ib) -> @Swap P n ia = Swap m ib.
Proof.
  intros P n m ia ib Wa Wb E. apply C110_tells in E; try exact I. cbn [outline_of] in E. injection E as ->. cbn [wf_op] in *. f_equal. lia.
Qed.
Print Assumptions C110_swap.

(** [new_control] takes the qubits of the operator within from its argument, and the text does not show them. *)
Theorem C110_new_control : forall P c r r' (op : mop P), length r = length r' ->
  debug (new_control c r op) = debug (new_control c r' op) /\ (r <> r' -> op_indices (new_control c r op) <> op_indices (new_control c r' op)).
Proof.
  intros P c r r' op H. unfold new_control. split.
  - cbn [debug]. destruct (debug op); cbn [bind]; try reflexivity. unfold slice. cbn [Nat.leb]. rewrite !app_length, H.
    destruct (_ <=? _); cbn [andb bind]; try reflexivity. cbn [skipn]. rewrite Nat.sub_0_r, !firstn_app, Nat.sub_diag, !firstn_O. reflexivity.
  - cbn [op_indices]. intros N E. apply app_inv_head in E. contradiction.
Qed.
Print Assumptions C110_new_control.

Example C110_example : debug (@Control nat 2 [10; 3; 0; 25] (Swap 1 [0; 25])) = Ok "C(Swap[0, 25])[10, 3]"%string /\
  debug (@Control nat 5 [1] (Swap 1 [0; 25])) = Panic PIndex /\ debug (@Control nat 1 [1; 2] (Matrix [] [])) = Ok "C(Matrix[])[1]"%string.
Proof. repeat split. Qed.
