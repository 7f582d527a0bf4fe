(** Rows of any operator in floats. *)
From Coq Require Import ZArith Reals Lra Psatz FunctionalExtensionality.
From Flocq Require Import Core.Core IEEE754.BinarySingleNaN.
From Coquelicot Require Import Complex.
From Verif Require Import Base BitsSpec BitsModel BitsProofs OpsModel OpsSpec OpsProofs ConjSpec StateOpsModel Instances BuilderModel DenSpec DenProofs
  SimSpec UnitaryProofs SimProofs FloatModel FloatSpec FloatProofs FloatProofs2 FloatProofs3 FloatOpSpec.
Local Open Scope R_scope.

Lemma map_op_indices {A B} (f : A -> B) op : op_indices (map_op f op) = op_indices op.
Proof. destruct op; reflexivity. Qed.
Lemma map_op_wf {A B} (f : A -> B) op : wf_op op -> wf_op (map_op f op).
Proof.
  induction op as [ind data|ind rows|n ind|nc ind op IH]; cbn [wf_op map_op]; intros W.
  - rewrite map_length. exact W.
  - destruct W as (W1 & W2). split; [rewrite map_length; exact W1|]. intros row Hr e He. apply in_map_iff in Hr. destruct Hr as (row' & <- & Hr).
    apply in_map_iff in He. destruct He as (e' & <- & He). cbn [fst]. eapply W2; eassumption.
  - exact W.
  - rewrite map_op_indices. split; [apply W|apply IH, W].
Qed.

Section Rows.
Context {prec emax : Z} {Hp : FLX.Prec_gt_0 prec} {He : Prec_lt_emax prec emax}.
Local Notation fl := (fl prec emax).
Local Notation fc := (fc prec emax).
Local Notation uro := (@uro prec).
Local Notation eta := (@eta prec emax).

(** Images of the numbers that keep 0 and 1. *)
Lemma items_map (f : fc -> C) op : f fc0 = RtoC 0 -> f fc1 = RtoC 1 -> (forall a, cfin a -> f a = RtoC 0 <-> B2C a = RtoC 0) -> op_all cfin op ->
  forall row, op_items CN (map_op f op) row = map (fun e => (fst e, f (snd e))) (op_items FN op row).
Proof.
  intros F0 F1 Fz. induction op as [ind data|ind rows|n ind|nc ind op IH]; intros Fo row; cbn [op_items map_op op_all] in *.
  - unfold dense_items. generalize (seq 0 (2 ^ length ind)). induction l as [|c l IHl]; [reflexivity|]. cbn [map filter snd].
    set (i := (row * 2 ^ length ind + c)%nat). cbn [n0 CN FN nis0].
    assert (E : nth i (map f data) (RtoC 0) = f (nth i data fc0)) by (rewrite <- F0, map_nth; reflexivity). rewrite E.
    assert (Fi : cfin (nth i data fc0)) by (apply nth_cfin; exact Fo).
    assert (Z : C_is0 (f (nth i data fc0)) = fcis0 (nth i data fc0)).
    { apply eq_true_iff_eq. rewrite (fcis0_ok _ Fi), <- (Fz _ Fi). apply (l_is0 CN_laws). }
    rewrite Z. destruct (fcis0 (nth i data fc0)); cbn [negb map fst snd]; [apply IHl|f_equal; apply IHl].
  - change (@nil (nat * C)) with (map (fun e : nat * fc => (fst e, f (snd e))) []). rewrite map_nth. reflexivity.
  - cbn [map fst snd n1 FN CN]. rewrite F1. reflexivity.
  - rewrite map_op_indices. destruct (_ <=? row)%nat.
    + rewrite IH by exact Fo. rewrite !map_map. reflexivity.
    + cbn [map fst snd n1 FN CN]. rewrite F1. reflexivity.
Qed.

Lemma items_fin op : op_all cfin op -> forall row, Forall (fun e => cfin (snd e)) (op_items (FN (prec:=prec) (emax:=emax)) op row).
Proof.
  assert (C1 : cfin (fc1 : fc)) by apply u4_1.
  induction op as [ind data|ind rows|n ind|nc ind op IH]; intros Fo row; cbn [op_items op_all] in *.
  - unfold dense_items. apply Forall_forall. intros e Hin. apply filter_In in Hin. destruct Hin as (Hin & _). apply in_map_iff in Hin. destruct Hin as (c & <- & _). apply nth_cfin. exact Fo.
  - destruct (Nat.lt_ge_cases row (length rows)) as [H|H]; [|rewrite nth_overflow by exact H; apply Forall_nil]. rewrite Forall_forall in Fo. apply Fo, nth_In, H.
  - apply Forall_cons; [exact C1|apply Forall_nil].
  - destruct (_ <=? row)%nat; [|apply Forall_cons; [exact C1|apply Forall_nil]]. apply Forall_map. eapply Forall_impl; [|apply IH, Fo]. intros e H. exact H.
Qed.
Lemma list_max_in (l : list nat) x : In x l -> (x <= fold_right Nat.max 0 l)%nat.
Proof. induction l as [|y l IH]; intros H; [destruct H|]. cbn [fold_right]. destruct H as [->|H]; [lia|specialize (IH H); lia]. Qed.
Lemma items_count op row : (length (op_items (FN (prec:=prec) (emax:=emax)) op row) <= row_entries op)%nat.
Proof.
  revert row. induction op as [ind data|ind rows|n ind|nc ind op IH]; intros row; cbn [op_items row_entries].
  - apply dense_items_length.
  - destruct (Nat.lt_ge_cases row (length rows)) as [H|H]; [|rewrite nth_overflow by exact H; cbn; lia]. apply list_max_in, in_map, nth_In, H.
  - cbn. lia.
  - destruct (_ <=? row)%nat; [rewrite map_length; eapply Nat.le_trans; [apply IH|apply Nat.le_max_r]|apply Nat.le_max_l].
Qed.

(** The terms of a row read from a window of the input. *)
Definition cell (n : nat) (op : mop fc) (v : list fc) (off row : nat) (e : nat * fc) : fc * fc :=
  let cb := enc n (updl (dec n row) (op_indices op) (bits_be (length (op_indices op)) (fst e))) in
  if (cb <? off)%nat || (length v <=? cb - off)%nat then (fc0, fc0) else (snd e, nth (cb - off) v fc0).
Definition cells (n : nat) (op : mop fc) (v : list fc) (off row : nat) : list (fc * fc) :=
  map (cell n op v off row) (op_items FN op (be (map (dec n row) (op_indices op)))).
Definition float_row (n : nat) (op : mop fc) (v : list fc) (off row : nat) : fc :=
  nsum FN (map (fun va => fcmul (fst va) (snd va)) (cells n op v off row)).
Lemma fcmul_00 : fcmul (fc0 : fc) fc0 = fc0. Proof. reflexivity. Qed.
Lemma window_row n op (v : list fc) outrow ioff ooff : wf_op op -> in_range n (op_indices op) -> (ooff + outrow < 2 ^ n)%nat ->
  apply_op_row_indices FN n op v outrow ioff ooff (op_indices op) = Ok (float_row n op v ioff (ooff + outrow)).
Proof.
  intros W R Hrow. unfold apply_op_row_indices. set (row := (ooff + outrow)%nat) in *. rewrite full_to_sub_ok by auto. cbn [bind]. unfold sum_for_op_cols.
  set (r := map (dec n row) (op_indices op)).
  assert (Lr : length r = length (op_indices op)) by apply map_length.
  assert (Br : (be r < 2 ^ length (op_indices op))%nat) by (rewrite <- Lr; apply be_lt).
  rewrite op_collect_items by auto. cbn [bind].
  rewrite mapM_ok with (g := fun e => let va := cell n op v ioff row e in fcmul (fst va) (snd va)).
  - cbn [bind]. unfold float_row, cells. rewrite map_map. reflexivity.
  - intros [i x] Hin. unfold row_term.
    assert (Hi : (i < 2 ^ length (op_indices op))%nat) by (apply (op_items_range FN op W (be r) Br (i, x) Hin)).
    rewrite <- (be_bits_be _ _ Hi) at 1.
    rewrite sub_to_full_ok by (auto; apply length_bits_be). cbn [bind]. unfold cell. cbn [fst snd].
    set (cb := enc n _). destruct (Nat.ltb_spec cb ioff); cbn [orb]; [cbn [fst snd]; rewrite fcmul_00; reflexivity|].
    destruct (Nat.leb_spec (length v) (cb - ioff)); cbn [fst snd]; [rewrite fcmul_00; reflexivity|].
    rewrite (idx_ok v fc0) by lia. reflexivity.
Qed.
Lemma cell_image (f g : fc -> C) n op (v : list fc) off row e : g fc0 = RtoC 0 -> f fc0 = RtoC 0 ->
  Cmult (f (fst (cell n op v off row e))) (g (snd (cell n op v off row e))) =
  Cmult (f (snd e)) (amp_off CN off (map g v) (enc n (updl (dec n row) (op_indices op) (bits_be (length (op_indices op)) (fst e))))).
Proof.
  intros G0 F0. unfold cell, amp_off. set (cb := enc n _). cbn [n0 CN].
  destruct (Nat.ltb_spec cb off); cbn [orb fst snd]; [rewrite F0, G0; ring|]. rewrite <- G0, map_nth.
  destruct (Nat.leb_spec (length v) (cb - off)); cbn [fst snd]; [|reflexivity]. rewrite nth_overflow by assumption. rewrite F0, G0. ring.
Qed.
Lemma row_image (f : fc -> C) (g : fc -> C) n op (v : list fc) off row : wf_op op -> f fc0 = RtoC 0 -> f fc1 = RtoC 1 -> (forall a, cfin a -> f a = RtoC 0 <-> B2C a = RtoC 0) -> op_all cfin op -> g fc0 = RtoC 0 ->
  act CN (op_indices op) (op_mat CN (map_op f op)) (fun x => amp_off CN off (map g v) (enc n x)) (dec n row) =
  big CN (fun e => let va := cell n op v off row e in Cmult (f (fst va)) (g (snd va))) (op_items FN op (be (map (dec n row) (op_indices op)))).
Proof.
  intros W F0 F1 Fz Fo G0. unfold act.
  pose proof (op_items_sum CN CN_laws (map_op f op) (map_op_wf f op W) (map (dec n row) (op_indices op))
    (fun c => amp_off CN off (map g v) (enc n (updl (dec n row) (op_indices op) c)))) as E. rewrite map_op_indices in E.
  rewrite <- E by apply map_length. rewrite (items_map f op F0 F1 Fz Fo). clear E.
  induction (op_items FN op _) as [|e l IH]; [reflexivity|]. cbn [map big]. rewrite IH, cell_image by assumption. reflexivity.
Qed.
Lemma csum_big (l : list (nat * fc)) (h : nat * fc -> fc * fc) :
  csum (map h l) = big CN (fun e => let va := h e in Cmult (B2C (fst va)) (B2C (snd va))) l.
Proof. induction l as [|e l IH]; [reflexivity|]. cbn [map]. assert (E : csum (h e :: map h l) = (B2C (fst (h e)) * B2C (snd (h e)) + csum (map h l))%C) by (destruct (h e); reflexivity). rewrite E, IH. reflexivity. Qed.
Lemma asum_big (l : list (nat * fc)) (h : nat * fc -> fc * fc) :
  RtoC (asum (map h l)) = big CN (fun e => let va := h e in Cmult (modulus (fst va)) (modulus (snd va))) l.
Proof. induction l as [|e l IH]; [reflexivity|]. cbn [map]. assert (E : asum (h e :: map h l) = Cmod (B2C (fst (h e))) * Cmod (B2C (snd (h e))) + asum (map h l)) by (destruct (h e); reflexivity). rewrite E, RtoC_plus, RtoC_mult, IH. reflexivity. Qed.

Lemma mod_0 : modulus (fc0 : fc) = RtoC 0.
Proof. unfold modulus. rewrite B2C_0, Cmod_0. reflexivity. Qed.
Lemma mod_1 : modulus (fc1 : fc) = RtoC 1.
Proof. unfold modulus. rewrite B2C_1, Cmod_1. reflexivity. Qed.
Lemma mod_z (a : fc) : modulus a = RtoC 0 <-> B2C a = RtoC 0.
Proof. unfold modulus. split; intros H; [apply RtoC_inj in H; apply Cmod_eq_0, H|rewrite H, Cmod_0; reflexivity]. Qed.


(** The exact row, and the row of moduli. *)
Lemma exact_cells n (op : mop fc) v off row : wf_op op -> op_all cfin op ->
  act CN (op_indices op) (op_mat CN (map_op B2C op)) (fun x => amp_off CN off (map B2C v) (enc n x)) (dec n row) = csum (cells n op v off row).
Proof. intros W Fo. unfold cells. rewrite csum_big. apply (row_image B2C B2C n op v off row W B2C_0 B2C_1); [tauto|exact Fo|apply B2C_0]. Qed.
Lemma weight_cells n (op : mop fc) v off row : wf_op op -> op_all cfin op ->
  act CN (op_indices op) (op_mat CN (map_op modulus op)) (fun x => amp_off CN off (map modulus v) (enc n x)) (dec n row) = RtoC (asum (cells n op v off row)).
Proof. intros W Fo. unfold cells. rewrite asum_big. apply (row_image modulus modulus n op v off row W mod_0 mod_1); [intros a _; apply mod_z|exact Fo|apply mod_0]. Qed.
Lemma csum_le (l : list (fc * fc)) : Cmod (csum l) <= asum l.
Proof.
  induction l as [|[a b] l IH]; cbn [csum asum]; [rewrite Cmod_0; lra|]. eapply Rle_trans; [apply Cmod_triangle|]. rewrite Cmod_mult. lra.
Qed.

Context (Pp : (8 <= prec)%Z) (Pe : (8 <= emax)%Z).
Lemma op_row_err n op (v : list fc) off row : op_all cfin op -> Forall cfin v ->
  let L := INR (row_entries op) in
  let l := cells n op v off row in
  32 * (L + 3) * uro <= 1 -> asum l <= 16 ->
  let y := float_row n op v off row in
  cfin y /\ Cmod (B2C y - csum l)%C <= (5 + 3 * L) * uro * asum l + 10 * L * eta.
Proof.
  intros Fo Fv L l HL HS. cbn zeta. pose proof (@uro_pos prec) as U0. pose proof (@eta_pos prec emax) as T0.
  assert (Ll : (length l <= row_entries op)%nat) by (unfold l, cells; rewrite map_length; apply items_count).
  assert (IL : INR (length l) <= L) by (apply le_INR, Ll).
  pose proof (pos_INR (length l)) as L0. unfold float_row. fold l.
  destruct (sum_err l) as (G1 & G2).
  - unfold l, cells. apply Forall_map. eapply Forall_impl; [|apply items_fin, Fo]. intros e Hfe. unfold cell. cbn zeta.
    match goal with |- context[if ?b then _ else _] => destruct b end; cbn [fst snd]; [split; split; reflexivity|]. split; [exact Hfe|apply nth_cfin, Fv].
  - apply big_ok, Pe.
  - apply eta_1; assumption.
  - eapply Rle_trans; [|exact HL]. apply Rmult_le_compat_r; lra.
  - exact HS.
  - split; [exact G1|]. eapply Rle_trans; [exact G2|]. pose proof (asum_pos l) as A0. apply Rplus_le_compat; [|apply Rmult_le_compat_r; lra].
    apply Rmult_le_compat_r; [exact A0|]. apply Rmult_le_compat_r; lra.
Qed.

Lemma overwrite_rows n op (input output : list fc) ioff ooff : wf_op op -> in_range n (op_indices op) -> (ooff + length output <= 2 ^ n)%nat ->
  apply_op_overwrite FN n op input output ioff ooff = Ok (map (fun i => float_row n op input ioff (ooff + i)) (seq 0 (length output))).
Proof.
  intros W R Ho. unfold apply_op_overwrite. rewrite wf_mat_indices by auto. cbn [bind].
  apply mapM_enumerate with (g := fun i _ => float_row n op input ioff (ooff + i)) (d := fc0).
  intros i Hi. apply window_row; auto; lia.
Qed.
Lemma apply_op_rows n op (input output : list fc) ioff ooff : wf_op op -> in_range n (op_indices op) -> (ooff + length output <= 2 ^ n)%nat ->
  apply_op FN n op input output ioff ooff = Ok (map (fun i => fcadd (nth i output fc0) (float_row n op input ioff (ooff + i))) (seq 0 (length output))).
Proof.
  intros W R Ho. unfold apply_op. rewrite wf_mat_indices by auto. cbn [bind].
  apply mapM_enumerate with (g := fun i a => fcadd a (float_row n op input ioff (ooff + i))) (d := fc0).
  intros i Hi. rewrite window_row by (auto; lia). reflexivity.
Qed.
End Rows.
