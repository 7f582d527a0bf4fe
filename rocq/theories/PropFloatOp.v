(** C118: any operator applied to a vector of floats. *)
From Coq Require Import ZArith Reals Lra Psatz SpecFloat.
From Flocq Require Import Core.Core IEEE754.BinarySingleNaN.
From Coquelicot Require Import Complex.
From Verif Require Import Base BitsSpec BitsModel BitsProofs OpsModel OpsSpec OpsProofs ConjSpec StateOpsModel Instances BuilderModel DenSpec DenProofs FloatModel FloatSpec
  FloatProofs FloatProofs2 FloatProofs3 FloatOpSpec FloatOpProofs.
Local Open Scope R_scope.

#[local] Instance prec53 : FLX.Prec_gt_0 53. Proof. reflexivity. Qed.
#[local] Instance pe64 : Prec_lt_emax 53 1024. Proof. reflexivity. Qed.

(** The exact amplitude of basis state [i], from the amplitudes held in [v] from index [off] on (0 elsewhere),
    and the same row with moduli in place of all numbers. *)
Definition exact_row {prec emax : Z} n (op : mop (fc prec emax)) (v : list (fc prec emax)) off i : C :=
  act CN (op_indices op) (op_mat CN (map_op B2C op)) (fun x => amp_off CN off (map B2C v) (enc n x)) (dec n i).
Definition row_weight {prec emax : Z} n (op : mop (fc prec emax)) (v : list (fc prec emax)) off i : R :=
  Cmod (act CN (op_indices op) (op_mat CN (map_op modulus op)) (fun x => amp_off CN off (map modulus v) (enc n x)) (dec n i)).
Lemma weight_asum {prec emax : Z} {Hp : FLX.Prec_gt_0 prec} {He : Prec_lt_emax prec emax} n (op : mop (fc prec emax)) v off i : wf_op op -> op_all cfin op ->
  row_weight n op v off i = asum (cells n op v off i).
Proof. intros W Fo. unfold row_weight. rewrite weight_cells, Cmod_R, Rabs_pos_eq by (auto; apply asum_pos). reflexivity. Qed.

(** [apply_op_overwrite]: dense, sparse and swap operators under any number of nested controls, from any window
    of the input to any window of the output. *)
Theorem C118_overwrite (prec emax : Z) (Hp : FLX.Prec_gt_0 prec) (He : Prec_lt_emax prec emax) n (op : mop (fc prec emax)) (v out : list (fc prec emax)) ioff ooff :
  (8 <= prec)%Z -> (8 <= emax)%Z -> wf_op op -> in_range n (op_indices op) -> (ooff + length out <= 2 ^ n)%nat -> op_all cfin op -> Forall cfin v ->
  let L := INR (row_entries op) in
  32 * (L + 3) * @uro prec <= 1 -> (forall j, (j < length out)%nat -> row_weight n op v ioff (ooff + j) <= 16) ->
  exists w, apply_op_overwrite FN n op v out ioff ooff = Ok w /\ length w = length out /\ Forall cfin w /\
    forall j, (j < length out)%nat ->
      Cmod (B2C (nth j w fc0) - exact_row n op v ioff (ooff + j))%C <= (5 + 3 * L) * @uro prec * row_weight n op v ioff (ooff + j) + 10 * L * @eta prec emax.
Proof.
  intros Pp Pe W R Lo Fo Fv L HL HS. eexists. split; [apply overwrite_rows; assumption|]. rewrite map_length, seq_length. split; [reflexivity|].
  assert (K : forall j, (j < length out)%nat -> let y := float_row n op v ioff (ooff + j) in cfin y /\
     Cmod (B2C y - exact_row n op v ioff (ooff + j))%C <= (5 + 3 * L) * @uro prec * row_weight n op v ioff (ooff + j) + 10 * L * @eta prec emax).
  { intros j Hj. specialize (HS j Hj). rewrite weight_asum in * by assumption. unfold exact_row. rewrite exact_cells by assumption. apply op_row_err; assumption. }
  split.
  - apply Forall_forall. intros a Ha. apply in_map_iff in Ha. destruct Ha as (i & <- & Hi). apply in_seq in Hi. apply K. lia.
  - intros i Hi. rewrite nth_map_seq by exact Hi. apply K, Hi.
Qed.
Print Assumptions C118_overwrite.

(** [apply_op], which adds to what the output holds: one more rounding. *)
Theorem C118_add (prec emax : Z) (Hp : FLX.Prec_gt_0 prec) (He : Prec_lt_emax prec emax) n (op : mop (fc prec emax)) (v out : list (fc prec emax)) ioff ooff :
  (8 <= prec)%Z -> (8 <= emax)%Z -> wf_op op -> in_range n (op_indices op) -> (ooff + length out <= 2 ^ n)%nat -> op_all cfin op -> Forall cfin v ->
  Forall cfin out -> Forall (fun a => Cmod (B2C a) <= 16) out ->
  let L := INR (row_entries op) in
  32 * (L + 3) * @uro prec <= 1 -> (forall j, (j < length out)%nat -> row_weight n op v ioff (ooff + j) <= 16) ->
  exists w, apply_op FN n op v out ioff ooff = Ok w /\ length w = length out /\ Forall cfin w /\
    forall j, (j < length out)%nat ->
      let x := (B2C (nth j out fc0) + exact_row n op v ioff (ooff + j))%C in
      Cmod (B2C (nth j w fc0) - x)%C <= 2 * @uro prec * Cmod x + (6 + 4 * L) * @uro prec * row_weight n op v ioff (ooff + j) + (11 * L + 2) * @eta prec emax.
Proof.
  intros Pp Pe W R Lo Fo Fv Fout Bo L HL HS. eexists. split; [apply apply_op_rows; assumption|]. rewrite map_length, seq_length. split; [reflexivity|].
  pose proof (@uro_pos prec) as U0. pose proof (@eta_pos prec emax) as T0. assert (M : 128 <= @big1 emax) by (apply big_ok, Pe).
  pose proof (@eta_uro prec emax M) as TU.
  assert (L0 : 0 <= L) by apply pos_INR.
  assert (K : forall j, (j < length out)%nat -> let y := fcadd (nth j out fc0) (float_row n op v ioff (ooff + j)) in
      let x := (B2C (nth j out fc0) + exact_row n op v ioff (ooff + j))%C in cfin y /\
      Cmod (B2C y - x)%C <= 2 * @uro prec * Cmod x + (6 + 4 * L) * @uro prec * row_weight n op v ioff (ooff + j) + (11 * L + 2) * @eta prec emax).
  { intros i Hi. cbn zeta. specialize (HS i Hi). rewrite weight_asum in * by assumption. unfold exact_row. rewrite exact_cells by assumption.
    destruct (op_row_err Pp Pe n op v ioff (ooff + i) Fo Fv HL HS) as (G1 & G2).
    pose proof (csum_le (cells n op v ioff (ooff + i))) as XS. pose proof (asum_pos (cells n op v ioff (ooff + i))) as S0.
    assert (Fi : cfin (nth i out fc0)) by (apply nth_cfin; exact Fout).
    assert (Bi : Cmod (B2C (nth i out fc0)) <= 16) by (rewrite Forall_forall in Bo; apply Bo, nth_In, Hi).
    set (a := nth i out fc0) in *. set (y := float_row n op v ioff (ooff + i)) in *. set (x := csum (cells n op v ioff (ooff + i))) in *. set (s := asum (cells n op v ioff (ooff + i))) in *.
    fold L in G2. clearbody L x s y a. clear Fo Fv Bo Fout W R.
    assert (Lu : L * @uro prec <= / 32) by lra. assert (Uu : @uro prec <= / 96) by nra.
    assert (Le : L * @eta prec emax <= / 32) by (eapply Rle_trans; [apply Rmult_le_compat_l; [exact L0|exact TU]|exact Lu]).
    set (e := (5 + 3 * L) * @uro prec * s + 10 * L * @eta prec emax) in *.
    assert (E1 : e <= 4). { unfold e. assert ((5 + 3 * L) * @uro prec <= / 6) by lra. assert ((5 + 3 * L) * @uro prec * s <= / 6 * s) by (apply Rmult_le_compat_r; assumption). lra. }
    assert (D : Cmod (B2C a + B2C y - (B2C a + x))%C <= e). { replace (B2C a + B2C y - (B2C a + x))%C with (B2C y - x)%C by ring. exact G2. }
    assert (N : Cmod (B2C a + B2C y)%C <= Cmod (B2C a + x)%C + e).
    { replace (B2C a + B2C y)%C with ((B2C a + x) + (B2C a + B2C y - (B2C a + x)))%C by ring. eapply Rle_trans; [apply Cmod_triangle|]. lra. }
    assert (N2 : Cmod (B2C a + x)%C <= 32) by (eapply Rle_trans; [apply Cmod_triangle|]; lra).
    destruct (cadd_err a y Fi G1) as (H1 & H2); [lra|]. split; [exact H1|].
    replace (B2C (fcadd a y) - (B2C a + x))%C with ((B2C (fcadd a y) - (B2C a + B2C y)) + (B2C a + B2C y - (B2C a + x)))%C by ring.
    eapply Rle_trans; [apply Cmod_triangle|].
    assert (2 * @uro prec * Cmod (B2C a + B2C y)%C <= 2 * @uro prec * Cmod (B2C a + x)%C + 2 * @uro prec * e).
    { rewrite <- Rmult_plus_distr_l. apply Rmult_le_compat_l; [lra|exact N]. }
    assert (2 * @uro prec * e <= (1 + L) * @uro prec * s + L * @eta prec emax).
    { unfold e. assert (U2 : 0 <= @uro prec * s) by (apply Rmult_le_pos; lra). assert (T2 : 0 <= L * @eta prec emax) by (apply Rmult_le_pos; lra).
      assert (2 * @uro prec * (5 + 3 * L) * (@uro prec * s) <= (1 + L) * (@uro prec * s)).
      { apply Rmult_le_compat_r; [assumption|]. lra. }
      assert (20 * @uro prec * (L * @eta prec emax) <= 1 * (L * @eta prec emax)) by (apply Rmult_le_compat_r; lra). lra. }
    unfold e in *. lra. }
  split.
  - apply Forall_forall. intros a Ha. apply in_map_iff in Ha. destruct Ha as (i & <- & Hi). apply in_seq in Hi. apply K. lia.
  - intros i Hi. cbn zeta. rewrite nth_map_seq by exact Hi. apply K, Hi.
Qed.
Print Assumptions C118_add.

(** The f64 matrix with all four entries 1/2 on qubit 1 under the control of qubit 0, applied to the piece of a two-qubit
    state that holds 1/2 at indices 2 and 3: row 3 is 1/2, row 1 is 0; added to an output that held 1, row 3 is 3/2. *)
Definition f12 : fl 53 1024 := SF2B (prec:=53) (emax:=1024) (S754_finite false 4503599627370496 (-53)) eq_refl.
Lemma f12_ok : fin f12 /\ B2R f12 = / 2. Proof. split; [reflexivity|]. unfold f12. cbn. unfold F2R. cbn. lra. Qed.
Definition c12 : fc 53 1024 := (f12, fzero).
Lemma c12_ok : B2C c12 = RtoC (/ 2). Proof. unfold B2C, c12. cbn [fst snd]. rewrite (proj2 f12_ok). reflexivity. Qed.
Lemma m12_ok : modulus c12 = RtoC (/ 2). Proof. unfold modulus. rewrite c12_ok, Cmod_R, Rabs_pos_eq by lra. reflexivity. Qed.
Definition halves : mop (fc 53 1024) := Control 1 [0; 1]%nat (Matrix [1%nat] [c12; c12; c12; c12]).
Local Ltac lt_bool := repeat match goal with |- context[(?a <? ?b)%nat] => let r := eval vm_compute in (a <? b)%nat in change (a <? b)%nat with r end.
Lemma halves_rows (f : fc 53 1024 -> C) : f c12 = RtoC (/ 2) ->
  let r i := act CN (op_indices halves) (op_mat CN (map_op f halves)) (fun x => amp_off CN 2 (map f [c12; c12]) (enc 2 x)) (dec 2 i) in
  r 0%nat = RtoC 0 /\ r 1%nat = RtoC 0 /\ r 2%nat = RtoC (/ 2) /\ r 3%nat = RtoC (/ 2).
Proof.
  intros F. cbn zeta. unfold act, halves. cbn -[RtoC Cmult Cplus]. rewrite F.
  assert (D : (dec 2 0 0 = false /\ dec 2 0 1 = false /\ dec 2 1 0 = false /\ dec 2 1 1 = true /\ dec 2 2 0 = true /\ dec 2 2 1 = false /\ dec 2 3 0 = true /\ dec 2 3 1 = true)%nat) by (repeat split; reflexivity).
  destruct D as (-> & -> & -> & -> & -> & -> & -> & ->). unfold amp_off, delta.
  split; [|split; [|split]]; apply injective_projections; cbn; lt_bool; cbn; lra.
Qed.
Lemma u53 : 0 < @uro 53 <= / 1048576.
Proof. split; [apply uro_pos|]. unfold uro. eapply Rle_trans; [apply (bpow_le radix2 (-53) (-20)); lia|]. cbn. lra. Qed.
Example C118_ex :
  (exists w, apply_op_overwrite FN 2 halves [c12; c12] [fc1; fc1; fc1] 2 1 = Ok w /\
     Cmod (B2C (nth 2 w fc0) - RtoC (/ 2))%C <= 30 * @uro 53 /\ Cmod (B2C (nth 0 w fc0))%C <= 20 * @eta 53 1024) /\
  (exists w, apply_op FN 2 halves [c12; c12] [fc1; fc1; fc1] 2 1 = Ok w /\ Cmod (B2C (nth 2 w fc0) - RtoC (3 / 2))%C <= 40 * @uro 53).
Proof.
  destruct u53 as (U0 & U1). assert (Pe : (8 <= 1024)%Z) by lia. pose proof (@eta_uro 53 1024 (big_ok Pe)) as T. pose proof (@eta_pos 53 1024) as T0.
  assert (W : wf_op halves) by (repeat split; cbn; lia).
  assert (R : in_range 2 (op_indices halves)) by (intros q [<-|[<-|[]]]; lia).
  assert (Fo : op_all cfin halves) by (repeat constructor). assert (Fv : Forall cfin [c12; c12]) by repeat constructor.
  destruct (halves_rows B2C c12_ok) as (E0 & E1 & E2 & E3). destruct (halves_rows modulus m12_ok) as (M0 & M1 & M2 & M3).
  assert (M0' : row_weight 2 halves [c12; c12] 2 1 = 0) by (unfold row_weight; rewrite M1; apply Cmod_0).
  assert (M2' : row_weight 2 halves [c12; c12] 2 2 = / 2) by (unfold row_weight; rewrite M2, Cmod_R, Rabs_pos_eq; lra).
  assert (M3' : row_weight 2 halves [c12; c12] 2 3 = / 2) by (unfold row_weight; rewrite M3, Cmod_R, Rabs_pos_eq; lra).
  assert (IR : INR (row_entries halves) = 2) by (cbn; lra).
  assert (HL : 32 * (INR (row_entries halves) + 3) * @uro 53 <= 1) by (rewrite IR; lra).
  assert (HS : forall j, (j < length [fc1; fc1; fc1 : fc 53 1024])%nat -> row_weight 2 halves [c12; c12] 2 (1 + j) <= 16).
  { intros j Hj. destruct j as [|[|[|j]]]; cbn [Nat.add]; [rewrite M0'|rewrite M2'|rewrite M3'|cbn in Hj; lia]; lra. }
  split.
  - destruct (C118_overwrite 53 1024 _ _ 2 halves [c12; c12] [fc1; fc1; fc1] 2 1 ltac:(lia) Pe W R ltac:(cbn; lia) Fo Fv HL HS) as (w & E & _ & _ & G).
    exists w. split; [exact E|]. split.
    + specialize (G 2%nat ltac:(cbn; lia)). cbn [Nat.add] in G. rewrite M3' in G. unfold exact_row in G. rewrite E3 in G. eapply Rle_trans; [exact G|]. rewrite IR. lra.
    + specialize (G 0%nat ltac:(cbn; lia)). cbn [Nat.add] in G. rewrite M0' in G. unfold exact_row in G. rewrite E1 in G.
      replace (B2C (nth 0 w fc0)) with (B2C (nth 0 w fc0) - RtoC 0)%C by ring. eapply Rle_trans; [exact G|]. rewrite IR. lra.
  - destruct (C118_add 53 1024 _ _ 2 halves [c12; c12] [fc1; fc1; fc1] 2 1 ltac:(lia) Pe W R ltac:(cbn; lia) Fo Fv) as (w & E & _ & _ & G).
    + repeat constructor.
    + repeat apply Forall_cons; try apply Forall_nil; rewrite B2C_1, Cmod_1; lra.
    + exact HL.
    + exact HS.
    + exists w. split; [exact E|]. specialize (G 2%nat ltac:(cbn; lia)). cbn [Nat.add nth] in G. cbn zeta in G. rewrite M3' in G. unfold exact_row in G. rewrite E3, B2C_1 in G.
      replace (RtoC 1 + RtoC (/ 2))%C with (RtoC (3 / 2)) in G by (apply injective_projections; cbn; lra). rewrite (Cmod_R (3 / 2)), Rabs_pos_eq in G by lra.
      eapply Rle_trans; [exact G|]. rewrite IR. lra.
Qed.
