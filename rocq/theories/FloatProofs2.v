(** Rows of operators in floats, exact float operations, and the 2-norm. *)
From Coq Require Import ZArith Reals Lra Psatz FunctionalExtensionality.
From Flocq Require Import Core.Core IEEE754.BinarySingleNaN Relative Mult_error.
From Coquelicot Require Import Complex.
From Verif Require Import Base BitsSpec BitsModel BitsProofs OpsModel OpsSpec OpsProofs ConjSpec StateOpsModel Instances BuilderModel DenSpec DenProofs
  SimSpec UnitaryProofs SimProofs FloatModel FloatSpec FloatProofs.
Local Open Scope nat_scope.

(** *** Rows of any number type, without laws *)
Section Raw.
Context {P : Type} (N : num P).
Definition raw_row (n : nat) (op : mop P) (input : list P) (row : nat) : P :=
  nsum N (map (fun e => nmul N (snd e) (nth (enc n (updl (dec n row) (op_indices op) (bits_be (length (op_indices op)) (fst e)))) input (n0 N)))
    (op_items N op (be (map (dec n row) (op_indices op))))).

Lemma apply_row_raw n op input row : wf_op op -> in_range n (op_indices op) -> length input = 2 ^ n -> row < 2 ^ n ->
  apply_op_row_indices N n op input row 0 0 (op_indices op) = Ok (raw_row n op input row).
Proof.
  intros W R Hl Hrow. unfold apply_op_row_indices. cbn [Nat.add]. rewrite full_to_sub_ok by auto. cbn [bind]. unfold sum_for_op_cols.
  set (r := map (dec n row) (op_indices op)).
  assert (Lr : length r = length (op_indices op)) by apply map_length.
  assert (Br : be r < 2 ^ length (op_indices op)) by (rewrite <- Lr; apply be_lt).
  rewrite op_collect_items by auto. cbn [bind].
  rewrite mapM_ok with (g := fun e => nmul N (snd e) (nth (enc n (updl (dec n row) (op_indices op) (bits_be (length (op_indices op)) (fst e)))) input (n0 N))).
  - reflexivity.
  - intros [i v] He. cbn [fst snd]. unfold row_term.
    assert (Hi : i < 2 ^ length (op_indices op)) by (apply (op_items_range N op W (be r) Br (i, v) He)).
    rewrite <- (be_bits_be _ _ Hi) at 1.
    rewrite sub_to_full_ok by (auto; apply length_bits_be). cbn [bind].
    set (cb := enc n _). assert (Bc : cb < 2 ^ n) by apply enc_lt.
    change (cb <? 0) with false. cbn iota. rewrite Nat.sub_0_r. destruct (Nat.leb_spec (length input) cb); [lia|].
    rewrite (idx_ok input (n0 N)) by lia. reflexivity.
Qed.

Lemma apply_op_overwrite_raw n op input output : wf_op op -> in_range n (op_indices op) -> length input = 2 ^ n -> length output = 2 ^ n ->
  apply_op_overwrite N n op input output 0 0 = Ok (map (raw_row n op input) (seq 0 (2 ^ n))).
Proof.
  intros W R Hl Ho. unfold apply_op_overwrite. rewrite wf_mat_indices by auto. cbn [bind]. rewrite <- Ho.
  apply mapM_enumerate with (g := fun i _ => raw_row n op input i) (d := n0 N).
  intros i Hi. apply apply_row_raw; auto; lia.
Qed.
End Raw.

Local Open Scope R_scope.

(** *** Exact float operations *)
Section Exact.
Context {prec emax : Z} {Hp : FLX.Prec_gt_0 prec} {He : Prec_lt_emax prec emax}.
Local Notation fl := (fl prec emax).
Local Notation fc := (fc prec emax).
Local Notation emin := (3 - emax - prec)%Z.
Local Notation rnd := (round radix2 (FLT_exp emin prec) ZnearestE).

Lemma fl_format (x : fl) : generic_format radix2 (FLT_exp emin prec) (B2R x).
Proof. apply generic_format_B2R. Qed.
Lemma rnd_fl (x : fl) : rnd (B2R x) = B2R x.
Proof. apply round_generic; [auto with typeclass_instances|apply fl_format]. Qed.
Lemma rnd_opp_fl (x : fl) : rnd (- B2R x) = - B2R x.
Proof. apply round_generic; [auto with typeclass_instances|]. apply generic_format_opp, fl_format. Qed.
Lemma rnd_0 : rnd 0 = 0.
Proof. apply round_0. auto with typeclass_instances. Qed.

(** A product whose exact value is 0 or plus or minus a float. *)
Lemma mul_exact (x y z : fl) : fin x -> fin y -> (B2R x * B2R y = B2R z \/ B2R x * B2R y = - B2R z) ->
  fin (fmul x y) /\ B2R (fmul x y) = B2R x * B2R y.
Proof.
  intros Fx Fy H. pose proof (Bmult_correct prec emax Hp He mode_NE x y) as B.
  change (round radix2 (SpecFloat.fexp prec emax) (round_mode mode_NE)) with rnd in B.
  assert (E : rnd (B2R x * B2R y) = B2R x * B2R y). { destruct H as [->| ->]; [apply rnd_fl|apply rnd_opp_fl]. }
  rewrite E in B. rewrite Rlt_bool_true in B.
  - destruct B as (B1 & B2 & _). unfold fin in *. rewrite Fx, Fy in B2. split; assumption.
  - destruct H as [->| ->]; [|rewrite Rabs_Ropp]; apply abs_B2R_lt_emax.
Qed.
Lemma add_exact (x y z : fl) : fin x -> fin y -> (B2R x + B2R y = B2R z \/ B2R x + B2R y = - B2R z) ->
  fin (fadd x y) /\ B2R (fadd x y) = B2R x + B2R y.
Proof.
  intros Fx Fy H. pose proof (Bplus_correct prec emax Hp He mode_NE x y Fx Fy) as B.
  change (round radix2 (SpecFloat.fexp prec emax) (round_mode mode_NE)) with rnd in B.
  assert (E : rnd (B2R x + B2R y) = B2R x + B2R y). { destruct H as [->| ->]; [apply rnd_fl|apply rnd_opp_fl]. }
  rewrite E in B. rewrite Rlt_bool_true in B.
  - destruct B as (B1 & B2 & _). split; assumption.
  - destruct H as [->| ->]; [|rewrite Rabs_Ropp]; apply abs_B2R_lt_emax.
Qed.
Lemma sub_exact (x y z : fl) : fin x -> fin y -> (B2R x - B2R y = B2R z \/ B2R x - B2R y = - B2R z) ->
  fin (fsub x y) /\ B2R (fsub x y) = B2R x - B2R y.
Proof.
  intros Fx Fy H. pose proof (Bminus_correct prec emax Hp He mode_NE x y Fx Fy) as B.
  change (round radix2 (SpecFloat.fexp prec emax) (round_mode mode_NE)) with rnd in B.
  assert (E : rnd (B2R x - B2R y) = B2R x - B2R y). { destruct H as [->| ->]; [apply rnd_fl|apply rnd_opp_fl]. }
  rewrite E in B. rewrite Rlt_bool_true in B.
  - destruct B as (B1 & B2 & _). split; assumption.
  - destruct H as [->| ->]; [|rewrite Rabs_Ropp]; apply abs_B2R_lt_emax.
Qed.

Lemma fone_ok : fin (fone : fl) /\ B2R (fone : fl) = 1.
Proof. split; [apply is_finite_Bone|apply Bone_correct]. Qed.
Lemma fzero_ok : fin (fzero : fl) /\ B2R (fzero : fl) = 0.
Proof. split; reflexivity. Qed.
Lemma fneg_ok (x : fl) : fin x -> fin (fneg x) /\ B2R (fneg x) = - B2R x.
Proof. intros F. unfold fin, fneg in *. rewrite is_finite_Bopp, B2R_Bopp. auto. Qed.

(** 1, -1, i or -i *)
Definition unit4 (v : fc) : Prop := cfin v /\
  ((B2R (snd v) = 0 /\ (B2R (fst v) = 1 \/ B2R (fst v) = -1)) \/ (B2R (fst v) = 0 /\ (B2R (snd v) = 1 \/ B2R (snd v) = -1))).

Lemma mul_m1 (x y : fl) : fin x -> fin y -> (B2R x = 0 \/ B2R x = 1 \/ B2R x = -1) -> fin (fmul x y) /\ B2R (fmul x y) = B2R x * B2R y.
Proof.
  intros Fx Fy [H|[H|H]]; rewrite H.
  - destruct (mul_exact x y fzero Fx Fy) as (A & B); [left; rewrite H; cbn; ring|]. split; [exact A|]. rewrite B, H. reflexivity.
  - destruct (mul_exact x y y Fx Fy) as (A & B); [left; rewrite H; ring|]. split; [exact A|]. rewrite B, H. reflexivity.
  - destruct (mul_exact x y y Fx Fy) as (A & B); [right; rewrite H; ring|]. split; [exact A|]. rewrite B, H. reflexivity.
Qed.

Lemma cmul_unit4 (v a : fc) : unit4 v -> cfin a -> cfin (fcmul v a) /\ B2C (fcmul v a) = (B2C v * B2C a)%C.
Proof.
  intros ((F1 & F2) & H) (G1 & G2). destruct v as [v1 v2], a as [a1 a2]. cbn [fst snd] in *. unfold cfin, fcmul, B2C, Cmult. cbn [fst snd].
  assert (Hv : (B2R v1 = 0 \/ B2R v1 = 1 \/ B2R v1 = -1) /\ (B2R v2 = 0 \/ B2R v2 = 1 \/ B2R v2 = -1)) by tauto.
  destruct Hv as (K1 & K2).
  destruct (mul_m1 v1 a1 F1 G1 K1) as (X1 & Y1). destruct (mul_m1 v1 a2 F1 G2 K1) as (X2 & Y2).
  destruct (mul_m1 v2 a1 F2 G1 K2) as (X3 & Y3). destruct (mul_m1 v2 a2 F2 G2 K2) as (X4 & Y4).
  destruct (sub_exact (fmul v1 a1) (fmul v2 a2) (if Req_EM_T (B2R v2) 0 then a1 else a2) X1 X4) as (S1 & S2).
  { rewrite Y1, Y4. destruct (Req_EM_T (B2R v2) 0) as [e|e].
    - rewrite e. destruct H as [(_ & [-> | ->])|(_ & [K|K])]; [left; ring|right; ring|exfalso; lra|exfalso; lra].
    - destruct H as [(K & _)|(-> & [-> | ->])]; [contradiction|right; ring|left; ring]. }
  destruct (add_exact (fmul v1 a2) (fmul v2 a1) (if Req_EM_T (B2R v2) 0 then a2 else a1) X2 X3) as (A1 & A2).
  { rewrite Y2, Y3. destruct (Req_EM_T (B2R v2) 0) as [e|e].
    - rewrite e. destruct H as [(_ & [-> | ->])|(_ & [K|K])]; [left; ring|right; ring|exfalso; lra|exfalso; lra].
    - destruct H as [(K & _)|(-> & [-> | ->])]; [contradiction|left; ring|right; ring]. }
  split; [split; assumption|]. rewrite S2, A2, Y1, Y2, Y3, Y4. reflexivity.
Qed.

Lemma cadd_0l (a : fc) : cfin a -> cfin (fcadd fc0 a) /\ B2C (fcadd fc0 a) = B2C a.
Proof.
  intros (G1 & G2). destruct a as [a1 a2]. cbn [fst snd] in *. unfold cfin, fcadd, B2C. cbn [fst snd fc0].
  destruct (add_exact fzero a1 a1) as (A1 & A2); [reflexivity|exact G1|left; cbn; ring|].
  destruct (add_exact fzero a2 a2) as (B1 & B2); [reflexivity|exact G2|left; cbn; ring|].
  split; [split; assumption|]. rewrite A2, B2. cbn. f_equal; ring.
Qed.

Lemma u4_1 : unit4 (fc1 : fc).
Proof. split; [split; [apply fone_ok|reflexivity]|]. left. cbn [fst snd fc1]. split; [reflexivity|left; apply fone_ok]. Qed.
Lemma u4_i : unit4 (fci : fc).
Proof. split; [split; [reflexivity|apply fone_ok]|]. right. cbn [fst snd fci]. split; [reflexivity|left; apply fone_ok]. Qed.
Lemma u4_neg v : unit4 v -> unit4 (fcneg v).
Proof.
  intros ((F1 & F2) & H). destruct (fneg_ok _ F1) as (A1 & A2), (fneg_ok _ F2) as (B1 & B2). split; [split; assumption|].
  cbn [fcneg fst snd]. rewrite A2, B2. destruct H as [(-> & [-> | ->])|(-> & [-> | ->])]; [left|left|right|right]; (split; [ring|]); [right|left|right|left]; ring.
Qed.
Lemma B2C_1 : B2C (fc1 : fc) = RtoC 1.
Proof. unfold B2C. cbn [fst snd fc1]. rewrite (proj2 fone_ok). reflexivity. Qed.
Lemma B2C_0 : B2C (fc0 : fc) = RtoC 0.
Proof. reflexivity. Qed.
Lemma B2C_i : B2C (fci : fc) = Ci.
Proof. unfold B2C. cbn [fst snd fci]. rewrite (proj2 fone_ok). reflexivity. Qed.
Lemma B2C_neg (v : fc) : B2C (fcneg v) = Copp (B2C v).
Proof. unfold B2C, fcneg, fneg, Copp. cbn [fst snd]. rewrite !B2R_Bopp. reflexivity. Qed.
Lemma cfin_neg (v : fc) : cfin v -> cfin (fcneg v).
Proof. intros (A & B). split; apply fneg_ok; assumption. Qed.

(** The zero test. *)
Lemma fis0_ok (x : fl) : fin x -> fis0 x = true <-> B2R x = 0.
Proof.
  intros F. unfold fis0. rewrite Beqb_correct by (auto; reflexivity). change (B2R (fzero : fl)) with 0.
  destruct (Req_bool_spec (B2R x) 0); split; intros; first [assumption|reflexivity|discriminate|contradiction].
Qed.
Lemma fcis0_ok (a : fc) : cfin a -> fcis0 a = true <-> B2C a = RtoC 0.
Proof.
  intros (F1 & F2). unfold fcis0. rewrite andb_true_iff, (fis0_ok _ F1), (fis0_ok _ F2). unfold B2C, RtoC.
  split; [intros (-> & ->); reflexivity|intros H; injection H; auto].
Qed.

(** *** One-qubit matrices *)
Definition fmat (m : bool -> bool -> fc) : list fc := [m false false; m false true; m true false; m true true].
Definition fterms (m : bool -> bool -> fc) (n q : nat) (v : list fc) (x : bs) : list (fc * fc) :=
  filter (fun va => negb (fcis0 (fst va)))
    [(m (x q) false, nth (enc n (upd x q false)) v fc0); (m (x q) true, nth (enc n (upd x q true)) v fc0)].

Lemma raw_row_one m n q v row :
  raw_row FN n (Matrix [q] (fmat m)) v row = nsum FN (map (fun va => fcmul (fst va) (snd va)) (fterms m n q v (dec n row))).
Proof.
  unfold raw_row, fterms. cbn [op_indices length op_items map]. set (x := dec n row).
  assert (E : be [x q] = b2n (x q)) by (unfold be; cbn; destruct (x q); reflexivity). rewrite E.
  unfold dense_items. cbn [Nat.pow seq map Nat.mul Nat.add].
  destruct (x q); cbn [b2n Nat.mul Nat.add nth fmat map filter fst snd nis0 FN];
    match goal with |- context [fcis0 ?a] => destruct (fcis0 a) end; cbn [negb];
    match goal with |- context [fcis0 ?a] => destruct (fcis0 a) end; cbn [negb map fst snd]; reflexivity.
Qed.

Lemma nth_cfin (v : list fc) i : Forall cfin v -> cfin (nth i v fc0).
Proof.
  intros F. destruct (nth_in_or_default i v fc0) as [I|I]; [|rewrite I; split; reflexivity].
  rewrite Forall_forall in F. apply F, I.
Qed.

Lemma fterms_ok m n q v x : (forall r c, cfin (m r c)) -> Forall cfin v ->
  Forall (fun va => cfin (fst va) /\ cfin (snd va)) (fterms m n q v x) /\ (length (fterms m n q v x) <= 2)%nat /\
  csum (fterms m n q v x) = on1 (fun r c => B2C (m r c)) q (fstate n v) x /\
  asum (fterms m n q v x) = Cmod (B2C (m (x q) false)) * Cmod (fstate n v (upd x q false)) + Cmod (B2C (m (x q) true)) * Cmod (fstate n v (upd x q true)).
Proof.
  intros Fm Fv. unfold fterms, on1, fstate.
  set (a0 := nth (enc n (upd x q false)) v fc0). set (a1 := nth (enc n (upd x q true)) v fc0).
  assert (G0 : cfin a0) by (apply nth_cfin; exact Fv). assert (G1 : cfin a1) by (apply nth_cfin; exact Fv).
  cbn [filter fst snd].
  destruct (fcis0 (m (x q) false)) eqn:Z0; destruct (fcis0 (m (x q) true)) eqn:Z1; cbn [negb length csum asum];
    try (apply (fcis0_ok _ (Fm _ _)) in Z0; rewrite Z0, ?Cmod_0); try (apply (fcis0_ok _ (Fm _ _)) in Z1; rewrite Z1, ?Cmod_0);
    (split; [repeat (apply Forall_cons; [split; [apply Fm|assumption]|]); apply Forall_nil|]); (split; [lia|]); (split; [ring|lra]).
Qed.

(** Matrices of 1, -1, i and -i with one non-zero entry per row: exact. *)
Lemma row_exact m n q v row : (forall r c, cfin (m r c)) -> Forall cfin v ->
  (forall r, (unit4 (m r false) /\ B2C (m r true) = RtoC 0) \/ (unit4 (m r true) /\ B2C (m r false) = RtoC 0)) ->
  let y := raw_row FN n (Matrix [q] (fmat m)) v row in
  cfin y /\ B2C y = on1 (fun r c => B2C (m r c)) q (fstate n v) (dec n row).
Proof.
  intros Fm Fv H. cbn zeta. rewrite raw_row_one. destruct (fterms_ok m n q v (dec n row) Fm Fv) as (_ & _ & E & _). rewrite <- E.
  unfold fterms. set (x := dec n row).
  set (a0 := nth (enc n (upd x q false)) v fc0). set (a1 := nth (enc n (upd x q true)) v fc0).
  assert (G0 : cfin a0) by (apply nth_cfin; exact Fv). assert (G1 : cfin a1) by (apply nth_cfin; exact Fv).
  assert (NZ : forall w, unit4 w -> fcis0 w = false).
  { intros w (Fw & U). destruct (fcis0 w) eqn:Z; [|reflexivity]. apply (fcis0_ok _ Fw) in Z. unfold B2C, RtoC in Z. injection Z as Z1 Z2.
    exfalso. destruct U as [(_ & [K|K])|(_ & [K|K])]; lra. }
  cbn [filter fst snd]. destruct (H (x q)) as [(U & Z)|(U & Z)]; apply (fcis0_ok _ (Fm _ _)) in Z; rewrite Z, (NZ _ U); cbn [negb map fst snd csum];
    unfold nsum; cbn [fold_left]; cbn [n0 nadd FN].
  - destruct (cmul_unit4 _ _ U G0) as (A & B). destruct (cadd_0l _ A) as (A' & B'). split; [exact A'|]. rewrite B', B. ring.
  - destruct (cmul_unit4 _ _ U G1) as (A & B). destruct (cadd_0l _ A) as (A' & B'). split; [exact A'|]. rewrite B', B. ring.
Qed.

(** Any matrix: rounding error of a row. *)
Lemma row_err m n q v row V : (forall r c, cfin (m r c)) -> Forall cfin v -> 128 <= @big1 emax -> @eta prec emax <= 1 -> 160 * @uro prec <= 1 ->
  (forall r c, Cmod (B2C (m r c)) <= V) ->
  let x := dec n row in
  V * (Cmod (fstate n v (upd x q false)) + Cmod (fstate n v (upd x q true))) <= 16 ->
  let y := raw_row FN n (Matrix [q] (fmat m)) v row in
  cfin y /\ Cmod (B2C y - on1 (fun r c => B2C (m r c)) q (fstate n v) x)%C <=
    11 * @uro prec * (V * (Cmod (fstate n v (upd x q false)) + Cmod (fstate n v (upd x q true)))) + 20 * @eta prec emax.
Proof.
  intros Fm Fv M E1 U HV x Q. cbn zeta. rewrite raw_row_one. fold x. destruct (fterms_ok m n q v x Fm Fv) as (F & L & E & A). rewrite <- E.
  assert (A' : asum (fterms m n q v x) <= V * (Cmod (fstate n v (upd x q false)) + Cmod (fstate n v (upd x q true)))).
  { rewrite A. rewrite Rmult_plus_distr_l. apply Rplus_le_compat; (apply Rmult_le_compat_r; [apply Cmod_ge_0|apply HV]). }
  pose proof (asum_pos (fterms m n q v x)) as A0. pose proof (@uro_pos prec) as U0. pose proof (@eta_pos prec emax) as T0.
  assert (L' : INR (length (fterms m n q v x)) <= 2). { apply (le_INR _ 2) in L. exact L. }
  pose proof (pos_INR (length (fterms m n q v x))) as L0.
  destruct (sum_err (fterms m n q v x) F M E1) as (G1 & G2).
  - nra.
  - lra.
  - split; [exact G1|]. eapply Rle_trans; [exact G2|]. apply Rplus_le_compat.
    + apply Rmult_le_compat; [apply Rmult_le_pos; lra|exact A0| |exact A']. apply Rmult_le_compat_r; lra.
    + apply Rmult_le_compat_r; lra.
Qed.

(** One item of value 1: exact. *)
Lemma row_single n op v row col : Forall cfin v ->
  op_items FN op (be (map (dec n row) (op_indices op))) = [(col, fc1)] ->
  let y := raw_row FN n op v row in
  cfin y /\ B2C y = fstate n v (updl (dec n row) (op_indices op) (bits_be (length (op_indices op)) col)).
Proof.
  intros Fv E. cbn zeta. unfold raw_row. rewrite E. cbn [map fst snd]. unfold nsum. cbn [fold_left nmul nadd n0 FN]. unfold fstate.
  set (a := nth _ v fc0). assert (G : cfin a) by (apply nth_cfin; exact Fv).
  destruct (cmul_unit4 _ _ u4_1 G) as (A & B). destruct (cadd_0l _ A) as (A' & B'). split; [exact A'|]. rewrite B', B, B2C_1. ring.
Qed.
End Exact.
