(** Equality and hashing of circuit objects: C62. *)
From Coq Require Import ZArith QArith List Bool SpecFloat String Lia.
From Verif Require Import Base BuilderModel HashModel HashSpec.
Import ListNotations.
Local Open Scope nat_scope.

(** *** Floats *)
Lemma feq_exact a b : SFeqb a b = true <-> (a = b /\ ~ is_nan_f a) \/ (is_zero_f a /\ is_zero_f b).
Proof.
  unfold SFeqb, is_nan_f, is_zero_f. split.
  - destruct a as [s|s| |s m e], b as [s'|s'| |s' m' e']; cbn; try discriminate; try (destruct s; discriminate); try (destruct s'; discriminate).
    + intros _. right. eauto.
    + intros H. left. split; [|discriminate]. destruct s, s'; try discriminate; reflexivity.
    + destruct s, s'; try discriminate; destruct (Z.compare_spec e e'); try discriminate; destruct (Pcompare m m' Eq) eqn:P; try discriminate; intros _; left; (split; [|discriminate]); apply Pcompare_Eq_eq in P; subst; reflexivity.
  - intros [(-> & H)|((s & ->) & (s' & ->))]; [|reflexivity].
    destruct b as [s|s| |s m e]; cbn; try reflexivity; [destruct s; reflexivity|exfalso; apply H; reflexivity|].
    rewrite Z.compare_refl. destruct s; rewrite Pcompare_refl; reflexivity.
Qed.
Lemma feq_sym a b : SFeqb a b = true -> SFeqb b a = true.
Proof. rewrite !feq_exact. intros [(-> & H)|H]; [left; auto|right; tauto]. Qed.
Lemma feq_trans a b c : SFeqb a b = true -> SFeqb b c = true -> SFeqb a c = true.
Proof. rewrite !feq_exact. intros [(-> & H)|H] [(-> & K)|K]; auto; right; tauto. Qed.

(** *** Lifting to lists and objects *)
Lemma all2_sym {A} (f : A -> A -> bool) : (forall x y, f x y = true -> f y x = true) -> forall a b, all2 f a b = true -> all2 f b a = true.
Proof. intros H. induction a as [|x a IH]; intros [|y b]; cbn; try discriminate; auto. rewrite !andb_true_iff. intros (E & K). split; auto. Qed.
Lemma all2_trans {A} (f : A -> A -> bool) : (forall x y z, f x y = true -> f y z = true -> f x z = true) -> forall a b c, all2 f a b = true -> all2 f b c = true -> all2 f a c = true.
Proof. intros H. induction a as [|x a IH]; intros [|y b] [|z c]; cbn; try discriminate; auto. rewrite !andb_true_iff. intros (E & K) (E' & K'). split; eauto. Qed.
Lemma rot_sym a b : eq_rot a b = true -> eq_rot b a = true.
Proof. destruct a, b; cbn; try discriminate; [apply feq_sym|]. rewrite !Qeq_bool_iff. intros ->. reflexivity. Qed.
Lemma rot_trans a b c : eq_rot a b = true -> eq_rot b c = true -> eq_rot a c = true.
Proof. destruct a, b, c; cbn; try discriminate; [apply feq_trans|]. rewrite !Qeq_bool_iff. intros ->. auto. Qed.
Lemma complex_sym a b : eq_complex a b = true -> eq_complex b a = true.
Proof. unfold eq_complex. rewrite !andb_true_iff. intros (H & K). split; apply feq_sym; assumption. Qed.
Lemma complex_trans a b c : eq_complex a b = true -> eq_complex b c = true -> eq_complex a c = true.
Proof. unfold eq_complex. rewrite !andb_true_iff. intros (H & K) (H' & K'). split; eapply feq_trans; eassumption. Qed.
Lemma fself f : SFeqb f f = true <-> ~ is_nan_f f.
Proof.
  rewrite feq_exact. split; [intros [(_ & H)|((s & ->) & _)]; [exact H|discriminate]|]. intros H. left. auto.
Qed.
Lemma rself t : eq_rot t t = true <-> (forall f, In f (rot_floats t) -> ~ is_nan_f f).
Proof.
  destruct t as [f|q]; cbn.
  - rewrite fself. split; [intros H g [<-|[]]; exact H|intros H; apply H; left; reflexivity].
  - rewrite Qeq_bool_iff. split; [intros _ f []|intros _; reflexivity].
Qed.
Lemma mself d : all2 eq_complex d d = true <-> (forall f, In f (flat_map (fun c => [fst c; snd c]) d) -> ~ is_nan_f f).
Proof.
  induction d as [|c d IH]; cbn; [split; [intros _ f []|reflexivity]|]. unfold eq_complex at 1. rewrite !andb_true_iff, !fself, IH. split.
  - intros ((H & K) & L) f [<-|[<-|I]]; auto.
  - intros H. split; [split; apply H; auto|]. intros f I. apply H. auto.
Qed.

(** *** C62 *)
(** Equality is symmetric and transitive on all objects, and an object equals itself exactly
    when none of its floats is NaN. *)
Theorem C62_equivalence : (forall a b, eq_fobj a b = true -> eq_fobj b a = true) /\
  (forall a b c, eq_fobj a b = true -> eq_fobj b c = true -> eq_fobj a c = true) /\
  (forall a, eq_fobj a a = true <-> forall f, In f (floats a) -> ~ is_nan_f f).
Proof.
  split; [|split].
  - intros [[]|[]] [[]|[]]; cbn; try discriminate; auto; first [apply rot_sym|apply all2_sym, complex_sym].
  - intros [[]|[]] [[]|[]] [[]|[]]; cbn; try discriminate; auto; first [apply rot_trans|apply all2_trans, complex_trans].
  - intros [[]|[]]; cbn [eq_fobj eq_unitary eq_mobj floats]; try (split; [intros _ f []|reflexivity]); [apply rself|apply mself|apply rself].
Qed.
Print Assumptions C62_equivalence.
(** Apart from NaN and zeros equality is sameness; ratios are kept reduced. *)
Definition reduced (o : fobj) : Prop := match o with FUnit (FRz (FPiRational q)) | FUnit (FPhase (FPiRational q)) => Qred q = q | _ => True end.
Theorem C62_same : forall a b, reduced a -> reduced b -> (forall f, In f (floats a) -> ~ is_nan_f f /\ ~ is_zero_f f) -> (eq_fobj a b = true <-> a = b).
Proof.
  intros a b Ra Rb H. split; [|intros <-; apply C62_equivalence; intros f I; apply H; exact I].
  assert (F : forall f g, In f (floats a) -> SFeqb f g = true -> f = g).
  { intros f g I E. apply feq_exact in E. destruct E as [(E & _)|(E & _)]; [exact E|]. exfalso. apply (H f I). exact E. }
  assert (Rt : forall t u, (forall f, In f (rot_floats t) -> In f (floats a)) -> (forall q, t = FPiRational q -> Qred q = q) -> (forall q, u = FPiRational q -> Qred q = q) -> eq_rot t u = true -> t = u).
  { intros [f|q] [g|p] I Q1 Q2; cbn; try discriminate.
    - intros E. f_equal. apply F; [apply I; left; reflexivity|exact E].
    - rewrite Qeq_bool_iff. intros E. f_equal. rewrite <- (Q1 q eq_refl), <- (Q2 p eq_refl). apply Qred_complete. exact E. }
  assert (Mt : forall c d, (forall f, In f (flat_map (fun c => [fst c; snd c]) c) -> In f (floats a)) -> all2 eq_complex c d = true -> c = d).
  { induction c as [|[x y] c IH]; intros [|[x' y'] d] I; cbn; try discriminate; [reflexivity|]. unfold eq_complex. cbn [fst snd]. rewrite !andb_true_iff. intros ((E & K) & L).
    f_equal; [f_equal; (apply F; [apply I; cbn; auto|assumption])|]. apply IH; [|exact L]. intros f J. apply I. cbn. auto. }
  destruct a as [[]|[]], b as [[]|[]]; cbn; try discriminate; try reflexivity; intros E; do 2 f_equal;
    try (apply Mt; [auto|exact E]); (apply Rt; [auto|intros q ->; assumption|intros q ->; assumption|exact E]).
Qed.
Print Assumptions C62_same.

Section Contract.
Context (show : spec_float -> string) (ratio_writes : Q -> list write) (Hr : forall p q, Qeq p q -> ratio_writes p = ratio_writes q).
Lemma hash_floats a b : eq_fobj a b = true -> floats a = floats b -> hash_fobj show ratio_writes a = hash_fobj show ratio_writes b.
Proof.
  assert (Rt : forall t u, eq_rot t u = true -> rot_floats t = rot_floats u -> hash_rot show ratio_writes t = hash_rot show ratio_writes u).
  { intros [f|q] [g|p]; cbn; try discriminate; [intros _ [= ->]; reflexivity|]. rewrite Qeq_bool_iff. intros E _. apply Hr. exact E. }
  assert (Mt : forall c d, all2 eq_complex c d = true -> flat_map (fun c : spec_float * spec_float => [fst c; snd c]) c = flat_map (fun c => [fst c; snd c]) d -> c = d).
  { induction c as [|[x y] c IH]; intros [|[x' y'] d]; cbn; try discriminate; [reflexivity|]. rewrite andb_true_iff. intros (_ & K) [= -> -> E]. f_equal. apply IH; assumption. }
  destruct a as [[]|[]], b as [[]|[]]; cbn; try discriminate; try reflexivity; intros E K.
  - rewrite (Rt _ _ E K). reflexivity.
  - rewrite (Mt _ _ E K). reflexivity.
  - rewrite (Rt _ _ E K). reflexivity.
Qed.
(** Equal objects feed a hasher the same unless zeros of different sign are involved. *)
Lemma hash_iff a b : show (S754_zero true) <> show (S754_zero false) -> eq_fobj a b = true ->
  (hash_fobj show ratio_writes a = hash_fobj show ratio_writes b <-> floats a = floats b).
Proof.
  intros Hz E. split; [|apply hash_floats; exact E].
  assert (F : forall f g, SFeqb f g = true -> show f = show g -> f = g).
  { intros f g X S. apply feq_exact in X. destruct X as [(X & _)|((s & ->) & (s' & ->))]; [exact X|]. destruct s, s'; try reflexivity; exfalso; apply Hz; congruence. }
  assert (Rt : forall t u, eq_rot t u = true -> hash_rot show ratio_writes t = hash_rot show ratio_writes u -> rot_floats t = rot_floats u).
  { intros [f|q] [g|p]; cbn; try discriminate; [|reflexivity]. intros X [= S]. f_equal. apply F; assumption. }
  assert (Mt : forall c d, all2 eq_complex c d = true -> flat_map (fun c => hash_p show (fst c) ++ hash_p show (snd c)) c = flat_map (fun c => hash_p show (fst c) ++ hash_p show (snd c)) d -> c = d).
  { induction c as [|[x y] c IH]; intros [|[x' y'] d]; cbn; try discriminate; [reflexivity|]. unfold eq_complex. cbn [fst snd]. rewrite !andb_true_iff. intros ((X & Y) & L) [= S1 S2 S3]. f_equal; [f_equal; apply F; assumption|]. apply IH; assumption. }
  destruct a as [[]|[]], b as [[]|[]]; cbn in *; try discriminate; try reflexivity; intros [= K]; [apply Rt; assumption|rewrite (Mt _ _ E K); reflexivity|apply Rt; assumption].
Qed.
End Contract.
(** The contract [k1 == k2 -> hash(k1) == hash(k2)], for every hasher, on objects without zero floats. *)
Theorem C62_hash_partial : forall show ratio_writes S (feed : S -> write -> S) init, (forall p q, Qeq p q -> ratio_writes p = ratio_writes q) ->
  forall a b, (forall f, In f (floats a) -> ~ is_zero_f f) -> eq_fobj a b = true ->
  hashed feed init (hash_fobj show ratio_writes a) = hashed feed init (hash_fobj show ratio_writes b).
Proof.
  intros show rw S feed init Hr a b Z E. f_equal. apply hash_floats; [exact Hr|exact E|].
  assert (F : forall f g, ~ is_zero_f f -> SFeqb f g = true -> f = g).
  { intros f g N X. apply feq_exact in X. destruct X as [(X & _)|(X & _)]; [exact X|contradiction]. }
  assert (Rt : forall t u, (forall f, In f (rot_floats t) -> ~ is_zero_f f) -> eq_rot t u = true -> rot_floats t = rot_floats u).
  { intros [f|q] [g|p] N; cbn; try discriminate; [|reflexivity]. intros X. f_equal. apply F; [apply N; left; reflexivity|exact X]. }
  assert (Mt : forall c d, (forall f, In f (flat_map (fun c => [fst c; snd c]) c) -> ~ is_zero_f f) -> all2 eq_complex c d = true ->
    flat_map (fun c : spec_float * spec_float => [fst c; snd c]) c = flat_map (fun c => [fst c; snd c]) d).
  { induction c as [|[x y] c IH]; intros [|[x' y'] d] N; cbn; try discriminate; [reflexivity|]. unfold eq_complex. cbn [fst snd]. rewrite !andb_true_iff. intros ((X & Y) & L).
    f_equal; [|f_equal]; [apply F; [apply N; cbn; auto|exact X]|apply F; [apply N; cbn; auto|exact Y]|]. apply IH; [|exact L]. intros f I. apply N. cbn. auto. }
  destruct a as [[]|[]], b as [[]|[]]; cbn in *; try discriminate; try reflexivity; [apply Rt|apply Mt|apply Rt]; assumption.
Qed.
Print Assumptions C62_hash_partial.
(** When floats may be zero: exactly the signs of the zeros decide. *)
Theorem C62_hash_exact : forall show ratio_writes, (forall p q, Qeq p q -> ratio_writes p = ratio_writes q) ->
  show (S754_zero true) <> show (S754_zero false) -> forall a b, eq_fobj a b = true ->
  ((forall S (feed : S -> write -> S) init, hashed feed init (hash_fobj show ratio_writes a) = hashed feed init (hash_fobj show ratio_writes b)) <-> floats a = floats b).
Proof.
  intros show rw Hr Hz a b E. rewrite <- (hash_iff show rw Hr a b Hz E). split; [|intros ->; reflexivity].
  intros H. specialize (H (list write) (fun l w => l ++ [w]) []). unfold hashed in H.
  assert (G : forall ws l : list write, fold_left (fun l w => l ++ [w]) ws l = l ++ ws) by (induction ws as [|w ws IH]; intros l; cbn; [rewrite app_nil_r; reflexivity|rewrite IH, <- app_assoc; reflexivity]).
  rewrite !G in H. exact H.
Qed.
Print Assumptions C62_hash_exact.
(** Both halves of the contract fail: 0.0 and -0.0 are equal and hash differently, and NaN is not equal to itself. *)
Theorem C62_refuted : forall show ratio_writes, show (S754_zero true) = "-0"%string -> show (S754_zero false) = "0"%string ->
  (exists a b, eq_fobj a b = true /\ exists S (feed : S -> write -> S) init, hashed feed init (hash_fobj show ratio_writes a) <> hashed feed init (hash_fobj show ratio_writes b)) /\
  (exists a, eq_fobj a a = false).
Proof.
  intros show rw Ht Hf. split.
  - exists (FUnit (FRz (FFloating (S754_zero false)))), (FUnit (FRz (FFloating (S754_zero true)))). split; [reflexivity|].
    exists (list write), (fun l w => l ++ [w]), []. cbn. unfold hash_p. rewrite Ht, Hf. discriminate.
  - exists (FUnit (FPhase (FFloating S754_nan))). reflexivity.
Qed.
Print Assumptions C62_refuted.

(** What num_rational writes meets the hypothesis on ratios. *)
Lemma recurse_scale : forall fuel k n d, (0 < k)%Z -> ratio_recurse fuel (k * n) (k * d) = ratio_recurse fuel n d.
Proof.
  induction fuel as [|fuel IH]; intros k n d Hk; [reflexivity|]. cbn [ratio_recurse].
  destruct (Z.eqb_spec d 0) as [->|Hd]; [rewrite Z.mul_0_r; reflexivity|]. destruct (Z.eqb_spec (k * d) 0) as [E|_]; [exfalso; nia|].
  rewrite Z.div_mul_cancel_l, Z.mul_mod_distr_l, IH by lia. reflexivity.
Qed.
Lemma recurse_fuel : forall f1 f2 n d, (0 <= d < Z.of_nat f1)%Z -> (d < Z.of_nat f2)%Z -> ratio_recurse f1 n d = ratio_recurse f2 n d.
Proof.
  induction f1 as [|f1 IH]; intros [|f2] n d H1 H2; try lia. cbn [ratio_recurse]. destruct (Z.eqb_spec d 0) as [|Hd]; [reflexivity|]. f_equal.
  pose proof (Z.mod_pos_bound n d). apply IH; lia.
Qed.
Theorem C62_ratio_hash : forall p q, Qeq p q -> ratio_hash p = ratio_hash q.
Proof.
  intros [n d] [m e] H. unfold Qeq in H. cbn [Qnum Qden] in H. unfold ratio_hash. cbn [Qnum Qden].
  set (F := S (Pos.to_nat (d * e))).
  rewrite (recurse_fuel _ F n (Zpos d)) by (unfold F; rewrite ?Pos2Nat.inj_mul; nia). rewrite (recurse_fuel _ F m (Zpos e)) by (unfold F; rewrite ?Pos2Nat.inj_mul; nia).
  rewrite <- (recurse_scale F (Zpos e) n (Zpos d)) by lia. rewrite <- (recurse_scale F (Zpos d) m (Zpos e)) by lia.
  f_equal; lia.
Qed.
Print Assumptions C62_ratio_hash.
(** All hypotheses can be met: a display in the style of the standard library, 1/2 = 2/4, and a
    matrix object with 1.0 and -0.0 against one with 1.0 and 0.0. *)
Definition show_ex (f : spec_float) : string :=
  match f with S754_zero true => "-0" | S754_zero false => "0" | S754_nan => "NaN" | S754_infinity false => "inf" | S754_infinity true => "-inf" | S754_finite _ _ _ => "1" end.
Example C62_example :
  ratio_hash (1 # 2) = [W64 0; W64 2; W64 0] /\ ratio_hash (2 # 4) = ratio_hash (1 # 2) /\ ratio_hash (-1 # 3) = [W64 (-1); W64 1; W64 2; W64 0] /\
  eq_fobj (FUnit (FRz (FPiRational (1 # 2)))) (FUnit (FRz (FPiRational (2 # 4)))) = true /\
  (let one := S754_finite false 1 0 in
   eq_fobj (FUnit (FMAT [(one, S754_zero true)])) (FUnit (FMAT [(one, S754_zero false)])) = true /\
   hash_fobj show_ex ratio_hash (FUnit (FMAT [(one, S754_zero true)])) = [W8 1; W8 10; WStr "1"; WStr "-0"] /\
   hash_fobj show_ex ratio_hash (FUnit (FMAT [(one, S754_zero false)])) = [W8 1; W8 10; WStr "1"; WStr "0"]).
Proof. repeat split. Qed.
