(** The writes of a circuit object determine it: C62. *)
From Coq Require Import ZArith QArith List Bool SpecFloat String Lia.
From Verif Require Import Base BuilderModel HashModel HashSpec PropHash.
Import ListNotations.
Local Open Scope nat_scope.

(** *** Ratios *)
Lemma recurse_ne fuel n d : (0 <= d < Z.of_nat fuel)%Z -> ratio_recurse fuel n d <> [].
Proof. destruct fuel; [lia|]. intros _. cbn [ratio_recurse]. destruct (d =? 0)%Z; discriminate. Qed.
Lemma recurse_inj : forall f1 f2 n d m e, (0 <= d < Z.of_nat f1)%Z -> (0 <= e < Z.of_nat f2)%Z -> ratio_recurse f1 n d = ratio_recurse f2 m e ->
  (d = 0 <-> e = 0)%Z /\ (d <> 0 -> n * e = m * d)%Z.
Proof.
  induction f1 as [|f1 IH]; intros [|f2] n d m e H1 H2 E; try lia. cbn [ratio_recurse] in E.
  destruct (Z.eqb_spec d 0) as [->|Hd], (Z.eqb_spec e 0) as [->|He].
  - split; [tauto|congruence].
  - exfalso. injection E as _ E. symmetry in E. revert E. apply recurse_ne. pose proof (Z.mod_pos_bound m e). lia.
  - exfalso. injection E as _ E. revert E. apply recurse_ne. pose proof (Z.mod_pos_bound n d). lia.
  - split; [tauto|]. intros _. injection E as Q E. pose proof (Z.mod_pos_bound n d ltac:(lia)) as B1. pose proof (Z.mod_pos_bound m e ltac:(lia)) as B2.
    destruct (IH f2 d (n mod d)%Z e (m mod e)%Z ltac:(lia) ltac:(lia) E) as (Z0 & X).
    rewrite (Z.div_mod n d Hd), (Z.div_mod m e He), Q. destruct (Z.eq_dec (n mod d) 0) as [R|R].
    + rewrite R, (proj1 Z0 R). ring.
    + specialize (X R). set (r := (n mod d)%Z) in *. set (r' := (m mod e)%Z) in *. set (q := (m / e)%Z). nia.
Qed.
(** *** C62: different ratios, and different objects, are told apart by what they write. *)
Theorem C62_ratio_writes : forall p q, ratio_hash p = ratio_hash q <-> Qeq p q.
Proof.
  intros p q. split; [|apply C62_ratio_hash]. intros E. unfold ratio_hash in E. apply recurse_inj in E; [|lia|lia]. destruct E as (_ & E). unfold Qeq. apply E. discriminate.
Qed.
Print Assumptions C62_ratio_writes.
(** If floats that are displayed alike are the same, objects without NaN that make the same writes are equal. *)
Theorem C62_writes_determine : forall show, (forall f g, show f = show g -> f = g) ->
  forall a b, (forall f, In f (floats a) -> ~ is_nan_f f) -> hash_fobj show ratio_hash a = hash_fobj show ratio_hash b -> eq_fobj a b = true.
Proof.
  intros show Inj a b H E.
  assert (Rw : forall q s l, ratio_hash q <> WStr s :: l) by (intros q s l; unfold ratio_hash; cbn [ratio_recurse]; destruct (Z.pos (Qden q) =? 0)%Z; discriminate).
  assert (Rt : forall t u, (forall f, In f (rot_floats t) -> ~ is_nan_f f) -> hash_rot show ratio_hash t = hash_rot show ratio_hash u -> eq_rot t u = true).
  { intros [f|p] [g|q] N X; cbn [hash_rot hash_p eq_rot rot_floats] in *.
    - injection X as X. apply Inj in X. subst g. apply feq_exact. left. split; [reflexivity|]. apply N. left. reflexivity.
    - exfalso. symmetry in X. exact (Rw _ _ _ X).
    - exfalso. exact (Rw _ _ _ X).
    - apply Qeq_bool_iff. apply C62_ratio_writes. exact X. }
  assert (Mt : forall c d, (forall f, In f (flat_map (fun c => [fst c; snd c]) c) -> ~ is_nan_f f) ->
    flat_map (fun c => hash_p show (fst c) ++ hash_p show (snd c)) c = flat_map (fun c => hash_p show (fst c) ++ hash_p show (snd c)) d -> all2 eq_complex c d = true).
  { induction c as [|[x y] c IH]; intros [|[x' y'] d] N X; cbn in X; try discriminate; [reflexivity|]. injection X as X1 X2 X3. apply Inj in X1, X2. subst x' y'. cbn [all2]. unfold eq_complex. cbn [fst snd]. rewrite !andb_true_iff.
    split; [split; apply feq_exact; left; (split; [reflexivity|]); apply N; cbn; auto|]. apply IH; [|exact X3]. intros f I. apply N. cbn. auto. }
  destruct a as [[]|[]], b as [[]|[]]; cbn [hash_fobj hash_unitary hash_mobj eq_fobj eq_unitary eq_mobj] in *; try discriminate; try reflexivity; injection E as E; [apply Rt|apply Mt|apply Rt]; assumption.
Qed.
Print Assumptions C62_writes_determine.
(** So a hasher that keeps all writes separates an rz from a phase with the same angle, and the two measurements. *)
Example C62_writes_example : forall show t, hash_fobj show ratio_hash (FUnit (FRz t)) <> hash_fobj show ratio_hash (FUnit (FPhase t)) /\
  hash_fobj show ratio_hash (FMeas MSingle) <> hash_fobj show ratio_hash (FMeas MStoch) /\ ratio_hash (1 # 2) <> ratio_hash (1 # 3).
Proof. intros show t. split; [|split]; discriminate. Qed.
