(** C49, continued: any function, any number of conditions inside one another. *)
From Coq Require Import Permutation FunctionalExtensionality.
From Verif Require Import Base BitsSpec BuilderModel ProgramModel DenSpec RunSpec ProgramSpec RunProofs CondProofs ProgramProofs2 SubSpec LinkProofs ArithSpec ArithModel PropCond PropArith.
Local Open Scope nat_scope.
Local Open Scope mon_scope.

(** condition_with(c1), inside it condition_with(c2), ..., the call, the conditions dissolved from the inside out; the
    condition registers that come back, and the result. *)
Fixpoint nested {A} (cs : list reg) (m : M A) : M (list reg * A) :=
  match cs with
  | [] => a <- m ;; ret ([], a)
  | c :: cs => '(c, (l, a)) <- under c (nested cs m) ;; ret (c :: l, a)
  end.

Lemma does_then_ret {A B} s L (m : M A) a D (b : B) (k : A -> M B) : k a = ret b -> does s L m a L D -> does s L (mbind m k) b L D.
Proof.
  intros E H. eapply does_eq; [eapply does_bind; [exact H|apply incl_refl|apply incl_refl|]|].
  - intros s1 _ T Lv. rewrite E. apply does_ret; assumption.
  - reflexivity.
Qed.

Theorem C49_any_nesting : forall f rs D cs s, (forall d, acts d f rs D) -> Forall (fun c => c <> []) cs ->
  at_depth (length (conds s)) s -> tidy s ->
  let K := concat (rev cs) ++ cqs (length (conds s)) (conds s) in
  live s (K ++ concat rs) ->
  does s (K ++ concat rs) (nested cs (f (length cs + length (conds s)) rs)) (cs, rs) (K ++ concat rs) (controlled K D).
Proof.
  intros f rs D cs. induction cs as [|c cs IH]; intros s H Hc At T K Lv.
  - cbn [nested rev concat app length Nat.add] in *. apply (does_then_ret s _ _ rs); [reflexivity|].
    apply (proj2 (H (length (conds s)))); assumption.
  - cbn [nested]. eapply (does_then_ret s _ _ (c, (cs, rs))); [reflexivity|]. apply under_does.
    set (s1 := mkSt (bld s) (conds s ++ [Some c])) in *. inversion Hc; subst.
    assert (El : length (conds s1) = S (length (conds s))) by (unfold s1; cbn [conds]; rewrite app_length; cbn; lia).
    assert (EK : concat (rev cs) ++ cqs (length (conds s1)) (conds s1) = K).
    { rewrite El. unfold s1, K. cbn [conds]. rewrite cqs_last. cbn [rev]. rewrite concat_app. cbn [concat]. rewrite app_nil_r, <- app_assoc. reflexivity. }
    specialize (IH s1 H H3). cbv zeta in IH. rewrite EK in IH. rewrite El in IH. rewrite Nat.add_succ_r in IH. cbn [length Nat.add]. apply IH.
    + destruct At as [_ W]. split; [exact El|]. unfold s1. cbn [conds]. apply wrapped_last; [exact H2|exact W].
    + exact T.
    + exact Lv.
Qed.
Print Assumptions C49_any_nesting.

(** The same as one condition on all of them together. *)
Theorem C49_as_one : forall f rs D cs s, (forall d, acts d f rs D) -> Forall (fun c => c <> []) cs -> cs <> [] ->
  at_depth (length (conds s)) s -> tidy s ->
  let K := concat (rev cs) ++ cqs (length (conds s)) (conds s) in
  live s (K ++ concat rs) ->
  does s (K ++ concat rs) (under (concat (rev cs)) (f (S (length (conds s))) rs)) (concat (rev cs), rs) (K ++ concat rs) (controlled K D).
Proof.
  intros f rs D cs s H Hc Hn At T K Lv.
  assert (Hc' : concat (rev cs) <> []).
  { destruct cs as [|c cs]; [congruence|]. inversion Hc; subst. cbn [rev]. rewrite concat_app. cbn [concat]. rewrite app_nil_r. intros E. apply app_eq_nil in E. tauto. }
  apply under_does. set (s1 := mkSt (bld s) (conds s ++ [Some (concat (rev cs))])).
  assert (El : length (conds s1) = S (length (conds s))) by (unfold s1; cbn [conds]; rewrite app_length; cbn; lia).
  assert (EK : cqs (S (length (conds s))) (conds s1) = K) by (unfold s1; cbn [conds]; apply cqs_last).
  pose proof (proj2 (H (S (length (conds s)))) s1) as Y. rewrite EK in Y. apply Y.
  - destruct At as [_ W]. split; [exact El|]. unfold s1. cbn [conds]. apply wrapped_last; [exact Hc'|exact W].
  - exact T.
  - exact Lv.
Qed.
Print Assumptions C49_as_one.
(** carry under two conditions inside one another and on a builder that is itself conditioned. *)
Example C49_any_example : let s := mkSt (bld (fresh 8)) [Some [7]] in
  (forall d, acts d carry [[0]; [1]; [2]; [3]] (fun psi x => psi (upd x 3 (xorb (x 3) (maj (x 1) (x 2) (x 0)))))) /\
  Forall (fun c : reg => c <> []) [[4; 5]; [6]] /\ at_depth (length (conds s)) s /\ tidy s /\
  live s ((concat (rev [[4; 5]; [6]]) ++ cqs (length (conds s)) (conds s)) ++ concat [[0]; [1]; [2]; [3]]).
Proof.
  cbv zeta. split; [intros d; apply C55_carry; repeat (apply NoDup_cons; [cbn; lia|]); apply NoDup_nil|].
  split; [repeat (apply Forall_cons; [discriminate|]); apply Forall_nil|].
  split; [split; [reflexivity|intros [|k] Hk; [exists [7]; split; [reflexivity|discriminate]|cbn in Hk; lia]]|].
  split; [apply (fresh_tidy 8)|]. split.
  - cbn. repeat (apply NoDup_cons; [cbn; lia|]). apply NoDup_nil.
  - intros q Hq H. unfold idle, pool in H. cbn in Hq, H. lia.
Qed.
