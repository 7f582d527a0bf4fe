(** C26 on words. *)
From Coq Require Import Arith Lia List NArith.
Import ListNotations.
From Verif Require Import Base BuilderModel WordModel WordModel4.
Local Open Scope nat_scope.

(** Up to 2^64 - 1 qubits in all [register] is what it is without bounds; beyond that it panics in both builds, and no
    qubit is handed out twice. *)
Theorem C26_words : forall m s k, in_word (bn (bld s)) = true -> in_word k = true -> 0 < k ->
  if in_word (bn (bld s) + k) then wregister m k s = register k s else exists p, wregister m k s = Crash p.
Proof.
  intros m s k Hn Hk K. unfold wregister, register, mbind, get, wadd, checked. destruct (in_word (bn (bld s) + k)) eqn:E.
  - cbn [lift]. replace (bn (bld s) + k - bn (bld s)) with k by lia. reflexivity.
  - destruct m; cbn [lift]; [eexists; reflexivity|].
    assert (W : wrap (bn (bld s) + k) - bn (bld s) = 0).
    { unfold in_word, wrap in *. apply N.ltb_lt in Hn, Hk. apply N.ltb_ge in E.
      assert (Q : (N.of_nat (bn (bld s) + k) mod word = N.of_nat (bn (bld s) + k) - word)%N).
      { symmetry. apply (N.mod_unique _ _ 1%N); lia. }
      rewrite Q. lia. }
    rewrite W. cbn [seq]. eexists. reflexivity.
Qed.
Print Assumptions C26_words.
Example C26_words_example : exists s, in_word (bn (bld s)) = true /\ in_word 5 = true /\ in_word (bn (bld s) + 5) = true /\ bn (bld s) = 7 /\ wregister Release 5 s = register 5 s.
Proof.
  exists (mkSt (mkB [] 7 [[3]] 0) []). repeat split.
Qed.
