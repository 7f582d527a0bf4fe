(** Toffoli with three controls under conditions. *)
From Coq Require Import Reals Lra FunctionalExtensionality Permutation.
From Coquelicot Require Import Complex.
From Verif Require Import Base BitsSpec BitsProofs OpsModel OpsSpec Instances BuilderModel RegProofs SimModel DenSpec DenProofs LocalProofs LinkProofs
  RunSpec RunProofs GateProofs ToffoliProofs CondProofs SubSpec SubProofs SubProofs2 SubProofs3 SubProofs5 ProgramModel ProgramSpec ProgramProofs ProgramProofs2
  WeakProofs TraceProofs PropGates PropCond CondToffProofs EndProofs3.
Local Open Scope nat_scope.
Local Open Scope mon_scope.


Lemma lift_ok {A B} (a : A) (f : A -> M B) : mbind (lift (Ok a)) f = f a.
Proof. reflexivity. Qed.

(** What three toffolis do in a row; the temporary [q] stays in view. *)
Definition toff3 (K : list nat) (a b c q t : nat) (psi : state) : state :=
  controlled K (tilted a b q) (controlled K (tilted c q t) (controlled K (tilted a b q) psi)).
(** The call takes [q] from the unused qubits and puts it back into the pool. *)
Definition acted (q : nat) (D : state -> state) : tr := fun s s' p => In q (pool s') /\
  forall psi, (forall i, idle s i -> i < bn (bld s') -> clean [i] psi) -> den p psi = D psi.
Lemma x_temp {A B} s L (m : M A) a q (f : A -> M B) b D : quiet s L m a (q :: L) -> idle s q -> ~ In q L ->
  (forall s1, conds s1 = conds s -> tidy s1 -> live s1 (q :: L) -> does s1 (q :: L) (f a) b L D) -> xdoes (acted q D) s L (mbind m f) b L.
Proof.
  intros (s1 & H1 & H2 & H3 & H4 & H5 & H6 & H7 & H8) Iq Nq H.
  destruct (H s1 H2 H6 H7) as (s2 & p & G1 & G2 & G3 & G4 & G5 & G6 & G7 & G8 & G9 & G10 & G11 & G12).
  assert (E : forall i, idle s2 i \/ In i L <-> idle s i \/ In i L) by (intros i; rewrite G10; apply H8).
  exists s2, p. unfold mbind. rewrite H1. split; [exact G1|]. split; [congruence|]. split; [congruence|]. split; [lia|]. split; [congruence|].
  do 4 (split; [assumption|]). split; [exact E|]. split.
  - assert (X : ~ idle s1 q) by (apply H7; left; reflexivity). destruct (proj2 (E q) (or_introl Iq)) as [[Y|Y]|Y]; [|exact Y|contradiction]. exfalso. apply X. left. lia.
  - intros psi Hp. apply G12. intros i Hi Hlt. apply Hp; [|exact Hlt]. destruct (proj1 (H8 i) (or_introl Hi)) as [X|X]; [exact X|]. exfalso. apply (proj2 H7 i); [right; exact X|exact Hi].
Qed.

Local Ltac nxt := match goal with C1 : conds ?s1 = conds ?s |- _ => let s2 := fresh "s1" in let C2 := fresh "C2" in intros s2 C2 ?T1 ?L1; rewrite C1 in C2; clear dependent s1 end.
Lemma toffoli3_cond d s a b c t : 0 < d -> wrapped d (conds s) -> tidy s -> live s (cqs d (conds s) ++ [a; b; c; t]) ->
  exists q, (idle s q /\ exists s0, make_zeroed_temp_qubit s = Ret [q] s0) /\ ~ In q (cqs d (conds s) ++ [a; b; c; t]) /\
  xdoes (acted q (toff3 (cqs d (conds s)) a b c q t)) s (cqs d (conds s) ++ [a; b; c; t]) (toffoli (aco d) [a; b; c] [t]) ([a; b; c], [t]) (cqs d (conds s) ++ [a; b; c; t]).
Proof.
  intros Hd W T Lv. set (K := cqs d (conds s)) in *. assert (N := proj1 Lv). apply NoDup_app_iff in N. destruct N as (NK & N4 & Dj).
  destruct (quiet_make s _ T Lv) as (q & Iq & Nq & Hq). exists q. split; [split; [exact Iq|destruct Hq as (s0 & Hq & _); exists s0; exact Hq]|]. split; [exact Nq|].
  assert (B : forall s1 i j k, conds s1 = conds s -> tidy s1 -> live s1 (q :: K ++ [a; b; c; t]) -> NoDup [i; j; k] -> incl [i; j; k] (q :: [a; b; c; t]) ->
    does s1 (q :: K ++ [a; b; c; t]) (basic_toffoli (aco d) [i; j] [k]) ([i; j], [k]) (q :: K ++ [a; b; c; t]) (controlled K (tilted i j k))).
  { intros s1 i j k C1 T1 L1 N3 I3. apply (does_part s1 _ (K ++ [i; j; k])).
    - apply NoDup_app_iff. split; [exact NK|]. split; [exact N3|]. intros x Hx Hi. apply I3 in Hi. destruct Hi as [<-|Hi]; [apply Nq, in_or_app; left; exact Hx|apply (Dj x Hx Hi)].
    - intros x Hx. apply in_app_iff in Hx. destruct Hx as [Hx|Hx]; [right; apply in_or_app; left; exact Hx|]. apply I3 in Hx. destruct Hx as [<-|Hx]; [left; reflexivity|right; apply in_or_app; right; exact Hx].
    - exact L1.
    - intros L2. unfold K in *. rewrite <- C1 in *. apply basic_toffoli_cond; assumption. }
  assert (Ncs : NoDup ([a; b] ++ [c])) by (inversion N4 as [|? ? X1 X2]; inversion X2 as [|? ? X3 X4]; inversion X4; subst; repeat constructor; cbn in *; intuition congruence).
  assert (Nqr : ~ In q [a; b; c; t]) by (intros X; apply Nq, in_or_app; right; exact X).
  unfold toffoli. cbn [length toffoli_fuel Nat.eqb].
  replace (split_rel [a; b; c] [0; 1]) with (Ok (Split [a; b] [c])) by (symmetry; apply (split_rel_prefix [a; b] [c]); [exact Ncs|discriminate|discriminate]). rewrite lift_ok.
  eapply x_temp; [exact Hq|exact Iq|exact Nq|]. intros s1 C1 T1 L1.
  assert (Na : NoDup [a; b; q]) by (inversion N4 as [|? ? X1 X2]; inversion X2 as [|? ? X3 X4]; inversion X4; subst; repeat constructor; cbn in *; intuition congruence).
  assert (Nc : NoDup [c; q; t]) by (inversion N4 as [|? ? X1 X2]; inversion X2 as [|? ? X3 X4]; inversion X4; subst; repeat constructor; cbn in *; intuition congruence).
  assert (Ia : incl [a; b; q] (q :: [a; b; c; t])) by (intros x Hx; cbn in *; intuition).
  assert (Ic : incl [c; q; t] (q :: [a; b; c; t])) by (intros x Hx; cbn in *; intuition).
  unfold toff3.
  eapply does_eq; [dbind; [apply does_unwrap, (B s1 a b q); assumption|]|].
  - nxt. cbn beta iota. eapply quiet_then_does; [apply quiet_lift; [apply (merge2_ok [c] [q]); discriminate|eassumption|eassumption]|apply incl_refl|apply incl_refl|].
    nxt. dbind; [apply does_unwrap, (B _ c q t); assumption|].
    nxt. cbn beta iota.
    eapply quiet_then_does; [apply quiet_lift; [apply (split_last_ok [c] q); [inversion Nc as [|? ? X1 X2]; repeat constructor; cbn in *; tauto|discriminate]|eassumption|eassumption]|apply incl_refl|apply incl_refl|].
    nxt. cbn beta iota. eapply quiet_then_does; [apply quiet_lift; [reflexivity|eassumption|eassumption]|apply incl_refl|apply incl_refl|].
    nxt. eapply does_then_quiet; [apply does_unwrap, (B _ a b q); assumption|].
    nxt. cbn beta iota. eapply quiet_bind; [apply (quiet_return _ [q]); [eassumption|eassumption|discriminate]|].
    nxt. eapply quiet_bind; [apply quiet_lift; [apply (merge2_ok [a; b] [c]); discriminate|eassumption|eassumption]|].
    nxt. apply quiet_ret; assumption.
  - reflexivity.
Qed.
