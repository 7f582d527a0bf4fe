(** qip/examples/macro_example.rs: C89, continued. *)
From Coq Require Import Permutation FunctionalExtensionality.
From Verif Require Import Base BuilderModel ProgramModel ExampleModel ExampleModel2 DenSpec RunSpec ProgramSpec RunProofs CondProofs ProgramProofs2 SubSpec LinkProofs PropProgram PropDoc.
Local Open Scope nat_scope.
Local Open Scope mon_scope.

Lemma nothing_acts d rs : acts d gamma_nothing rs (fun psi => psi).
Proof.
  split; [apply only_id|]. intros s _ T Lv. eapply does_eq; [apply does_ret; assumption|]. intros psi. extensionality x. unfold controlled. destruct (forallb x _); reflexivity.
Qed.
(** A program of functions that only hand their registers back hands the registers back and leaves every state alone,
    whatever its lines name and whatever their controls. *)
Theorem C89_handing_back : forall d rs ls s, NoDup (concat rs) -> Forall (fun r => r <> []) rs ->
  Forall (fun l => line_ok rs l /\ (l_ctl l <> None -> l_args l <> []) /\ l_fun l = gamma_nothing) ls ->
  at_depth d s -> tidy s -> live s (cqs d (conds s) ++ concat rs) ->
  does s (cqs d (conds s) ++ concat rs) (program d rs ls) rs (cqs d (conds s) ++ concat rs) (fun psi => psi).
Proof.
  intros d rs ls s ND NE H At T Lv. replace ls with (map fst (map (fun l => (l, fun psi : state => psi)) ls)) by (rewrite map_map; apply map_id).
  eapply does_eq.
  - apply C60_program; try assumption. apply Forall_map. eapply Forall_impl; [|exact H]. intros l (A & B & E). cbn [fst snd].
    split; [exact A|]. split; [exact B|]. rewrite E. apply nothing_acts.
  - intros psi. assert (X : forall l psi, lines_op rs (map (fun l => (l, fun psi : state => psi)) l) psi = psi).
    { clear. induction l as [|l ls IH]; intros psi; [reflexivity|]. cbn [map lines_op]. rewrite IH. unfold line_op, call_op, controlled, selected.
      destruct (l_ctl l) as [[m|]|]; [| |reflexivity]; extensionality x; match goal with |- (if ?b then _ else _) = _ => destruct b end; reflexivity. }
    extensionality x. unfold controlled. rewrite X. destruct (forallb x _); reflexivity.
Qed.
Print Assumptions C89_handing_back.
(** The example itself: on registers of three qubits or more it hands both back and leaves every state alone. *)
Theorem C89_macro_example : forall a0 a1 a2 ra' b0 rb' s, let ra := a0 :: a1 :: a2 :: ra' in let rb := b0 :: rb' in
  conds s = [] -> tidy s -> live s (ra ++ rb) -> does s (ra ++ rb) (macro_example ra rb) [ra; rb] (ra ++ rb) (fun psi => psi).
Proof.
  intros a0 a1 a2 ra' b0 rb' s ra rb E T Lv. unfold macro_example. pose proof (doc_acts a0 a1 a2 ra' b0 rb' (proj1 Lv)) as F. fold ra rb in F.
  assert (EC : concat [ra; rb] = ra ++ rb) by (cbn [concat]; rewrite app_nil_r; reflexivity).
  match goal with |- does _ _ (program _ _ ?l) _ _ _ => pose proof (C89_handing_back 0 [ra; rb] l s) as X end. cbn [cqs app] in X. rewrite EC in X. apply X.
  - apply Lv.
  - repeat (apply Forall_cons; [discriminate|]). apply Forall_nil.
  - rewrite !Forall_cons_iff in F. destruct F as ((F1 & _) & (F2 & _) & (F3 & _) & (F4 & _) & (F5 & _) & _).
    repeat (apply Forall_cons; [split; [first [exact F1|exact F2|exact F3|exact F4|exact F5]|split; [discriminate|reflexivity]]|]). apply Forall_nil.
  - split; [rewrite E; reflexivity|intros j Hj; lia].
  - exact T.
  - exact Lv.
Qed.
Print Assumptions C89_macro_example.
(** What it records: the negations of [control(0b110)], twice. *)
Example C89_macro_example_pipeline : exists s, macro_example [0; 1; 2] [3; 4; 5] (fresh 6) = Ret [[0; 1; 2]; [3; 4; 5]] s /\ conds s = [] /\
  pipeline (bld s) = [([3], mkCO 1 (OUnit UX)); ([3], mkCO 1 (OUnit UX))].
Proof. eexists. split; [vm_compute; reflexivity|]. split; reflexivity. Qed.
