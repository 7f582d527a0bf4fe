(** Calls do not reach the registers they are not given; entries on different qubits can be exchanged. *)
From Coq Require Import Reals QArith.
From Coquelicot Require Import Complex.
From Verif Require Import Base BitsSpec BitsProofs OpsSpec Instances MeasureSpec BuilderModel HistorySpec HistoryProofs SimModel DenSpec SimSpec ProjSpec WholeSpec ShapeSpec AwaySpec AwayProofs AwayProofs2.
Local Open Scope nat_scope.

(** *** C98 *)
(** Whatever calls are made, they append nothing that acts on a register they are not given, and it stays
    with the client. *)
Theorem C98_untouched : forall r cl1 cl2, reach distinct_positions start cl1 -> incl r (concat (snd cl1)) -> apart r cl1 cl2 ->
  bn (bld (fst cl1)) <= bn (bld (fst cl2)) /\ incl r (concat (snd cl2)) /\
  exists p, pipeline (bld (fst cl2)) = pipeline (bld (fst cl1)) ++ p /\ forall e q, In e p -> In q (fst e) -> ~ In q r.
Proof. exact apart_untouched. Qed.
Print Assumptions C98_untouched.
(** A qubit nobody holds any more (its register was dropped) is never acted on or handed out again. *)
Theorem C98_dropped : forall cl1 cl2 q, reach distinct_positions start cl1 -> q < bn (bld (fst cl1)) -> ~ In q (held cl1) -> reach distinct_positions cl1 cl2 ->
  q < bn (bld (fst cl2)) /\ ~ In q (held cl2) /\
  exists p, pipeline (bld (fst cl2)) = pipeline (bld (fst cl1)) ++ p /\ forall e, In e p -> ~ In q (fst e).
Proof. exact lost_untouched. Qed.
Print Assumptions C98_dropped.
(** What measuring the register shows (together with all earlier outcomes) has the same distribution before
    and after such calls, over all outcomes of the measurements among them. *)
Theorem C98_no_signalling : forall cl1 cl2 r it x, reach distinct_positions start cl1 -> incl r (concat (snd cl1)) -> NoDup r -> apart r cl1 cl2 ->
  Forall suits (pipeline (bld (fst cl2))) -> Forall unitary_entry (pipeline (bld (fst cl2))) -> Forall gate_or_meas (pipeline (bld (fst cl2))) ->
  (forall r v, In (r, v) it -> in_range (bn (bld (fst cl1))) r) -> loads it x ->
  exists later h1 h2 s1 s2, measured (pipeline (bld (fst cl2))) = measured (pipeline (bld (fst cl1))) ++ later /\
    measure_single r (fst cl1) = Ret (r, h1) s1 /\ measure_single r (fst cl2) = Ret (r, h2) s2 /\
    forall ms m, Forall2 (fun qs m => m < 2 ^ length qs) (measured (pipeline (bld (fst cl1)))) ms -> m < 2 ^ length r ->
    exists P, (forall ms', In ms' (outcomes later) ->
        over_draws (length (ms ++ ms' ++ [m])) (fun d => gives (calculate_state_with_init (bld s2) it d) (ms ++ ms' ++ [m])) (P ms')) /\
      over_draws (length (ms ++ [m])) (fun d => gives (calculate_state_with_init (bld s1) it d) (ms ++ [m])) (rsum P (outcomes later)).
Proof. exact no_signalling. Qed.
Print Assumptions C98_no_signalling.

Fixpoint played (l : list (call * list nat)) (cl : client) : client :=
  match l with [] => cl | (c, ps) :: l => match do_call cl c ps with Some cl' => played l cl' | None => cl end end.
Fixpoint all_apart (r : list nat) (l : list (call * list nat)) (cl : client) : Prop :=
  match l with
  | [] => True
  | (c, ps) :: l => distinct_positions c /\ legal (snd cl) ps /\ (forall q, In q r -> ~ In q (concat (pick (snd cl) ps))) /\
      match do_call cl c ps with Some cl' => all_apart r l cl' | None => False end
  end.
Lemma apart_played r l : forall cl0 cl, apart r cl0 cl -> all_apart r l cl -> apart r cl0 (played l cl).
Proof.
  induction l as [|[c ps] l IH]; intros cl0 cl H A; [exact H|]. cbn [all_apart played] in *. destruct A as (D & L & N & A). destruct (do_call cl c ps) as [cl'|] eqn:E; [|destruct A].
  apply IH; [|exact A]. exact (apart_step r cl0 cl cl' c ps H D L N E).
Qed.
(** Two parties share a Bell pair; one applies h, a toffoli with new qubits, and measures; the other's qubit is 1. *)
Definition pair_up : list (call * list nat) := [(CRegister 1, []); (CRegister 1, []); (CGate UH, [0]); (CCnot, [1; 0])].
Definition meanwhile : list (call * list nat) := [(CGate UH, [0]); (CRegister 3, []); (CToffoli, [2; 1]); (CMeasure, [2])].
Local Ltac played_ok := cbn [all_apart]; repeat match goal with |- context[do_call ?a ?b ?c] => let v := eval vm_compute in (do_call a b c) in progress change (do_call a b c) with v; cbv iota beta end;
  unfold legal; cbn; repeat match goal with
      | |- _ /\ _ => split
      | |- NoDup [] => constructor
      | |- NoDup (_ :: _) => constructor; [cbn; intuition lia|]
      | |- True => exact I
      | |- _ => intros; intuition (discriminate || lia)
      end.
Definition shared : client := Eval vm_compute in played pair_up start.
Definition later_on : client := Eval vm_compute in played meanwhile shared.
Example C98_example : shared = played pair_up start /\ later_on = played meanwhile shared /\
  reach distinct_positions start shared /\ incl [1] (concat (snd shared)) /\ NoDup [1] /\ apart [1] shared later_on /\
  Forall suits (pipeline (bld (fst later_on))) /\ Forall unitary_entry (pipeline (bld (fst later_on))) /\ Forall gate_or_meas (pipeline (bld (fst later_on))) /\
  snd later_on = [[1]; [2; 3; 4]; [0]] /\ bn (bld (fst shared)) = 2 /\ bn (bld (fst later_on)) = 6 /\ length (pipeline (bld (fst shared))) = 2 /\
  20 < length (pipeline (bld (fst later_on))) /\ measured (pipeline (bld (fst later_on))) = [[0]].
Proof.
  assert (E1 : shared = played pair_up start) by (vm_compute; reflexivity). assert (E2 : later_on = played meanwhile shared) by (vm_compute; reflexivity).
  split; [exact E1|]. split; [exact E2|]. split; [|split; [|split; [|split]]].
  - rewrite E1. apply (apart_reach []). apply apart_played; [constructor|]. clear E1 E2. unfold pair_up. played_ok.
  - intros q [<-|[]]. vm_compute. auto.
  - repeat constructor. intros [].
  - rewrite E2. apply apart_played; [constructor|]. clear E1 E2. unfold meanwhile, shared. played_ok.
  - clear E1 E2. unfold later_on, shared. cbn [fst snd bld pipeline bn length measured co_obj]. split; [|split; [|split]]; [| | |repeat split; try reflexivity; lia].
    + repeat apply Forall_cons; try apply Forall_nil; cbn; auto.
    + repeat apply Forall_cons; try apply Forall_nil; cbn; auto.
    + repeat apply Forall_cons; try apply Forall_nil; cbn; auto.
Qed.

(** *** C99 *)
(** Gates: the very same vector. *)
Theorem C99_same_state : forall b b' it x draws, (forall r v, In (r, v) it -> in_range (bn b) r) -> loads it x -> bn b' = bn b -> reordered (pipeline b) (pipeline b') ->
  Forall (wf_entry (bn b)) (pipeline b) -> Forall plain_entry (pipeline b) ->
  exists v, calculate_state_with_init b it draws = Ok (v, []) /\ calculate_state_with_init b' it draws = Ok (v, []).
Proof. exact reordered_state. Qed.
Print Assumptions C99_same_state.
(** With measurements: the same joint distribution of the outcomes. *)
Theorem C99_same_distribution : forall b b' it x, (forall r v, In (r, v) it -> in_range (bn b) r) -> loads it x -> bn b' = bn b -> reordered (pipeline b) (pipeline b') ->
  Forall (wf_entry (bn b)) (pipeline b) -> Forall unitary_entry (pipeline b) -> Forall gate_or_meas (pipeline b) ->
  forall ms, Forall2 (fun qs m => m < 2 ^ length qs) (measured (pipeline b)) ms -> exists a,
    over_draws (length ms) (fun d => gives (calculate_state_with_init b it d) ms) a /\ over_draws (length ms) (fun d => gives (calculate_state_with_init b' it d) ms) a.
Proof. exact reordered_joint. Qed.
Print Assumptions C99_same_distribution.
(** A measurement moved over gates on other qubits. *)
Definition early : builder := mkB [([1], mkCO 1 (OUnit UH)); ([1], mkCO 1 (OMeas MSingle)); ([0], mkCO 1 (OUnit UH)); ([0; 2], mkCO 2 (OUnit UCNOT))] 3 [] 1.
Definition late : builder := mkB [([0], mkCO 1 (OUnit UH)); ([1], mkCO 1 (OUnit UH)); ([0; 2], mkCO 2 (OUnit UCNOT)); ([1], mkCO 1 (OMeas MSingle))] 3 [] 1.
Example C99_example : (forall r v, In (r, v) ([] : list (reg * nat)) -> in_range (bn early) r) /\ loads [] (fun _ => false) /\ bn late = bn early /\
  reordered (pipeline early) (pipeline late) /\ pipeline early <> pipeline late /\
  Forall (wf_entry (bn early)) (pipeline early) /\ Forall unitary_entry (pipeline early) /\ Forall gate_or_meas (pipeline early) /\
  Forall2 (fun qs m => m < 2 ^ length qs) (measured (pipeline early)) [1].
Proof.
  split; [intros ? ? []|]. split; [split; [intros ? ? []|reflexivity]|]. split; [reflexivity|]. split.
  - unfold early, late. cbn [pipeline].
    eapply reordered_more; [apply (reordered_swap [_] _ _ [_])|eapply reordered_more; [apply (reordered_swap [] _ _ [_; _])|apply (reordered_swap [_; _] _ _ [])]]; cbn; try reflexivity; intuition lia.
  - split; [discriminate|]. split; [|repeat split; repeat constructor].
    unfold wf_entry. cbn [pipeline early]. repeat apply Forall_cons; try apply Forall_nil; cbn; (split; [repeat constructor; cbn; intuition lia|split; [intuition lia|exact I || reflexivity]]).
Qed.
