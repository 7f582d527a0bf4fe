(** The numbers of qubits do not matter: C105. *)
From Coq Require Import Reals Lra FunctionalExtensionality Permutation.
From Coquelicot Require Import Complex.
From Verif Require Import Base BitsSpec BitsProofs OpsModel OpsSpec OpsProofs Instances BuilderModel SimModel HistorySpec DenSpec DenProofs SimSpec SimProofs MeasureSpec MeasureProofs ProjSpec WholeSpec WholeProofs WholeProofs2 WholeProofs3 SubSpec SubProofs AwaySpec AwayProofs GateProofs AwayProofs2 ShiftSpec RenameSpec RenameProofs2.
Local Open Scope nat_scope.

(** *** C105: calls given renamed registers return, fail and panic alike, with renamed objects. *)
Theorem C105_same_calls : forall n f p cl, renumbers n f -> (forall q, n <= q -> f q = q) -> n <= bn (bld (fst cl)) -> Forall (fun c => no_absolute (fst c)) p ->
  play p (renamed f cl) = option_map (renamed f) (play p cl).
Proof. intros n f p cl (_ & J) ID B H. exact (proj1 (play_renamed n f J ID p cl B H)). Qed.
Print Assumptions C105_same_calls.

(** The renamed program simulates to the state with the qubits renamed. *)
Theorem C105_state : forall f b it x draws, renumbers (bn b) f -> (forall r v, In (r, v) it -> in_range (bn b) r) -> loads it x ->
  Forall (wf_entry (bn b)) (pipeline b) -> Forall plain_entry (pipeline b) ->
  exists v w, calculate_state_with_init b it draws = Ok (v, []) /\ calculate_state_with_init (renamed_builder f b) (renamed_init f it) draws = Ok (w, []) /\ length w = 2 ^ bn b /\
    forall y, nth (enc (bn b) y) w (RtoC 0) = nth (enc (bn b) (fun q => y (f q))) v (RtoC 0).
Proof.
  intros f b it x draws RN R L W P. set (n := bn b) in *.
  destruct (simulate_ok b it x draws R L W P) as (v & E & Lv & S).
  destruct (simulate_ok (renamed_builder f b) (renamed_init f it) (back n f x) draws) as (w & E' & Lw & S').
  - exact (range_renamed n f RN it R).
  - exact (loads_renamed n f RN it x R L).
  - exact (wf_renamed n f RN _ W).
  - exact (plain_renamed f _ P).
  - exists v, w. split; [exact E|]. split; [exact E'|]. split; [exact Lw|]. intros y. change (bn (renamed_builder f b)) with n in *. fold n in S, Lv.
    change (st_of CN n w y = st_of CN n v (fun q => y (f q))). rewrite S'. rewrite S.
    assert (G : Forall gate_or_meas (pipeline b)). { eapply Forall_impl; [|exact P]. intros [qs [k [u|m]]] X; [|destruct X]. destruct u; try exact I. destruct X. }
    rewrite <- (plain_branch _ P []), <- (turn_ket n f RN x), <- (turn_branch n f RN _ [] _ W G (vec_ket n _)).
    rewrite turn_back by (first [exact RN|apply branch_vec; [exact (wf_renamed n f RN _ W)|exact (gm_renamed f _ G)|apply vec_ket]]).
    rewrite (plain_branch _ (plain_renamed f _ P)). reflexivity.
Qed.
Print Assumptions C105_state.

(** The outcomes of its measurements have the same joint distribution. *)
Theorem C105_distribution : forall f b it x ms, renumbers (bn b) f -> (forall r v, In (r, v) it -> in_range (bn b) r) -> loads it x ->
  Forall (wf_entry (bn b)) (pipeline b) -> Forall unitary_entry (pipeline b) -> Forall gate_or_meas (pipeline b) ->
  Forall2 (fun qs m => m < 2 ^ length qs) (measured (pipeline b)) ms ->
  exists a, over_draws (length ms) (fun d => gives (calculate_state_with_init b it d) ms) a /\
    over_draws (length ms) (fun d => gives (calculate_state_with_init (renamed_builder f b) (renamed_init f it) d) ms) a.
Proof.
  intros f b it x ms RN R L W U G H. set (n := bn b) in *. exists (weight n (branch (pipeline b) ms (ket n x))). split; [apply joint_born; assumption|].
  rewrite <- (turn_ket n f RN x), <- (turn_branch n f RN _ ms _ W G (vec_ket n _)).
  rewrite turn_weight by (first [exact RN|apply branch_vec; [exact (wf_renamed n f RN _ W)|exact (gm_renamed f _ G)|apply vec_ket]]).
  apply (joint_born (renamed_builder f b) (renamed_init f it) (back n f x)).
  - exact (range_renamed n f RN it R).
  - exact (loads_renamed n f RN it x R L).
  - exact (wf_renamed n f RN _ W).
  - exact (unitary_renamed f _ U).
  - exact (gm_renamed f _ G).
  - cbn [renamed_builder pipeline]. rewrite measured_renamed. clear - H. induction H as [|qs m l l' Hm _ IH]; cbn [map]; constructor; [|exact IH]. rewrite map_length. exact Hm.
Qed.
Print Assumptions C105_distribution.

(** The order in which registers are allocated does not matter: the rest of the program does the same to the
    renamed qubits. *)
Theorem C105_allocation_order : forall ks order p, Permutation order (seq 0 (length ks)) -> Forall (fun k => 0 < k) ks -> Forall (fun c => no_absolute (fst c)) p ->
  exists f cl, allocated_in ks (seq 0 (length ks)) = Some cl /\ allocated_in ks order = Some (renamed f cl) /\
    play p (renamed f cl) = option_map (renamed f) (play p cl) /\ forall cl', play p cl = Some cl' -> renumbers (bn (bld (fst cl'))) f.
Proof.
  intros ks order p P K H. destruct (allocation_order ks order P K) as (f & cl & RN & ID & _ & E1 & E2). exists f, cl.
  destruct (play_renamed (bn (bld (fst cl))) f (proj2 RN) ID p cl (le_n _) H) as [E B]. split; [exact E1|]. split; [exact E2|]. split; [exact E|].
  intros cl' X. specialize (B cl' X). split; [|exact (proj2 RN)]. intros q Hq. destruct (Nat.lt_ge_cases q (bn (bld (fst cl)))) as [Y|Y]; [apply RN in Y; lia|rewrite ID by exact Y; exact Hq].
Qed.
Print Assumptions C105_allocation_order.

(** Registers of one and of two qubits, a controlled not from the first to both of the others and a measurement;
    the second register is allocated first. *)
Definition fan_out : script := [(CGate UH, [0]); (CCnot, [1; 0]); (CMeasure, [1])].
Definition in_order : client := (mkSt (mkB [] 3 [] 0) [], [[0]; [1; 2]]).
Definition other_order : client := (mkSt (mkB [] 3 [] 0) [], [[2]; [0; 1]]).
Definition outline (o : option client) := option_map (fun cl => (map fst (pipeline (bld (fst cl))), snd cl)) o.
Example C105_witness : allocated_in [1; 2] [0; 1] = Some in_order /\ allocated_in [1; 2] [1; 0] = Some other_order /\
  outline (play fan_out in_order) = Some ([[0]; [0; 1]; [0; 2]; [1; 2]], [[0]; [1; 2]]) /\
  outline (play fan_out other_order) = Some ([[2]; [2; 0]; [2; 1]; [0; 1]], [[2]; [0; 1]]).
Proof. vm_compute. repeat (split; [reflexivity|]). reflexivity. Qed.
