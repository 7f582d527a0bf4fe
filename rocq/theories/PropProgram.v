(** What [program!] does: C59 and C60. *)
From Coq Require Import Reals FunctionalExtensionality Permutation.
From Coquelicot Require Import Complex.
From Verif Require Import Base BitsSpec BitsProofs OpsModel OpsSpec Instances BuilderModel RegProofs DenSpec DenProofs LocalProofs
  RunSpec RunProofs GateProofs ToffoliProofs CondProofs SubSpec SubProofs SubProofs2 SubProofs3 ProgramModel ProgramSpec ProgramProofs ProgramProofs2 ProgramProofs3 ScopeProofs.
Local Open Scope nat_scope.
Local Open Scope mon_scope.
Local Ltac nd := repeat constructor; cbn; intuition lia.

(** *** C59: masks *)
(** For every function [f] carrying out [D] one level deeper, the line with control register
    [cr] and mask [m] carries out [D] where qubit i of [cr] has the value of bit i of [m] for
    all i, under whatever conditions the builder already has, and gives all registers back. *)
Theorem C59_mask_selects : forall d m f args cr rest D s, acts (S d) f rest D -> Forall (fun r => r <> []) (cr :: rest) ->
  at_depth d s -> tidy s -> live s (cqs d (conds s) ++ concat (cr :: rest)) ->
  does s (cqs d (conds s) ++ concat (cr :: rest)) (call_line d (mkLine (Some (Some m)) f args) (cr :: rest)) (cr :: rest) (cqs d (conds s) ++ concat (cr :: rest))
    (controlled (cqs d (conds s)) (fun psi x => if matches cr m x then D psi x else psi x)).
Proof.
  intros d m f args cr rest D s A Ne Ad T Lv.
  assert (N : NoDup (concat (cr :: rest))) by (destruct Lv as (N & _); apply NoDup_app_iff in N; apply N).
  apply (call_acts d (mkLine (Some (Some m)) f args) (cr :: rest) D Ne N (fun _ H => ltac:(discriminate)) A); assumption.
Qed.
Print Assumptions C59_mask_selects.
(** No mask is the mask of all ones. *)
Theorem C59_no_mask : forall d f args cr rest D s, acts (S d) f rest D -> Forall (fun r => r <> []) (cr :: rest) ->
  at_depth d s -> tidy s -> live s (cqs d (conds s) ++ concat (cr :: rest)) ->
  does s (cqs d (conds s) ++ concat (cr :: rest)) (call_line d (mkLine (Some None) f args) (cr :: rest)) (cr :: rest) (cqs d (conds s) ++ concat (cr :: rest))
    (controlled (cqs d (conds s)) (fun psi x => if matches cr (2 ^ length cr - 1) x then D psi x else psi x)).
Proof.
  intros d f args cr rest D s A Ne Ad T Lv.
  assert (N : NoDup (concat (cr :: rest))) by (destruct Lv as (N & _); apply NoDup_app_iff in N; apply N).
  eapply does_eq; [apply (call_acts d (mkLine (Some None) f args) (cr :: rest) D Ne N (fun _ H => ltac:(discriminate)) A); assumption|].
  intros psi. extensionality x. unfold controlled. destruct (forallb x (cqs d (conds s))); [|reflexivity]. unfold call_op. cbn [l_ctl hd]. unfold controlled.
  replace (forallb x cr) with (matches cr (2 ^ length cr - 1) x); [reflexivity|]. clear.
  induction cr as [|q cr IH]; [reflexivity|]. rewrite matches_cons. cbn [length forallb].
  replace (2 ^ S (length cr) - 1) with (S (2 * (2 ^ length cr - 1))) by (cbn [Nat.pow]; pose proof (pow2_pos (length cr)); lia).
  rewrite Nat.div2_succ_double, IH. f_equal. rewrite Nat.bit0_odd, Nat.odd_succ, Nat.even_mul. cbn. destruct (x q); reflexivity.
Qed.
Print Assumptions C59_no_mask.
(** A mask matches exactly one value of the control register (qubit 0 least significant). *)
Theorem C59_one_value : forall cr m x, matches cr m x = (le (map x cr) =? m mod 2 ^ length cr).
Proof.
  induction cr as [|q cr IH]; intros m x; [rewrite Nat.mod_1_r; reflexivity|]. rewrite matches_cons, IH, Nat.bit0_odd. cbn [length map le].
  rewrite (Nat.div2_odd m) at 3. set (a := Nat.div2 m). set (P := 2 ^ length cr).
  assert (HP : P <> 0) by (unfold P; pose proof (pow2_pos (length cr)); lia).
  replace (2 ^ S (length cr)) with (2 * P) by reflexivity.
  assert (E : (2 * a + Nat.b2n (Nat.odd m)) mod (2 * P) = Nat.b2n (Nat.odd m) + 2 * (a mod P)).
  { rewrite Nat.mod_mul_r by lia. replace (2 * a + Nat.b2n (Nat.odd m)) with (Nat.b2n (Nat.odd m) + a * 2) by lia. rewrite Nat.div_add by lia. rewrite Nat.mod_add by lia.
    replace (Nat.b2n (Nat.odd m) mod 2) with (Nat.b2n (Nat.odd m)) by (destruct (Nat.odd m); reflexivity).
    replace (Nat.b2n (Nat.odd m) / 2) with 0 by (destruct (Nat.odd m); reflexivity). reflexivity. }
  rewrite E. destruct (x q), (Nat.odd m); cbn [Bool.eqb andb Nat.b2n b2n]; generalize (a mod P); intros w; clear.
  all: destruct (Nat.eqb_spec (le (map x cr)) w); symmetry; first [apply Nat.eqb_eq; lia|apply Nat.eqb_neq; lia].
Qed.
Print Assumptions C59_one_value.
(** Whatever happens inside, an early error return included, a [program!] leaves no condition
    behind and takes none away: the builder the caller holds has its own conditions and no more. *)
Theorem C59_no_condition_left : forall d rs ls, Forall (fun l => forall d rs, wraps (l_fun l d rs)) ls -> wraps (program d rs ls).
Proof. exact w_program. Qed.
Print Assumptions C59_no_condition_left.
(** The functions of [program_ops] and the program of the caller can be such lines. *)
Theorem C59_ops_wrap : forall d rs, wraps (op_x d rs) /\ wraps (op_y d rs) /\ wraps (op_z d rs) /\ wraps (op_h d rs) /\ wraps (op_s d rs) /\ wraps (op_t d rs) /\
  wraps (op_cnot d rs) /\ wraps (op_toffoli d rs) /\ wraps (op2 swap d rs).
Proof.
  intros d rs. pose proof (w_aco d) as W.
  repeat split; first [apply w_op1; intros r; apply w_gate; exact W|apply w_op2; intros a b; first [apply w_cnot|apply w_toffoli|apply w_swap]; exact W].
Qed.
Print Assumptions C59_ops_wrap.
(** A controlled swap of registers of different sizes fails in the second line; the builder is
    left unconditioned, with what the first line did. *)
Example C59_no_condition_left_example : let s := mkSt (mkB [] 4 [] 0) [] in
  exists e s', program 0 [[0]; [1]; [2; 3]] [mkLine None op_x [[(1, None)]]; mkLine (Some None) (op2 swap) [[(0, None)]; [(1, None)]; [(2, None)]]] s = Fail e s' /\
    conds s' = [] /\ length (pipeline (bld s')) = 1.
Proof. cbv zeta. eexists _, _. split; [vm_compute; reflexivity|]. split; reflexivity. Qed.
Example C59_example : let s := mkSt (mkB [] 6 [[1]] 0) [Some [5]] in
  acts 2 op_x [[4]] (fun psi x => psi (flip x 4)) /\ Forall (fun r : reg => r <> []) ([0; 3] :: [[4]]) /\ at_depth 1 s /\ tidy s /\ live s (cqs 1 (conds s) ++ concat ([0; 3] :: [[4]])).
Proof.
  cbv zeta. split; [apply x_acts|]. split; [repeat constructor; discriminate|]. split.
  { split; [reflexivity|]. intros [|k] Hk; [|lia]. exists [5]. split; [reflexivity|discriminate]. }
  split.
  - split; [repeat constructor|]. cbn. split; [nd|]. intros q [<-|[]]. lia.
  - cbn. split; [nd|]. intros q Hq [H|H]; unfold pool in H; cbn in Hq, H; lia.
Qed.

(** *** C60: routing *)
(** Whatever the functions do: if in this run every line's call returns the registers it is
    given, the program is its calls in order, each on exactly the qubits its arguments name, in order, and
    the input registers come back unchanged. *)
Theorem C60_routing : forall d rs ls s, NoDup (concat rs) -> Forall (fun r => r <> []) rs -> Forall (line_ok rs) ls -> gives_back d rs ls s ->
  program d rs ls s = (_ <- calls d rs ls ;; ret rs) s.
Proof. intros. apply program_route; assumption. Qed.
Print Assumptions C60_routing.
(** If the functions carry out operations, the program carries them out one after the other. *)
Theorem C60_program : forall d rs ls s, NoDup (concat rs) -> Forall (fun r => r <> []) rs -> Forall (fun p => line_acts d rs (fst p) (snd p)) ls ->
  at_depth d s -> tidy s -> live s (cqs d (conds s) ++ concat rs) ->
  does s (cqs d (conds s) ++ concat rs) (program d rs (map fst ls)) rs (cqs d (conds s) ++ concat rs) (controlled (cqs d (conds s)) (lines_op rs ls)).
Proof. intros. eapply program_does; eassumption. Qed.
Print Assumptions C60_program.
(** A line naming a qubit twice, a position the register does not have, or no qubit at all for an
    argument makes the program panic. *)
Theorem C60_misuse_panics : forall d rs ls l ls' s s', NoDup (concat rs) -> Forall (fun r => r <> []) rs -> Forall (line_ok rs) ls -> gives_back d rs ls s ->
  Forall (Forall (fun a => fst a < length rs)) (l_args l) -> ~ line_ok rs l -> calls d rs ls s = Ret tt s' ->
  exists p, program d rs (ls ++ l :: ls') s = Crash p.
Proof. intros. eapply program_misuse; eassumption. Qed.
Print Assumptions C60_misuse_panics.

Definition ex_regs : list reg := [[0; 3]; [4; 2]].
Definition ex_line : line := mkLine (Some (Some 2)) op_x [[(0, None); (1, Some [1])]; [(1, Some [0])]].
Definition ex_bad : line := mkLine None op_x [[(0, None); (0, Some [1])]].
Example C60_example : NoDup (concat ex_regs) /\ Forall (fun r => r <> []) ex_regs /\ line_ok ex_regs ex_line /\ line_regs ex_regs ex_line = [[0; 3; 2]; [4]] /\
  line_acts 1 ex_regs ex_line (fun psi x => psi (flip x 4)) /\
  (forall psi x, line_op ex_regs ex_line (fun psi x => psi (flip x 4)) psi x = if Bool.eqb (x 0) false && (Bool.eqb (x 3) true && (Bool.eqb (x 2) false && true)) then psi (flip x 4) else psi x) /\
  Forall (Forall (fun a => fst a < length ex_regs)) (l_args ex_bad) /\ ~ line_ok ex_regs ex_bad.
Proof.
  assert (K : line_ok ex_regs ex_line).
  { split; [|split].
    - unfold ex_line, ex_regs. cbn [l_args]. repeat apply Forall_cons; try apply Forall_nil; split; cbn; try lia; intros i [<-|[]]; lia.
    - unfold line_regs, gather. cbn. repeat constructor; discriminate.
    - unfold line_regs, gather. cbn. nd. }
  split; [unfold ex_regs; cbn; nd|]. split; [unfold ex_regs; repeat constructor; discriminate|]. split; [exact K|]. split; [reflexivity|].
  split; [split; [exact K|]; split; [discriminate|apply x_acts]|].
  split; [reflexivity|]. split; [repeat constructor|].
  intros (_ & _ & H). unfold line_regs, gather in H. cbn in H. inversion H as [|? ? _ H2]; subst. inversion H2 as [|? ? H3 _]; subst. apply H3. left. reflexivity.
Qed.
Example C60_gives_back_example : gives_back 1 ex_regs [ex_line] (mkSt (mkB [] 6 [[1]] 0) [Some [5]]).
Proof.
  set (s := mkSt (mkB [] 6 [[1]] 0) [Some [5]]). destruct C60_example as (_ & _ & _ & _ & LA & _). destruct (call_line_acts 1 ex_regs ex_line _ LA) as (_ & X).
  destruct C59_example as (_ & _ & Ad & T & _). fold s in Ad, T. cbn [gives_back].
  destruct (X s Ad T) as (s2 & p & E2 & _); [|rewrite E2; auto].
  unfold line_regs, gather. cbn. split; [nd|]. intros q Hq [H|H]; unfold pool in H; cbn in Hq, H; lia.
Qed.
