(** sum, carry, add and their inverses as circuits. *)
From Coq Require Import Reals FunctionalExtensionality Permutation.
From Coquelicot Require Import Complex.
From Verif Require Import Base BitsSpec BitsProofs OpsModel OpsSpec Instances BuilderModel RegProofs DenSpec DenProofs LocalProofs LinkProofs
  RunSpec RunProofs GateProofs ToffoliProofs CondProofs SubSpec SubProofs SubProofs2 SubProofs3 ProgramModel ProgramSpec ProgramProofs ProgramProofs2 CircProofs CircProofs2
  ArithModel ArithSpec.
Local Open Scope nat_scope.
Local Open Scope mon_scope.

(** *** Sublists *)
Inductive sub : list nat -> list nat -> Prop :=
| sub_nil l : sub [] l
| sub_take q l l' : sub l l' -> sub (q :: l) (q :: l')
| sub_skip q l l' : sub l l' -> sub l (q :: l')
| sub_left m l l' : sub l l' -> sub l (m ++ l')
| sub_both m l l' : sub l l' -> sub (m ++ l) (m ++ l').
Lemma sub_in l l' : sub l l' -> incl l l'.
Proof.
  induction 1; intros p Hp.
  - destruct Hp.
  - destruct Hp as [<-|Hp]; [left; reflexivity|right; apply IHsub; exact Hp].
  - right. apply IHsub. exact Hp.
  - apply in_or_app. right. apply IHsub. exact Hp.
  - apply in_app_or in Hp. apply in_or_app. destruct Hp as [Hp|Hp]; [left; exact Hp|right; apply IHsub; exact Hp].
Qed.
Lemma sub_NoDup l l' : sub l l' -> NoDup l' -> NoDup l.
Proof.
  intros H. pose proof H as K. induction H as [|q l l' H IH|q l l' H IH|m l l' H IH|m l l' H IH]; intros N.
  - constructor.
  - inversion N as [|? ? A B]; subst. constructor; [|apply IH; assumption]. intros X. apply A. eapply sub_in; eassumption.
  - inversion N; subst. apply IH; assumption.
  - apply NoDup_app_iff in N. apply IH; [assumption|apply N].
  - apply NoDup_app_iff in N. destruct N as (A & B & D). apply NoDup_app_iff. split; [exact A|]. split; [apply IH; assumption|].
    intros p Hp Hp2. apply (D p Hp). eapply sub_in; eassumption.
Qed.
Lemma sub_all l : sub l l.
Proof. rewrite <- (app_nil_r l). apply sub_both. constructor. Qed.
Lemma sub_pick l l' l2 : Permutation l l2 -> sub l2 l' -> NoDup l' -> NoDup l.
Proof. intros P S N. eapply Permutation_NoDup; [symmetry; exact P|]. eapply sub_NoDup; eassumption. Qed.

(** *** Pointwise reasoning *)
Lemma flip_eq x t q : flip x t q = if q =? t then negb (x q) else x q.
Proof. unfold flip, upd. destruct (Nat.eqb_spec q t) as [->|]; reflexivity. Qed.
Lemma upd_eq x t b q : upd x t b q = if q =? t then b else x q.
Proof. unfold upd. destruct (Nat.eqb_spec q t); reflexivity. Qed.

Definition sum_c (c a b : nat) : list gate := [([(a, true)], b); ([(c, true)], b)].
Definition carry_c (c a b p : nat) : list gate := [([(a, true); (b, true)], p); ([(a, true)], b); ([(c, true); (b, true)], p); ([(a, true)], b)].

Lemma neq_eqb a b : a <> b -> (a =? b) = false.
Proof. apply Nat.eqb_neq. Qed.
Ltac points := repeat (unfold run, step, sat; cbn [fold_left rev app forallb fst snd]);
  repeat match goal with H : ?a <> ?b |- _ => let E1 := fresh "E" in let E2 := fresh "E" in
    assert (E1 := neq_eqb a b H); assert (E2 := neq_eqb b a (not_eq_sym H)); clear H end.
Lemma run_sum c a b x : a <> b -> c <> b -> run (sum_c c a b) x = upd x b (xorb (x b) (xorb (x a) (x c))).
Proof.
  intros H1 H2. extensionality q. unfold sum_c, run, step, sat. cbn [fold_left forallb fst snd].
  destruct (x a) eqn:Ea, (x c) eqn:Ec, (x b) eqn:Eb; cbn [Bool.eqb andb xorb]; rewrite ?flip_eq, ?upd_eq, ?(neq_eqb c b H2), ?Ec, ?Ea, ?Eb; cbn [Bool.eqb andb];
    rewrite ?flip_eq, ?upd_eq; destruct (Nat.eqb_spec q b) as [->|]; rewrite ?Eb; reflexivity.
Qed.
Lemma run_carry c a b p x : NoDup [c; a; b; p] ->
  run (carry_c c a b p) x = upd x p (xorb (x p) (maj (x a) (x b) (x c))) /\ run (rev (carry_c c a b p)) x = upd x p (xorb (x p) (maj (x a) (x b) (x c))).
Proof.
  intros N. inversion N as [|? ? Nc N1]; subst. inversion N1 as [|? ? Na N2]; subst. inversion N2 as [|? ? Nb _]; subst. cbn in Nc, Na, Nb.
  assert (Hab : (a =? b) = false) by (apply Nat.eqb_neq; intuition congruence). assert (Hap : (a =? p) = false) by (apply Nat.eqb_neq; intuition congruence).
  assert (Hcb : (c =? b) = false) by (apply Nat.eqb_neq; intuition congruence). assert (Hcp : (c =? p) = false) by (apply Nat.eqb_neq; intuition congruence).
  assert (Hbp : (b =? p) = false) by (apply Nat.eqb_neq; intuition congruence). assert (Hpb : (p =? b) = false) by (rewrite Nat.eqb_sym; exact Hbp).
  assert (Hba : (b =? a) = false) by (rewrite Nat.eqb_sym; exact Hab).
  split; extensionality q; unfold carry_c, run, step, sat; cbn [rev app fold_left forallb fst snd].
  all: destruct (x a) eqn:Ea, (x b) eqn:Eb, (x c) eqn:Ec; unfold maj.
  all: repeat (cbn [Bool.eqb andb orb xorb negb]; rewrite ?flip_eq, ?upd_eq, ?Hab, ?Hap, ?Hcb, ?Hcp, ?Hbp, ?Hpb, ?Hba, ?Nat.eqb_refl, ?Ea, ?Eb, ?Ec).
  all: destruct (Nat.eqb_spec q p) as [->|]; [rewrite ?Hpb|]; rewrite ?xorb_true_r, ?xorb_false_r, ?negb_involutive; try reflexivity.
  all: destruct (Nat.eqb_spec q b) as [->|]; rewrite ?negb_involutive, ?Eb; reflexivity.
Qed.

(** *** acts *)
Ltac args_ok := repeat apply Forall_cons; try apply Forall_nil; split; cbn; try lia; try exact I; let i := fresh in intros i Hi; repeat (destruct Hi as [<-|Hi]; [lia|]); destruct Hi.
Definition one_x (q : nat) : list gate := [([], q)].
Lemma x_is d q : acts d op_x [[q]] (eff (one_x q)) /\ cok [q] (one_x q).
Proof. split; [eapply acts_eq; [apply x_acts|reflexivity]|]. constructor; [|constructor]. split; [intros []|]. split; [left; reflexivity|intros p []]. Qed.
Lemma cok_one q : cok [q] (one_x q).
Proof. apply (x_is 0). Qed.
Lemma sum_acts d c a b : NoDup [c; a; b] -> acts d sum [[c]; [a]; [b]] (eff (sum_c c a b)) /\ cok [c; a; b] (sum_c c a b).
Proof.
  intros N. set (rs := [[c]; [a]; [b]] : list reg).
  assert (F : Forall (fun p => line_is d rs (fst p) (snd p)) [(control op_x [whole 1; whole 2], one_x b); (control op_x [whole 0; whole 2], one_x b)]).
  { repeat apply Forall_cons; try apply Forall_nil; cbn [fst snd]; (split; [|split; [discriminate|apply x_is]]).
    all: split; [repeat constructor; cbn; lia|split; [repeat constructor; discriminate|]]; unfold line_regs, gather; cbn; eapply sub_pick; [reflexivity| |exact N]; auto 12 using sub, sub_all. }
  split; [|apply (prog_circ_ok d rs _ F)]. apply (program_is d rs _ N ltac:(repeat constructor; discriminate) F).
Qed.
Lemma carry_acts d c a b p : NoDup [c; a; b; p] -> acts d carry [[c]; [a]; [b]; [p]] (eff (carry_c c a b p)) /\ cok [c; a; b; p] (carry_c c a b p).
Proof.
  intros N. set (rs := [[c]; [a]; [b]; [p]] : list reg).
  assert (F : Forall (fun p => line_is d rs (fst p) (snd p))
    [(control op_x [whole 1 ++ whole 2; whole 3], one_x p); (control op_x [whole 1; whole 2], one_x b); (control op_x [whole 0 ++ whole 2; whole 3], one_x p); (control op_x [whole 1; whole 2], one_x b)]).
  { repeat apply Forall_cons; try apply Forall_nil; cbn [fst snd]; (split; [|split; [discriminate|apply x_is]]).
    all: split; [repeat constructor; cbn; lia|split; [repeat constructor; discriminate|]]; unfold line_regs, gather; cbn; eapply sub_pick; [reflexivity| |exact N]; auto 12 using sub, sub_all. }
  split; [|apply (prog_circ_ok d rs _ F)]. apply (program_is d rs _ N ltac:(repeat constructor; discriminate) F).
Qed.
Definition carry_cs (rs : list reg) : list gate := match rs with [[c]; [a]; [b]; [p]] => carry_c c a b p | _ => [] end.
Lemma carry_inv_acts c a b p : NoDup [c; a; b; p] -> acts 0 carry_inv [[c]; [a]; [b]; [p]] (eff (rev (carry_c c a b p))) /\ cok [c; a; b; p] (rev (carry_c c a b p)).
Proof.
  intros N. split; [|apply cok_rev, (carry_acts 0); exact N].
  assert (N4 : NoDup [0; 1; 2; 3]) by (repeat constructor; cbn; intuition lia).
  apply (inverse_acts 0 carry carry_cs [[c]; [a]; [b]; [p]] (fun q => q <? 3)); try assumption.
  - repeat constructor; discriminate.
  - discriminate.
  - apply (carry_acts 0 0 1 2 3 N4).
  - apply (carry_acts 0 0 1 2 3 N4).
  - reflexivity.
  - cbn [carry_cs map length ranges seq concat app]. rewrite (proj1 (run_carry 0 1 2 3 _ N4)). cbn. discriminate.
  - left. reflexivity.
Qed.

(** *** add *)
Fixpoint add_c (rc ra rb : list nat) : list gate :=
  match rc, ra, rb with
  | [c], [a], [b; b1] => carry_c c a b b1 ++ sum_c c a b
  | c :: ((c1 :: _) as rc'), a :: ra', b :: rb' => carry_c c a b c1 ++ add_c rc' ra' rb' ++ rev (carry_c c a b c1) ++ sum_c c a b
  | _, _, _ => []
  end.
Definition add_cs (rs : list reg) : list gate := match rs with [rc; ra; rb] => add_c rc ra rb | _ => [] end.

Lemma map_nth_tail c (l : list nat) : map (fun i => nth i (c :: l) 0) (seq 1 (length l)) = l.
Proof.
  rewrite <- seq_shift, map_map. cbn [nth]. clear c. induction l as [|q l IH]; [reflexivity|]. cbn [length seq map nth]. rewrite <- seq_shift, map_map. cbn [nth]. rewrite IH. reflexivity.
Qed.
Lemma add_one d c a b b1 fuel : NoDup [c; a; b; b1] -> acts d (add_fuel (S fuel)) [[c]; [a]; [b; b1]] (eff (add_c [c] [a] [b; b1])) /\ cok [c; a; b; b1] (add_c [c] [a] [b; b1]).
Proof.
  intros N. set (rs := [[c]; [a]; [b; b1]] : list reg).
  assert (F : Forall (fun p => line_is d rs (fst p) (snd p))
    [(call carry [whole 0; whole 1; part 2 [0]; part 2 [1]], carry_c c a b b1); (call sum [whole 0; whole 1; part 2 [0]], sum_c c a b)]).
  { repeat apply Forall_cons; try apply Forall_nil; cbn [fst snd]; (split; [|split; [intros X; exfalso; apply X; reflexivity|]]).
    1,3: split; [args_ok|split; [repeat constructor; discriminate|]]; unfold line_regs, gather; cbn; eapply sub_pick; [reflexivity| |exact N]; auto 12 using sub, sub_all.
    - apply carry_acts. exact N.
    - apply sum_acts. eapply sub_NoDup; [|exact N]. auto 12 using sub, sub_all. }
  split; [|apply (prog_circ_ok d rs _ F)]. eapply acts_fun; [|apply (program_is d rs _ N ltac:(repeat constructor; discriminate) F)]. reflexivity.
Qed.
Lemma add_fuel_acts : forall rc ra rb fuel, length ra = length rc -> length rb = S (length rc) -> rc <> [] -> length rc <= fuel -> NoDup (rc ++ ra ++ rb) ->
  acts 0 (add_fuel fuel) [rc; ra; rb] (eff (add_c rc ra rb)) /\ cok (rc ++ ra ++ rb) (add_c rc ra rb).
Proof.
  induction rc as [|c rc IH]; intros ra rb fuel La Lb Hne Hf N; [congruence|].
  destruct ra as [|a ra]; [discriminate|]. destruct rb as [|b rb]; [discriminate|]. destruct fuel as [|fuel]; [cbn in Hf; lia|].
  destruct rc as [|c1 cs].
  - destruct ra; [|discriminate]. destruct rb as [|b1 [|]]; try discriminate. apply (add_one 0 c a b b1 fuel). exact N.
  - cbn [length] in La, Lb, Hf. injection La as La. injection Lb as Lb.
    set (rs := [c :: c1 :: cs; a :: ra; b :: rb] : list reg).
    assert (N' : NoDup (c :: c1 :: cs ++ a :: ra ++ b :: rb)) by exact N.
    assert (Nt : NoDup ((c1 :: cs) ++ ra ++ rb)) by (eapply sub_NoDup; [|exact N']; cbn [app]; auto 12 using sub, sub_all).
    assert (N4 : NoDup [c; a; b; c1]).
    { eapply (sub_pick _ _ [c; c1; a; b]); [|cbn [app]|exact N']; [apply perm_skip; apply (Permutation_app_comm [a; b] [c1])|]. auto 12 using sub, sub_all. }
    assert (X1 : c1 :: cs <> []) by discriminate. assert (X2 : length (c1 :: cs) <= fuel) by (cbn [length]; lia).
    destruct (IH ra rb fuel La Lb X1 X2 Nt) as (A & Ck).
    assert (E1 : gather rs [(0, Some (seq 1 (length (c :: c1 :: cs) - 1)))] = c1 :: cs).
    { unfold gather. cbn [map concat arg_qubits snd fst]. rewrite app_nil_r. apply (map_nth_tail c (c1 :: cs)). }
    assert (E2 : gather rs [(1, Some (seq 1 (length (c :: c1 :: cs) - 1)))] = ra).
    { unfold gather. cbn [map concat arg_qubits snd fst]. rewrite app_nil_r. replace (length (c :: c1 :: cs) - 1) with (length ra) by (cbn [length]; lia). apply (map_nth_tail a ra). }
    assert (E3 : gather rs [(2, Some (seq 1 (length (c :: c1 :: cs))))] = rb).
    { unfold gather. cbn [map concat arg_qubits snd fst]. rewrite app_nil_r. replace (length (c :: c1 :: cs)) with (length rb) by (cbn [length]; lia). apply (map_nth_tail b rb). }
    assert (Carg : forall f, line_ok rs (call f [part 0 [0]; part 1 [0]; part 2 [0]; part 0 [1]])).
    { intros f. split; [|split; [repeat constructor; discriminate|exact N4]]. args_ok. }
    assert (F : Forall (fun p => line_is 0 rs (fst p) (snd p))
      [(call carry [part 0 [0]; part 1 [0]; part 2 [0]; part 0 [1]], carry_c c a b c1);
       (call (add_fuel fuel) [part 0 (seq 1 (length (c :: c1 :: cs) - 1)); part 1 (seq 1 (length (c :: c1 :: cs) - 1)); part 2 (seq 1 (length (c :: c1 :: cs)))], add_c (c1 :: cs) ra rb);
       (call carry_inv [part 0 [0]; part 1 [0]; part 2 [0]; part 0 [1]], rev (carry_c c a b c1));
       (call sum [part 0 [0]; part 1 [0]; part 2 [0]], sum_c c a b)]).
    { repeat apply Forall_cons; try apply Forall_nil; cbn [fst snd].
      - split; [apply Carg|]. split; [intros X; exfalso; apply X; reflexivity|]. apply carry_acts. exact N4.
      - assert (Er : line_regs rs (call (add_fuel fuel) [part 0 (seq 1 (length (c :: c1 :: cs) - 1)); part 1 (seq 1 (length (c :: c1 :: cs) - 1)); part 2 (seq 1 (length (c :: c1 :: cs)))]) = [c1 :: cs; ra; rb]).
        { unfold line_regs, call, part. cbn [l_args map]. rewrite E1, E2, E3. reflexivity. }
        split; [|split; [intros X; exfalso; apply X; reflexivity|]].
        + unfold line_ok. rewrite Er. split; [|split].
          * repeat apply Forall_cons; try apply Forall_nil; split; cbn [fst snd rs length nth]; try lia; intros i Hi; apply in_seq in Hi; cbn [length] in *; lia.
          * repeat apply Forall_cons; try apply Forall_nil; [discriminate| |]; [destruct ra|destruct rb]; discriminate.
          * cbn [concat]. rewrite app_nil_r. exact Nt.
        + unfold call_targets. cbn [call l_ctl]. rewrite Er. cbn [concat]. rewrite app_nil_r. split; [exact A|exact Ck].
      - split; [apply Carg|]. split; [intros X; exfalso; apply X; reflexivity|]. apply carry_inv_acts. exact N4.
      - split; [|split; [intros X; exfalso; apply X; reflexivity|]].
        + split; [args_ok|split; [repeat constructor; discriminate|]].
          unfold line_regs, gather. cbn. eapply sub_NoDup; [|exact N4]. auto 12 using sub, sub_all.
        + apply sum_acts. eapply sub_NoDup; [|exact N4]. auto 12 using sub, sub_all. }
    assert (Nrs : NoDup (concat rs)) by (cbn [rs concat]; rewrite app_nil_r; exact N).
    split.
    + eapply acts_fun; [|eapply acts_eq; [apply (program_is 0 rs _ Nrs ltac:(repeat constructor; discriminate) F)|]].
      * intros s. cbn [rs add_fuel]. replace (length (c :: c1 :: cs) =? 1) with false by reflexivity. cbn [andb].
        replace (length (c :: c1 :: cs) =? length (a :: ra)) with true by (symmetry; apply Nat.eqb_eq; cbn [length]; lia).
        replace (length (c :: c1 :: cs) + 1 =? length (b :: rb)) with true by (symmetry; apply Nat.eqb_eq; cbn [length]; lia). reflexivity.
      * intros psi. cbn [prog_circ line_circ call_circ call l_ctl]. unfold line_circ, call_circ. cbn [call l_ctl]. rewrite app_nil_r. reflexivity.
    + destruct (prog_circ_ok 0 rs _ F) as (X & _). cbn [prog_circ] in X. unfold line_circ, call_circ in X. cbn [call l_ctl] in X. rewrite app_nil_r in X.
      cbn [rs concat] in X. rewrite app_nil_r in X. exact X.
Qed.
