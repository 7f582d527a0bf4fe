(** Costs of the adder and of the modular adder at any depth. *)
From Coq Require Import Permutation Reals FunctionalExtensionality.
From Verif Require Import Base BitsSpec OpsModel BuilderModel RegProofs DenSpec SimSpec RunSpec LocalProofs RunProofs GateProofs ToffoliProofs CondProofs
  SubSpec InvertProofs SubProofs SubProofs2 SubProofs3 SubProofs4 SubProofs5 SubProofs6 ProgramModel ProgramSpec ProgramProofs ProgramProofs2 CircProofs CircProofs2
  ArithModel ArithSpec ArithProofs ArithProofs2 ArithProofs4 ArithProofs5 ArithProofs6 ArithProofs7 ArithProofs8 ArithProofs9
  CostSpec CostProofs CostProofs2 CostProofs3 CostProofs4 ProgCostSpec ProgCostProofs ArithCostSpec.
Local Open Scope nat_scope.
Local Open Scope mon_scope.

Lemma x_prices d q : prices d op_x [[q]] not_temps flip_objects.
Proof.
  apply (acts_prices d op_x [[q]] _ _ _ (x_acts d q)). intros s Ad T Lv. unfold op_x, op1. cbn [concat app] in *.
  eapply costs_eq; [eapply costs_bind; [apply x_costs; assumption|intros; apply costs_ret]|apply Nat.max_0_r|apply Nat.add_0_r].
Qed.
Definition x_line (l : line) : priced := mkPriced l not_temps flip_objects.
Lemma flip_S c : flip_objects (S c) = nots c.
Proof. reflexivity. Qed.

Lemma sum_prices d c a b : NoDup [c; a; b] -> prices d sum [[c]; [a]; [b]] (fun c => c - 1) sum_objects.
Proof.
  intros N. set (rs := [[c]; [a]; [b]] : list reg).
  assert (F : Forall (line_prices d rs) [x_line (control op_x [whole 1; whole 2]); x_line (control op_x [whole 0; whole 2])]).
  { repeat apply Forall_cons; try apply Forall_nil; (split; [|split; [discriminate|apply x_prices]]).
    all: split; [repeat constructor; cbn; lia|split; [repeat constructor; discriminate|]]; unfold line_regs, gather; cbn; eapply sub_pick; [reflexivity| |exact N]; auto 12 using sub, sub_all. }
  eapply prices_eq; [apply (program_prices d rs _ N ltac:(repeat constructor; discriminate) F)| |]; intros k; unfold program_temps, program_objects, line_temps, line_objects, not_temps; cbn -[Nat.sub Nat.add Nat.max Nat.mul flip_objects]; rewrite ?Nat.add_1_r.
  - unfold not_temps. lia.
  - unfold sum_objects. rewrite !flip_S. lia.
Qed.
Lemma carry_prices d c a b p : NoDup [c; a; b; p] -> prices d carry [[c]; [a]; [b]; [p]] (fun c => c) carry_objects.
Proof.
  intros N. set (rs := [[c]; [a]; [b]; [p]] : list reg).
  assert (F : Forall (line_prices d rs)
    [x_line (control op_x [whole 1 ++ whole 2; whole 3]); x_line (control op_x [whole 1; whole 2]); x_line (control op_x [whole 0 ++ whole 2; whole 3]); x_line (control op_x [whole 1; whole 2])]).
  { repeat apply Forall_cons; try apply Forall_nil; (split; [|split; [discriminate|apply x_prices]]).
    all: split; [repeat constructor; cbn; lia|split; [repeat constructor; discriminate|]]; unfold line_regs, gather; cbn; eapply sub_pick; [reflexivity| |exact N]; auto 12 using sub, sub_all. }
  eapply prices_eq; [apply (program_prices d rs _ N ltac:(repeat constructor; discriminate) F)| |]; intros k; unfold program_temps, program_objects, line_temps, line_objects, not_temps; cbn -[Nat.sub Nat.add Nat.max Nat.mul flip_objects].
  - unfold not_temps. lia.
  - unfold carry_objects. rewrite !Nat.add_succ_r, !Nat.add_0_r, !flip_S. lia.
Qed.

(** Replaying the inverse of a recorded circuit. *)
Definition replay_temps (sc : pipe) (c : nat) : nat := if c =? 0 then 0 else peak (map (under_temps c) sc).
Definition replay_objects (sc : pipe) (c : nat) : nat := if c =? 0 then length sc else total (map (under_objects c) sc).
Lemma inv_prices d (rs : list reg) (f : list reg -> M (list reg)) D out sc bk : acts d (fun d rs => inv_macro d rs f) rs D -> NoDup (concat rs) -> (forall r, In r rs -> r <> []) -> rs <> [] ->
  puts [] (f (ranges 0 (map (@length nat) rs))) out sc -> invert_subcircuit sc = Ok bk ->
  Forall (wf_entry (length (concat rs))) bk -> Forall proper_entry bk -> Forall kept bk -> (exists e, In e bk /\ In (length (concat rs) - 1) (fst e)) ->
  prices d (fun d rs => inv_macro d rs f) rs (replay_temps bk) (replay_objects bk).
Proof.
  intros A N Hne Hrs P Iv Wf Pr Kp Top. apply (acts_prices d _ rs D _ _ A). intros s (El & W) T Lv. unfold replay_temps, replay_objects. destruct d as [|d].
  - cbn [cqs length Nat.eqb]. assert (Sz : Forall (sized_entry (length (concat rs))) bk) by (rewrite Forall_forall in *; intros e He; apply wf_sized; [apply Wf|apply Pr]; exact He).
    pose proof (inv_puts rs f out sc bk N Hne Hrs P Iv Sz Top) as Pu.
    exists (appended s (ren (concat rs) bk)). split; [apply Pu; destruct (conds s); [reflexivity|discriminate]|]. split; [reflexivity|]. eapply uses_eq; [apply uses_appended|reflexivity|]. unfold ren. apply map_length.
  - destruct (Nat.eqb_spec (length (cqs (S d) (conds s))) 0) as [E|E]; [apply cqs_empty in E; [discriminate|exact W]|].
    assert (Hc : concat rs <> []) by (destruct rs as [|r rs']; [congruence|]; specialize (Hne r (or_introl eq_refl)); destruct r; [congruence|discriminate]).
    assert (New : forall s0, on_new (sub_rs <- mmap (fun r => register (length r)) rs ;; _ <- f sub_rs ;; make_subcircuit) s0 = Ret sc s0).
    { intros s0. unfold on_new, empty_builder. unfold mbind at 1. rewrite registers_new by exact Hne. cbn [Nat.add]. unfold mbind at 1. rewrite P by reflexivity. reflexivity. }
    assert (H : costs s (apply_subcircuit (S d) bk (concat rs)) (concat rs) (peak (map (under_temps (length (cqs (S d) (conds s)))) bk)) (total (map (under_objects (length (cqs (S d) (conds s)))) bk))).
    { eapply costs_eq; [apply (sub_depth_costs bk (concat rs) (fun c => length (concat rs) - length (concat rs) + peak (map (under_temps c) bk)) (fun c => total (map (under_objects c) bk))); try assumption; [|lia]|rewrite Nat.sub_diag; reflexivity|reflexivity].
      intros s0 cr Hcr T0 L0. apply local_kept_costs; try assumption. lia. }
    destruct H as (s' & E' & C' & U'). exists s'. split; [|split; assumption].
    unfold inv_macro. unfold mbind at 1. rewrite New. unfold mbind at 1, lift at 1. rewrite merge_registers_ok by exact Hne.
    unfold mbind at 1, lift at 1. rewrite unwrap_new_reg by exact Hc. unfold mbind at 1. unfold apply_inverted_subcircuit. unfold mbind at 1, lift at 1. rewrite Iv.
    rewrite E'. unfold mbind at 1, lift at 1. rewrite split_groups_ranges by assumption. reflexivity.
Qed.

Lemma peak_is l c : Forall (fun k => k <= c) l -> In c l -> peak l = c.
Proof.
  intros F I. assert (Le : peak l <= c) by (clear I; induction F; cbn [peak fold_right]; [lia|]; apply Nat.max_lub; assumption).
  assert (Ge : c <= peak l) by (clear F Le; induction l as [|k l IH]; [destruct I|]; destruct I as [->|I]; cbn [peak fold_right]; [apply Nat.le_max_l|]; etransitivity; [apply IH; exact I|apply Nat.le_max_r]).
  lia.
Qed.
Lemma under_ren rho sc c : map (under_objects c) (ren rho sc) = map (under_objects c) sc /\ map (under_temps c) (ren rho sc) = map (under_temps c) sc.
Proof. unfold ren. rewrite !map_map. split; apply map_ext; intros e; reflexivity. Qed.
Lemma carry_back_kept : Forall kept carry_back.
Proof. unfold carry_back. repeat (apply Forall_cons; [exact I|]). apply Forall_nil. Qed.
Lemma carry_back_objects c : 0 < c -> total (map (under_objects c) carry_back) = uncarry_objects c.
Proof.
  intros H. unfold uncarry_objects. destruct (Nat.eqb_spec c 0); [lia|]. unfold carry_back. cbn [map under_objects snd co_obj total fold_right]. unfold nots. replace (S c) with (c + 1) by lia. lia.
Qed.
Lemma carry_back_temps c : 0 < c -> peak (map (under_temps c) carry_back) = c.
Proof.
  intros H. apply peak_is.
  - unfold carry_back. cbn [map under_temps snd co_obj]. repeat (apply Forall_cons; [lia|]). apply Forall_nil.
  - do 3 right. left. reflexivity.
Qed.
Lemma carry_inv_prices d c a b p : NoDup [c; a; b; p] -> prices d carry_inv [[c]; [a]; [b]; [p]] (fun c => c) uncarry_objects.
Proof.
  intros N.
  assert (A : exists D, acts d carry_inv [[c]; [a]; [b]; [p]] D).
  { destruct d as [|d]; [eexists; apply carry_inv_acts; exact N|]. eexists. apply carry_inv_tilts; [lia|exact N]. }
  destruct A as (D & A). eapply prices_eq.
  - apply (inv_prices d [[c]; [a]; [b]; [p]] (carry 0) D [[0]; [1]; [2]; [3]] carry_fwd carry_back A N).
    + intros r [<-|[<-|[<-|[<-|[]]]]]; discriminate.
    + discriminate.
    + apply carry_puts. repeat constructor; cbn; intuition lia.
    + exact carry_back_ok.
    + exact carry_back_wf.
    + exact carry_back_proper.
    + exact carry_back_kept.
    + eexists. split; [right; right; right; right; right; right; right; right; right; right; right; left; reflexivity|left; reflexivity].
  - intros k. unfold replay_temps. destruct (Nat.eqb_spec k 0); [lia|]. apply carry_back_temps. lia.
  - intros k. unfold replay_objects. destruct (Nat.eqb_spec k 0) as [->|]; [reflexivity|]. apply carry_back_objects. lia.
Qed.

(** *** add *)
Lemma call_prices d (rs : list reg) f args regs k g : line_regs rs (call f args) = regs -> line_ok rs (call f args) -> prices d f regs k g -> line_prices d rs (mkPriced (call f args) k g).
Proof. intros E Ok H. split; [exact Ok|]. split; [intros X; exfalso; apply X; reflexivity|]. unfold call_targets, call_depth. cbn [p_line call l_ctl l_fun p_temps p_objects]. fold (call f args). rewrite E. exact H. Qed.
Lemma add_fuel_prices d : forall rc ra rb fuel, length ra = length rc -> length rb = S (length rc) -> rc <> [] -> length rc <= fuel -> NoDup (rc ++ ra ++ rb) ->
  prices d (add_fuel fuel) [rc; ra; rb] (fun c => c) (add_objects (length rc)).
Proof.
  induction rc as [|c rc IH]; intros ra rb fuel La Lb Hne Hf N; [congruence|].
  destruct ra as [|a ra]; [discriminate|]. destruct rb as [|b rb]; [discriminate|]. destruct fuel as [|fuel]; [cbn in Hf; lia|].
  destruct rc as [|c1 cs].
  - destruct ra; [|discriminate]. destruct rb as [|b1 [|]]; try discriminate. set (rs := [[c]; [a]; [b; b1]] : list reg). change (NoDup [c; a; b; b1]) in N.
    assert (F : Forall (line_prices d rs)
      [mkPriced (call carry [whole 0; whole 1; part 2 [0]; part 2 [1]]) (fun c => c) carry_objects; mkPriced (call sum [whole 0; whole 1; part 2 [0]]) (fun c => c - 1) sum_objects]).
    { repeat apply Forall_cons; try apply Forall_nil; (eapply call_prices; [reflexivity| |]).
      1,3: split; [args_ok|split; [repeat constructor; discriminate|]]; unfold line_regs, gather; cbn; eapply sub_pick; [reflexivity| |exact N]; auto 12 using sub, sub_all.
      - apply carry_prices. exact N.
      - apply sum_prices. eapply sub_NoDup; [|exact N]. auto 12 using sub, sub_all. }
    eapply prices_fun; [eapply prices_eq; [apply (program_prices d rs _ N ltac:(repeat constructor; discriminate) F)| |]|reflexivity]; intros k; unfold program_temps, program_objects, line_temps, line_objects; cbn -[Nat.sub Nat.add Nat.max Nat.mul carry_objects sum_objects].
    + lia.
    + unfold add_objects. cbn [length]. lia.
  - cbn [length] in La, Lb, Hf. injection La as La. injection Lb as Lb.
    set (rs := [c :: c1 :: cs; a :: ra; b :: rb] : list reg).
    assert (N' : NoDup (c :: c1 :: cs ++ a :: ra ++ b :: rb)) by exact N.
    assert (Nt : NoDup ((c1 :: cs) ++ ra ++ rb)) by (eapply sub_NoDup; [|exact N']; cbn [app]; auto 12 using sub, sub_all).
    assert (N4 : NoDup [c; a; b; c1]).
    { eapply (sub_pick _ _ [c; c1; a; b]); [|cbn [app]|exact N']; [apply perm_skip; apply (Permutation_app_comm [a; b] [c1])|]. auto 12 using sub, sub_all. }
    assert (X1 : c1 :: cs <> []) by discriminate. assert (X2 : length (c1 :: cs) <= fuel) by (cbn [length]; lia).
    pose proof (IH ra rb fuel La Lb X1 X2 Nt) as A.
    assert (E1 : gather rs [(0, Some (seq 1 (length (c :: c1 :: cs) - 1)))] = c1 :: cs).
    { unfold gather. cbn [map concat arg_qubits snd fst]. rewrite app_nil_r. apply (map_nth_tail c (c1 :: cs)). }
    assert (E2 : gather rs [(1, Some (seq 1 (length (c :: c1 :: cs) - 1)))] = ra).
    { unfold gather. cbn [map concat arg_qubits snd fst]. rewrite app_nil_r. replace (length (c :: c1 :: cs) - 1) with (length ra) by (cbn [length]; lia). apply (map_nth_tail a ra). }
    assert (E3 : gather rs [(2, Some (seq 1 (length (c :: c1 :: cs))))] = rb).
    { unfold gather. cbn [map concat arg_qubits snd fst]. rewrite app_nil_r. replace (length (c :: c1 :: cs)) with (length rb) by (cbn [length]; lia). apply (map_nth_tail b rb). }
    assert (Carg : forall f, line_ok rs (call f [part 0 [0]; part 1 [0]; part 2 [0]; part 0 [1]])).
    { intros f. split; [|split; [repeat constructor; discriminate|exact N4]]. args_ok. }
    set (ps := [mkPriced (call carry [part 0 [0]; part 1 [0]; part 2 [0]; part 0 [1]]) (fun c => c) carry_objects;
       mkPriced (call (add_fuel fuel) [part 0 (seq 1 (length (c :: c1 :: cs) - 1)); part 1 (seq 1 (length (c :: c1 :: cs) - 1)); part 2 (seq 1 (length (c :: c1 :: cs)))]) (fun c => c) (add_objects (length (c1 :: cs)));
       mkPriced (call carry_inv [part 0 [0]; part 1 [0]; part 2 [0]; part 0 [1]]) (fun c => c) uncarry_objects;
       mkPriced (call sum [part 0 [0]; part 1 [0]; part 2 [0]]) (fun c => c - 1) sum_objects]).
    assert (F : Forall (line_prices d rs) ps).
    { unfold ps. repeat apply Forall_cons; try apply Forall_nil.
      - eapply call_prices; [reflexivity|apply Carg|]. apply carry_prices. exact N4.
      - assert (Er : line_regs rs (call (add_fuel fuel) [part 0 (seq 1 (length (c :: c1 :: cs) - 1)); part 1 (seq 1 (length (c :: c1 :: cs) - 1)); part 2 (seq 1 (length (c :: c1 :: cs)))]) = [c1 :: cs; ra; rb]).
        { unfold line_regs, call, part. cbn [l_args map]. rewrite E1, E2, E3. reflexivity. }
        eapply call_prices; [exact Er| |exact A]. unfold line_ok. rewrite Er. split; [|split].
        + repeat apply Forall_cons; try apply Forall_nil; split; cbn [fst snd rs length nth]; try lia; intros i Hi; apply in_seq in Hi; cbn [length] in *; lia.
        + repeat apply Forall_cons; try apply Forall_nil; [discriminate| |]; [destruct ra|destruct rb]; discriminate.
        + cbn [concat]. rewrite app_nil_r. exact Nt.
      - eapply call_prices; [reflexivity|apply Carg|]. apply carry_inv_prices. exact N4.
      - eapply call_prices; [reflexivity| |].
        + split; [args_ok|split; [repeat constructor; discriminate|]].
          unfold line_regs, gather. cbn. eapply sub_NoDup; [|exact N4]. auto 12 using sub, sub_all.
        + apply sum_prices. eapply sub_NoDup; [|exact N4]. auto 12 using sub, sub_all. }
    assert (Nrs : NoDup (concat rs)) by (cbn [rs concat]; rewrite app_nil_r; exact N).
    eapply prices_fun; [eapply prices_eq; [apply (program_prices d rs _ Nrs ltac:(repeat constructor; discriminate) F)| |]|].
    + intros k. unfold program_temps, ps, line_temps. cbn [map p_line call l_ctl p_temps peak fold_right]. lia.
    + intros k. unfold program_objects, ps, line_objects. cbn [map p_line call l_ctl p_objects total fold_right]. unfold add_objects. cbn [length]. rewrite !Nat.sub_succ, !Nat.sub_0_r. lia.
    + intros s. unfold ps. cbn [map p_line rs add_fuel]. replace (length (c :: c1 :: cs) =? 1) with false by reflexivity. cbn [andb].
      replace (length (c :: c1 :: cs) =? length (a :: ra)) with true by (symmetry; apply Nat.eqb_eq; cbn [length]; lia).
      replace (length (c :: c1 :: cs) + 1 =? length (b :: rb)) with true by (symmetry; apply Nat.eqb_eq; cbn [length]; lia). reflexivity.
Qed.
Lemma add_prices d rc ra rb : length ra = length rc -> length rb = S (length rc) -> rc <> [] -> NoDup (rc ++ ra ++ rb) ->
  prices d add [rc; ra; rb] (fun c => c) (add_objects (length rc)).
Proof. intros. unfold add. eapply prices_fun; [apply (add_fuel_prices d rc ra rb (S (length rc))); try assumption; lia|reflexivity]. Qed.

(** *** add_inv *)
Lemma carry_twice_kept : Forall kept carry_twice.
Proof. unfold carry_twice. repeat (apply Forall_cons; [exact I|]). apply Forall_nil. Qed.
Lemma sum_back_kept : Forall kept sum_back.
Proof. unfold sum_back. repeat (apply Forall_cons; [exact I|]). apply Forall_nil. Qed.
Lemma carry_twice_objects c : 0 < c -> total (map (under_objects c) carry_twice) = recarry_objects c.
Proof.
  intros H. unfold recarry_objects. destruct (Nat.eqb_spec c 0); [lia|]. unfold carry_twice. cbn [map under_objects snd co_obj total fold_right]. unfold nots. replace (S c) with (c + 1) by lia. lia.
Qed.
Lemma sum_back_objects c : total (map (under_objects c) sum_back) = sum_objects c.
Proof. unfold sum_objects, nots. change (S c) with (1 + c). rewrite (Nat.add_comm 1 c). unfold sum_back, oCX. cbn [map under_objects snd co_obj total fold_right]. lia. Qed.
Lemma kept_ren rho sc : Forall kept sc -> Forall kept (ren rho sc).
Proof. unfold ren. rewrite !Forall_forall. intros H e He. apply in_map_iff in He. destruct He as (e0 & <- & He). exact (H e0 He). Qed.
Lemma add_back_kept : forall rc ra rb, Forall kept (add_back rc ra rb).
Proof.
  induction rc as [|c [|c1 cs] IH]; intros ra rb; [constructor| |].
  - destruct ra as [|a [|]]; [constructor| |constructor]. destruct rb as [|b [|b1 [|]]]; [constructor|constructor| |constructor]. cbn [add_back]. apply Forall_app. split; apply kept_ren; [exact sum_back_kept|exact carry_back_kept].
  - destruct ra as [|a ra]; [constructor|]. destruct rb as [|b rb]; [constructor|].
    change (add_back (c :: c1 :: cs) (a :: ra) (b :: rb)) with (((ren [c; a; b] sum_back ++ ren [c; a; b; c1] carry_twice) ++ add_back (c1 :: cs) ra rb) ++ ren [c; a; b; c1] carry_back).
    rewrite !Forall_app. repeat split; try (apply kept_ren); [exact sum_back_kept|exact carry_twice_kept|apply IH|exact carry_back_kept].
Qed.
Lemma add_back_objects k : 0 < k -> forall rc ra rb, length ra = length rc -> length rb = S (length rc) -> rc <> [] -> total (map (under_objects k) (add_back rc ra rb)) = add_inv_objects (length rc) k.
Proof.
  intros Hk. induction rc as [|c [|c1 cs] IH]; intros ra rb La Lb Hc; [congruence| |]; (destruct ra as [|a ra]; [discriminate|]); (destruct rb as [|b rb]; [discriminate|]).
  - destruct ra; [|discriminate]. destruct rb as [|b1 [|]]; try discriminate. cbn [add_back]. rewrite map_app, total_app, (proj1 (under_ren _ _ _)), (proj1 (under_ren _ _ _)), sum_back_objects, carry_back_objects by exact Hk.
    unfold add_inv_objects. cbn [length]. lia.
  - change (add_back (c :: c1 :: cs) (a :: ra) (b :: rb)) with (((ren [c; a; b] sum_back ++ ren [c; a; b; c1] carry_twice) ++ add_back (c1 :: cs) ra rb) ++ ren [c; a; b; c1] carry_back).
    rewrite !map_app, !total_app, !(proj1 (under_ren _ _ _)). rewrite IH; [|cbn [length] in *; lia|cbn [length] in *; lia|discriminate]. rewrite sum_back_objects, carry_back_objects, carry_twice_objects by exact Hk.
    unfold add_inv_objects. cbn [length]. rewrite !Nat.sub_succ, !Nat.sub_0_r. lia.
Qed.
Lemma under_temps_le k e : kept e -> under_temps k e <= k.
Proof. unfold under_temps, kept. destruct (co_obj (snd e)) as [u|]; [|tauto]. destruct u; try tauto; lia. Qed.
Lemma add_back_temps k : 0 < k -> forall rc ra rb, length ra = length rc -> length rb = S (length rc) -> rc <> [] -> peak (map (under_temps k) (add_back rc ra rb)) = k.
Proof.
  intros Hk rc ra rb La Lb Hc. apply peak_is.
  - pose proof (add_back_kept rc ra rb) as F. rewrite Forall_forall in *. intros j Hj. apply in_map_iff in Hj. destruct Hj as (e & <- & He). apply under_temps_le, F. exact He.
  - assert (B : forall rho, In k (map (under_temps k) (ren rho carry_back))) by (intros rho; rewrite (proj2 (under_ren _ _ _)); do 3 right; left; reflexivity).
    destruct rc as [|c [|c1 cs]]; [congruence| |]; (destruct ra as [|a ra]; [discriminate|]); (destruct rb as [|b rb]; [discriminate|]).
    + destruct ra; [|discriminate]. destruct rb as [|b1 [|]]; try discriminate. cbn [add_back]. rewrite map_app. apply in_or_app. right. apply B.
    + change (add_back (c :: c1 :: cs) (a :: ra) (b :: rb)) with (((ren [c; a; b] sum_back ++ ren [c; a; b; c1] carry_twice) ++ add_back (c1 :: cs) ra rb) ++ ren [c; a; b; c1] carry_back).
      rewrite !map_app. apply in_or_app. right. apply B.
Qed.
Lemma add_inv_prices d rc ra rb : length ra = length rc -> length rb = S (length rc) -> rc <> [] -> NoDup (rc ++ ra ++ rb) ->
  prices d add_inv [rc; ra; rb] (fun c => c) (add_inv_objects (length rc)).
Proof.
  intros La Lb Hc N. pose proof (addInvD_acts d rc ra rb La Lb Hc N) as A. destruct rc as [|c cs]; [congruence|]. set (n := length cs). cbn [length] in La, Lb. fold n in La, Lb. set (rc := c :: cs) in *. assert (Lc : length rc = S n) by reflexivity.
  set (qc := seq 0 (S n)). set (qa := seq (S n) (S n)). set (qb := seq (S n + S n) (S (S n))).
  assert (Eq : qc ++ qa ++ qb = seq 0 (S n + (S n + S (S n)))) by (unfold qc, qa, qb; rewrite (seq_app (S n) (S n + S (S n)) 0), (seq_app (S n) (S (S n)) (0 + S n)); reflexivity).
  assert (Nq : NoDup (qc ++ qa ++ qb)) by (rewrite Eq; apply seq_NoDup).
  assert (Lq : length qc = S n /\ length qa = S n /\ length qb = S (S n)) by (unfold qc, qa, qb; rewrite !seq_length; auto). destruct Lq as (Lqc & Lqa & Lqb).
  assert (Ec : concat [rc; ra; rb] = rc ++ ra ++ rb) by (cbn [concat]; rewrite app_nil_r; reflexivity).
  assert (Lk : length (concat [rc; ra; rb]) = S n + (S n + S (S n))) by (rewrite Ec, !app_length; lia).
  assert (Hq : qc <> []) by (unfold qc; discriminate).
  eapply prices_eq; [apply (inv_prices d [rc; ra; rb] (add 0) _ [qc; qa; qb] (add_pipe qc qa qb) (add_back qc qa qb) A)| |].
  - rewrite Ec. exact N.
  - intros r [<-|[<-|[<-|[]]]]; [discriminate|destruct ra|destruct rb]; discriminate.
  - discriminate.
  - rewrite (ranges_add n) by assumption. fold qc qa qb. unfold add. cbn [nth]. apply add_puts; try lia; assumption.
  - apply add_back_ok.
  - rewrite Lk. apply add_back_wf; [exact Nq|]; intros q Hq'; rewrite Eq in Hq'; apply in_seq in Hq'; lia.
  - apply add_back_proper.
  - apply add_back_kept.
  - rewrite Lk. destruct (add_back_top qc qa qb ltac:(lia) ltac:(lia) Hq) as (e & He & Hl). exists e. split; [exact He|].
    replace (S n + (S n + S (S n)) - 1) with (last qb 0); [exact Hl|]. unfold qb. rewrite last_seq. lia.
  - intros k. unfold replay_temps. destruct (Nat.eqb_spec k 0); [lia|]. apply add_back_temps; [lia|lia|lia|exact Hq].
  - intros k. unfold replay_objects. destruct (Nat.eqb_spec k 0) as [->|].
    + rewrite add_back_length by (lia || exact Hq). rewrite Lqc, Lc. unfold add_inv_objects. change (sum_objects 0) with 2. change (uncarry_objects 0) with 78. change (recarry_objects 0) with 126. lia.
    + rewrite add_back_objects by (lia || exact Hq). rewrite Lqc, Lc. reflexivity.
Qed.

(** *** add_mod *)
Section Mod.
Context (d : nat) (ra rb rm rc : list nat) (t : nat) (Lm : length ra = length rm) (Lb : length rb = S (length ra)) (Ha : ra <> []) (Lc : length rc = length ra)
  (N : NoDup (ra ++ rb ++ rm ++ t :: rc)).
Notation n := (length ra).
Notation top := (nth n rb 0).
Notation rs := ([ra; rb; rm; [t]; rc] : list reg).
Definition mod_prices : list priced :=
  [mkPriced (call add [whole 4; whole 0; whole 1]) (fun c => c) (add_objects n);
   mkPriced (call add_inv [whole 4; whole 2; whole 1]) (fun c => c) (add_inv_objects n);
   x_line (control op_x [part 1 [n]; whole 3]);
   mkPriced (control add [whole 3; whole 4; whole 2; whole 1]) (fun c => c) (add_objects n);
   mkPriced (call add_inv [whole 4; whole 0; whole 1]) (fun c => c) (add_inv_objects n);
   x_line (control_mask 0 op_x [part 1 [n]; whole 3]);
   mkPriced (call add [whole 4; whole 0; whole 1]) (fun c => c) (add_objects n)].
Lemma mod_lines_prices : Forall (line_prices d rs) mod_prices.
Proof.
  pose proof (mod_nodup1 ra rb rm rc t N) as N1. pose proof (mod_nodup2 ra rb rm rc t N) as N2. pose proof (rc_ne ra rb rm rc t Lm Lb Ha Lc N) as Hc. destruct (mod_disj ra rb rm rc t N) as (_ & (T1 & T2 & T3 & T4) & _).
  assert (Nb : rb <> []) by (intros E; rewrite E in Lb; discriminate). assert (Nm : rm <> []) by (intros E; rewrite E in Lm; destruct ra; [congruence|discriminate]).
  assert (E1 : forall f, line_regs rs (call f [whole 4; whole 0; whole 1]) = [rc; ra; rb]) by (intros f; unfold line_regs, gather; cbn; rewrite !app_nil_r; reflexivity).
  assert (E2 : forall f, line_regs rs (call f [whole 4; whole 2; whole 1]) = [rc; rm; rb]) by (intros f; unfold line_regs, gather; cbn; rewrite !app_nil_r; reflexivity).
  assert (E3 : line_regs rs (control add [whole 3; whole 4; whole 2; whole 1]) = [[t]; rc; rm; rb]) by (unfold line_regs, gather; cbn; rewrite !app_nil_r; reflexivity).
  assert (A1 : forall f, line_ok rs (call f [whole 4; whole 0; whole 1])).
  { intros f. split; [args_ok|]. rewrite E1. split; [repeat constructor; assumption|]. cbn [concat]. rewrite app_nil_r. exact N1. }
  assert (A2 : forall f, line_ok rs (call f [whole 4; whole 2; whole 1])).
  { intros f. split; [args_ok|]. rewrite E2. split; [repeat constructor; assumption|]. cbn [concat]. rewrite app_nil_r. exact N2. }
  assert (A3 : Forall (Forall (arg_ok rs)) [part 1 [n]; whole 3]).
  { repeat apply Forall_cons; try apply Forall_nil; split; cbn [fst snd length nth]; try lia; try exact I. intros i [<-|[]]. lia. }
  assert (N3 : NoDup [top; t]) by (pose proof (top_t ra rb rm rc t Lm Lb Lc N); repeat constructor; cbn; intuition congruence).
  unfold mod_prices. rewrite <- Lc. repeat apply Forall_cons; try apply Forall_nil.
  - eapply call_prices; [apply E1|apply A1|]. apply add_prices; try assumption; lia.
  - eapply call_prices; [apply E2|apply A2|]. apply add_inv_prices; try assumption; lia.
  - split; [split; [rewrite Lc; exact A3|]; split; [repeat constructor; discriminate|rewrite Lc; exact N3]|]. split; [intros _; discriminate|]. apply x_prices.
  - split; [split; [args_ok|]; cbn [p_line]; rewrite E3; split; [repeat constructor; try assumption; discriminate|cbn [concat]; rewrite app_nil_r; cbn [app]; constructor; [rewrite !in_app_iff; tauto|exact N2]]|].
    split; [intros _; discriminate|]. unfold call_targets, call_depth. cbn [p_line]. rewrite E3. cbn [p_line control l_ctl l_fun p_temps p_objects tl]. apply add_prices; try assumption; lia.
  - eapply call_prices; [apply E1|apply A1|]. apply add_inv_prices; try assumption; lia.
  - split; [split; [rewrite Lc; exact A3|]; split; [repeat constructor; discriminate|rewrite Lc; exact N3]|]. split; [intros _; discriminate|]. apply x_prices.
  - eapply call_prices; [apply E1|apply A1|]. apply add_prices; try assumption; lia.
Qed.
Lemma mod_sums c : program_temps rs mod_prices c = S c /\ program_objects rs mod_prices c = add_mod_objects n c.
Proof.
  clear Lm Lb Ha Lc N. unfold program_temps, program_objects, mod_prices, line_temps, line_objects, x_line, call, control, control_mask.
  cbn [map p_line l_ctl p_temps p_objects peak total fold_right].
  assert (E3 : forall f, length (hd [] (line_regs rs (mkLine (Some None) f [whole 3; whole 4; whole 2; whole 1]))) = 1) by reflexivity.
  assert (E4 : forall o f, length (hd [] (line_regs rs (mkLine o f [part 1 [n]; whole 3]))) = 1) by reflexivity.
  rewrite E3, !E4. change (cleared 1 0) with 1. cbn [Nat.eqb]. rewrite !Nat.add_1_r, !flip_S. unfold not_temps, add_mod_objects. split; lia.
Qed.
End Mod.
Lemma add_mod_prices d ra rb rm : length ra = length rm -> length rb = S (length ra) -> ra <> [] -> prices d add_mod [ra; rb; rm] (add_mod_temps (length ra)) (add_mod_objects (length ra)).
Proof.
  intros Lm Lb Ha s L Ad T Lv K NL IL.
  assert (Hn : 0 < length ra) by (destruct ra; [congruence|cbn; lia]).
  assert (Hb : rb <> []) by (intros E; rewrite E in Lb; discriminate). assert (Hm : rm <> []) by (intros E; rewrite E in Lm; destruct ra; [congruence|discriminate]).
  destruct (make_uses s L T Lv) as (t & s1 & E1 & C1 & T1 & L1 & U11 & U12 & U13).
  destruct (make_reg_uses (length ra) s1 (t :: L) Hn T1 L1) as (rc & s2 & Lc & E2 & C2 & T2 & L2 & U21 & U22 & U23).
  assert (Hc : rc <> []) by (intros E; rewrite E in Lc; cbn in Lc; lia).
  set (rs := [ra; rb; rm; [t]; rc] : list reg).
  assert (Ec : concat rs = ra ++ rb ++ rm ++ t :: rc) by (cbn [rs concat app]; rewrite app_nil_r; reflexivity).
  assert (EK : cqs d (conds s2) = K) by (rewrite C2, C1; reflexivity).
  assert (Eq : K ++ concat rs = (K ++ concat [ra; rb; rm]) ++ t :: rc) by (rewrite Ec; cbn [concat]; rewrite !app_nil_r, <- !app_assoc; reflexivity).
  assert (N2 : NoDup (K ++ concat rs)).
  { rewrite Eq. pose proof (proj1 L2) as X. apply NoDup_app_iff in X. destruct X as (X1 & X2 & X3). inversion X2 as [|? ? X4 X5]; subst.
    apply NoDup_app_iff. split; [exact NL|]. split; [constructor; [intros Y; apply (X3 t Y); left; reflexivity|exact X1]|].
    intros q Hq [<-|Y]; [apply X4, IL; exact Hq|]. apply (X3 q Y). right. apply IL. exact Hq. }
  assert (I2 : incl (K ++ concat rs) (rc ++ t :: L)).
  { rewrite Eq. intros q Hq. apply in_app_or in Hq. apply in_or_app. destruct Hq as [Hq|[<-|Hq]]; [right; right; apply IL; exact Hq|right; left; reflexivity|left; exact Hq]. }
  assert (Nr : NoDup (concat rs)) by (apply NoDup_app_iff in N2; apply N2). assert (Nr' := Nr). rewrite Ec in Nr'.
  assert (Ad2 : at_depth d s2) by (eapply at_depth_conds; [|exact Ad]; congruence).
  pose proof (program_prices d rs (mod_prices ra) Nr ltac:(repeat constructor; try assumption; discriminate) (mod_lines_prices d ra rb rm rc t Lm Lb Ha Lc Nr') s2 (rc ++ t :: L) Ad2 T2 L2) as X.
  cbv zeta in X. rewrite EK in X. destruct (X N2 I2) as (s3 & E3 & C3 & T3 & L3 & U3). destruct (mod_sums ra rb rm rc t (length K)) as (M1 & M2). fold rs in M1, M2. rewrite M1, M2 in U3. clear X M1 M2.
  assert (L3' : live s3 ([t] ++ rc ++ L)) by (eapply live_perm; [exact L3|]; symmetry; exact (Permutation_middle rc L t)).
  destruct (return_reg_uses s3 [t] (rc ++ L) T3 L3' ltac:(discriminate)) as (s4 & E4 & C4 & T4 & L4 & U41 & U42 & U43).
  destruct (return_reg_uses s4 rc L T4 L4 Hc) as (s5 & E5 & C5 & T5 & L5 & U51 & U52 & U53).
  exists s5. split; [|split; [congruence|]; split; [exact T5|]; split; [exact L5|]].
  - unfold add_mod. rewrite <- Lm, Nat.eqb_refl. replace (length rb =? length ra + 1) with true by (symmetry; apply Nat.eqb_eq; lia). cbn [negb].
    unfold mbind at 1. rewrite E1. unfold mbind at 1. rewrite E2. unfold mbind at 1. change (program d [ra; rb; rm; [t]; rc] _) with (program d rs (map p_line (mod_prices ra))). rewrite E3. cbn [rs].
    unfold mbind at 1. rewrite E4. unfold mbind at 1. rewrite E5. reflexivity.
  - unfold add_mod_temps, uses in *. cbn [length] in U42. destruct U3 as (U31 & U32 & U33). rewrite U53, U43, U33, U23, U13. repeat split; lia.
Qed.
