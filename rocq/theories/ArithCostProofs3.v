(** Costs of the modular product, square and power at any depth. *)
From Coq Require Import Permutation Reals FunctionalExtensionality.
From Verif Require Import Base BitsSpec OpsModel BuilderModel RegProofs DenSpec SimSpec RunSpec LocalProofs RunProofs GateProofs ToffoliProofs CondProofs
  SubSpec InvertProofs SubProofs SubProofs2 SubProofs3 SubProofs4 SubProofs5 SubProofs6 ProgramModel ProgramSpec ProgramProofs ProgramProofs2 CircProofs CircProofs2
  ArithModel ArithSpec ArithProofs ArithProofs2 ArithProofs3 ArithProofs4 ArithProofs5 ArithProofs6 ArithProofs7 ArithProofs8 ArithProofs9 ArithProofs10 ArithProofs11
  CostSpec CostProofs CostProofs2 CostProofs3 CostProofs4 ProgCostSpec ProgCostProofs ArithCostSpec ArithCostProofs ArithCostSpec2 ArithCostProofs2.
Local Open Scope nat_scope.
Local Open Scope mon_scope.

(** A loop all of whose rounds cost the same. *)
Lemma loop_paid {A} (f : A -> nat -> M A) a L k g : forall is s, is <> [] -> tidy s -> live s L ->
  (forall i s1, In i is -> conds s1 = conds s -> tidy s1 -> live s1 L -> paid s1 (f a i) a L k g) -> paid s (mfold f is a) a L k (length is * g).
Proof.
  induction is as [|i is IH]; intros s He T Lv H; [congruence|]. cbn [mfold]. pose proof (H i s (or_introl eq_refl) eq_refl T Lv) as P. destruct is as [|j is].
  - cbn [mfold]. eapply paid_eq; [eapply (paid_then _ _ a L _ _ _ a L P); intros; apply paid_ret; assumption|reflexivity|cbn [length]; lia].
  - eapply paid_eq.
    + eapply (paid_bind _ _ a L _ _ _ a L k (length (j :: is) * g) P). intros s1 C1 T1 L1. apply IH; try assumption; [discriminate|]. intros i' s2 Hi C2 T2 L2. apply H; try assumption; [right; exact Hi|congruence].
    + apply Nat.max_id.
    + cbn [length]. lia.
Qed.

Section Times.
Context (d : nat) (ra rb rm rp rt rc : list nat) (Hm : rm <> []) (Hb : rb <> []) (La : length ra = S (length rm)) (Lp : length rp = S (length rm)) (Lt : length rt = length rb) (Lc : length rc = length rm)
  (Nd : NoDup (concat [ra; rb; rm; rp; rt; rc])).
Notation n := (length rm).
Notation k := (length rb).
Notation rs6 := ([ra; rb; rm; rp; rt; rc] : list reg).
Notation rs4 := ([ra; rm; rt; rc] : list reg).
Definition first_prices (i : nat) : list priced :=
  [mkPriced (call add_inv [whole 5; whole 2; whole 0]) (fun c => c) (add_inv_objects n);
   x_line (control op_x [part 0 [n]; part 4 [i]]);
   mkPriced (control add [part 4 [i]; whole 5; whole 2; whole 0]) (fun c => c) (add_objects n);
   mkPriced (control add_mod [part 1 [i]; part 0 (seq 0 n); whole 3; whole 2]) (add_mod_temps n) (add_mod_objects n);
   mkPriced (call rshift [whole 0]) (fun c => c - 1) (shift_objects n)].
Definition second_prices (i : nat) : list priced :=
  [mkPriced (call lshift [whole 0]) (fun c => c - 1) (shift_objects n);
   mkPriced (control add_inv [part 2 [i]; whole 3; whole 1; whole 0]) (fun c => c) (add_inv_objects n);
   x_line (control op_x [part 0 [n]; part 2 [i]]);
   mkPriced (call add [whole 3; whole 1; whole 0]) (fun c => c) (add_objects n)].
Definition first_objects (c : nat) : nat := add_inv_objects n c + nots c + add_objects n (S c) + add_mod_objects n (S c) + shift_objects n c.
Definition second_objects (c : nat) : nat := shift_objects n c + add_inv_objects n (S c) + nots c + add_objects n c.
Lemma nd_ra : NoDup ra.
Proof. pose proof (t_nodup ra rb rm rp rt rc Nd) as X. apply NoDup_app_iff in X. apply X. Qed.
Lemma shift_width (f : nat -> list reg -> M (list reg)) e : (2 <= length ra -> NoDup ra -> prices e f [ra] (fun c => c - 1) (fun c => (length ra - 1) * (3 * nots c))) -> prices e f [ra] (fun c => c - 1) (shift_objects n).
Proof.
  intros H. assert (Hn : 0 < n) by (destruct rm; [congruence|cbn; lia]). eapply prices_eq; [apply H; [lia|apply nd_ra]|reflexivity|]. intros c. unfold shift_objects. rewrite La. do 2 f_equal. lia.
Qed.
Lemma first_lines_prices i : i < k -> Forall (line_prices d rs6) (first_prices i).
Proof.
  intros Hi. pose proof (nodup_add ra rb rm rp rt rc Nd) as N1.
  pose proof (t_ne ra rb rm rp rt rc Hm Hb La Lp Lt Lc Nd) as (Ha & Hp & Ht & Hc & Hn & Hk).
  pose proof (first_lines_ok d ra rb rm rp rt rc Hm Hb La Lp Lt Lc Nd i Hi) as X. cbv zeta in X. destruct X as ((O1 & _) & (O2 & _) & (O3 & _) & O4 & (O5 & _)).
  assert (E1 : forall f, line_regs rs6 (call f [whole 5; whole 2; whole 0]) = [rc; rm; ra]) by (intros f; unfold line_regs, gather; cbn; rewrite !app_nil_r; reflexivity).
  assert (E3 : line_regs rs6 (control add [part 4 [i]; whole 5; whole 2; whole 0]) = [[nth i rt 0]; rc; rm; ra]) by (unfold line_regs, gather; cbn; rewrite !app_nil_r; reflexivity).
  assert (E4 : exists x y, length y = n /\ line_regs rs6 (control add_mod [part 1 [i]; part 0 (seq 0 n); whole 3; whole 2]) = [x; y; rp; rm]).
  { eexists. exists (map (fun j => nth j ra 0) (seq 0 n)). split; [rewrite map_length, seq_length; reflexivity|]. unfold line_regs, gather. cbn. rewrite !app_nil_r. reflexivity. }
  assert (E5 : line_regs rs6 (call rshift [whole 0]) = [ra]) by (unfold line_regs, gather; cbn; rewrite !app_nil_r; reflexivity).
  unfold first_prices. repeat apply Forall_cons; try apply Forall_nil.
  - eapply call_prices; [apply E1|exact O1|]. rewrite <- Lc. apply add_inv_prices; try assumption; lia.
  - split; [exact O2|]. split; [intros _; discriminate|]. apply x_prices.
  - split; [exact O3|]. split; [intros _; discriminate|]. unfold call_targets, call_depth. cbn [p_line]. rewrite E3. cbn [p_line control l_ctl l_fun p_temps p_objects tl]. rewrite <- Lc. apply add_prices; try assumption; lia.
  - destruct E4 as (x & y & Ly & E4). split; [exact O4|]. split; [intros _; discriminate|]. unfold call_targets, call_depth. cbn [p_line]. rewrite E4. cbn [p_line control l_ctl l_fun p_temps p_objects tl]. rewrite <- Ly. apply add_mod_prices; [exact Ly|lia|]. intros ->. cbn in Ly. lia.
  - eapply call_prices; [apply E5|exact O5|]. apply shift_width. intros H1 H2. apply rshift_prices; assumption.
Qed.
Lemma second_lines_prices i : i < k -> Forall (line_prices d rs4) (second_prices i).
Proof.
  intros Hi. pose proof (nodup_add ra rb rm rp rt rc Nd) as N1.
  pose proof (t_ne ra rb rm rp rt rc Hm Hb La Lp Lt Lc Nd) as (Ha & Hp & Ht & Hc & Hn & Hk).
  pose proof (second_lines_ok d ra rb rm rp rt rc Hm Hb La Lp Lt Lc Nd i Hi) as X. cbv zeta in X. destruct X as ((O1 & _) & (O2 & _) & (O3 & _) & (O4 & _)).
  assert (E1 : line_regs rs4 (call lshift [whole 0]) = [ra]) by (unfold line_regs, gather; cbn; rewrite !app_nil_r; reflexivity).
  assert (E2 : line_regs rs4 (control add_inv [part 2 [i]; whole 3; whole 1; whole 0]) = [[nth i rt 0]; rc; rm; ra]) by (unfold line_regs, gather; cbn; rewrite !app_nil_r; reflexivity).
  assert (E4 : line_regs rs4 (call add [whole 3; whole 1; whole 0]) = [rc; rm; ra]) by (unfold line_regs, gather; cbn; rewrite !app_nil_r; reflexivity).
  unfold second_prices. repeat apply Forall_cons; try apply Forall_nil.
  - eapply call_prices; [apply E1|exact O1|]. apply shift_width. intros H1 H2. apply lshift_prices; assumption.
  - split; [exact O2|]. split; [intros _; discriminate|]. unfold call_targets, call_depth. cbn [p_line]. rewrite E2. cbn [p_line control l_ctl l_fun p_temps p_objects tl]. rewrite <- Lc. apply add_inv_prices; try assumption; lia.
  - split; [exact O3|]. split; [intros _; discriminate|]. apply x_prices.
  - eapply call_prices; [apply E4|exact O4|]. rewrite <- Lc. apply add_prices; try assumption; lia.
Qed.
Lemma first_sums i c : program_temps rs6 (first_prices i) c = add_mod_temps n (S c) /\ program_objects rs6 (first_prices i) c = first_objects c.
Proof.
  clear. unfold program_temps, program_objects, first_prices, line_temps, line_objects, x_line, call, control.
  cbn [map p_line l_ctl p_temps p_objects peak total fold_right].
  assert (E2 : forall o f, length (hd [] (line_regs rs6 (mkLine o f [part 0 [n]; part 4 [i]]))) = 1) by reflexivity.
  assert (E3 : forall o f, length (hd [] (line_regs rs6 (mkLine o f [part 4 [i]; whole 5; whole 2; whole 0]))) = 1) by reflexivity.
  assert (E4 : forall o f, length (hd [] (line_regs rs6 (mkLine o f [part 1 [i]; part 0 (seq 0 n); whole 3; whole 2]))) = 1) by reflexivity.
  rewrite E2, E3, E4. rewrite !Nat.add_1_r, !flip_S. unfold not_temps, add_mod_temps, first_objects. split; lia.
Qed.
Lemma second_sums i c : program_temps rs4 (second_prices i) c = S c /\ program_objects rs4 (second_prices i) c = second_objects c.
Proof.
  clear. unfold program_temps, program_objects, second_prices, line_temps, line_objects, x_line, call, control.
  cbn [map p_line l_ctl p_temps p_objects peak total fold_right].
  assert (E2 : forall o f, length (hd [] (line_regs rs4 (mkLine o f [part 0 [n]; part 2 [i]]))) = 1) by reflexivity.
  assert (E3 : forall o f, length (hd [] (line_regs rs4 (mkLine o f [part 2 [i]; whole 3; whole 1; whole 0]))) = 1) by reflexivity.
  rewrite E2, E3. rewrite !Nat.add_1_r, !flip_S. unfold not_temps, second_objects. split; lia.
Qed.
Lemma first_paid i s L : i < k -> at_depth d s -> tidy s -> live s L -> NoDup (cqs d (conds s) ++ concat rs6) -> incl (cqs d (conds s) ++ concat rs6) L ->
  paid s (times_first d n i rs6) rs6 L (add_mod_temps n (S (length (cqs d (conds s))))) (first_objects (length (cqs d (conds s)))).
Proof.
  intros Hi Ad T Lv N I. destruct (first_sums i (length (cqs d (conds s)))) as (<- & <-).
  apply (program_prices d rs6 (first_prices i) Nd (t_ne6 ra rb rm rp rt rc Hm Hb La Lp Lt Lc Nd) (first_lines_prices i Hi) s L); assumption.
Qed.
Lemma second_paid i s L : i < k -> at_depth d s -> tidy s -> live s L -> NoDup (cqs d (conds s) ++ concat rs6) -> incl (cqs d (conds s) ++ concat rs6) L ->
  paid s (times_second d n i rs6) rs6 L (S (length (cqs d (conds s)))) (second_objects (length (cqs d (conds s)))).
Proof.
  intros Hi Ad T Lv N I. set (K := cqs d (conds s)) in *. pose proof (t_ne ra rb rm rp rt rc Hm Hb La Lp Lt Lc Nd) as (Ha & Hp & Ht & Hc & Hn & Hk).
  assert (N4 : NoDup (K ++ concat rs4)) by (pose proof (Permutation_NoDup (Permutation_sym (rs4_rs6 ra rb rm rp rt rc K)) N) as X; apply NoDup_app_iff in X; apply X).
  assert (I4 : incl (K ++ concat rs4) L) by (intros q Hq; apply I; eapply Permutation_in; [apply (rs4_rs6 ra rb rm rp rt rc K)|]; apply in_or_app; left; exact Hq).
  assert (Nc : NoDup (concat rs4)) by (apply NoDup_app_iff in N4; apply N4).
  unfold times_second. eapply (paid_then _ _ rs4 L).
  - destruct (second_sums i (length K)) as (<- & <-).
    apply (program_prices d rs4 (second_prices i) Nc ltac:(repeat constructor; assumption) (second_lines_prices i Hi) s L); assumption.
  - intros s1 C1 T1 L1. apply paid_ret; assumption.
Qed.
End Times.

Lemma times_mod_prices d ra rb rm rp : rm <> [] -> rb <> [] -> length ra = S (length rm) -> length rp = S (length rm) ->
  prices d times_mod [ra; rb; rm; rp] (times_temps (length rm) (length rb)) (times_objects (length rm) (length rb)).
Proof.
  intros Hm Hb La Lp s L Ad T Lv K NL IL. set (n := length rm). set (k := length rb).
  assert (Hn : 0 < n) by (unfold n; destruct rm; [congruence|cbn; lia]). assert (Hk : 0 < k) by (unfold k; destruct rb; [congruence|cbn; lia]).
  destruct (make_reg_uses k s L Hk T Lv) as (rt & s1 & Lt & E1 & C1 & T1 & L1 & U11 & U12 & U13).
  destruct (make_reg_uses n s1 (rt ++ L) Hn T1 L1) as (rc & s2 & Lc & E2 & C2 & T2 & L2 & U21 & U22 & U23).
  assert (Hc : rc <> []) by (intros E; rewrite E in Lc; cbn in Lc; lia). assert (Ht : rt <> []) by (intros E; rewrite E in Lt; cbn in Lt; lia).
  set (rs := [ra; rb; rm; rp; rt; rc] : list reg).
  assert (EK : cqs d (conds s2) = K) by (rewrite C2, C1; reflexivity).
  assert (Eq : K ++ concat rs = (K ++ concat [ra; rb; rm; rp]) ++ rt ++ rc) by (cbn [rs concat]; rewrite !app_nil_r, <- !app_assoc; reflexivity).
  assert (N2 : NoDup (K ++ concat rs)).
  { rewrite Eq. pose proof (proj1 L2) as X. apply NoDup_app_iff in X. destruct X as (X1 & X2 & X3). apply NoDup_app_iff in X2. destruct X2 as (X4 & X5 & X6).
    apply NoDup_app_iff. split; [exact NL|]. split; [apply NoDup_app_iff; split; [exact X4|]; split; [exact X1|]; intros q Hq Y; apply (X3 q Y), in_or_app; left; exact Hq|].
    intros q Hq Y. apply in_app_or in Y. destruct Y as [Y|Y]; [apply (X6 q Y), IL, Hq|apply (X3 q Y), in_or_app; right; apply IL, Hq]. }
  assert (I2 : incl (K ++ concat rs) (rc ++ rt ++ L)).
  { rewrite Eq. intros q Hq. apply in_app_or in Hq. rewrite !in_app_iff. destruct Hq as [Hq|Hq]; [right; right; apply IL; exact Hq|apply in_app_or in Hq; tauto]. }
  assert (Nr : NoDup (concat rs)) by (apply NoDup_app_iff in N2; apply N2).
  assert (Ad2 : at_depth d s2) by (eapply at_depth_conds; [|exact Ad]; congruence).
  assert (S1 : seq 0 k <> []) by (destruct k; [lia|discriminate]).
  assert (S2 : rev (seq 0 k) <> []) by (intros X; apply (f_equal (@length nat)) in X; rewrite rev_length, seq_length in X; cbn in X; lia).
  assert (P1 : paid s2 (mfold (fun rs indx => times_first d n indx rs) (seq 0 k) rs) rs (rc ++ rt ++ L) (add_mod_temps n (S (length K))) (length (seq 0 k) * first_objects rm (length K))).
  { apply loop_paid; [exact S1|exact T2|exact L2|]. intros i s3 Hi C3 T3 L3. apply in_seq in Hi. assert (EK3 : cqs d (conds s3) = K) by (rewrite C3; exact EK). rewrite <- EK3.
    apply (first_paid d ra rb rm rp rt rc Hm Hb La Lp Lt Lc Nr i); try assumption; [unfold k in Hi; lia|eapply at_depth_conds; [|exact Ad2]; exact C3| |]; rewrite EK3; assumption. }
  destruct P1 as (s3 & E3 & C3 & T3 & L3 & U3).
  assert (P2 : paid s3 (mfold (fun rs indx => times_second d n indx rs) (rev (seq 0 k)) rs) rs (rc ++ rt ++ L) (S (length K)) (length (rev (seq 0 k)) * second_objects rm (length K))).
  { apply loop_paid; [exact S2|exact T3|exact L3|]. intros i s4 Hi C4 T4 L4. apply in_rev in Hi. apply in_seq in Hi. assert (EK4 : cqs d (conds s4) = K) by (rewrite C4, C3; exact EK). rewrite <- EK4.
    apply (second_paid d ra rb rm rp rt rc Hm Hb La Lp Lt Lc Nr i); try assumption; [unfold k in Hi; lia|eapply at_depth_conds; [|exact Ad2]; congruence| |]; rewrite EK4; assumption. }
  destruct P2 as (s4 & E4 & C4 & T4 & L4 & U4).
  destruct (return_reg_uses s4 rc (rt ++ L) T4 L4 Hc) as (s5 & E5 & C5 & T5 & L5 & U51 & U52 & U53).
  destruct (return_reg_uses s5 rt L T5 L5 Ht) as (s6 & E6 & C6 & T6 & L6 & U61 & U62 & U63).
  exists s6. split; [|split; [congruence|]; split; [exact T6|]; split; [exact L6|]].
  - unfold times_mod. fold n k. replace (length ra =? n + 1) with true by (symmetry; apply Nat.eqb_eq; unfold n; lia). replace (length rp =? n + 1) with true by (symmetry; apply Nat.eqb_eq; unfold n; lia). cbn [negb].
    unfold mbind at 1. rewrite E1. unfold mbind at 1. rewrite E2. unfold mbind at 1. match goal with |- context [mfold ?f (seq 0 k) ?x s2] => change (mfold f (seq 0 k) x s2) with (mfold (fun rs indx => times_first d n indx rs) (seq 0 k) rs s2) end. rewrite E3.
    unfold mbind at 1. match goal with |- context [mfold ?f (rev (seq 0 k)) ?x s3] => change (mfold f (rev (seq 0 k)) x s3) with (mfold (fun rs indx => times_second d n indx rs) (rev (seq 0 k)) rs s3) end. rewrite E4. cbn [rs]. unfold mbind at 1. rewrite E5. unfold mbind at 1. rewrite E6. reflexivity.
  - pose proof (uses_trans _ _ _ _ _ _ _ U3 U4) as U. rewrite rev_length, seq_length in U.
    assert (Eo : k * first_objects rm (length K) + k * second_objects rm (length K) = times_objects n k (length K)) by (unfold times_objects, round_objects, first_objects, second_objects; fold n; lia).
    rewrite Eo in U. replace (Nat.max (add_mod_temps n (S (length K))) (S (length K))) with (add_mod_temps n (S (length K))) in U by (unfold add_mod_temps; lia).
    unfold times_temps. revert U. generalize (times_objects n k (length K)) (add_mod_temps n (S (length K))). intros G W U.
    clear - U U11 U12 U13 U21 U22 U23 U51 U52 U53 U61 U62 U63 Lc Lt. unfold uses in *. destruct U as (U31 & U32 & U33). rewrite U63, U53, U33, U23, U13. repeat split; lia.
Qed.

(** *** square_mod *)
Lemma square_mod_prices d ra rm rs : rm <> [] -> length ra = S (length rm) -> length rs = S (length rm) ->
  prices d square_mod [ra; rm; rs] (square_temps (length rm)) (square_objects (length rm)).
Proof.
  intros Hm La Ls s L Ad T Lv K NL IL. set (n := length rm).
  assert (Hn : 0 < n) by (unfold n; destruct rm; [congruence|cbn; lia]).
  destruct (make_reg_uses n s L Hn T Lv) as (rt & s1 & Lt & E1 & C1 & T1 & L1 & U11 & U12 & U13).
  assert (Ht : rt <> []) by (intros E; rewrite E in Lt; cbn in Lt; lia). assert (Ha : ra <> []) by (intros E; rewrite E in La; discriminate). assert (Hs : rs <> []) by (intros E; rewrite E in Ls; discriminate).
  set (rr := [ra; rm; rs; rt] : list reg).
  assert (EK : cqs d (conds s1) = K) by (rewrite C1; reflexivity).
  assert (Eq : K ++ concat rr = (K ++ concat [ra; rm; rs]) ++ rt) by (cbn [rr concat]; rewrite !app_nil_r, <- !app_assoc; reflexivity).
  assert (N2 : NoDup (K ++ concat rr)).
  { rewrite Eq. pose proof (proj1 L1) as X. apply NoDup_app_iff in X. destruct X as (X1 & X2 & X3). apply NoDup_app_iff. split; [exact NL|]. split; [exact X1|]. intros q Hq Y. apply (X3 q Y), IL, Hq. }
  assert (I2 : incl (K ++ concat rr) (rt ++ L)).
  { rewrite Eq. intros q Hq. apply in_app_or in Hq. apply in_or_app. destruct Hq as [Hq|Hq]; [right; apply IL; exact Hq|left; exact Hq]. }
  assert (Nr : NoDup (concat rr)) by (apply NoDup_app_iff in N2; apply N2).
  assert (Ad1 : at_depth d s1) by (eapply at_depth_conds; [|exact Ad]; congruence).
  set (ps := [mkPriced (call copy [part 0 (seq 0 n); whole 3]) (fun c => c - 1) (copy_objects n);
    mkPriced (call times_mod [whole 0; whole 3; whole 1; whole 2]) (times_temps n n) (times_objects n n);
    mkPriced (call copy_inv [part 0 (seq 0 n); whole 3]) (fun c => c - 1) (copy_objects n)]).
  assert (F : Forall (line_prices d rr) ps).
  { set (y := map (fun j => nth j ra 0) (seq 0 n)). assert (Ly : length y = n) by (unfold y; rewrite map_length, seq_length; reflexivity).
    assert (Ec : forall f, line_regs rr (call f [part 0 (seq 0 n); whole 3]) = [y; rt]) by (intros f; unfold line_regs, gather; cbn; rewrite !app_nil_r; reflexivity).
    assert (Et : line_regs rr (call times_mod [whole 0; whole 3; whole 1; whole 2]) = [ra; rt; rm; rs]) by (unfold line_regs, gather; cbn; rewrite !app_nil_r; reflexivity).
    assert (Ne : Forall (fun r => r <> []) rr) by (repeat constructor; assumption).
    assert (Oc : forall f, line_ok rr (call f [part 0 (seq 0 n); whole 3])).
    { intros f. apply line_ok_set; [exact Nr|exact Ne|repeat constructor; discriminate| | |repeat constructor; cbn; intuition discriminate].
      - repeat apply Forall_cons; try apply Forall_nil; split; cbn [fst snd length nth rr]; try lia; try exact I. intros j Hj. apply in_seq in Hj. unfold n in Hj. lia.
      - repeat apply Forall_cons; try apply Forall_nil; unfold arg_set; cbn [snd]; try exact I. split; [apply seq_NoDup|]. intros X. apply (f_equal (@length nat)) in X. rewrite seq_length in X. cbn in X. lia. }
    assert (Ot : line_ok rr (call times_mod [whole 0; whole 3; whole 1; whole 2])).
    { apply line_ok_set; [exact Nr|exact Ne|repeat constructor; discriminate| | |repeat constructor; cbn; intuition discriminate].
      - repeat apply Forall_cons; try apply Forall_nil; split; cbn [fst snd length nth rr]; try lia; exact I.
      - repeat apply Forall_cons; try apply Forall_nil; unfold arg_set; cbn [snd]; exact I. }
    assert (Hy : y <> []) by (intros E; rewrite E in Ly; cbn in Ly; lia).
    assert (Ny : NoDup (y ++ rt)) by (destruct (Oc copy) as (_ & _ & X); rewrite Ec in X; cbn [concat] in X; rewrite app_nil_r in X; exact X).
    unfold ps. repeat apply Forall_cons; try apply Forall_nil.
    - eapply call_prices; [apply Ec|apply Oc|]. rewrite <- Ly. apply copy_prices; [lia|exact Hy].
    - eapply call_prices; [exact Et|exact Ot|]. pose proof (times_mod_prices d ra rt rm rs Hm Ht La Ls) as X. rewrite Lt in X. exact X.
    - eapply call_prices; [apply Ec|apply Oc|]. rewrite <- Ly. apply copy_inv_prices; [lia|exact Hy|exact Ny]. }
  pose proof (program_prices d rr ps Nr ltac:(repeat constructor; assumption) F s1 (rt ++ L) Ad1 T1 L1) as X.
  cbv zeta in X. rewrite EK in X. destruct (X N2 I2) as (s3 & E3 & C3 & T3 & L3 & U3). clear X.
  destruct (return_reg_uses s3 rt L T3 L3 Ht) as (s4 & E4 & C4 & T4 & L4 & U41 & U42 & U43).
  exists s4. split; [|split; [congruence|]; split; [exact T4|]; split; [exact L4|]].
  - unfold square_mod. fold n. replace (length ra =? n + 1) with true by (symmetry; apply Nat.eqb_eq; unfold n; lia). replace (length rs =? n + 1) with true by (symmetry; apply Nat.eqb_eq; unfold n; lia). cbn [negb].
    unfold mbind at 1. rewrite E1. unfold mbind at 1. change (program d [ra; rm; rs; rt] _) with (program d rr (map p_line ps)). rewrite E3. cbn [rr]. unfold mbind at 1. rewrite E4. reflexivity.
  - assert (Mt : program_temps rr ps (length K) = times_temps n n (length K)).
    { unfold program_temps, ps, line_temps, call. cbn [map p_line l_ctl p_temps peak fold_right]. unfold times_temps, add_mod_temps. lia. }
    assert (Mo : program_objects rr ps (length K) = square_objects n (length K)).
    { unfold program_objects, ps, line_objects, call. cbn [map p_line l_ctl p_objects total fold_right]. unfold square_objects. lia. }
    rewrite Mt, Mo in U3. unfold square_temps. revert U3. generalize (square_objects n (length K)) (times_temps n n (length K)). intros G W U.
    clear - U U11 U12 U13 U41 U42 U43 Lt. unfold uses in *. destruct U as (U31 & U32 & U33). rewrite U43, U33, U13. repeat split; lia.
Qed.

(** *** exp_mod, one bit *)
Lemma exp_mod_prices d ra b rm rp re : rm <> [] -> length ra = S (length rm) -> length rp = S (length rm) -> length re = S (length rm) -> NoDup (concat [ra; [b]; rm; rp; re]) ->
  prices d exp_mod [ra; [b]; rm; rp; re] (power1_temps (length rm)) (power1_objects (length rm)).
Proof.
  intros Hm La Lp Le Nr. set (n := length rm). set (rs := [ra; [b]; rm; rp; re] : list reg).
  assert (Ha : ra <> []) by (intros E; rewrite E in La; discriminate). assert (Hp : rp <> []) by (intros E; rewrite E in Lp; discriminate). assert (He : re <> []) by (intros E; rewrite E in Le; discriminate).
  assert (Ne : Forall (fun r => r <> []) rs) by (repeat constructor; try assumption; discriminate).
  set (ps := [mkPriced (control_mask 0 copy [part 1 [0]; whole 3; whole 4]) (fun c => c - 1) (copy_objects (S n));
    mkPriced (control times_mod [part 1 [0]; whole 0; whole 3; whole 2; whole 4]) (times_temps n (S n)) (times_objects n (S n))]).
  assert (F : Forall (line_prices d rs) ps).
  { assert (E1 : line_regs rs (control_mask 0 copy [part 1 [0]; whole 3; whole 4]) = [[b]; rp; re]) by (unfold line_regs, gather; cbn; rewrite !app_nil_r; reflexivity).
    assert (E2 : line_regs rs (control times_mod [part 1 [0]; whole 0; whole 3; whole 2; whole 4]) = [[b]; ra; rp; rm; re]) by (unfold line_regs, gather; cbn; rewrite !app_nil_r; reflexivity).
    unfold ps. repeat apply Forall_cons; try apply Forall_nil.
    - split; [|split; [intros _; discriminate|]].
      + apply line_ok_set; [exact Nr|exact Ne|repeat constructor; discriminate| | |repeat constructor; cbn; intuition discriminate].
        * repeat apply Forall_cons; try apply Forall_nil; split; cbn [fst snd length nth rs]; try lia; try exact I. intros j [<-|[]]. cbn. lia.
        * repeat apply Forall_cons; try apply Forall_nil; unfold arg_set; cbn [snd]; try exact I. split; [repeat constructor; intros []|discriminate].
      + unfold call_targets, call_depth. cbn [p_line]. rewrite E1. cbn [p_line control_mask l_ctl l_fun p_temps p_objects tl]. unfold n. rewrite <- Lp. apply copy_prices; [lia|exact Hp].
    - split; [|split; [intros _; discriminate|]].
      + apply line_ok_set; [exact Nr|exact Ne|repeat constructor; discriminate| | |repeat constructor; cbn; intuition discriminate].
        * repeat apply Forall_cons; try apply Forall_nil; split; cbn [fst snd length nth rs]; try lia; try exact I. intros j [<-|[]]. cbn. lia.
        * repeat apply Forall_cons; try apply Forall_nil; unfold arg_set; cbn [snd]; try exact I. split; [repeat constructor; intros []|discriminate].
      + unfold call_targets, call_depth. cbn [p_line]. rewrite E2. cbn [p_line control l_ctl l_fun p_temps p_objects tl]. unfold n. rewrite <- Lp. apply times_mod_prices; assumption. }
  assert (Mt : forall c, program_temps rs ps c = power1_temps n c).
  { intros c. unfold program_temps, ps, line_temps, control_mask, control. cbn [map p_line l_ctl p_temps peak fold_right].
    assert (E1 : forall o f, length (hd [] (line_regs rs (mkLine o f [part 1 [0]; whole 3; whole 4]))) = 1) by reflexivity.
    assert (E2 : forall o f, length (hd [] (line_regs rs (mkLine o f [part 1 [0]; whole 0; whole 3; whole 2; whole 4]))) = 1) by reflexivity.
    rewrite E1, E2. change (cleared 1 0) with 1. cbn [Nat.eqb]. rewrite !Nat.add_1_r. unfold power1_temps, times_temps, add_mod_temps, not_temps. lia. }
  assert (Mo : forall c, program_objects rs ps c = power1_objects n c).
  { intros c. unfold program_objects, ps, line_objects, control_mask, control. cbn [map p_line l_ctl p_objects total fold_right].
    assert (E1 : forall o f, length (hd [] (line_regs rs (mkLine o f [part 1 [0]; whole 3; whole 4]))) = 1) by reflexivity.
    assert (E2 : forall o f, length (hd [] (line_regs rs (mkLine o f [part 1 [0]; whole 0; whole 3; whole 2; whole 4]))) = 1) by reflexivity.
    rewrite E1, E2. change (cleared 1 0) with 1. rewrite !Nat.add_1_r. unfold power1_objects. lia. }
  eapply prices_fun; [eapply prices_eq; [apply (program_prices d rs ps Nr Ne F)|exact Mt|exact Mo]|]. intros s. unfold exp_mod, rs, ps. cbn [nth length exp_mod_fuel].
  fold n. replace (length ra =? n + 1) with true by (symmetry; apply Nat.eqb_eq; unfold n; lia). replace (length rp =? n + 1) with true by (symmetry; apply Nat.eqb_eq; unfold n; lia). replace (length re =? n + 1) with true by (symmetry; apply Nat.eqb_eq; unfold n; lia).
  cbn [negb Nat.eqb]. reflexivity.
Qed.
