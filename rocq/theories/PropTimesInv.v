(** The inverses of times_mod, square_mod and exp_mod: C71, C72, C74. *)
From Coq Require Import Reals Lra FunctionalExtensionality Permutation.
From Coquelicot Require Import Complex.
From Verif Require Import Base BitsSpec BitsProofs OpsModel OpsSpec Instances BuilderModel RegProofs DenSpec DenProofs LocalProofs LinkProofs
  RunSpec RunProofs GateProofs ToffoliProofs CondProofs SubSpec SubProofs SubProofs2 SubProofs3 SubProofs5 SubProofs6 SimModel SimSpec SimProofs ProgramModel ProgramSpec ProgramProofs ProgramProofs2 CircProofs CircProofs2
  ArithModel ArithSpec ArithProofs ArithProofs2 ArithProofs3 ArithProofs4 ArithProofs5 ArithProofs6 ArithProofs7 ArithProofs8 WeakProofs TraceProofs ArithProofs9 ArithProofs10 ArithProofs11 ArithProofs12 ArithProofs14 KindProofs ArithProofs15 ArithProofs17
  TimesSpec InvValueProofs ExpInvModel ExpInvProofs PropTimes PropSquare PropExp PropModInv2.
Local Open Scope nat_scope.
Local Open Scope mon_scope.
Local Ltac nd := repeat constructor; cbn; intuition lia.

(** [f] from the basis state [x] has amplitude sin (1/2) to the [e] at [x] again, for all [x] with [P]; and
    is in order. *)
Definition keeps_with (f : list reg -> M (list reg)) (rs : list reg) (s : st) (P : bs -> Prop) (e : nat) : Prop :=
  exists s' p, f rs s = Ret rs s' /\ conds s' = conds s /\ tidy s' /\ live s' (concat rs) /\ bn (bld s) <= bn (bld s') /\
    pipeline (bld s') = pipeline (bld s) ++ p /\ Forall (wf_entry (bn (bld s'))) p /\ Forall proper_entry p /\
    forall x, P x -> (forall q, idle s q -> q < bn (bld s') -> x q = false) -> (forall q, bn (bld s') <= q -> x q = false) -> den p (ket (bn (bld s')) x) x = cpow (RtoC (sin (/ 2))) e.
Lemma sin_pow k : cpow (RtoC (sin (/ 2))) k = RtoC (sin (/ 2) ^ k).
Proof. induction k as [|m IH]; [reflexivity|]. cbn [cpow pow]. rewrite IH, <- RtoC_mult. reflexivity. Qed.
Lemma sin_pow_lt k : (0 < sin (/ 2) ^ S k < 1)%R.
Proof.
  assert (S1 : (0 < sin (/ 2))%R) by (apply sin_gt_0; [lra|]; pose proof PI2_1; lra). assert (S2 : (sin (/ 2) < / 2)%R) by (apply sin_lt_x; lra).
  induction k as [|k IH]; [cbn [pow]; lra|]. change (sin (/ 2) ^ S (S k))%R with (sin (/ 2) * sin (/ 2) ^ S k)%R. split; nra.
Qed.
(** Through the simulator. *)
Lemma keeps_simulated f rs k P e it x draws : keeps_with f rs (fresh k) P e -> in_range k (concat rs) -> (forall r v, In (r, v) it -> in_range k r) -> loads it x -> P x ->
  exists s' v, f rs (fresh k) = Ret rs s' /\ calculate_state_with_init (bld s') it draws = Ok (v, []) /\ nth (enc (bn (bld s')) x) v (RtoC 0) = RtoC (sin (/ 2) ^ e).
Proof.
  intros (s' & p & E & _ & _ & _ & Eb & Ep & W & Pr & D) R Ri Lo Px. cbn [fresh bld bn pipeline app] in Eb, Ep.
  destruct (simulate_ok (bld s') it x draws) as (v & Ev & Lv & H).
  - intros r w Hin q Hq. specialize (Ri r w Hin q Hq). lia.
  - exact Lo.
  - rewrite Ep. exact W.
  - rewrite Ep. eapply Forall_impl; [|exact Pr]. intros e' He. apply He.
  - exists s', v. split; [exact E|]. split; [exact Ev|].
    assert (X : forall q, k <= q -> x q = false) by (intros q Hq; apply (proj2 Lo); intros r w Hin I; specialize (Ri r w Hin q I); lia).
    change (st_of CN (bn (bld s')) v x = RtoC (sin (/ 2) ^ e)). rewrite H, Ep, D; [apply sin_pow|exact Px| |].
    + intros q [Iq|[]] _. apply X. exact Iq.
    + intros q Hq. apply X. lia.
Qed.

(** Values of the registers of a recording. *)
Lemma val_at l1 l2 l3 x n : n = length l2 -> val (seq (length l1) n) (at_regs (l1 ++ l2 ++ l3) x) = val l2 x.
Proof. intros ->. apply val_mid. Qed.
Lemma at_off r x q : length r <= q -> at_regs r x q = false.
Proof. intros H. unfold at_regs. destruct (Nat.ltb_spec q (length r)); [lia|reflexivity]. Qed.
Lemma at_live s1 rs : live s1 (concat (ranges 0 (map (@length nat) rs))) -> length (concat rs) <= bn (bld s1).
Proof.
  rewrite (proj1 (ranges_spec rs)). intros (_ & F). destruct (length (concat rs)) as [|k]; [lia|]. destruct (Nat.lt_ge_cases k (bn (bld s1))) as [L|L]; [lia|].
  exfalso. apply (F k); [apply in_seq; lia|]. left. exact L.
Qed.

(** *** C71 *)
(** times_mod_inv on 0, 0 and modulus 2^(n-1): nothing is to change, and the amplitude found is again sin (1/2)
    to the size of rb. *)
Definition nothing_to_multiply (ra rb rm : list nat) (x : bs) : Prop := val ra x = 0 /\ val rb x = 0 /\ val rm x = 2 ^ (length rm - 1).
Theorem C71_inverse_exact : forall ra rb rm rp s, length ra = S (length rm) -> length rp = S (length rm) -> rm <> [] -> rb <> [] -> at_depth 0 s -> tidy s -> live s (concat [ra; rb; rm; rp]) ->
  keeps_with (times_mod_inv 0) [ra; rb; rm; rp] s (nothing_to_multiply ra rb rm) (length rb).
Proof.
  intros ra rb rm rp s La Lp Hm Hb Ad T Lv. set (rs := [ra; rb; rm; rp] : list reg) in *. set (k := length (concat rs)).
  set (A := seq 0 (length ra)). set (B := seq (length ra) (length rb)). set (M := seq (length (ra ++ rb)) (length rm)). set (P := seq (length (ra ++ rb ++ rm)) (length rp)).
  assert (ER : ranges 0 (map (@length nat) rs) = [A; B; M; P]).
  { unfold A, B, M, P. rewrite !app_length. cbn [map rs ranges Nat.add]. rewrite !Nat.add_assoc. reflexivity. }
  assert (LA : length A = S (length M)) by (unfold A, M; rewrite !seq_length; exact La). assert (LP : length P = S (length M)) by (unfold P, M; rewrite !seq_length; exact Lp).
  assert (HM : M <> []) by (unfold M; apply ne_length; rewrite seq_length; apply ne_length; exact Hm). assert (HB : B <> []) by (unfold B; apply ne_length; rewrite seq_length; apply ne_length; exact Hb).
  assert (LvR : live (fresh k) (concat [A; B; M; P])) by (rewrite <- ER; unfold k; rewrite (proj1 (ranges_spec rs)); apply live_seq).
  destruct (times_touch A B M P (fresh k) LA LP HM HB (fresh_depth k) (fresh_tidy k) LvR) as (s1 & p1 & E & Ep & (e & j & He & Hj & Ij)). cbn [fresh bld pipeline app] in Ep. subst p1.
  assert (LvR' : live (fresh k) (A ++ B ++ M ++ P)) by (cbn [concat] in LvR; rewrite app_nil_r in LvR; exact LvR).
  destruct (C71_times_mod_exact A B M P (fresh k) LA LP HM HB (fresh_depth k) (fresh_tidy k) LvR') as (s2 & p2 & E2 & Eb & Ep2 & D).
  rewrite E in E2. injection E2 as <-. cbn [fresh bld pipeline app bn] in Ep2, Eb. subst p2.
  destruct (diag_value times_mod rs) with (s1 := s1) (s := s) as (s' & p & H1 & H2 & H3 & H4 & H5 & H6 & H7 & H8 & H9).
  - discriminate.
  - repeat constructor; try assumption; apply ne_length; lia.
  - intros r. apply n_times_mod.
  - rewrite ER. eapply xacts_any. apply times_xacts; assumption.
  - rewrite ER. exact E.
  - exists e, j. split; [exact He|]. split; [exact Hj|]. destruct Ij as [Ij|[]]. change (k <= j) in Ij. change (k <= S j). lia.
  - exact Ad.
  - exact T.
  - exact Lv.
  - exists s', p. do 8 (split; [assumption|]). intros x (Va & Vb & Vm) Z Zb. rewrite <- cconj_sin. apply H9; [exact Z|exact Zb|]. set (y := at_regs (concat rs) x).
    assert (Cc : concat rs = ra ++ rb ++ rm ++ rp) by (unfold rs; cbn [concat]; rewrite app_nil_r; reflexivity).
    assert (Ya : val A y = 0) by (rewrite <- Va; unfold y; rewrite Cc; apply (val_at [] ra (rb ++ rm ++ rp)); reflexivity).
    assert (Yb : val B y = 0) by (rewrite <- Vb; unfold y; rewrite Cc; apply (val_at ra rb (rm ++ rp)); reflexivity).
    assert (Ym : val M y = 2 ^ (length M - 1)) by (unfold M at 2; rewrite seq_length, <- Vm; unfold y; rewrite Cc, app_assoc; apply (val_at (ra ++ rb) rm rp); reflexivity).
    rewrite (D _ y Ya Yb Ym).
    + rewrite ket_eq by reflexivity. unfold B. rewrite seq_length. ring.
    + intros q [Iq|[]] _. apply at_off. exact Iq.
    + intros z (q & Hq & X). apply in_seq in Hq. apply (ket_ne _ y z q); [lia|congruence].
Qed.
Print Assumptions C71_inverse_exact.
(** Through the simulator: times_mod_inv is wrong for all sizes of its registers. *)
Theorem C71_inverse_refuted : forall k ra rb rm rp it x draws, length ra = S (length rm) -> length rp = S (length rm) -> rm <> [] -> rb <> [] -> NoDup (concat [ra; rb; rm; rp]) -> in_range k (concat [ra; rb; rm; rp]) ->
  (forall r v, In (r, v) it -> in_range k r) -> loads it x -> val ra x = 0 -> val rb x = 0 -> val rm x = 2 ^ (length rm - 1) -> val rp x < val rm x ->
  mults_mod ra rb rm rp x x /\
  exists s' v, times_mod_inv 0 [ra; rb; rm; rp] (fresh k) = Ret [ra; rb; rm; rp] s' /\ calculate_state_with_init (bld s') it draws = Ok (v, []) /\
    nth (enc (bn (bld s')) x) v (RtoC 0) = RtoC (sin (/ 2) ^ length rb) /\ (0 < sin (/ 2) ^ length rb < 1)%R.
Proof.
  intros k ra rb rm rp it x draws La Lp Hm Hb Nd R Ri Lo Va Vb Vm Vp. split.
  { unfold mults_mod. rewrite Va, Vb. rewrite Vm in *. assert (P : 0 < 2 ^ (length rm - 1)) by (pose proof (Nat.pow_nonzero 2 (length rm - 1)); lia).
    split; [exact P|]. split; [exact Vp|]. split; [intros q _; reflexivity|]. rewrite Nat.add_0_r, Nat.mod_small by exact Vp. reflexivity. }
  destruct (keeps_simulated (times_mod_inv 0) [ra; rb; rm; rp] k (nothing_to_multiply ra rb rm) (length rb) it x draws) as (s' & v & E1 & E2 & E3).
  - apply C71_inverse_exact; try assumption; [apply fresh_depth|apply fresh_tidy|apply fresh_live; assumption].
  - exact R.
  - exact Ri.
  - exact Lo.
  - split; [exact Va|]. split; assumption.
  - exists s', v. do 3 (split; [assumption|]). destruct (length rb) as [|j] eqn:L; [destruct rb; [congruence|discriminate]|]. apply sin_pow_lt.
Qed.
Print Assumptions C71_inverse_refuted.

(** *** C72 *)
Definition nothing_to_square (ra rm : list nat) (x : bs) : Prop := val ra x = 0 /\ val rm x = 2 ^ (length rm - 1).
Theorem C72_inverse_exact : forall ra rm rs s, length ra = S (length rm) -> length rs = S (length rm) -> rm <> [] -> at_depth 0 s -> tidy s -> live s (concat [ra; rm; rs]) ->
  keeps_with (square_mod_inv 0) [ra; rm; rs] s (nothing_to_square ra rm) (length rm).
Proof.
  intros ra rm rp s La Lp Hm Ad T Lv. set (rs := [ra; rm; rp] : list reg) in *. set (k := length (concat rs)).
  set (A := seq 0 (length ra)). set (M := seq (length ra) (length rm)). set (P := seq (length (ra ++ rm)) (length rp)).
  assert (ER : ranges 0 (map (@length nat) rs) = [A; M; P]).
  { unfold A, M, P. rewrite !app_length. cbn [map rs ranges Nat.add]. reflexivity. }
  assert (LA : length A = S (length M)) by (unfold A, M; rewrite !seq_length; exact La). assert (LP : length P = S (length M)) by (unfold P, M; rewrite !seq_length; exact Lp).
  assert (HM : M <> []) by (unfold M; apply ne_length; rewrite seq_length; apply ne_length; exact Hm).
  assert (LvR : live (fresh k) (concat [A; M; P])) by (rewrite <- ER; unfold k; rewrite (proj1 (ranges_spec rs)); apply live_seq).
  destruct (square_touch A M P (fresh k) LA LP HM (fresh_depth k) (fresh_tidy k) LvR) as (s1 & p1 & E & Ep & (e & j & He & Hj & Ij)). cbn [fresh bld pipeline app] in Ep. subst p1.
  assert (LvR' : live (fresh k) (A ++ M ++ P)) by (cbn [concat] in LvR; rewrite app_nil_r in LvR; exact LvR).
  destruct (C72_square_mod_exact A M P (fresh k) LA LP HM (fresh_depth k) (fresh_tidy k) LvR') as (s2 & p2 & E2 & Ep2 & D).
  rewrite E in E2. injection E2 as <-. cbn [fresh bld pipeline app bn] in Ep2. subst p2.
  destruct (diag_value square_mod rs) with (s1 := s1) (s := s) as (s' & p & H1 & H2 & H3 & H4 & H5 & H6 & H7 & H8 & H9).
  - discriminate.
  - repeat constructor; try assumption; apply ne_length; lia.
  - intros r. apply n_square_mod.
  - rewrite ER. eapply xacts_any. apply square_xacts; assumption.
  - rewrite ER. exact E.
  - exists e, j. split; [exact He|]. split; [exact Hj|]. destruct Ij as [Ij|[]]. change (k <= j) in Ij. change (k <= S j). lia.
  - exact Ad.
  - exact T.
  - exact Lv.
  - exists s', p. do 8 (split; [assumption|]). intros x (Va & Vm) Z Zb. rewrite <- cconj_sin. apply H9; [exact Z|exact Zb|]. set (y := at_regs (concat rs) x).
    assert (Cc : concat rs = ra ++ rm ++ rp) by (unfold rs; cbn [concat]; rewrite app_nil_r; reflexivity).
    assert (Ya : val A y = 0) by (rewrite <- Va; unfold y; rewrite Cc; apply (val_at [] ra (rm ++ rp)); reflexivity).
    assert (Ym : val M y = 2 ^ (length M - 1)) by (unfold M at 2; rewrite seq_length, <- Vm; unfold y; rewrite Cc; apply (val_at ra rm rp); reflexivity).
    rewrite (D y Ya Ym).
    + unfold M. rewrite seq_length. reflexivity.
    + intros q [Iq|[]]. apply at_off. exact Iq.
Qed.
Print Assumptions C72_inverse_exact.
Theorem C72_inverse_refuted : forall k ra rm rs it x draws, length ra = S (length rm) -> length rs = S (length rm) -> rm <> [] -> NoDup (concat [ra; rm; rs]) -> in_range k (concat [ra; rm; rs]) ->
  (forall r v, In (r, v) it -> in_range k r) -> loads it x -> val ra x = 0 -> val rm x = 2 ^ (length rm - 1) -> val rs x < val rm x ->
  squares_mod ra rm rs x x /\
  exists s' v, square_mod_inv 0 [ra; rm; rs] (fresh k) = Ret [ra; rm; rs] s' /\ calculate_state_with_init (bld s') it draws = Ok (v, []) /\
    nth (enc (bn (bld s')) x) v (RtoC 0) = RtoC (sin (/ 2) ^ length rm) /\ (0 < sin (/ 2) ^ length rm < 1)%R.
Proof.
  intros k ra rm rs it x draws La Ls Hm Nd R Ri Lo Va Vm Vs. split.
  { unfold squares_mod. rewrite Va. rewrite Vm in *. assert (P : 0 < 2 ^ (length rm - 1)) by (pose proof (Nat.pow_nonzero 2 (length rm - 1)); lia).
    split; [exact P|]. split; [exact Vs|]. split; [intros q _; reflexivity|]. rewrite Nat.add_0_r, Nat.mod_small by exact Vs. reflexivity. }
  destruct (keeps_simulated (square_mod_inv 0) [ra; rm; rs] k (nothing_to_square ra rm) (length rm) it x draws) as (s' & v & E1 & E2 & E3).
  - apply C72_inverse_exact; try assumption; [apply fresh_depth|apply fresh_tidy|apply fresh_live; assumption].
  - exact R.
  - exact Ri.
  - exact Lo.
  - split; assumption.
  - exists s', v. do 3 (split; [assumption|]). destruct (length rm) as [|j] eqn:L; [destruct rm; [congruence|discriminate]|]. apply sin_pow_lt.
Qed.
Print Assumptions C72_inverse_refuted.

(** *** C74 *)
(** The inverse of exp_mod, which no other function calls, is in order at every depth for all right sizes. *)
Lemma exp_new ra rb rm rp re : length ra = S (length rm) -> length rp = S (length rm) -> length re = S (length rm) -> rm <> [] -> rb <> [] ->
  let rs := [ra; rb; rm; rp; re] in let k := length (concat rs) in let R := ranges 0 (map (@length nat) rs) in
  xacts 0 exp_mod R (fun _ => any) /\ Forall (fun r => r <> []) rs /\ exists s1, exp_mod 0 R (fresh k) = Ret R s1 /\ touching (fun j => k <= S j) (pipeline (bld s1)).
Proof.
  intros La Lp Le Hm Hb rs k R. assert (Hb' := Hb). apply ne_length in Hb'.
  set (A := seq 0 (length ra)). set (B := seq (length ra) (length rb)). set (M := seq (length ra + length rb) (length rm)). set (P := seq (length ra + length rb + length rm) (length rp)).
  set (E := seq (length ra + length rb + length rm + length rp) (length re)).
  assert (ER : R = [A; B; M; P; E]) by reflexivity.
  assert (LA : length A = S (length M)) by (unfold A, M; rewrite !seq_length; exact La). assert (LP : length P = S (length M)) by (unfold P, M; rewrite !seq_length; exact Lp). assert (LE : length E = S (length M)) by (unfold E, M; rewrite !seq_length; exact Le).
  assert (HM : M <> []) by (unfold M; apply ne_length; rewrite seq_length; apply ne_length; exact Hm). assert (HB : B <> []) by (unfold B; apply ne_length; rewrite seq_length; exact Hb').
  assert (LvR : live (fresh k) (cqs 0 (conds (fresh k)) ++ concat [A; B; M; P; E])) by (cbn [cqs fresh conds app]; rewrite <- ER; unfold k, R; rewrite (proj1 (ranges_spec rs)); apply live_seq).
  split; [|split].
  - rewrite ER. apply exp_total; try assumption. cbn [nth]. lia.
  - repeat constructor; try assumption; apply ne_length; lia.
  - destruct (exp_touch (length B) A B M P E (fresh k) LA LP LE HM HB ltac:(lia) (fresh_depth k) (fresh_tidy k) LvR) as (s1 & p & E1 & Ep & (e & j & He & Hj & Ij)).
    cbn [fresh bld pipeline app] in Ep. subst p. exists s1. rewrite ER. split; [exact E1|]. exists e, j. split; [exact He|]. split; [exact Hj|].
    destruct Ij as [[Ij|[]]| ->]; [change (k <= j) in Ij; lia|]. unfold E. unfold M. rewrite seq_length, seq_nth by lia. unfold k, rs. cbn [concat]. rewrite !app_length. cbn [length]. lia.
Qed.
Theorem C74_exp_mod_inverse_total : forall d ra rb rm rp re s, length ra = S (length rm) -> length rp = S (length rm) -> length re = S (length rm) -> rm <> [] -> rb <> [] -> at_depth d s -> tidy s ->
  live s (cqs d (conds s) ++ concat [ra; rb; rm; rp; re]) -> in_order d exp_mod_inv [ra; rb; rm; rp; re] s.
Proof.
  intros d ra rb rm rp re s La Lp Le Hm Hb. apply (in_order_x d (fun d rs => exp_mod_inv d rs) _ (fun _ => any)).
  destruct (exp_new ra rb rm rp re La Lp Le Hm Hb) as (X & Ne & s1 & E & Tc). apply (diag_total exp_mod) with (s1 := s1); try assumption; [discriminate|].
  intros r. apply n_exp_mod_fuel.
Qed.
Print Assumptions C74_exp_mod_inverse_total.
(** With one exponent qubit. *)
Definition nothing_to_exponentiate (ra : list nat) (b : nat) (rm rp : list nat) (x : bs) : Prop := val ra x = 0 /\ x b = true /\ val rp x = 0 /\ val rm x = 2 ^ (length rm - 1).
Theorem C74_inverse_exact : forall b ra rm rp re s, length ra = S (length rm) -> length rp = S (length rm) -> length re = S (length rm) -> rm <> [] -> at_depth 0 s -> tidy s ->
  live s (concat [ra; [b]; rm; rp; re]) ->
  keeps_with (exp_mod_inv 0) [ra; [b]; rm; rp; re] s (nothing_to_exponentiate ra b rm rp) (2 * S (length rm)).
Proof.
  intros b ra rm rp re s La Lp Le Hm Ad T Lv. destruct (exp_new ra [b] rm rp re La Lp Le Hm ltac:(discriminate)) as (X & Ne & s1 & E & Tc).
  set (rs := [ra; [b]; rm; rp; re] : list reg) in *. set (k := length (concat rs)) in *.
  set (A := seq 0 (length ra)). set (B := length ra). set (M := seq (length (ra ++ [b])) (length rm)). set (P := seq (length (ra ++ [b] ++ rm)) (length rp)). set (F := seq (length (ra ++ [b] ++ rm ++ rp)) (length re)).
  assert (ER : ranges 0 (map (@length nat) rs) = [A; [B]; M; P; F]).
  { unfold A, B, M, P, F. rewrite !app_length. cbn [map rs ranges length seq]. repeat (f_equal; try lia). }
  assert (LA : length A = S (length M)) by (unfold A, M; rewrite !seq_length; exact La). assert (LP : length P = S (length M)) by (unfold P, M; rewrite !seq_length; exact Lp). assert (LF : length F = S (length M)) by (unfold F, M; rewrite !seq_length; exact Le).
  assert (HM : M <> []) by (unfold M; apply ne_length; rewrite seq_length; apply ne_length; exact Hm).
  assert (LvR : live (fresh k) (cqs 0 (conds (fresh k)) ++ concat [A; [B]; M; P; F])) by (cbn [cqs fresh conds app]; rewrite <- ER; unfold k; rewrite (proj1 (ranges_spec rs)); apply live_seq).
  destruct (C74_exp_mod_exact 0 B A M P F (fresh k) LA LP LF HM (fresh_depth k) (fresh_tidy k) LvR) as (s2 & p2 & E2 & Eb & Ep2 & D).
  rewrite ER in E. rewrite E in E2. injection E2 as <-. cbn [fresh bld pipeline app bn] in Ep2, Eb. subst p2.
  destruct (diag_value exp_mod rs) with (s1 := s1) (s := s) as (s' & p & H1 & H2 & H3 & H4 & H5 & H6 & H7 & H8 & H9).
  - discriminate.
  - exact Ne.
  - intros r. apply n_exp_mod_fuel.
  - exact X.
  - rewrite ER. exact E.
  - exact Tc.
  - exact Ad.
  - exact T.
  - exact Lv.
  - exists s', p. do 8 (split; [assumption|]). intros x (Va & Xb & Vp & Vm) Z Zb. rewrite <- cconj_sin. apply H9; [exact Z|exact Zb|]. set (y := at_regs (concat rs) x).
    assert (Cc : concat rs = ra ++ [b] ++ rm ++ rp ++ re) by (unfold rs; cbn [concat]; rewrite app_nil_r; reflexivity).
    assert (Ya : val A y = 0) by (rewrite <- Va; unfold y; rewrite Cc; apply (val_at [] ra ([b] ++ rm ++ rp ++ re)); reflexivity).
    assert (Yb : y B = true).
    { rewrite <- Xb. unfold y, at_regs, B. rewrite (proj2 (Nat.ltb_lt _ _)) by (rewrite Cc, !app_length; cbn; lia). rewrite Cc, app_nth2, Nat.sub_diag by lia. reflexivity. }
    assert (Yp : val P y = 0) by (rewrite <- Vp; unfold y; rewrite Cc, (app_assoc [b]), (app_assoc ra); apply (val_at (ra ++ [b] ++ rm) rp re); reflexivity).
    assert (Ym : val M y = 2 ^ (length M - 1)) by (unfold M at 2; rewrite seq_length, <- Vm; unfold y; rewrite Cc, app_assoc; apply (val_at (ra ++ [b]) rm (rp ++ re)); reflexivity).
    rewrite (D _ y Ya Yb Yp Ym).
    + rewrite ket_eq by reflexivity. unfold M. rewrite seq_length. ring.
    + intros q [].
    + intros q [Iq|[]] _. apply at_off. exact Iq.
    + intros z (q & Hq & G). apply in_seq in Hq. apply (ket_ne _ y z q); [lia|congruence].
Qed.
Print Assumptions C74_inverse_exact.
Theorem C74_inverse_refuted : forall k b ra rm rp re it x draws, length ra = S (length rm) -> length rp = S (length rm) -> length re = S (length rm) -> rm <> [] -> NoDup (concat [ra; [b]; rm; rp; re]) ->
  in_range k (concat [ra; [b]; rm; rp; re]) -> (forall r v, In (r, v) it -> in_range k r) -> loads it x -> val ra x = 0 -> x b = true -> val rp x = 0 -> val re x = 0 -> val rm x = 2 ^ (length rm - 1) ->
  exps_mod ra [b] rm rp re x x /\
  exists s' v, exp_mod_inv 0 [ra; [b]; rm; rp; re] (fresh k) = Ret [ra; [b]; rm; rp; re] s' /\ calculate_state_with_init (bld s') it draws = Ok (v, []) /\
    nth (enc (bn (bld s')) x) v (RtoC 0) = RtoC (sin (/ 2) ^ (2 * S (length rm))) /\ (0 < sin (/ 2) ^ (2 * S (length rm)) < 1)%R.
Proof.
  intros k b ra rm rp re it x draws La Lp Le Hm Nd R Ri Lo Va Xb Vp Ve Vm. split.
  { unfold exps_mod. rewrite Va, Vp, Ve, Vm. assert (P : 0 < 2 ^ (length rm - 1)) by (pose proof (Nat.pow_nonzero 2 (length rm - 1)); lia).
    do 3 (split; [exact P || reflexivity|]). split; [intros q _; reflexivity|]. rewrite Nat.mul_0_l, Nat.mod_0_l by lia. reflexivity. }
  destruct (keeps_simulated (exp_mod_inv 0) [ra; [b]; rm; rp; re] k (nothing_to_exponentiate ra b rm rp) (2 * S (length rm)) it x draws) as (s' & v & E1 & E2 & E3).
  - apply C74_inverse_exact; try assumption; [apply fresh_depth|apply fresh_tidy|apply fresh_live; assumption].
  - exact R.
  - exact Ri.
  - exact Lo.
  - split; [exact Va|]. split; [exact Xb|]. split; assumption.
  - exists s', v. do 3 (split; [assumption|]). replace (2 * S (length rm)) with (S (2 * length rm + 1)) by lia. apply sin_pow_lt.
Qed.
Print Assumptions C74_inverse_refuted.
(** The hypotheses can be met: 0 times 0 mod 2, 0 squared mod 2, 0 to the 1 mod 2. *)
Example C74_inverse_example : forall draws,
  (exists s' v, times_mod_inv 0 [[0; 1; 2]; [3; 4]; [5; 6]; [7; 8; 9]] (fresh 10) = Ret [[0; 1; 2]; [3; 4]; [5; 6]; [7; 8; 9]] s' /\
    calculate_state_with_init (bld s') [([5; 6], 2)] draws = Ok (v, []) /\ nth (enc (bn (bld s')) (fun q => q =? 6)) v (RtoC 0) = RtoC (sin (/ 2) ^ 2)) /\
  in_order 0 exp_mod_inv [[0; 1]; [2; 3; 4]; [5]; [6; 7]; [8; 9]] (fresh 10).
Proof.
  intros draws. split.
  - destruct (C71_inverse_refuted 10 [0; 1; 2] [3; 4] [5; 6] [7; 8; 9] [([5; 6], 2)] (fun q => q =? 6) draws) as (_ & s' & v & E1 & E2 & E3 & _).
    + reflexivity.
    + reflexivity.
    + discriminate.
    + discriminate.
    + cbn. nd.
    + intros q Hq. cbn in Hq. lia.
    + intros r w [E|[]] q Hq. injection E as <- <-. cbn in Hq. lia.
    + split.
      * intros r v [X|[]] j Hj. injection X as <- <-. do 2 (destruct j as [|j]; [reflexivity|]). cbn in Hj. lia.
      * intros q Hq. apply Nat.eqb_neq. intros ->. apply (Hq [5; 6] 2); [left; reflexivity|right; left; reflexivity].
    + reflexivity.
    + reflexivity.
    + reflexivity.
    + cbn. lia.
    + exists s', v. split; [exact E1|]. split; [exact E2|exact E3].
  - apply C74_exp_mod_inverse_total; try reflexivity; try (intros X; inversion X); [apply fresh_depth|apply fresh_tidy|apply (live_fresh 10)].
Qed.
(** Wrong sizes are errors of the inverses too, and leave the builder as it is. *)
Lemma inv_sizes (f : nat -> list reg -> M (list reg)) d rs s : Forall (fun r => r <> []) rs ->
  (exists e, f 0 (ranges 0 (map (@length nat) rs)) (fresh (length (concat rs))) = Fail e (fresh (length (concat rs)))) -> exists e, inv_macro d rs (f 0) s = Fail e s.
Proof.
  intros Ne (e & E). exists e. unfold inv_macro. unfold mbind at 1. unfold on_new, empty_builder. unfold mbind at 1. rewrite registers_new by (rewrite Forall_forall in Ne; exact Ne). cbn [Nat.add].
  unfold mbind at 1. unfold fresh in E. rewrite E. reflexivity.
Qed.
Theorem C74_inverse_sizes : forall d ra rb rm rp re s, ra <> [] -> rb <> [] -> rm <> [] -> rp <> [] -> re <> [] ->
  (~ (length ra = S (length rm) /\ length rp = S (length rm)) ->
    (exists e, times_mod_inv d [ra; rb; rm; rp] s = Fail e s) /\ exists e, square_mod_inv d [ra; rm; rp] s = Fail e s) /\
  (~ (length ra = S (length rm) /\ length rp = S (length rm) /\ length re = S (length rm)) -> exists e, exp_mod_inv d [ra; rb; rm; rp; re] s = Fail e s).
Proof.
  intros d ra rb rm rp re s Ha Hb Hm Hp He. split; [intros H; split|intros H].
  - apply (inv_sizes times_mod); [repeat constructor; assumption|]. apply C71_sizes. rewrite !seq_length. exact H.
  - apply (inv_sizes square_mod); [repeat constructor; assumption|]. apply C72_sizes. rewrite !seq_length. exact H.
  - apply (inv_sizes exp_mod); [repeat constructor; assumption|]. apply C74_sizes. rewrite !seq_length. exact H.
Qed.
Print Assumptions C74_inverse_sizes.
