(** add on a conditioned builder. *)
From Coq Require Import Reals Lra FunctionalExtensionality Permutation.
From Coquelicot Require Import Complex.
From Verif Require Import Base BitsSpec BitsProofs OpsModel OpsSpec Instances BuilderModel RegProofs DenSpec DenProofs LocalProofs LinkProofs
  RunSpec RunProofs GateProofs ToffoliProofs CondProofs SubSpec SubProofs SubProofs2 SubProofs3 SubProofs5 ProgramModel ProgramSpec ProgramProofs ProgramProofs2 CircProofs CircProofs2
  ArithModel ArithSpec ArithProofs ArithProofs2 ArithProofs5.
Local Open Scope nat_scope.
Local Open Scope mon_scope.

Lemma only_lines d rs ls : Forall (fun p => line_acts d rs (fst p) (snd p)) ls -> only (concat rs) (lines_op rs ls).
Proof.
  induction 1 as [|(l, D) ls H _ IH]; [apply only_id|]. change (lines_op rs ((l, D) :: ls)) with (fun psi => lines_op rs ls (line_op rs l D psi)).
  apply only_comp; [|exact IH]. eapply only_line. exact H.
Qed.
Lemma line_is_acts d rs l c : line_is d rs l c -> line_acts d rs l (eff c).
Proof. intros (A & B & C & _). split; [exact A|]. split; [exact B|exact C]. Qed.

(** What add does under conditions. *)
Fixpoint addT (rc ra rb : list nat) (psi : state) : state :=
  match rc, ra, rb with
  | [c], [a], [b; b1] => eff (sum_c c a b) (eff (carry_c c a b b1) psi)
  | c :: ((c1 :: _) as rc'), a :: ra', b :: rb' => eff (sum_c c a b) (tilts c a b c1 (addT rc' ra' rb' (eff (carry_c c a b c1) psi)))
  | _, _, _ => psi
  end.
Lemma addT_acts d : 0 < d -> forall rc ra rb fuel, length ra = length rc -> length rb = S (length rc) -> rc <> [] -> length rc <= fuel -> NoDup (rc ++ ra ++ rb) ->
  acts d (add_fuel fuel) [rc; ra; rb] (addT rc ra rb).
Proof.
  intros Hd. induction rc as [|c rc IH]; intros ra rb fuel La Lb Hne Hf N; [congruence|].
  destruct ra as [|a ra]; [discriminate|]. destruct rb as [|b rb]; [discriminate|]. destruct fuel as [|fuel]; [cbn in Hf; lia|].
  destruct rc as [|c1 cs].
  - destruct ra; [|discriminate]. destruct rb as [|b1 [|]]; try discriminate. eapply acts_eq; [apply (add_one d c a b b1 fuel); exact N|]. intros psi. cbn [addT]. rewrite eff_app. reflexivity.
  - cbn [length] in La, Lb, Hf. injection La as La. injection Lb as Lb.
    set (rs := [c :: c1 :: cs; a :: ra; b :: rb] : list reg).
    assert (N' : NoDup (c :: c1 :: cs ++ a :: ra ++ b :: rb)) by exact N.
    assert (Nt : NoDup ((c1 :: cs) ++ ra ++ rb)) by (eapply sub_NoDup; [|exact N']; cbn [app]; auto 12 using sub, sub_all).
    assert (N4 : NoDup [c; a; b; c1]).
    { eapply (sub_pick _ _ [c; c1; a; b]); [|cbn [app]|exact N']; [apply perm_skip; apply (Permutation_app_comm [a; b] [c1])|]. auto 12 using sub, sub_all. }
    assert (X1 : c1 :: cs <> []) by discriminate. assert (X2 : length (c1 :: cs) <= fuel) by (cbn [length]; lia).
    pose proof (IH ra rb fuel La Lb X1 X2 Nt) as A.
    assert (E1 : gather rs [(0, Some (seq 1 (length (c :: c1 :: cs) - 1)))] = c1 :: cs).
    { unfold gather. cbn [map concat arg_qubits snd fst]. rewrite app_nil_r. apply (map_nth_tail c (c1 :: cs)). }
    assert (E2 : gather rs [(1, Some (seq 1 (length (c :: c1 :: cs) - 1)))] = ra).
    { unfold gather. cbn [map concat arg_qubits snd fst]. rewrite app_nil_r. replace (length (c :: c1 :: cs) - 1) with (length ra) by (cbn [length]; lia). apply (map_nth_tail a ra). }
    assert (E3 : gather rs [(2, Some (seq 1 (length (c :: c1 :: cs))))] = rb).
    { unfold gather. cbn [map concat arg_qubits snd fst]. rewrite app_nil_r. replace (length (c :: c1 :: cs)) with (length rb) by (cbn [length]; lia). apply (map_nth_tail b rb). }
    assert (Carg : forall f, line_ok rs (call f [part 0 [0]; part 1 [0]; part 2 [0]; part 0 [1]])).
    { intros f. split; [|split; [repeat constructor; discriminate|exact N4]]. args_ok. }
    set (l2 := call (add_fuel fuel) [part 0 (seq 1 (length (c :: c1 :: cs) - 1)); part 1 (seq 1 (length (c :: c1 :: cs) - 1)); part 2 (seq 1 (length (c :: c1 :: cs)))]).
    set (ls := [(call carry [part 0 [0]; part 1 [0]; part 2 [0]; part 0 [1]], eff (carry_c c a b c1)); (l2, addT (c1 :: cs) ra rb);
       (call carry_inv [part 0 [0]; part 1 [0]; part 2 [0]; part 0 [1]], tilts c a b c1); (call sum [part 0 [0]; part 1 [0]; part 2 [0]], eff (sum_c c a b))]).
    assert (F : Forall (fun p => line_acts d rs (fst p) (snd p)) ls).
    { unfold ls. repeat apply Forall_cons; try apply Forall_nil; cbn [fst snd].
      - split; [apply Carg|]. split; [intros X; exfalso; apply X; reflexivity|]. apply carry_acts. exact N4.
      - assert (Er : line_regs rs l2 = [c1 :: cs; ra; rb]).
        { unfold l2, line_regs, call, part. cbn [l_args map]. rewrite E1, E2, E3. reflexivity. }
        split; [|split; [intros X; exfalso; apply X; reflexivity|]].
        + unfold line_ok. rewrite Er. split; [|split].
          * unfold l2. repeat apply Forall_cons; try apply Forall_nil; split; cbn [fst snd rs length nth]; try lia; intros i Hi; apply in_seq in Hi; cbn [length] in *; lia.
          * repeat apply Forall_cons; try apply Forall_nil; [discriminate| |]; [destruct ra|destruct rb]; discriminate.
          * cbn [concat]. rewrite app_nil_r. exact Nt.
        + rewrite Er. exact A.
      - split; [apply Carg|]. split; [intros X; exfalso; apply X; reflexivity|]. apply carry_inv_tilts; [exact Hd|exact N4].
      - split; [|split; [intros X; exfalso; apply X; reflexivity|]].
        + split; [args_ok|]. split; [repeat constructor; discriminate|]. unfold line_regs, gather. cbn. eapply sub_NoDup; [|exact N4]. auto 12 using sub, sub_all.
        + apply sum_acts. eapply sub_NoDup; [|exact N4]. auto 12 using sub, sub_all. }
    assert (Nrs : NoDup (concat rs)) by (cbn [rs concat]; rewrite app_nil_r; exact N).
    eapply acts_fun; [|apply (program_acts d rs ls Nrs ltac:(repeat constructor; discriminate) F (only_lines d rs ls F))].
    intros s. cbn [add_fuel rs]. change (length (c :: c1 :: cs) =? 1) with false. cbn [andb].
    replace (length (c :: c1 :: cs) =? length (a :: ra)) with true by (symmetry; apply Nat.eqb_eq; cbn [length]; lia).
    replace (length (c :: c1 :: cs) + 1 =? length (b :: rb)) with true by (symmetry; apply Nat.eqb_eq; cbn [length]; lia). reflexivity.
Qed.

(** *** Amplitudes *)
Definition sh : C := RtoC (sin (/ 2)).
(** How many of the carries taken back are 1. *)
Fixpoint kcar (rc ra rb : list nat) (x : bs) : nat :=
  match rc, ra, rb with
  | c :: ((c1 :: _) as rc'), a :: ra', b :: rb' =>
      (if maj (x a) (x b) (x c) then 1 else 0) + kcar rc' ra' rb' (run (carry_c c a b c1) x)
  | _, _, _ => 0
  end.
Lemma settled_incl L L' x psi : incl L L' -> settled L' x psi -> settled L x psi.
Proof. intros I H z (q & Hq & E). apply H. exists q. split; [apply I; exact Hq|exact E]. Qed.
Lemma addT_zero : forall rc ra rb, addT rc ra rb zero = zero.
Proof.
  induction rc as [|c rc IH]; intros ra rb; [reflexivity|]. destruct rc as [|c1 cs].
  - destruct ra as [|a [|]]; [reflexivity| |]; destruct rb as [|b [|b1 [|]]]; reflexivity.
  - destruct ra as [|a ra]; [reflexivity|]. destruct rb as [|b rb]; [reflexivity|].
    change (addT (c :: c1 :: cs) (a :: ra) (b :: rb) zero) with (eff (sum_c c a b) (tilts c a b c1 (addT (c1 :: cs) ra rb zero))). rewrite IH.
    extensionality x. unfold eff, tilts, zero. destruct (maj _ _ _); [unfold on1; ring|reflexivity].
Qed.
Lemma settled_eff L c x psi : cok L c -> settled L x psi -> settled L (run c x) (eff c psi).
Proof.
  intros Ck H z (q & Hq & E). unfold eff. apply H.
  destruct (existsb (fun q => negb (Bool.eqb (run (rev c) z q) (x q))) L) eqn:X.
  - apply existsb_exists in X. destruct X as (q' & Hq' & X). exists q'. split; [exact Hq'|]. intros Y. rewrite Y, Bool.eqb_reflx in X. discriminate.
  - exfalso. apply E. assert (G : forall q, In q L -> run (rev c) z q = x q).
    { intros q' Hq'. apply Bool.eqb_prop. destruct (Bool.eqb (run (rev c) z q') (x q')) eqn:Y; [reflexivity|]. exfalso.
      assert (existsb (fun q => negb (Bool.eqb (run (rev c) z q) (x q))) L = true); [|congruence]. apply existsb_exists. exists q'. split; [exact Hq'|]. rewrite Y. reflexivity. }
    rewrite <- (run_rev' L c z Ck). clear - G Ck Hq.
    assert (Ag : forall c, cok L c -> forall y z, (forall q, In q L -> y q = z q) -> forall q, In q L -> run c y q = run c z q).
    { clear. intros c H. induction H as [|g c (G1 & G2 & G3) _ IH]; intros y z Hyz q Hq; [apply Hyz; exact Hq|]. cbn [run fold_left]. apply IH; [|exact Hq]. clear q Hq. intros q Hq. unfold step.
      rewrite (sat_ext y z) by (intros p Hp; apply Hyz, G3, Hp).
      destruct (forallb (sat z) (fst g)); [|apply Hyz; exact Hq]. destruct (Nat.eq_dec q (snd g)) as [->|N]; [rewrite !flip_same, Hyz by exact Hq; reflexivity|rewrite !flip_other by exact N; apply Hyz; exact Hq]. }
    apply (Ag c Ck); assumption.
Qed.
Lemma only_addT d rc ra rb : 0 < d -> length ra = length rc -> length rb = S (length rc) -> rc <> [] -> NoDup (rc ++ ra ++ rb) -> only (rc ++ ra ++ rb) (addT rc ra rb).
Proof.
  intros Hd La Lb Hne N. destruct (addT_acts d Hd rc ra rb (length rc) La Lb Hne (le_n _) N) as (O & _). cbn [concat] in O. rewrite app_nil_r in O. exact O.
Qed.
Lemma addT_amp : forall rc ra rb x psi, length ra = length rc -> length rb = S (length rc) -> rc <> [] -> NoDup (rc ++ ra ++ rb) -> settled (rc ++ ra ++ rb) x psi ->
  settled (hd 0 rc :: ra) x (addT rc ra rb psi) /\ addT rc ra rb psi (run (add_c rc ra rb) x) = Cmult (cpow sh (kcar rc ra rb x)) (psi x).
Proof.
  induction rc as [|c rc IH]; intros ra rb x psi La Lb Hne N Se; [congruence|].
  destruct ra as [|a ra]; [discriminate|]. destruct rb as [|b rb]; [discriminate|]. cbn [hd].
  destruct rc as [|c1 cs].
  - destruct ra; [|discriminate]. destruct rb as [|b1 [|]]; try discriminate. cbn [app] in N.
    assert (Ck : cok [c; a; b; b1] (add_c [c] [a] [b; b1])) by (apply (add_one 0 c a b b1 0); exact N). cbn [addT kcar]. rewrite eff_app. split.
    + pose proof (settled_eff _ _ _ _ Ck Se) as S. change (carry_c c a b b1 ++ sum_c c a b) with (add_c [c] [a] [b; b1]). intros z (q & Hq & E). apply S. exists q. split; [cbn in Hq |- *; tauto|].
      rewrite (run_add [] c [a] [b; b1] x eq_refl eq_refl N). rewrite updl_notin; [exact E|]. intros Hi. repeat (apply NoDup_cons_iff in N; destruct N as (?X & N)). cbn in *. intuition congruence.
    + change (carry_c c a b b1 ++ sum_c c a b) with (add_c [c] [a] [b; b1]). erewrite eff_run by exact Ck. cbn [cpow]. ring.
  - cbn [length] in La, Lb. injection La as La. injection Lb as Lb.
    assert (N' : NoDup (c :: c1 :: cs ++ a :: ra ++ b :: rb)) by exact N.
    assert (Nt : NoDup ((c1 :: cs) ++ ra ++ rb)) by (eapply sub_NoDup; [|exact N']; cbn [app]; auto 12 using sub, sub_all).
    assert (N4 : NoDup [c; a; b; c1]).
    { eapply (sub_pick _ _ [c; c1; a; b]); [|cbn [app]|exact N']; [apply perm_skip; apply (Permutation_app_comm [a; b] [c1])|]. auto 12 using sub, sub_all. }
    assert (M4 := N4). apply NoDup_cons_iff in M4. destruct M4 as (Mc & M4). apply NoDup_cons_iff in M4. destruct M4 as (Ma & M4). apply NoDup_cons_iff in M4. destruct M4 as (Mb & _). cbn in Mc, Ma, Mb.
    set (L := (c :: c1 :: cs) ++ (a :: ra) ++ b :: rb) in *. set (Lt := (c1 :: cs) ++ ra ++ rb) in *.
    assert (Dj : forall q, In q [c; a; b] -> ~ In q Lt).
    { assert (P : Permutation ([c; a; b] ++ Lt) L).
      { unfold L, Lt. cbn [app]. apply perm_skip. apply (Permutation_trans (l' := c1 :: cs ++ a :: b :: ra ++ rb)).
        - apply (Permutation_trans (l' := a :: b :: c1 :: cs ++ ra ++ rb)); [reflexivity|].
          change (a :: b :: c1 :: cs ++ ra ++ rb) with ([a; b] ++ (c1 :: cs) ++ (ra ++ rb)). change (c1 :: cs ++ a :: b :: ra ++ rb) with ((c1 :: cs) ++ [a; b] ++ (ra ++ rb)). rewrite (app_assoc [a; b] (c1 :: cs)), (app_assoc (c1 :: cs) [a; b]). apply Permutation_app_tail, Permutation_app_comm.
        - apply perm_skip. apply Permutation_app_head. apply perm_skip. apply Permutation_middle. }
      apply Permutation_sym in P. pose proof (Permutation_NoDup P N) as N5. apply NoDup_app_iff in N5. apply N5. }
    assert (Ckc : cok L (carry_c c a b c1)).
    { eapply cok_incl; [|apply (carry_acts 0 c a b c1 N4)]. intros q Hq. unfold L. cbn in Hq |- *. rewrite !in_app_iff. cbn. rewrite in_app_iff. cbn. tauto. }
    set (x1 := run (carry_c c a b c1) x). assert (Ex1 : x1 = upd x c1 (xorb (x c1) (maj (x a) (x b) (x c)))) by exact (proj1 (run_carry c a b c1 x N4)).
    set (psi1 := eff (carry_c c a b c1) psi). assert (S1 : settled L x1 psi1) by (apply settled_eff; assumption).
    assert (V1 : psi1 x1 = psi x) by (eapply eff_run; exact Ckc).
    destruct (IH ra rb x1 psi1 La Lb) as (I1 & I2); [discriminate|exact Nt| |].
    { eapply settled_incl; [|exact S1]. intros q Hq. unfold L. cbn in Hq |- *. rewrite !in_app_iff in *. cbn. rewrite in_app_iff. cbn. tauto. }
    cbn [hd] in I1. set (psi2 := addT (c1 :: cs) ra rb psi1) in *. set (y2 := run (add_c (c1 :: cs) ra rb) x1) in *.
    assert (S2 : forall z q, In q [c; a; b] -> z q <> x q -> psi2 z = RtoC 0).
    { intros z q Hq E. transitivity (addT (c1 :: cs) ra rb zero z); [|rewrite addT_zero; reflexivity].
      apply (proj1 (only_addT 1 (c1 :: cs) ra rb Nat.lt_0_1 La Lb ltac:(discriminate) Nt)). intros y Hy. apply S1. exists q. split.
      - unfold L. cbn in Hq |- *. rewrite !in_app_iff. cbn. rewrite in_app_iff. cbn. tauto.
      - rewrite Hy by (apply Dj; exact Hq). rewrite Ex1, upd_other; [exact E|]. intros ->. cbn in Hq. intuition congruence. }
    assert (Y2 : forall q, ~ In q rb -> y2 q = x1 q) by (intros q Hq; unfold y2; rewrite (run_add cs c1 ra rb x1 La ltac:(lia) Nt); apply updl_notin; exact Hq).
    assert (Nrb : ~ In c rb /\ ~ In a rb /\ ~ In b rb).
    { split; [|split]; intros X; [apply (Dj c)|apply (Dj a)|apply (Dj b)]; cbn; rewrite ?in_app_iff; tauto. }
    assert (Nc1 : ~ In c1 ra /\ ~ In c1 rb). { unfold Lt in Nt. cbn [app] in Nt. apply NoDup_cons_iff in Nt. destruct Nt as (X & _). rewrite !in_app_iff in X. tauto. }
    set (m := maj (x a) (x b) (x c)) in *.
    change (addT (c :: c1 :: cs) (a :: ra) (b :: rb) psi) with (eff (sum_c c a b) (tilts c a b c1 psi2)).
    change (add_c (c :: c1 :: cs) (a :: ra) (b :: rb)) with (carry_c c a b c1 ++ add_c (c1 :: cs) ra rb ++ rev (carry_c c a b c1) ++ sum_c c a b).
    change (kcar (c :: c1 :: cs) (a :: ra) (b :: rb) x) with ((if m then 1 else 0) + kcar (c1 :: cs) ra rb x1).
    assert (Nab : a <> b /\ c <> b /\ b <> c1 /\ a <> c1 /\ c <> c1) by intuition congruence. destruct Nab as (Nab & Ncb & Nbc & Nac & Ncc).
    split.
    + intros z (q & Hq & E). unfold eff. change (rev (sum_c c a b)) with (sum_c a c b). rewrite run_sum by congruence.
      set (z' := upd z b _).
      assert (Hqb : q <> b). { intros ->. destruct Hq as [<-|[<-|Hq]]; try congruence. apply (Dj b); [cbn; tauto|]. unfold Lt. cbn. rewrite !in_app_iff. tauto. }
      assert (E' : z' q <> x q) by (unfold z'; rewrite upd_other by exact Hqb; exact E).
      assert (Hqc : q <> c1). { intros ->. destruct Hq as [<-|[<-|Hq]]; try congruence. tauto. }
      assert (P : forall w, w q <> x q -> psi2 w = RtoC 0).
      { intros w Hw. destruct Hq as [<-|[<-|Hq]]; [apply (S2 w c); [cbn; tauto|exact Hw]|apply (S2 w a); [cbn; tauto|exact Hw]|].
        apply I1. exists q. split; [right; exact Hq|]. rewrite Ex1, upd_other by exact Hqc. exact Hw. }
      unfold tilts. destruct (maj (z' a) (z' b) (z' c)); [|apply P; exact E']. unfold on1. rewrite !P; [ring| |]; rewrite upd_other by exact Hqc; exact E'.
    + rewrite !run_app. fold x1. fold y2. rewrite (proj2 (run_carry c a b c1 y2 N4)).
      assert (A2 : y2 a = x a /\ y2 b = x b /\ y2 c = x c /\ y2 c1 = xorb (x c1) m).
      { rewrite !Y2 by tauto. rewrite Ex1, upd_same, !upd_other by congruence. auto. }
      destruct A2 as (A2a & A2b & A2c & A2d). rewrite A2a, A2b, A2c, A2d. fold m. rewrite xorb_assoc, xorb_nilpotent, xorb_false_r.
      set (y3 := upd y2 c1 (x c1)).
      assert (Cks : cok [c; a; b] (sum_c c a b)) by (apply (sum_acts 0 c a b); eapply sub_NoDup; [|exact N4]; auto 12 using sub, sub_all).
      erewrite eff_run by exact Cks. unfold tilts. unfold y3 at 1 2 3. rewrite !upd_other by congruence. rewrite A2a, A2b, A2c. fold m. rewrite <- V1. destruct m.
      * cbn [Nat.add cpow]. rewrite xorb_true_r in A2d. unfold on1. assert (E3 : y3 c1 = x c1) by apply upd_same. rewrite E3. unfold y3. rewrite !upd_upd.
        assert (Z : psi2 (upd y2 c1 (x c1)) = RtoC 0). { apply I1. exists c1. split; [left; reflexivity|]. rewrite upd_same, Ex1, upd_same, xorb_true_r. destruct (x c1); discriminate. }
        assert (Z2 : psi2 (upd y2 c1 (negb (x c1))) = Cmult (cpow sh (kcar (c1 :: cs) ra rb x1)) (psi1 x1)) by (rewrite <- A2d, upd_id; exact I2).
        destruct (x c1); cbn [negb] in Z2; rewrite Z, Z2; unfold mV, sh; cbn [eqb]; ring.
      * cbn [Nat.add]. rewrite xorb_false_r in A2d. unfold y3. rewrite <- A2d, upd_id. exact I2.
Qed.
Lemma filter_map_length {A B} (f : A -> B) p l : length (filter p (map f l)) = length (filter (fun a => p (f a)) l).
Proof. induction l as [|a l IH]; [reflexivity|]. cbn. destruct (p (f a)); cbn; rewrite IH; reflexivity. Qed.
Lemma val_upd r x q v : ~ In q r -> val r (upd x q v) = val r x.
Proof. intros H. unfold val. f_equal. apply map_ext_in. intros p Hp. apply upd_other. intros ->. tauto. Qed.
Lemma incl_firstn {A} i (l : list A) : incl (firstn i l) l.
Proof. revert l. induction i as [|i IH]; intros [|a l] q Hq; cbn in Hq; try tauto. destruct Hq as [<-|Hq]; [left; reflexivity|right; apply IH; exact Hq]. Qed.
Lemma kcar_count : forall rc ra rb x, length ra = length rc -> length rb = S (length rc) -> rc <> [] -> NoDup (rc ++ ra ++ rb) -> zero_in (tl rc) x ->
  kcar rc ra rb x = inner_carries rc ra rb x.
Proof.
  induction rc as [|c rc IH]; intros ra rb x La Lb Hne N Z; [congruence|].
  destruct ra as [|a ra]; [discriminate|]. destruct rb as [|b rb]; [discriminate|].
  destruct rc as [|c1 cs]; [reflexivity|].
  cbn [length] in La, Lb. injection La as La. injection Lb as Lb.
  assert (N' : NoDup (c :: c1 :: cs ++ a :: ra ++ b :: rb)) by exact N.
  assert (Nt : NoDup ((c1 :: cs) ++ ra ++ rb)) by (eapply sub_NoDup; [|exact N']; cbn [app]; auto 12 using sub, sub_all).
  assert (N4 : NoDup [c; a; b; c1]).
  { eapply (sub_pick _ _ [c; c1; a; b]); [|cbn [app]|exact N']; [apply perm_skip; apply (Permutation_app_comm [a; b] [c1])|]. auto 12 using sub, sub_all. }
  cbn [tl] in Z. set (m := maj (x a) (x b) (x c)).
  assert (Ex1 : run (carry_c c a b c1) x = upd x c1 m) by (rewrite (proj1 (run_carry c a b c1 x N4)), (Z c1), xorb_false_l by (left; reflexivity); reflexivity).
  change (kcar (c :: c1 :: cs) (a :: ra) (b :: rb) x) with ((if m then 1 else 0) + kcar (c1 :: cs) ra rb (run (carry_c c a b c1) x)). rewrite Ex1.
  assert (Nc1 : ~ In c1 cs /\ ~ In c1 ra /\ ~ In c1 rb). { cbn [app] in Nt. apply NoDup_cons_iff in Nt. destruct Nt as (X & _). rewrite !in_app_iff in X. tauto. }
  rewrite IH; [|exact La|exact Lb|discriminate|exact Nt|].
  2:{ intros q Hq. cbn [tl] in Hq. rewrite upd_other; [apply Z; right; exact Hq|]. intros ->. tauto. }
  unfold inner_carries. cbn [hd length]. rewrite !Nat.sub_succ, !Nat.sub_0_r. cbn [seq filter].
  assert (E1 : carry_in (a :: ra) (b :: rb) c x 1 = m).
  { unfold carry_in, val, m, maj. cbn [firstn map le Nat.pow]. destruct (x a), (x b), (x c); reflexivity. }
  rewrite E1. rewrite <- (seq_shift (length cs) 1).
  assert (E2 : length (filter (carry_in (a :: ra) (b :: rb) c x) (map S (seq 1 (length cs)))) = length (filter (carry_in ra rb c1 (upd x c1 m)) (seq 1 (length cs)))).
  { rewrite filter_map_length. f_equal. apply filter_ext. intros i. unfold carry_in. cbn [firstn]. rewrite upd_same.
    rewrite !val_upd by (intros X; apply incl_firstn in X; tauto). unfold val. cbn [map le]. fold (val (firstn i ra) x). fold (val (firstn i rb) x).
    pose proof (b2n_xor (x a) (x b) (x c)) as X. fold m in X. change (2 ^ S i) with (2 * 2 ^ i).
    assert (Y : b2n (xorb (x b) (xorb (x a) (x c))) <= 1) by (destruct (xorb _ _); cbn; lia).
    apply Bool.eq_iff_eq_true. rewrite !Nat.leb_le. unfold val. lia. }
  rewrite <- E2. destruct m; reflexivity.
Qed.
