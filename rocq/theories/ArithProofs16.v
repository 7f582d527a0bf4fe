(** times_mod on conditioned builders, 0 times 0 modulo 2^(n-1), with rb one qubit longer than rm. *)
From Coq Require Import Reals Lra FunctionalExtensionality Permutation.
From Coquelicot Require Import Complex.
From Verif Require Import Base BitsSpec BitsProofs OpsModel OpsSpec Instances BuilderModel RegProofs DenSpec DenProofs LocalProofs LinkProofs
  RunSpec RunProofs GateProofs ToffoliProofs CondProofs SubSpec SubProofs SubProofs2 SubProofs3 SubProofs5 ProgramModel ProgramSpec ProgramProofs ProgramProofs2 CircProofs CircProofs2
  ArithModel ArithSpec ArithProofs ArithProofs2 ArithProofs3 ArithProofs4 ArithProofs5 ArithProofs6 ArithProofs7 ArithProofs8 WeakProofs ArithProofs9 ArithProofs10 ArithProofs11 ArithProofs12 ArithProofs13.
Local Open Scope nat_scope.
Local Open Scope mon_scope.

(** Qubits that are all 1. *)
Definition one_in (L : list nat) (x : bs) : Prop := forall q, In q L -> x q = true.
Definition ch : C := RtoC (cos (/ 2)).

Section Amp.
Context (d : nat) (cs ms bs0 : list nat) (c m a t : nat) (Lm : length ms = length cs) (Lb : length bs0 = length cs).
Notation rc := (cs ++ [c]).
Notation rm := (ms ++ [m]).
Notation ra := (bs0 ++ [a; t]).
Context (rt : list nat) (N : NoDup (rc ++ rm ++ ra)) (Nt : NoDup rt) (Dt : forall q, In q rt -> ~ In q (rc ++ rm ++ ra)).
Notation ti i := (nth i rt 0).
Notation hot := (hot cs ms bs0 c m a t).
Notation on_hot := (on_hot cs ms bs0 c m a t).
Notation D1 := (D1 (S d) ra rm rt rc).
Notation D2 := (D2 (S d) ra rm rt rc).
Notation add_l := (add_c rc rm ra).

(** No carries, modulus 2^(n-1), ra anything. *)
Definition calm (x : bs) : Prop := zero_in rc x /\ zero_in ms x /\ x m = true.
Definition on_calm (psi : state) : Prop := forall x, psi x = RtoC 0 \/ calm x.
Lemma hot_calm psi : on_hot psi -> on_calm psi.
Proof. intros H x. destruct (H x) as [E|(Z1 & Z2 & Z3 & _)]; [left; exact E|right; split; [exact Z1|split; [exact Z2|exact Z3]]]. Qed.
Lemma calm_clean psi : on_calm psi -> clean (cs ++ ms) psi.
Proof.
  intros H x q Hq Hx. destruct (H x) as [E|(Z1 & Z2 & _)]; [exact E|]. exfalso. apply in_app_or in Hq.
  destruct Hq as [Hq|Hq]; [rewrite Z1 in Hx by (apply in_or_app; left; exact Hq)|rewrite Z2 in Hx by exact Hq]; discriminate.
Qed.
Lemma names : a <> t /\ m <> a /\ m <> t /\ c <> a /\ c <> t /\ c <> m /\ In a ra /\ In t ra /\ In m rm /\ In c rc.
Proof.
  pose proof (hot_disj cs ms bs0 c m a t N) as (D1' & D2' & At & _).
  assert (Ia : In a ra) by (apply in_or_app; right; left; reflexivity). assert (It : In t ra) by (apply in_or_app; right; right; left; reflexivity).
  assert (Im : In m rm) by (apply in_or_app; right; left; reflexivity). assert (Ic : In c rc) by (apply in_or_app; right; left; reflexivity).
  assert (Dm : m <> a /\ m <> t) by (split; intros E; apply (D2' m Im); rewrite E; assumption).
  assert (Dc : c <> a /\ c <> t /\ c <> m) by (split; [|split]; intros E; [apply (proj2 (D1' c Ic))|apply (proj2 (D1' c Ic))|apply (proj1 (D1' c Ic))]; rewrite E; assumption).
  tauto.
Qed.
(** Only ra and rt may differ. *)
Lemma calm_like x y : (forall q, ~ In q (ra ++ rt) -> y q = x q) -> calm x -> calm y.
Proof.
  pose proof (hot_disj cs ms bs0 c m a t N) as (D1' & D2' & _).
  assert (O1 : forall q, In q rc -> ~ In q (ra ++ rt)) by (intros q Hq X; apply in_app_or in X; destruct X as [X|X]; [apply (proj2 (D1' q Hq) X)|apply (Dt q X); apply in_or_app; left; exact Hq]).
  assert (O2 : forall q, In q rm -> ~ In q (ra ++ rt)) by (intros q Hq X; apply in_app_or in X; destruct X as [X|X]; [apply (D2' q Hq X)|apply (Dt q X); rewrite !in_app_iff in *; tauto]).
  intros E (Z1 & Z2 & Z3). split; [|split].
  - intros q Hq. rewrite E by (apply O1; exact Hq). apply Z1. exact Hq.
  - intros q Hq. rewrite E by (apply O2; apply in_or_app; left; exact Hq). apply Z2. exact Hq.
  - rewrite E by (apply O2; apply in_or_app; right; left; reflexivity). exact Z3.
Qed.
Lemma calm_upd x q v : In q (ra ++ rt) -> calm x -> calm (upd x q v).
Proof. intros Hq. apply calm_like. intros p Hp. apply upd_other. intros ->. contradiction. Qed.
Lemma shift_ok : NoDup ra /\ ra <> [] /\ cok ra (rshift_c ra).
Proof. destruct (ra_ok cs ms bs0 c m a t Lb rt N Dt) as (X & Y). split; [exact X|]. split; [exact Y|]. apply (rshift_acts 0); assumption. Qed.
Lemma calm_shift x : calm x -> calm (run (rshift_c ra) x).
Proof. apply calm_like. intros q Hq. apply (run_out ra); [apply shift_ok|]. intros X. apply Hq, in_or_app. left. exact X. Qed.
Lemma calm_add x : calm x -> calm (run add_l x).
Proof.
  intros H. destruct (hot_len cs ms bs0 c m a t Lm Lb) as (H1 & H2 & H3). destruct (add_fwd rc rm ra H1 H2 H3 N x (proj1 H)) as (O & _).
  apply (calm_like x); [|exact H]. intros q Hq. apply O. intros X. apply Hq, in_or_app. left. exact X.
Qed.
Lemma calm_eff L cc psi : cok L cc -> (forall x, calm x -> calm (run cc x)) -> on_calm psi -> on_calm (eff cc psi).
Proof.
  intros Ck Hc H x. unfold eff. destruct (H (run (rev cc) x)) as [E|E]; [left; exact E|right]. rewrite <- (run_rev' _ _ x Ck). apply Hc. exact E.
Qed.
Lemma calm_ctl K D psi : on_calm psi -> on_calm (D psi) -> on_calm (controlled K D psi).
Proof. intros H1 H2 x. unfold controlled. destruct (forallb _ _); [apply H2|apply H1]. Qed.
Lemma calm_unshift psi : on_calm psi -> on_calm (eff (rev (rshift_c ra)) psi).
Proof.
  intros H x. unfold eff. rewrite rev_involutive. destruct (H (run (rshift_c ra) x)) as [E|E]; [left; exact E|right].
  apply (calm_like (run (rshift_c ra) x)); [|exact E]. intros q Hq. symmetry. apply (run_out ra); [apply shift_ok|]. intros X. apply Hq, in_or_app. left. exact X.
Qed.
Lemma addInvT_at psi x : on_calm psi -> calm x -> addInvT rc rm ra psi x =
  if x a then Cplus (Cmult (mV (x t) false) (psi (upd (flip x a) t false))) (Cmult (mV (x t) true) (psi (upd (flip x a) t true))) else psi (flip x a).
Proof.
  intros H (Z1 & Z2 & Z3). destruct names as (N1 & N2 & N3 & N4 & N5 & N6 & Ia & It & Im & Ic). rewrite addInvT_low; [|exact Lm|exact Lb|exact N|apply calm_clean; exact H].
  assert (S : forall y, y m = true -> y c = false -> run (sum_c c m a) y = flip y a) by (intros y Y1 Y2; rewrite run_sum by congruence; rewrite Y1, Y2; unfold flip; destruct (y a); reflexivity).
  assert (Xc : x c = false) by (apply Z1; exact Ic). unfold tilts, eff. rewrite rev_involutive, Z3, Xc. unfold maj. destruct (x a) eqn:Xa.
  - cbn [andb orb xorb]. unfold on1. rewrite !S by (rewrite upd_other by congruence; assumption). unfold flip. rewrite !upd_other by congruence. rewrite !(upd_comm _ t a) by congruence. reflexivity.
  - cbn [andb orb xorb]. apply f_equal. apply S; assumption.
Qed.
Lemma calm_sub psi : on_calm psi -> on_calm (addInvT rc rm ra psi).
Proof.
  intros H x. destruct names as (N1 & N2 & N3 & N4 & N5 & N6 & Ia & It & Im & Ic). rewrite addInvT_low; [|exact Lm|exact Lb|exact N|apply calm_clean; exact H].
  assert (X : calm x \/ forall y, (forall q, q <> a -> q <> t -> y q = x q) -> psi y = RtoC 0).
  { destruct (H (upd x a true)) as [E|E]; [|left; apply (calm_like (upd x a true)); [|exact E]; intros q Hq; symmetry; apply upd_other; intros ->; apply Hq, in_or_app; left; exact Ia].
    assert (D : {calm x} + {~ calm x}).
    { unfold calm. assert (F : forall L, {zero_in L x} + {~ zero_in L x}).
      { intros L. destruct (existsb x L) eqn:EL; [right; intros Z; apply existsb_exists in EL; destruct EL as (q & Hq & Xq); rewrite (Z q Hq) in Xq; discriminate|left].
        intros q Hq. apply not_true_is_false. intros Xq. assert (existsb x L = true) by (apply existsb_exists; eauto). congruence. }
      destruct (F rc), (F ms), (bool_dec (x m) true); tauto. }
    destruct D as [D|D]; [left; exact D|right]. intros y Hy. destruct (H y) as [Ey|Ey]; [exact Ey|]. exfalso. apply D. apply (calm_like y); [|exact Ey].
    intros q Hq. symmetry. apply Hy; intros ->; apply Hq, in_or_app; left; assumption. }
  destruct X as [X|X]; [right; exact X|left]. unfold tilts, eff, on1. rewrite rev_involutive.
  assert (Y : forall y, (forall q, q <> a -> q <> t -> y q = x q) -> psi (run (sum_c c m a) y) = RtoC 0).
  { intros y Hy. apply X. intros q Q1 Q2. rewrite run_sum by congruence. rewrite upd_other by congruence. apply Hy; assumption. }
  rewrite !Y; [destruct (maj _ _ _); ring| | |]; intros q Q1 Q2; rewrite ?upd_other by congruence; reflexivity.
Qed.
Lemma calm_flip psi q : In q rt -> on_calm psi -> on_calm (fun x => psi (flip x q)).
Proof.
  intros Hq H x. destruct (H (flip x q)) as [E|E]; [left; exact E|right]. apply (calm_like (flip x q)); [|exact E].
  intros p Hp. symmetry. apply flip_other. intros ->. apply Hp, in_or_app. right. exact Hq.
Qed.
Lemma top_t' : nth (length rm) ra 0 = t.
Proof. rewrite app_length, Lm, <- Lb. cbn [length]. rewrite app_nth2 by lia. replace (length bs0 + 1 - length bs0) with 1 by lia. reflexivity. Qed.
Lemma calm_D1 i psi : i < length rt -> on_calm psi -> on_calm (D1 i psi).
Proof.
  intros Hi H. unfold ArithProofs11.D1, D0. cbn [addInvD addD]. destruct shift_ok as (Nra & Hra & Ck). apply (calm_eff ra); [exact Ck|apply calm_shift|].
  assert (HV : on_calm (controlled [nth (length rm) ra 0] (eff (one_x (ti i))) (addInvT rc rm ra psi))).
  { apply calm_ctl; [apply calm_sub; exact H|]. rewrite one_x_eff. apply calm_flip; [apply nth_In; exact Hi|apply calm_sub; exact H]. }
  apply calm_ctl; [exact HV|]. rewrite (low_good cs ms bs0 c m a t Lm Lb N) by (apply calm_clean; exact HV).
  apply (calm_eff (rc ++ rm ++ ra)); [apply (hot_ok cs ms bs0 c m a t Lm Lb N)|apply calm_add|exact HV].
Qed.
Lemma mid_calm i psi : i < length rt -> on_calm psi ->
  on_calm (controlled [nth (length rm) ra 0] (eff (one_x (ti i))) (controlled [ti i] (addInvT rc rm ra) (eff (rev (rshift_c ra)) psi))).
Proof.
  intros Hi H. assert (HV : on_calm (controlled [ti i] (addInvT rc rm ra) (eff (rev (rshift_c ra)) psi))).
  { apply calm_ctl; [apply calm_unshift; exact H|apply calm_sub, calm_unshift; exact H]. }
  apply calm_ctl; [exact HV|]. rewrite one_x_eff. apply calm_flip; [apply nth_In; exact Hi|exact HV].
Qed.
Lemma calm_D2 i psi : i < length rt -> on_calm psi -> on_calm (D2 i psi).
Proof.
  intros Hi H. unfold ArithProofs11.D2. cbn [addInvD addD]. rewrite (low_good cs ms bs0 c m a t Lm Lb N) by (apply calm_clean, mid_calm; assumption).
  apply (calm_eff (rc ++ rm ++ ra)); [apply (hot_ok cs ms bs0 c m a t Lm Lb N)|apply calm_add|apply mid_calm; assumption].
Qed.
(** The addition backwards, when the top bit of the result is 0. *)
Lemma calm_rev w : calm w -> w t = false -> run (rev add_l) w = upd (flip w a) t (negb (w a)).
Proof.
  intros Hc Wt. destruct names as (N1 & N2 & N3 & N4 & N5 & N6 & Ia & It & Im & Ic). destruct (hot_len cs ms bs0 c m a t Lm Lb) as (H1 & H2 & H3).
  destruct (hot_disj cs ms bs0 c m a t N) as (D1' & D2' & At & Ab & Tb & Mm). set (z := upd (flip w a) t (negb (w a))).
  assert (Cz : calm z) by (unfold z, flip; apply calm_upd; [apply in_or_app; left; exact It|]; apply calm_upd; [apply in_or_app; left; exact Ia|exact Hc]).
  assert (X : run add_l z = w); [|rewrite <- X at 1; apply (run_rev _ _ _ (hot_ok cs ms bs0 c m a t Lm Lb N))].
  destruct (add_fwd rc rm ra H1 H2 H3 N z (proj1 Cz)) as (O & V).
  assert (Vm : val rm z = 2 ^ length cs).
  { destruct Cz as (_ & Z2 & Z3). rewrite val_app, (val_zero ms z Z2), Lm. unfold val. cbn [map le]. rewrite Z3. cbn. lia. }
  assert (Vb : val bs0 z = val bs0 w) by (apply val_ext; intros q Hq; unfold z, flip; rewrite !upd_other by (intros ->; contradiction); reflexivity).
  assert (Za : z a = negb (w a)) by (unfold z, flip; rewrite upd_other by congruence; apply upd_same). assert (Zt : z t = negb (w a)) by apply upd_same.
  assert (Bd : val bs0 w < 2 ^ length cs) by (rewrite <- Lb; apply val_bound).
  assert (Va : val ra w = val bs0 w + 2 ^ length cs * b2n (w a)) by (rewrite val_app, Lb; unfold val at 2; cbn [map le]; rewrite Wt; cbn; lia).
  assert (Vz : val ra z = val bs0 w + 2 ^ length cs * (3 * b2n (negb (w a)))) by (rewrite val_app, Lb, Vb; unfold val at 2; cbn [map le]; rewrite Za, Zt; cbn; lia).
  rewrite Vm, Vz in V. replace (2 ^ length ra) with (2 ^ length cs * 4) in V by (rewrite H2, app_length; cbn [length]; rewrite Nat.add_1_r; cbn [Nat.pow]; lia).
  assert (E : val ra (run add_l z) = val ra w).
  { rewrite V, Va. destruct (w a); cbn [negb b2n].
    - rewrite Nat.mod_small; cbn; lia.
    - replace (2 ^ length cs + _) with (val bs0 w + 1 * (2 ^ length cs * 4)) by lia. rewrite Nat.mod_add by lia. rewrite Nat.mod_small by lia. lia. }
  extensionality q. destruct (in_dec Nat.eq_dec q ra) as [I|I]; [apply (val_inj ra); assumption|]. rewrite O by exact I.
  unfold z, flip. rewrite !upd_other; [reflexivity|intros ->; contradiction|intros ->; contradiction].
Qed.
(** What a step of the second loop reads. *)
Lemma D2_at i psi x : i < length rt -> on_calm psi -> calm x -> x t = false -> x (ti i) = false ->
  D2 i psi x = if x a then psi (run (rshift_c ra) (upd x a false))
               else Cplus (Cmult sh (psi (run (rshift_c ra) (flip x (ti i))))) (Cmult ch (psi (run (rshift_c ra) (upd (flip x (ti i)) t true)))).
Proof.
  intros Hi H Hx Xt Xi. destruct names as (N1 & N2 & N3 & N4 & N5 & N6 & Ia & It & Im & Ic).
  assert (To : ~ In (ti i) (rc ++ rm ++ ra)) by (apply Dt, nth_In, Hi).
  assert (Ta : ti i <> a /\ ti i <> t) by (split; intros E; apply To; rewrite E; do 2 (apply in_or_app; right); assumption).
  unfold ArithProofs11.D2. cbn [addInvD addD]. rewrite (low_good cs ms bs0 c m a t Lm Lb N) by (apply calm_clean, mid_calm; assumption).
  unfold eff at 1. rewrite (calm_rev x Hx Xt). rewrite top_t'. set (V := controlled [ti i] (addInvT rc rm ra) (eff (rev (rshift_c ra)) psi)).
  unfold controlled at 1. cbn [forallb]. rewrite upd_same, andb_true_r, one_x_eff. destruct (x a) eqn:Xa; cbn [negb].
  - unfold V, controlled. cbn [forallb]. rewrite upd_other by tauto. rewrite flip_other by tauto. rewrite Xi. cbn [andb]. unfold eff. rewrite rev_involutive. f_equal. f_equal.
    unfold flip. rewrite Xa. cbn [negb]. rewrite <- Xt. rewrite upd_comm by congruence. rewrite upd_id. reflexivity.
  - set (z := flip (upd (flip x a) t true) (ti i)).
    assert (Zi : z (ti i) = true) by (unfold z; rewrite flip_same, upd_other by tauto; rewrite flip_other by tauto; rewrite Xi; reflexivity).
    assert (Za : z a = true) by (unfold z; rewrite flip_other by (intros E; apply (proj1 Ta); congruence); rewrite upd_other by congruence; rewrite flip_same, Xa; reflexivity).
    assert (Zt : z t = true) by (unfold z; rewrite flip_other by (intros E; apply (proj2 Ta); congruence); apply upd_same).
    assert (Iti : In (ti i) rt) by (apply nth_In; exact Hi).
    assert (Cz : calm z) by (unfold z, flip; repeat (apply calm_upd; [apply in_or_app; tauto|]); exact Hx).
    unfold V, controlled. cbn [forallb]. rewrite Zi. cbn [andb]. rewrite addInvT_at; [|apply calm_unshift; exact H|exact Cz]. rewrite Za, Zt.
    assert (E : forall v, upd (flip z a) t v = upd (flip x (ti i)) t v).
    { intros v. extensionality q. unfold z, flip, upd. repeat match goal with |- context [?p =? ?r] => destruct (Nat.eqb_spec p r); try congruence; try tauto end; subst; try congruence; rewrite ?Xa; reflexivity. }
    rewrite !E. unfold eff. rewrite !rev_involutive. unfold mV. cbn [Bool.eqb]. unfold sh, ch. f_equal. f_equal. f_equal. f_equal. extensionality q. unfold flip, upd.
    destruct (Nat.eqb_spec q t) as [->|]; [|reflexivity]. destruct (Nat.eqb_spec t (ti i)); [exfalso; intuition congruence|]. symmetry. exact Xt.
Qed.
(** Steps of the first loop: the part where ti is flipped, and a part where it is not. *)
Lemma shift_bits x : let y := run (rshift_c ra) x in y (nth 0 ra 0) = x t /\ y t = x a /\ (forall i, S i < length ra -> y (nth (S i) ra 0) = x (nth i ra 0)) /\ forall q, ~ In q ra -> y q = x q.
Proof.
  intros y. destruct shift_ok as (Nra & Hra & _). destruct (run_rshift ra x Nra Hra) as (E1 & E2 & E3). fold y in E1, E2, E3.
  assert (El : last ra 0 = t) by (replace ra with ((bs0 ++ [a]) ++ [t]) by (rewrite <- app_assoc; reflexivity); apply last_last).
  split; [rewrite E1, El; reflexivity|]. split; [|split; [exact E2|exact E3]].
  assert (Hl : length ra = S (S (length bs0))) by (rewrite app_length; cbn; lia). specialize (E2 (length bs0) ltac:(lia)).
  rewrite !app_nth2 in E2 by lia. replace (S (length bs0) - length bs0) with 1 in E2 by lia. rewrite Nat.sub_diag in E2. exact E2.
Qed.
Lemma unshift_bits x : let y := run (rev (rshift_c ra)) x in y t = x (nth 0 ra 0) /\ y a = x t /\ forall q, ~ In q ra -> y q = x q.
Proof.
  intros y. destruct shift_ok as (_ & _ & Ck). destruct (shift_bits y) as (E1 & E2 & _ & E3). unfold y in *. rewrite (run_rev' _ _ x Ck) in *. split; [congruence|]. split; [congruence|].
  intros q Hq. symmetry. apply E3. exact Hq.
Qed.
Lemma first_hot' i psi x : i < length rt -> on_hot psi -> clean [ti i] psi -> x (ti i) = true -> D1 i psi x = Cmult sh (psi (flip x (ti i))).
Proof.
  intros Hi H Hc Hx. pose proof (hot_ok cs ms bs0 c m a t Lm Lb N) as Ck. destruct shift_ok as (Nra & Hra & Cr). destruct names as (N1 & N2 & N3 & N4 & N5 & N6 & Ia & It & Im & Ic).
  assert (To : ~ In (ti i) (rc ++ rm ++ ra)) by (apply Dt, nth_In, Hi). assert (Tr : ~ In (ti i) ra) by (intros X; apply To; do 2 (apply in_or_app; right); exact X).
  assert (Et : t <> ti i) by (intros E; apply Tr; rewrite <- E; exact It).
  assert (Sk : psi (flip x (ti i)) = psi (flip (run (rev (rshift_c ra)) x) (ti i))).
  { assert (X : forall y, (fun x => psi (flip x (ti i))) y = RtoC 0 \/ zero_in ra y).
    { intros y. destruct (H (flip y (ti i))) as [E|(_ & _ & _ & Z)]; [left; exact E|right]. intros q Hq. rewrite <- (Z q Hq). symmetry. apply flip_other. intros ->. contradiction. }
    exact (eq_sym (f_equal (fun f => f x) (proj1 (shift_keeps ra _ Nra Hra X)))). }
  rewrite Sk. unfold ArithProofs11.D1, eff at 1. set (y := run (rev (rshift_c ra)) x).
  assert (Yi : y (ti i) = true) by (unfold y; rewrite (run_out ra _ _ (cok_rev _ _ Cr) Tr); exact Hx).
  unfold D0. cbn [addInvD addD]. rewrite top_t'. set (V := addInvT rc rm ra psi). set (W := controlled [t] (eff (one_x (ti i))) V).
  assert (HV : on_calm V) by (apply calm_sub, hot_calm; exact H).
  assert (HW : on_calm W) by (apply calm_ctl; [exact HV|rewrite one_x_eff; apply calm_flip; [apply nth_In; exact Hi|exact HV]]).
  unfold controlled at 1. cbn [forallb]. rewrite Yi. cbn [andb]. rewrite (low_good cs ms bs0 c m a t Lm Lb N) by (apply calm_clean; exact HW).
  unfold eff. set (z := run (rev add_l) y). assert (Zi : z (ti i) = true) by (unfold z; rewrite (run_out _ _ _ (cok_rev _ _ Ck) To); exact Yi).
  pose proof (sub_lossy cs ms bs0 c m a t Lm Lb N psi H (flip y (ti i))) as S. rewrite (run_flip _ _ _ (cok_rev _ _ Ck) To) in S. fold z in S. rewrite flip_other in S by exact Et. fold V in S.
  rewrite <- S. unfold W, controlled. cbn [forallb]. rewrite andb_true_r, one_x_eff. destruct (z t); [reflexivity|].
  unfold V. destruct (HV z) as [E|Cz]; [exact E|]. rewrite addInvT_at; [|apply hot_calm; exact H|exact Cz].
  assert (Z0 : forall w, w (ti i) = true -> psi w = RtoC 0) by (intros w; apply Hc; left; reflexivity).
  assert (Ea : ti i <> a) by (intros E; apply Tr; rewrite E; exact Ia).
  rewrite !Z0; [destruct (z a); ring| | |]; unfold flip; rewrite ?upd_other by congruence; exact Zi.
Qed.
Lemma first_cold i psi x : i < length rt -> on_hot psi -> x (ti i) = false -> x t = false -> x (nth 0 ra 0) = false -> D1 i psi x = RtoC 0.
Proof.
  intros Hi H Xi Xt X0. destruct names as (N1 & N2 & N3 & N4 & N5 & N6 & Ia & It & Im & Ic). destruct (unshift_bits x) as (E1 & E2 & E3).
  assert (Tr : ~ In (ti i) ra) by (intros X; apply (Dt (ti i)); [apply nth_In, Hi|]; do 2 (apply in_or_app; right); exact X).
  unfold ArithProofs11.D1, eff at 1. set (y := run (rev (rshift_c ra)) x) in *. unfold D0. cbn [addInvD addD]. rewrite top_t'.
  unfold controlled at 1. cbn [forallb]. rewrite (E3 _ Tr), Xi. cbn [andb]. unfold controlled. cbn [forallb]. rewrite E1, X0. cbn [andb].
  destruct (calm_sub psi (hot_calm psi H) y) as [E|Cy]; [exact E|]. rewrite addInvT_at; [|apply hot_calm; exact H|exact Cy]. rewrite E2, Xt.
  destruct (H (flip y a)) as [E|(_ & _ & _ & Z)]; [exact E|]. specialize (Z a Ia). rewrite flip_same, E2, Xt in Z. discriminate.
Qed.

Context (K : list nat) (HK : forall q, In q K -> ~ In q (rt ++ rc ++ rm ++ ra)) (W1 : forall i, i < length rt -> within (ti i :: rc ++ rm ++ ra) (D1 i)).
Lemma ctl_one (D : state -> state) psi x : one_in K x -> controlled K D psi x = D psi x.
Proof. intros H. unfold controlled. replace (forallb x K) with true; [reflexivity|]. symmetry. apply forallb_forall. exact H. Qed.
Lemma first_loop' : forall is done Phi (g : state), NoDup (done ++ is) -> (forall i, In i (done ++ is) -> i < length rt) -> on_hot g -> (forall i, In i is -> clean [ti i] g) ->
  (forall x, one_in K x -> one_in (map (fun i => ti i) done) x -> Phi x = g x) ->
  forall x, one_in K x -> one_in (map (fun i => ti i) (done ++ is)) x -> fold_left (fun phi i => controlled K (D1 i) phi) is Phi x = Cmult (cpow sh (length is)) (g (flips (map (fun i => ti i) is) x)).
Proof.
  induction is as [|i is IH]; intros done Phi g Ni H Hh Hc E x Kx Hx; cbn [fold_left map length cpow].
  - rewrite app_nil_r in Hx. rewrite flips_nil, (E x Kx Hx). ring.
  - assert (Li : i < length rt) by (apply H; apply in_or_app; right; left; reflexivity).
    assert (Hr : forall j, In j is -> j < length rt) by (intros j Hj; apply H; apply in_or_app; right; right; exact Hj).
    assert (Hd : forall j, In j done -> j < length rt) by (intros j Hj; apply H; apply in_or_app; left; exact Hj).
    pose proof (NoDup_remove_2 _ _ _ Ni) as Hn. rewrite in_app_iff in Hn.
    assert (To : ~ In (ti i) (rc ++ rm ++ ra)) by (apply Dt, nth_In, Li).
    rewrite (IH (done ++ [i]) (controlled K (D1 i) Phi) (fun x => Cmult sh (g (flip x (ti i))))).
    + rewrite (flip_flips); [ring|]. apply (ti_notin rt Nt); [exact Li|exact Hr|tauto].
    + rewrite <- app_assoc. exact Ni.
    + intros j Hj. rewrite <- app_assoc in Hj. apply H. exact Hj.
    + intros y. destruct (on_hot_flip cs ms bs0 c m a t g (ti i) To Hh y) as [X|X]; [left; rewrite X; ring|right; exact X].
    + intros j Hj y q [<-|[]] Hy. rewrite (Hc j (or_intror Hj) _ (ti j) (or_introl eq_refl)); [ring|]. rewrite flip_other; [exact Hy|]. apply (ti_neq rt Nt); [apply Hr; exact Hj|exact Li|intros ->; tauto].
    + intros y Ky Hy. rewrite map_app in Hy. assert (Yi : y (ti i) = true) by (apply Hy; apply in_or_app; right; left; reflexivity). rewrite ctl_one by exact Ky.
      rewrite (W1 i Li Phi g y); [apply first_hot'; [exact Li|exact Hh|apply Hc; left; reflexivity|exact Yi]|].
      intros z Hz. apply E.
      * intros q Hq. rewrite Hz; [apply Ky; exact Hq|]. intros X. apply (HK q Hq). apply in_or_app. destruct X as [<-|X]; [left; apply nth_In; exact Li|right; exact X].
      * intros q Hq. rewrite Hz; [apply Hy; apply in_or_app; left; exact Hq|]. intros [X|X].
        -- subst q. apply (ti_notin rt Nt i done); [exact Li|exact Hd|tauto|exact Hq].
        -- apply in_map_iff in Hq. destruct Hq as (j & <- & Hj). apply (Dt (ti j)); [apply nth_In, Hd, Hj|exact X].
    + exact Kx.
    + rewrite <- app_assoc. exact Hx.
Qed.
(** The top qubits of ra, from place [j], are 0. *)
Definition high (j : nat) (x : bs) : Prop := forall l, j <= l -> l < length ra -> x (nth l ra 0) = false.
Lemma ra_places : length ra = S (length rm) /\ nth (length rm) ra 0 = t /\ nth (length rm - 1) ra 0 = a /\ 0 < length rm /\ forall l, l < length rm -> nth l ra 0 <> t.
Proof.
  pose proof top_t' as Ht. destruct shift_ok as (Nra & _). assert (Hl : length ra = S (length rm)) by (rewrite !app_length, Lm, Lb; cbn; lia). assert (Hm : length rm = S (length bs0)) by (rewrite app_length; cbn; lia).
  split; [exact Hl|]. split; [exact Ht|]. split; [|split; [lia|]].
  - rewrite Hm. replace (S (length bs0) - 1) with (length bs0) by lia. rewrite app_nth2 by lia. rewrite Nat.sub_diag. reflexivity.
  - intros l Hlt E. assert (E2 : nth l ra 0 = nth (length rm) ra 0) by (rewrite E, Ht; reflexivity). apply (proj1 (NoDup_nth ra 0) Nra) in E2; lia.
Qed.
Lemma keep_shift g y : on_hot g -> g (run (rshift_c ra) y) = g y.
Proof.
  intros H. destruct shift_ok as (Nra & Hra & _). pose proof (proj2 (shift_keeps ra g Nra Hra (on_hot_ra cs ms bs0 c m a t g H))) as E. apply (f_equal (fun f => f y)) in E.
  unfold eff in E. rewrite rev_involutive in E. exact E.
Qed.
Lemma hot_top g y q : on_hot g -> In q ra -> y q = true -> g y = RtoC 0.
Proof. intros H Hq Hy. destruct (H y) as [E|(_ & _ & _ & Z)]; [exact E|]. rewrite (Z q Hq) in Hy. discriminate. Qed.
(** The two points a step of the second loop reads are in order. *)
Lemma read_ok j x v : j < length rt -> j < length rm -> one_in K x -> calm x -> (forall l, l < j -> x (ti l) = true) -> (forall l, j <= l -> l < length rt -> x (ti l) = false) -> high j x ->
  let y := run (rshift_c ra) (upd (flip x (ti j)) t v) in
  calm y /\ one_in K y /\ (forall l, l < S j -> y (ti l) = true) /\ (forall l, S j <= l -> l < length rt -> y (ti l) = false) /\ high (S j) y.
Proof.
  intros Hj Hn Kx Cx Lo Hi Hh y. destruct names as (N1 & N2 & N3 & N4 & N5 & N6 & Ia & It & Im & Ic). destruct ra_places as (P1 & P2 & P3 & P4 & P5).
  destruct (shift_bits (upd (flip x (ti j)) t v)) as (B1 & B2 & B3 & B4). fold y in B1, B2, B3, B4. assert (Ij : In (ti j) rt) by (apply nth_In; exact Hj).
  assert (Rt : forall q, In q rt -> ~ In q ra) by (intros q Hq X; apply (Dt q Hq); do 2 (apply in_or_app; right); exact X).
  assert (Out : forall q, ~ In q ra -> q <> ti j -> y q = x q).
  { intros q Hq Hne. rewrite B4 by exact Hq. rewrite upd_other by (intros ->; contradiction). apply flip_other. exact Hne. }
  split; [|split; [|split; [|split]]].
  - apply calm_shift, calm_upd; [apply in_or_app; left; exact It|]. apply calm_upd; [apply in_or_app; right; exact Ij|exact Cx].
  - intros q Hq. pose proof (HK q Hq) as X. rewrite !in_app_iff in X. rewrite Out; [apply Kx; exact Hq|rewrite in_app_iff; tauto|intros ->; tauto].
  - intros l Hl. destruct (Nat.eq_dec l j) as [->|Hne].
    + rewrite B4 by (apply Rt; exact Ij). rewrite upd_other by (intros X; apply (Rt _ Ij); rewrite X; exact It). rewrite flip_same, Hi by lia. reflexivity.
    + rewrite Out; [apply Lo; lia|apply Rt, nth_In; lia|apply (ti_neq rt Nt); lia].
  - intros l H1 H2. rewrite Out; [apply Hi; lia|apply Rt, nth_In; lia|apply (ti_neq rt Nt); lia].
  - intros [|l] H1 H2; [lia|]. rewrite B3 by lia. rewrite upd_other by (apply P5; lia). rewrite flip_other; [apply Hh; lia|].
    intros X. apply (Rt _ Ij). rewrite <- X. apply nth_In. lia.
Qed.
Lemma second_loop' : length rm < length rt -> forall j Phi (g : state), j <= length rm -> on_calm Phi -> on_hot g ->
  (forall x, calm x -> one_in K x -> (forall l, l < j -> x (ti l) = true) -> (forall l, j <= l -> l < length rt -> x (ti l) = false) -> high j x -> Phi x = g x) ->
  forall x, calm x -> one_in K x -> zero_in rt x -> zero_in ra x ->
  fold_left (fun phi i => controlled K (D2 i) phi) (rev (seq 0 j)) Phi x = Cmult (cpow sh j) (g (flips (map (fun i => ti i) (rev (seq 0 j))) x)).
Proof.
  intros Hlt. destruct names as (N1 & N2 & N3 & N4 & N5 & N6 & Ia & It & Im & Ic). destruct ra_places as (P1 & P2 & P3 & P4 & P5).
  induction j as [|j IH]; intros Phi g Hj HP Hg E x Cx Kx Zt Za.
  - cbn [seq rev fold_left map cpow]. rewrite flips_nil, E; [ring|exact Cx|exact Kx|lia|intros l _ Hl; apply Zt, nth_In, Hl|intros l _ Hl; apply Za, nth_In, Hl].
  - rewrite seq_S, rev_app_distr. cbn [rev app fold_left map cpow Nat.add]. assert (Ij : In (ti j) rt) by (apply nth_In; lia).
    assert (To : ~ In (ti j) (rc ++ rm ++ ra)) by (apply Dt; exact Ij).
    rewrite (IH (controlled K (D2 j) Phi) (fun x => Cmult sh (g (flip x (ti j))))).
    + rewrite flip_flips; [ring|]. apply (ti_notin rt Nt); [lia|intros l Hl; apply in_rev, in_seq in Hl; lia|intros X; apply in_rev, in_seq in X; lia].
    + lia.
    + apply calm_ctl; [exact HP|apply calm_D2; [lia|exact HP]].
    + intros y. destruct (on_hot_flip cs ms bs0 c m a t g (ti j) To Hg y) as [X|X]; [left; rewrite X; ring|right; exact X].
    + intros y Cy Ky Lo Hi Hh. rewrite ctl_one by exact Ky.
      assert (Ya : y a = false) by (rewrite <- P3; apply Hh; lia). assert (Yt : y t = false) by (rewrite <- P2; apply Hh; lia).
      rewrite D2_at; [|lia|exact HP|exact Cy|exact Yt|apply Hi; lia]. rewrite Ya.
      assert (Et : flip y (ti j) = upd (flip y (ti j)) t false).
      { extensionality q. unfold upd. destruct (Nat.eqb_spec q t) as [->|]; [|reflexivity]. rewrite flip_other; [exact Yt|]. intros X. apply To. rewrite <- X. do 2 (apply in_or_app; right). exact It. }
      destruct (read_ok j y false ltac:(lia) ltac:(lia) Ky Cy Lo Hi Hh) as (A1 & A2 & A3 & A4 & A5). destruct (read_ok j y true ltac:(lia) ltac:(lia) Ky Cy Lo Hi Hh) as (G1 & G2 & G3 & G4 & G5).
      rewrite Et at 1. rewrite (E _ A1 A2 A3 A4 A5), (E _ G1 G2 G3 G4 G5), !(keep_shift g _ Hg). rewrite (hot_top g (upd _ t true) t Hg It) by apply upd_same. rewrite <- Et. ring.
    + exact Cx.
    + exact Kx.
    + exact Zt.
    + exact Za.
Qed.
Lemma calm_fold D : (forall i psi, i < length rt -> on_calm psi -> on_calm (D i psi)) -> forall is psi, (forall i, In i is -> i < length rt) -> on_calm psi ->
  on_calm (fold_left (fun phi i => controlled K (D i) phi) is psi).
Proof.
  intros HD. induction is as [|i is IH]; intros psi H Hp; [exact Hp|]. cbn [fold_left]. apply IH; [intros j Hj; apply H; right; exact Hj|].
  apply calm_ctl; [exact Hp|]. apply HD; [apply H; left; reflexivity|exact Hp].
Qed.
Lemma flips_rev l y : flips (rev l) y = flips l y.
Proof.
  clear. extensionality q. unfold flips. f_equal. destruct (existsb (Nat.eqb q) l) eqn:X.
  - apply existsb_exists in X. destruct X as (p & Hp & X). apply existsb_exists. exists p. split; [apply in_rev in Hp; exact Hp|exact X].
  - apply not_true_is_false. intros Y. apply existsb_exists in Y. destruct Y as (p & Hp & Y). apply in_rev in Hp. assert (existsb (Nat.eqb q) l = true); [|congruence]. apply existsb_exists. eauto.
Qed.
Lemma times_hot' psi x : length rt = S (length rm) -> on_hot psi -> clean rt psi -> calm x -> one_in K x -> zero_in rt x -> zero_in ra x ->
  fold_left (fun phi i => controlled K (D2 i) phi) (rev (seq 0 (length rt))) (fold_left (fun phi i => controlled K (D1 i) phi) (seq 0 (length rt)) psi) x = Cmult (cpow sh (2 * length rt)) (psi x).
Proof.
  intros Ln Hh Hc Cx Kx Zt Za. destruct names as (N1 & N2 & N3 & N4 & N5 & N6 & Ia & It & Im & Ic). destruct ra_places as (P1 & P2 & P3 & P4 & P5). set (n := length rm) in *.
  rewrite Ln, seq_S, rev_app_distr. cbn [rev app Nat.add]. rewrite (fold_left_app _ (seq 0 n) [n]). cbn [fold_left]. set (ts := map (fun i => ti i) (seq 0 n)).
  set (Pn := fold_left (fun phi i => controlled K (D1 i) phi) (seq 0 n) psi). set (gn := fun y => Cmult (cpow sh n) (psi (flips ts y))).
  assert (Sq : forall i, In i (seq 0 n) -> i < length rt) by (intros i Hi; apply in_seq in Hi; lia).
  assert (Tn : forall q, In q ts -> In q rt) by (intros q Hq; apply in_map_iff in Hq; destruct Hq as (i & <- & Hi); apply nth_In, Sq, Hi).
  assert (In_n : In (ti n) rt) by (apply nth_In; lia).
  assert (Nn : ~ In (ti n) ts) by (apply (ti_notin rt Nt); [lia|exact Sq|intros X; apply in_seq in X; lia]).
  assert (Rt : forall q, In q rt -> ~ In q ra) by (intros q Hq X; apply (Dt q Hq); do 2 (apply in_or_app; right); exact X).
  assert (EP : forall y, one_in K y -> one_in ts y -> Pn y = gn y).
  { intros y Ky Hy. unfold Pn. rewrite (first_loop' (seq 0 n) [] psi psi); [rewrite seq_length; reflexivity|apply seq_NoDup|exact Sq|exact Hh| |reflexivity|exact Ky|exact Hy].
    intros i Hi z q [<-|[]]. apply Hc, nth_In, Sq, Hi. }
  assert (Hg : on_hot gn).
  { intros y. unfold gn. destruct (Hh (flips ts y)) as [X|X]; [left; rewrite X; ring|right].
    assert (E : forall p, In p (rc ++ rm ++ ra) -> flips ts y p = y p) by (intros p Hp; apply flips_notin; intros Z; apply (Dt p (Tn p Z) Hp)).
    destruct X as (Z1 & Z2 & Z3 & Z4). split; [|split; [|split]].
    + intros p Hp. rewrite <- E by (rewrite !in_app_iff in *; tauto). apply Z1. exact Hp.
    + intros p Hp. rewrite <- E by (rewrite !in_app_iff in *; tauto). apply Z2. exact Hp.
    + rewrite <- E by (rewrite !in_app_iff; cbn; tauto). exact Z3.
    + intros p Hp. rewrite <- E by (rewrite !in_app_iff in *; tauto). apply Z4. exact Hp. }
  assert (Cg : clean [ti n] gn).
  { intros y q [<-|[]] Hy. unfold gn. rewrite (Hc _ (ti n) In_n); [ring|]. rewrite flips_notin by exact Nn. exact Hy. }
  assert (CP : on_calm Pn) by (apply calm_fold; [intros i phi; apply calm_D1|exact Sq|apply hot_calm; exact Hh]).
  set (Phi := controlled K (D1 n) Pn). assert (CPhi : on_calm Phi) by (apply calm_ctl; [exact CP|apply calm_D1; [lia|exact CP]]).
  assert (EPhi : forall y, one_in K y -> one_in ts y -> Phi y = D1 n gn y).
  { intros y Ky Hy. unfold Phi. rewrite ctl_one by exact Ky. apply W1; [lia|]. intros z Hz. apply EP.
    - intros q Hq. rewrite Hz; [apply Ky; exact Hq|]. intros X. apply (HK q Hq). apply in_or_app. destruct X as [<-|X]; [left; exact In_n|right; exact X].
    - intros q Hq. rewrite Hz; [apply Hy; exact Hq|]. intros [X|X]; [subst q; contradiction|apply (Dt q (Tn q Hq) X)]. }
  rewrite (second_loop' ltac:(fold n; lia) n (controlled K (D2 n) Phi) (fun y => Cmult sh (Cmult sh (gn y)))).
  - unfold gn. rewrite map_rev. fold ts. rewrite flips_rev, flips_flips. replace (2 * S n) with (n + (n + 2)) by lia. rewrite !cpow_add. cbn [cpow]. ring.
  - fold n. lia.
  - apply calm_ctl; [exact CPhi|apply calm_D2; [lia|exact CPhi]].
  - intros y. destruct (Hg y) as [X|X]; [left; rewrite X; ring|right; exact X].
  - intros y Cy Ky Lo Hi Hh'. rewrite ctl_one by exact Ky. assert (Yt : y t = false) by (rewrite <- P2; apply Hh'; fold n; lia).
    assert (Yn : y (ti n) = false) by (apply Hi; lia).
    rewrite D2_at; [|lia|exact CPhi|exact Cy|exact Yt|exact Yn].
    assert (Tok : forall w, (forall q, ~ In q ra -> q <> ti n -> w q = y q) -> one_in K w /\ one_in ts w).
    { intros w Hw. split; intros q Hq.
      - pose proof (HK q Hq) as X. rewrite !in_app_iff in X. rewrite Hw; [apply Ky; exact Hq|rewrite in_app_iff; tauto|intros ->; tauto].
      - rewrite Hw; [|apply Rt, Tn; exact Hq|intros ->; contradiction]. apply in_map_iff in Hq. destruct Hq as (i & <- & Hi'). apply in_seq in Hi'. apply Lo. lia. }
    assert (Tw : forall w, one_in K (run (rshift_c ra) w) /\ one_in ts (run (rshift_c ra) w) -> True) by trivial. clear Tw.
    assert (Ta : forall v b, let w := run (rshift_c ra) (upd (flip y (ti n)) t v) in b = w (ti n) -> b = true /\ one_in K w /\ one_in ts w).
    { intros v b w Eb. destruct (shift_bits (upd (flip y (ti n)) t v)) as (B1 & B2 & B3 & B4). fold w in B1, B2, B3, B4. split.
      - rewrite Eb, B4 by (apply Rt; exact In_n). rewrite upd_other by (intros X; apply (Rt _ In_n); rewrite X; exact It). rewrite flip_same, Yn. reflexivity.
      - apply Tok. intros q Q1 Q2. rewrite B4 by exact Q1. rewrite upd_other by (intros ->; contradiction). apply flip_other. exact Q2. }
    destruct (y a) eqn:Ya.
    + rewrite (hot_top gn y a Hg Ia Ya). set (w := run (rshift_c ra) (upd y a false)). destruct (shift_bits (upd y a false)) as (B1 & B2 & B3 & B4). fold w in B1, B2, B3, B4.
      destruct (Tok w) as (T1 & T2); [intros q Q1 Q2; rewrite B4 by exact Q1; apply upd_other; intros ->; contradiction|]. rewrite (EPhi w T1 T2).
      rewrite (first_cold n gn w); [ring|lia|exact Hg| | |].
      * rewrite B4 by (apply Rt; exact In_n). rewrite upd_other; [exact Yn|]. intros X. apply (Rt _ In_n). rewrite X. exact Ia.
      * rewrite B2. apply upd_same.
      * rewrite B1. rewrite upd_other by congruence. exact Yt.
    + assert (Et : flip y (ti n) = upd (flip y (ti n)) t false).
      { extensionality q. unfold upd. destruct (Nat.eqb_spec q t) as [->|]; [|reflexivity]. rewrite flip_other; [exact Yt|]. intros X. apply (Rt _ In_n). rewrite <- X. exact It. }
      rewrite Et at 1. destruct (Ta false _ eq_refl) as (F1 & F2 & F3). destruct (Ta true _ eq_refl) as (G1 & G2 & G3).
      rewrite (EPhi _ F2 F3), (EPhi _ G2 G3). rewrite (first_hot' n gn _ ltac:(lia) Hg Cg F1), (first_hot' n gn _ ltac:(lia) Hg Cg G1). rewrite <- Et.
      rewrite <- !(run_flip ra (rshift_c ra) (ti n) (proj2 (proj2 shift_ok)) (Rt _ In_n)). rewrite !(keep_shift gn _ Hg).
      rewrite (hot_top gn (flip (upd _ t true) (ti n)) t Hg It) by (rewrite flip_other by (intros X; apply (Rt _ In_n); rewrite <- X; exact It); apply upd_same). rewrite flip_flip. ring.
  - exact Cx.
  - exact Kx.
  - exact Zt.
  - exact Za.
Qed.
End Amp.
