(** times_mod with modulus 2^(n-1) on 0 times 0. *)
From Coq Require Import Reals Lra FunctionalExtensionality Permutation.
From Coquelicot Require Import Complex.
From Verif Require Import Base BitsSpec BitsProofs OpsModel OpsSpec Instances BuilderModel RegProofs DenSpec DenProofs LocalProofs LinkProofs
  RunSpec RunProofs GateProofs ToffoliProofs CondProofs SubSpec SubProofs SubProofs2 SubProofs3 SubProofs5 ProgramModel ProgramSpec ProgramProofs ProgramProofs2 CircProofs CircProofs2
  ArithModel ArithSpec ArithProofs ArithProofs2 ArithProofs3 ArithProofs4 ArithProofs5 ArithProofs6 ArithProofs7 ArithProofs8 WeakProofs ArithProofs9 ArithProofs10 ArithProofs11.
Local Open Scope nat_scope.
Local Open Scope mon_scope.

(** *** Shifting 0 *)
Lemma rshift_zero (r : list nat) x : NoDup r -> r <> [] -> zero_in r x -> run (rshift_c r) x = x.
Proof.
  intros N Hr Z. symmetry. apply rel_rshift; try assumption.
  - rewrite (Z (last r 0)), (Z (nth 0 r 0)); [reflexivity|apply nth_In; destruct r; [congruence|cbn; lia]|]. rewrite last_nth by exact Hr. apply nth_In. destruct r; [congruence|cbn; lia].
  - intros i Hi. rewrite !Z; [reflexivity| |]; apply nth_In; lia.
  - intros q Hq. reflexivity.
Qed.
Lemma shift_keeps (r : list nat) (psi : state) : NoDup r -> r <> [] -> (forall x, psi x = RtoC 0 \/ zero_in r x) -> eff (rshift_c r) psi = psi /\ eff (rev (rshift_c r)) psi = psi.
Proof.
  intros N Hr H. pose proof (proj2 (rshift_acts 0 r Hr N)) as Ck.
  assert (F : forall x, zero_in r x -> run (rshift_c r) x = x) by (intros x; apply rshift_zero; assumption).
  assert (B : forall x, zero_in r x -> run (rev (rshift_c r)) x = x) by (intros x Z; rewrite <- (F x Z) at 1; apply (run_rev _ _ _ Ck)).
  split; extensionality x; unfold eff.
  - destruct (H x) as [E|Z]; [|rewrite (B x Z); reflexivity]. rewrite E. destruct (H (run (rev (rshift_c r)) x)) as [E'|Z]; [exact E'|].
    rewrite <- E. f_equal. rewrite <- (run_rev' _ _ x Ck) at 2. rewrite F by exact Z. reflexivity.
  - rewrite rev_involutive. destruct (H x) as [E|Z]; [|rewrite (F x Z); reflexivity]. rewrite E. destruct (H (run (rshift_c r) x)) as [E'|Z]; [exact E'|].
    rewrite <- E. f_equal. rewrite <- (run_rev _ _ x Ck) at 2. rewrite B by exact Z. reflexivity.
Qed.

Section Amp.
Context (cs ms bs0 : list nat) (c m a t : nat) (Lm : length ms = length cs) (Lb : length bs0 = length cs).
Notation rc := (cs ++ [c]).
Notation rm := (ms ++ [m]).
Notation ra := (bs0 ++ [a; t]).
Context (rt : list nat) (N : NoDup (rc ++ rm ++ ra)) (Nt : NoDup rt) (Dt : forall q, In q rt -> ~ In q (rc ++ rm ++ ra)).
Notation ti i := (nth i rt 0).
Notation hot := (hot cs ms bs0 c m a t).
Notation on_hot := (on_hot cs ms bs0 c m a t).
Notation D0 := (D0 0 ra rm rt rc).
Notation D1 := (D1 0 ra rm rt rc).
Notation D2 := (D2 0 ra rm rt rc).

Lemma top_t : nth (length rm) ra 0 = t.
Proof. rewrite app_length, Lm, <- Lb. cbn [length]. rewrite app_nth2 by lia. replace (length bs0 + 1 - length bs0) with 1 by lia. reflexivity. Qed.
Lemma ti_out i : i < length rt -> ~ In (ti i) (rc ++ rm ++ ra).
Proof. intros Hi. apply Dt, nth_In, Hi. Qed.
Lemma hot_flip w q : ~ In q (rc ++ rm ++ ra) -> hot (flip w q) -> hot w.
Proof.
  intros Hq (Z1 & Z2 & Z3 & Z4). assert (E : forall p, In p (rc ++ rm ++ ra) -> flip w q p = w p) by (intros p Hp; apply flip_other; intros ->; contradiction).
  split; [|split; [|split]].
  - intros p Hp. rewrite <- E by (rewrite !in_app_iff in *; tauto). apply Z1. exact Hp.
  - intros p Hp. rewrite <- E by (rewrite !in_app_iff in *; tauto). apply Z2. exact Hp.
  - rewrite <- E by (rewrite !in_app_iff; cbn; tauto). exact Z3.
  - intros p Hp. rewrite <- E by (rewrite !in_app_iff in *; tauto). apply Z4. exact Hp.
Qed.
Lemma on_hot_flip psi q : ~ In q (rc ++ rm ++ ra) -> on_hot psi -> on_hot (fun x => psi (flip x q)).
Proof. intros Hq H x. destruct (H (flip x q)) as [E|E]; [left; exact E|right; apply (hot_flip x q Hq E)]. Qed.
Lemma on_hot_ra psi : on_hot psi -> forall x, psi x = RtoC 0 \/ zero_in ra x.
Proof. intros H x. destruct (H x) as [E|(_ & _ & _ & Z)]; [left; exact E|right; exact Z]. Qed.
Lemma ra_ok : NoDup ra /\ ra <> [].
Proof. split; [|destruct bs0; discriminate]. apply NoDup_app_iff in N. destruct N as (_ & X & _). apply NoDup_app_iff in X. apply X. Qed.
Lemma one_x_eff q psi : eff (one_x q) psi = fun x => psi (flip x q).
Proof. reflexivity. Qed.

(** Each step of the first loop flips its qubit of rt. *)
Lemma first_hot i psi : i < length rt -> on_hot psi -> clean [ti i] psi -> D1 i psi = fun x => psi (flip x (ti i)).
Proof.
  intros Hi H Hc. pose proof (hot_ok cs ms bs0 c m a t Lm Lb N) as Ck. pose proof (ti_out i Hi) as To. destruct ra_ok as (Nra & Hra).
  assert (It : In t (rc ++ rm ++ ra)) by (rewrite !in_app_iff; cbn; tauto). assert (Et : t <> ti i) by (intros E; apply To; rewrite <- E; exact It).
  assert (E0 : D0 i psi = fun x => psi (flip x (ti i))).
  { unfold ArithProofs11.D0. rewrite top_t. cbn [addInvD]. set (V := eff (rev (add_c rc rm ra)) psi). set (W := controlled [t] (eff (one_x (ti i))) V).
    assert (HV : forall z, V z = RtoC 0 \/ z t = true /\ zero_in (cs ++ ms) z).
    { intros z. unfold V, eff. rewrite rev_involutive. destruct (H (run (add_c rc rm ra) z)) as [E|Hw]; [left; exact E|right].
      assert (E : z = upd (flip (run (add_c rc rm ra) z) a) t true) by (rewrite <- (hot_sub cs ms bs0 c m a t Lm Lb N _ Hw); symmetry; apply (run_rev _ _ _ Ck)).
      split; [rewrite E; apply upd_same|]. intros q Hq. destruct (hot_disj cs ms bs0 c m a t N) as (D1' & D2' & At & Ab & Tb & Mm).
      assert (Hqa : ~ In q ra) by (apply in_app_or in Hq; destruct Hq as [Hq|Hq]; [apply (D1' q)|apply (D2' q)]; apply in_or_app; left; exact Hq).
      rewrite E, upd_other, flip_other; [|intros ->; apply Hqa; rewrite in_app_iff; cbn; tauto|intros ->; apply Hqa; rewrite in_app_iff; cbn; tauto].
      destruct Hw as (Z1 & Z2 & _). apply in_app_or in Hq. destruct Hq as [Hq|Hq]; [apply Z1; apply in_or_app; left; exact Hq|apply Z2; exact Hq]. }
    assert (EW : W = fun z => V (flip z (ti i))).
    { extensionality z. unfold W, controlled. cbn [forallb]. rewrite andb_true_r, one_x_eff. destruct (z t) eqn:Zt; [reflexivity|].
      destruct (HV z) as [->|(X & _)]; [|congruence]. destruct (HV (flip z (ti i))) as [->|(X & _)]; [reflexivity|]. rewrite flip_other in X by exact Et. congruence. }
    assert (EV : (fun z => V (flip z (ti i))) = eff (rev (add_c rc rm ra)) (fun x => psi (flip x (ti i)))).
    { extensionality z. unfold V, eff. rewrite rev_involutive. rewrite (run_flip _ _ _ Ck To). reflexivity. }
    assert (CW : clean (cs ++ ms) W).
    { rewrite EW. intros z q Hq Hz. destruct (HV (flip z (ti i))) as [X|(_ & X)]; [exact X|]. specialize (X q Hq). rewrite flip_other in X; [congruence|]. intros ->. apply To. rewrite !in_app_iff in *. tauto. }
    extensionality x. unfold controlled at 1. cbn [forallb]. rewrite andb_true_r. destruct (x (ti i)) eqn:Xi.
    - rewrite (low_addD cs ms bs0 c m a t Lm Lb N 1 W CW), EW, EV. unfold eff. rewrite rev_involutive, (run_rev' _ _ _ Ck). reflexivity.
    - rewrite EW. assert (X : psi (flip x (ti i)) = RtoC 0) by (apply (Hc _ (ti i) (or_introl eq_refl)); rewrite flip_same, Xi; reflexivity). rewrite X.
      unfold V, eff. rewrite rev_involutive, (run_flip _ _ _ Ck To). apply (Hc _ (ti i) (or_introl eq_refl)). rewrite flip_same, (run_out _ _ _ Ck To), Xi. reflexivity. }
  unfold ArithProofs11.D1. rewrite E0. apply (shift_keeps ra); [exact Nra|exact Hra|]. apply on_hot_ra, on_hot_flip; assumption.
Qed.
(** Each step of the second loop flips it back with a factor. *)
Lemma second_hot i psi x : i < length rt -> on_hot psi -> (forall y, y (ti i) = false -> psi y = RtoC 0) -> x (ti i) = false -> D2 i psi x = Cmult sh (psi (flip x (ti i))).
Proof.
  intros Hi H Hc Hx. pose proof (hot_ok cs ms bs0 c m a t Lm Lb N) as Ck. pose proof (ti_out i Hi) as To. destruct ra_ok as (Nra & Hra).
  assert (It : In t (rc ++ rm ++ ra)) by (rewrite !in_app_iff; cbn; tauto). assert (Et : t <> ti i) by (intros E; apply To; rewrite <- E; exact It).
  unfold ArithProofs11.D2. rewrite top_t. cbn [addD addInvD]. rewrite (proj2 (shift_keeps ra psi Nra Hra (on_hot_ra psi H))).
  pose proof (sub_lossy cs ms bs0 c m a t Lm Lb N psi H (flip x (ti i))) as S. rewrite (run_flip _ _ _ (cok_rev _ _ Ck) To) in S. rewrite flip_other in S by exact Et.
  unfold eff at 1. set (z := run (rev (add_c rc rm ra)) x) in *. assert (Zi : z (ti i) = false) by (unfold z; rewrite (run_out _ _ _ (cok_rev _ _ Ck) To); exact Hx).
  rewrite <- S. unfold controlled at 1. cbn [forallb]. rewrite andb_true_r, one_x_eff. destruct (z t).
  - unfold controlled. cbn [forallb]. rewrite flip_same, Zi. reflexivity.
  - unfold controlled. cbn [forallb]. rewrite Zi. apply Hc. exact Zi.
Qed.

Lemma ti_neq i j : i < length rt -> j < length rt -> i <> j -> ti i <> ti j.
Proof. intros Hi Hj Hn E. apply Hn. apply (proj1 (NoDup_nth rt 0) Nt); assumption. Qed.
Lemma ti_notin i is : i < length rt -> (forall j, In j is -> j < length rt) -> ~ In i is -> ~ In (ti i) (map (fun j => ti j) is).
Proof. intros Hi H Hn X. apply in_map_iff in X. destruct X as (j & E & Hj). apply (ti_neq i j); [exact Hi|apply H; exact Hj|intros ->; contradiction|symmetry; exact E]. Qed.
Lemma flip_flips q ts x : ~ In q ts -> flip (flips ts x) q = flips (q :: ts) x.
Proof. intros H. rewrite flips_cons by exact H. unfold flip. rewrite flips_notin by exact H. reflexivity. Qed.
Lemma first_loop : forall is psi, NoDup is -> (forall i, In i is -> i < length rt) -> on_hot psi -> (forall i, In i is -> clean [ti i] psi) ->
  fold_left (fun phi i => controlled [] (D1 i) phi) is psi = fun x => psi (flips (map (fun i => ti i) is) x).
Proof.
  induction is as [|i is IH]; intros psi Ni H Hh Hc; cbn [fold_left map]; [extensionality x; rewrite flips_nil; reflexivity|].
  apply NoDup_cons_iff in Ni. destruct Ni as (Hi & Ni). assert (Li : i < length rt) by (apply H; left; reflexivity).
  rewrite controlled_nil, first_hot; [|exact Li|exact Hh|apply Hc; left; reflexivity]. rewrite IH.
  - extensionality x. rewrite flip_flips; [reflexivity|]. apply ti_notin; [exact Li|intros j Hj; apply H; right; exact Hj|exact Hi].
  - exact Ni.
  - intros j Hj. apply H. right. exact Hj.
  - apply on_hot_flip; [apply ti_out; exact Li|exact Hh].
  - intros j Hj x q [<-|[]] Hx. apply (Hc j (or_intror Hj) _ (ti j) (or_introl eq_refl)). rewrite flip_other; [exact Hx|]. apply ti_neq; [apply H; right; exact Hj|exact Li|intros ->; contradiction].
Qed.
Context (Wd : forall i, i < length rt -> within (ti i :: rc ++ rm ++ ra) (D2 i)).
Lemma second_loop : forall is done Phi (g : state), NoDup (done ++ is) -> (forall i, In i (done ++ is) -> i < length rt) -> on_hot g -> (forall i y, In i is -> y (ti i) = false -> g y = RtoC 0) ->
  (forall x, zero_in (map (fun i => ti i) done) x -> Phi x = g x) ->
  forall x, zero_in (map (fun i => ti i) (done ++ is)) x -> fold_left (fun phi i => controlled [] (D2 i) phi) is Phi x = Cmult (cpow sh (length is)) (g (flips (map (fun i => ti i) is) x)).
Proof.
  induction is as [|i is IH]; intros done Phi g Ni H Hh Hc E x Hx; cbn [fold_left map length cpow].
  - rewrite app_nil_r in Hx. rewrite flips_nil, (E x Hx). ring.
  - assert (Li : i < length rt) by (apply H; apply in_or_app; right; left; reflexivity). rewrite controlled_nil.
    assert (Hr : forall j, In j is -> j < length rt) by (intros j Hj; apply H; apply in_or_app; right; right; exact Hj).
    assert (Hd : forall j, In j done -> j < length rt) by (intros j Hj; apply H; apply in_or_app; left; exact Hj).
    pose proof (NoDup_remove_2 _ _ _ Ni) as Hn. rewrite in_app_iff in Hn.
    rewrite (IH (done ++ [i]) (D2 i Phi) (fun x => Cmult sh (g (flip x (ti i))))).
    + rewrite flip_flips; [ring|]. apply ti_notin; [exact Li|exact Hr|tauto].
    + rewrite <- app_assoc. exact Ni.
    + intros j Hj. rewrite <- app_assoc in Hj. apply H. exact Hj.
    + intros y. destruct (on_hot_flip g (ti i) (ti_out i Li) Hh y) as [X|X]; [left; rewrite X; ring|right; exact X].
    + intros j y Hj Hy. rewrite (Hc j); [ring|right; exact Hj|]. rewrite flip_other; [exact Hy|]. apply ti_neq; [apply Hr; exact Hj|exact Li|intros ->; tauto].
    + intros y Hy. rewrite map_app in Hy. assert (Yi : y (ti i) = false) by (apply Hy; apply in_or_app; right; left; reflexivity).
      rewrite (Wd i Li Phi g y); [apply second_hot; [exact Li|exact Hh|intros z; apply Hc; left; reflexivity|exact Yi]|].
      intros z Hz. apply E. intros q Hq. rewrite Hz; [apply Hy; apply in_or_app; left; exact Hq|]. intros [X|X].
      * subst q. apply (ti_notin i done); [exact Li|exact Hd|tauto|exact Hq].
      * apply in_map_iff in Hq. destruct Hq as (j & <- & Hj). apply (ti_out j (Hd j Hj)). exact X.
    + rewrite <- app_assoc. exact Hx.
Qed.
Lemma map_ti : map (fun i => ti i) (seq 0 (length rt)) = rt.
Proof. clear. induction rt as [|q l IH]; [reflexivity|]. cbn [length seq map nth]. f_equal. rewrite <- seq_shift, map_map. exact IH. Qed.
Lemma times_hot psi x : on_hot psi -> clean rt psi -> zero_in rt x ->
  fold_left (fun phi i => controlled [] (D2 i) phi) (rev (seq 0 (length rt))) (fold_left (fun phi i => controlled [] (D1 i) phi) (seq 0 (length rt)) psi) x = Cmult (cpow sh (length rt)) (psi x).
Proof.
  intros Hh Hc Hx. rewrite first_loop; [|apply seq_NoDup|intros i Hi; apply in_seq in Hi; lia|exact Hh|].
  2:{ intros i Hi y q [<-|[]]. apply Hc, nth_In. apply in_seq in Hi. lia. }
  assert (Fl : forall y, flips (map (fun i => ti i) (rev (seq 0 (length rt)))) y = flips rt y).
  { intros y. extensionality q. rewrite map_rev, map_ti. unfold flips. f_equal. destruct (existsb (Nat.eqb q) rt) eqn:X.
    - apply existsb_exists in X. destruct X as (p & Hp & X). apply existsb_exists. exists p. split; [apply in_rev in Hp; exact Hp|exact X].
    - apply not_true_is_false. intros Y. apply existsb_exists in Y. destruct Y as (p & Hp & Y). apply in_rev in Hp. assert (existsb (Nat.eqb q) rt = true); [|congruence]. apply existsb_exists. eauto. }
  rewrite map_ti. rewrite (second_loop (rev (seq 0 (length rt))) [] _ (fun y => psi (flips rt y))).
  - rewrite rev_length, seq_length, Fl, flips_flips. reflexivity.
  - cbn [app]. apply NoDup_rev, seq_NoDup.
  - cbn [app]. intros i Hi. apply in_rev, in_seq in Hi. lia.
  - intros y. destruct (Hh (flips rt y)) as [E|(Z1 & Z2 & Z3 & Z4)]; [left; exact E|right].
    assert (E : forall p, In p (rc ++ rm ++ ra) -> flips rt y p = y p) by (intros p Hp; apply flips_notin; intros X; apply (Dt p X Hp)).
    split; [|split; [|split]].
    + intros p Hp. rewrite <- E by (rewrite !in_app_iff in *; tauto). apply Z1. exact Hp.
    + intros p Hp. rewrite <- E by (rewrite !in_app_iff in *; tauto). apply Z2. exact Hp.
    + rewrite <- E by (rewrite !in_app_iff; cbn; tauto). exact Z3.
    + intros p Hp. rewrite <- E by (rewrite !in_app_iff in *; tauto). apply Z4. exact Hp.
  - intros i y Hi Hy. apply in_rev, in_seq in Hi. assert (It : In (ti i) rt) by (apply nth_In; lia). apply (Hc _ (ti i) It). rewrite flips_in by exact It. rewrite Hy. reflexivity.
  - reflexivity.
  - cbn [app]. intros q Hq. apply Hx. rewrite map_rev, map_ti in Hq. apply in_rev in Hq. exact Hq.
Qed.
End Amp.

(** On the whole run. *)
Lemma times_amp ra rb rm rp rt rc psi x : length ra = S (length rm) -> length rp = S (length rm) -> rm <> [] -> rb <> [] -> length rt = length rb -> length rc = length rm ->
  NoDup (concat [ra; rb; rm; rp; rt; rc]) -> zero_in rt x -> zero_in rc x -> val rm x = 2 ^ (length rm - 1) -> zero_in ra x -> settled (ra ++ rm ++ rt ++ rc) x psi ->
  times_d 0 ra rb rm rt rc [] psi x = Cmult (cpow sh (length rb)) (psi x).
Proof.
  intros La Lp Hm Hb Lt Lc Nd Zt Zc Vm Za Se.
  pose proof (fun i => proj1 (only_D2 0 ra rb rm rp rt rc Hm Hb La Lp Lt Lc Nd i)) as W. pose proof (nodup_add ra rb rm rp rt rc Nd) as N. unfold times_d. rewrite <- Lt.
  assert (Nt : NoDup rt /\ forall q, In q rt -> ~ In q (rc ++ rm ++ ra)).
  { split; [pose proof (t_nodup ra rb rm rp rt rc Nd) as X; rewrite !NoDup_app_iff in X; tauto|]. intros q Hq X. pose proof (t_sep ra rb rm rp rt rc Nd) as (S1 & S2 & S3 & S4 & S5).
    rewrite !in_app_iff in X. destruct X as [X|[X|X]]; [apply (S5 q Hq X)|apply S3 in X; tauto|apply S1 in X; tauto]. }
  assert (E1 : exists cs c, rc = cs ++ [c]) by (destruct (exists_last (l := rc)) as (l & q & E); [intros E; rewrite E in Lc; destruct rm; [congruence|discriminate]|eauto]). destruct E1 as (cs & c & E1).
  assert (E2 : exists ms m, rm = ms ++ [m]) by (destruct (exists_last Hm) as (l & q & E); eauto). destruct E2 as (ms & m & E2).
  assert (E3 : exists bs0 a t, ra = bs0 ++ [a; t]).
  { destruct (exists_last (l := ra)) as (l & t & E); [intros E; rewrite E in La; discriminate|]. destruct (exists_last (l := l)) as (l' & a & E').
    - intros E'. rewrite E' in E. rewrite E in La. destruct rm; [congruence|discriminate].
    - exists l', a, t. rewrite E, E', <- app_assoc. reflexivity. }
  destruct E3 as (bs0 & a & t & E3).
  assert (L1 : length ms = length cs) by (rewrite E1, E2, !app_length in Lc; cbn in Lc; lia). assert (L2 : length bs0 = length cs) by (rewrite E2, E3, !app_length in La; cbn in La; lia).
  clear Hm Hb La Lp Lc Nd Lt. subst rc rm ra. destruct Nt as (Nt & Dt).
  assert (Hx : zero_in ms x /\ x m = true).
  { rewrite app_length in Vm. cbn [length] in Vm. rewrite Nat.add_sub, val_app in Vm. unfold val at 2 in Vm. cbn [map le] in Vm. pose proof (val_bound ms x) as B. destruct (x m); cbn [b2n] in Vm.
    - split; [|reflexivity]. assert (V0 : val ms x = 0) by lia. intros q Hq. apply (val_inj ms x (fun _ => false)); [|exact Hq]. rewrite V0. symmetry. apply val_zero. intros p _. reflexivity.
    - lia. }
  apply (times_hot cs ms bs0 c m a t L1 L2 rt N Nt Dt).
  - intros i Hi. apply W.
  - intros z.
    assert (Dec : (exists q, In q ((bs0 ++ [a; t]) ++ (ms ++ [m]) ++ rt ++ cs ++ [c]) /\ z q <> x q) \/ forall q, In q ((bs0 ++ [a; t]) ++ (ms ++ [m]) ++ rt ++ cs ++ [c]) -> z q = x q).
    { generalize ((bs0 ++ [a; t]) ++ (ms ++ [m]) ++ rt ++ cs ++ [c]). intros l. induction l as [|q l IH]; [right; intros q []|]. destruct IH as [(p & Hp & X)|IH]; [left; exists p; split; [right; exact Hp|exact X]|].
      destruct (bool_dec (z q) (x q)) as [E|E]; [right; intros p [<-|Hp]; [exact E|apply IH; exact Hp]|left; exists q; split; [left; reflexivity|exact E]]. }
    destruct Dec as [D|D]; [left; apply Se; exact D|right]. split; [|split; [|split]].
    + intros q Hq. rewrite D; [apply Zc; exact Hq|]. rewrite !in_app_iff in *. tauto.
    + intros q Hq. rewrite D; [apply Hx; exact Hq|]. rewrite !in_app_iff in *. tauto.
    + rewrite D; [apply Hx|]. rewrite !in_app_iff. cbn. tauto.
    + intros q Hq. rewrite D; [apply Za; exact Hq|]. rewrite !in_app_iff in *. tauto.
  - intros z q Hq Hz. apply Se. exists q. split; [rewrite !in_app_iff; tauto|]. rewrite (Zt q Hq), Hz. discriminate.
  - exact Zt.
Qed.
