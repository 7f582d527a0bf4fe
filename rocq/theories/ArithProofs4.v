(** What copy and rshift compute; their inverses. *)
From Coq Require Import Reals FunctionalExtensionality Permutation.
From Coquelicot Require Import Complex.
From Verif Require Import Base BitsSpec BitsProofs OpsModel OpsSpec Instances BuilderModel RegProofs DenSpec DenProofs LocalProofs LinkProofs
  RunSpec RunProofs GateProofs ToffoliProofs CondProofs SubSpec SubProofs SubProofs2 SubProofs3 ProgramModel ProgramSpec ProgramProofs ProgramProofs2 CircProofs CircProofs2
  ArithModel ArithSpec ArithProofs ArithProofs2 ArithProofs3.
Local Open Scope nat_scope.
Local Open Scope mon_scope.

Lemma run_cnot a b x : run (cnot_c a b) x = upd x b (xorb (x b) (x a)).
Proof.
  extensionality q. unfold cnot_c. cbn. unfold step, sat. cbn. unfold flip, upd. destruct (x a); cbn; destruct (Nat.eqb_spec q b) as [->|]; try reflexivity;
  rewrite ?xorb_true_r, ?xorb_false_r; reflexivity.
Qed.
Lemma run_copy : forall ra rb x, length ra = length rb -> NoDup (ra ++ rb) ->
  (forall i, i < length ra -> run (copy_c ra rb) x (nth i rb 0) = xorb (x (nth i rb 0)) (x (nth i ra 0))) /\ only_in rb x (run (copy_c ra rb) x).
Proof.
  induction ra as [|a ra IH]; intros [|b rb] x E N; try discriminate.
  - split; [cbn; lia|]. intros q _. reflexivity.
  - cbn [length] in E. injection E as E. assert (N2 : NoDup (ra ++ rb)) by (eapply sub_NoDup; [|exact N]; cbn [app]; auto 12 using sub, sub_all).
    change (copy_c (a :: ra) (b :: rb)) with (cnot_c a b ++ copy_c ra rb). rewrite run_app, run_cnot.
    destruct (IH rb (upd x b (xorb (x b) (x a))) E N2) as (V & O).
    assert (N3 : NoDup (b :: a :: ra ++ rb)) by (eapply Permutation_NoDup; [|exact N]; cbn; apply (Permutation_trans (perm_skip a (Permutation_sym (Permutation_middle ra rb b)))); apply perm_swap).
    assert (Nb : ~ In b (a :: ra ++ rb)) by (inversion N3; assumption).
    split.
    + intros [|i] Hi; cbn [nth length] in *.
      * rewrite O by (intros X; apply Nb; right; apply in_or_app; tauto). apply upd_same.
      * assert (Hi' : i < length ra) by lia. rewrite (V i Hi'). rewrite !upd_other; [reflexivity| |]; intros X; apply Nb; right; apply in_or_app; [left|right]; rewrite <- X; apply nth_In; lia.
    + intros q Hq. rewrite O by (intros X; apply Hq; right; exact X). apply upd_other. intros ->. apply Hq. left. reflexivity.
Qed.

(** *** rshift *)
Lemma run_shift (r : list nat) i x : NoDup r -> i < length r - 1 -> let o := if i =? 0 then length r - 1 else i - 1 in
  run (shift_c r i) x (nth i r 0) = x (nth o r 0) /\ run (shift_c r i) x (nth o r 0) = x (nth i r 0) /\
  forall q, q <> nth i r 0 -> q <> nth o r 0 -> run (shift_c r i) x q = x q.
Proof.
  intros N Hi o. pose proof (shift_pair r i Hi) as (Ho & Hn). fold o in Ho, Hn. unfold shift_c. fold o.
  assert (Hab : nth i r 0 <> nth o r 0) by (intros X; apply Hn; symmetry; apply (proj1 (NoDup_nth r 0) N i o); [lia|exact Ho|exact X]).
  rewrite run_swap by exact Hab. split; [rewrite upd_other by congruence; apply upd_same|]. split; [apply upd_same|]. intros q H1 H2. rewrite !upd_other by congruence. reflexivity.
Qed.
Lemma nth_ne (r : list nat) i j : NoDup r -> i < length r -> j < length r -> i <> j -> nth i r 0 <> nth j r 0.
Proof. intros N Hi Hj H X. apply H. apply (proj1 (NoDup_nth r 0) N i j); assumption. Qed.
Lemma run_shifts (r : list nat) x : NoDup r -> 2 <= length r -> forall m, m <= length r - 2 ->
  let y := run (concat (map (shift_c r) (rev (seq (length r - 1 - m) m)))) x in
  (forall i, length r - 1 - m <= i <= length r - 2 -> y (nth i r 0) = x (nth (i - 1) r 0)) /\ y (nth (length r - 2 - m) r 0) = x (nth (length r - 2) r 0) /\
  (forall i, i < length r - 2 - m -> y (nth i r 0) = x (nth i r 0)) /\ y (nth (length r - 1) r 0) = x (nth (length r - 1) r 0).
Proof.
  intros N L. set (n := length r) in *. induction m as [|m IH]; intros Hm.
  - cbn. split; [intros i Hi; lia|]. rewrite Nat.sub_0_r. auto.
  - assert (Hm' : m <= n - 2) by lia. specialize (IH Hm'). cbn zeta in IH.
    replace (seq (n - 1 - S m) (S m)) with ((n - 2 - m) :: seq (n - 1 - m) m) by (cbn [seq]; f_equal; [lia|f_equal; lia]).
    cbn [rev]. rewrite map_app, concat_app, run_app. cbn [map concat]. rewrite app_nil_r. set (y := run _ x) in *. destruct IH as (I1 & I2 & I3 & I4).
    assert (Hj : n - 2 - m < length r - 1) by (fold n; lia). pose proof (run_shift r (n - 2 - m) y N Hj) as X. cbn zeta in X.
    rewrite (proj2 (Nat.eqb_neq (n - 2 - m) 0)) in X by lia. destruct X as (X1 & X2 & X3). set (z := run _ y) in *. cbn zeta. unfold n in *.
    split; [|split; [|split]].
    + intros i Hi. destruct (Nat.eq_dec i (length r - 2 - m)) as [->|Hne].
      * rewrite X1. apply I3. lia.
      * rewrite X3 by (apply nth_ne; [exact N|lia|lia|lia]). apply I1. lia.
    + replace (length r - 2 - S m) with (length r - 2 - m - 1) by lia. rewrite X2. exact I2.
    + intros i Hi. rewrite X3 by (apply nth_ne; [exact N|lia|lia|lia]). apply I3. lia.
    + rewrite X3 by (apply nth_ne; [exact N|lia|lia|lia]). exact I4.
Qed.
Lemma last_nth (r : list nat) : r <> [] -> last r 0 = nth (length r - 1) r 0.
Proof.
  induction r as [|a r IH]; [congruence|]. intros _. destruct r as [|b r]; [reflexivity|]. change (last (a :: b :: r) 0) with (last (b :: r) 0). rewrite IH by discriminate.
  cbn [length]. rewrite !Nat.sub_succ, !Nat.sub_0_r. reflexivity.
Qed.
Lemma run_rshift (r : list nat) x : NoDup r -> r <> [] -> let y := run (rshift_c r) x in
  y (nth 0 r 0) = x (last r 0) /\ (forall i, S i < length r -> y (nth (S i) r 0) = x (nth i r 0)) /\ only_in r x y.
Proof.
  intros N Hne. cbn zeta.
  pose proof (last_nth r Hne) as Hlast.
  destruct (Nat.le_gt_cases 2 (length r)) as [L|L].
  - unfold rshift_c. replace (seq 0 (length r - 1)) with (0 :: seq 1 (length r - 2)) by (replace (length r - 1) with (S (length r - 2)) by lia; reflexivity).
    cbn [rev]. rewrite map_app, concat_app, run_app. cbn [map concat]. rewrite app_nil_r.
    pose proof (run_shifts r x N L (length r - 2) (le_n _)) as X. replace (length r - 1 - (length r - 2)) with 1 in X by lia. replace (length r - 2 - (length r - 2)) with 0 in X by lia. cbn zeta in X.
    set (y := run (concat _) x) in *. destruct X as (X1 & X2 & X3 & X4).
    assert (H0 : 0 < length r - 1) by lia. pose proof (run_shift r 0 y N H0) as Z. cbn zeta in Z. rewrite Nat.eqb_refl in Z. destruct Z as (Z1 & Z2 & Z3).
    split; [rewrite Hlast, Z1; exact X4|]. split.
    + intros i Hi. destruct (Nat.eq_dec (S i) (length r - 1)) as [He|He].
      * rewrite He, Z2, X2. do 2 f_equal. lia.
      * rewrite Z3 by (apply nth_ne; [exact N|lia|lia|lia]). rewrite X1 by lia. do 2 f_equal. lia.
    + intros q Hq. pose proof (run_out r (concat (map (shift_c r) (rev (seq 1 (length r - 2)))) ++ shift_c r 0) q) as O. unfold y. rewrite <- run_app. rewrite O; [reflexivity| |exact Hq].
      destruct (rshift_acts 0 r Hne N) as (_ & Ck). unfold rshift_c in Ck. replace (length r - 1) with (S (length r - 2)) in Ck by lia. cbn [seq rev] in Ck. rewrite map_app, concat_app in Ck. cbn [map concat] in Ck. rewrite app_nil_r in Ck. exact Ck.
  - destruct r as [|a [|b r]]; [congruence| |cbn in L; lia]. cbn. split; [reflexivity|]. split; [intros i Hi; lia|]. intros q _. reflexivity.
Qed.
Lemma rel_copy ra rb x y : length ra = length rb -> NoDup (ra ++ rb) -> only_in rb x y ->
  (forall i, i < length ra -> y (nth i rb 0) = xorb (x (nth i rb 0)) (x (nth i ra 0))) -> y = run (copy_c ra rb) x.
Proof.
  intros E N O V. destruct (run_copy ra rb x E N) as (V' & O'). extensionality q. destruct (in_dec Nat.eq_dec q rb) as [H|H]; [|rewrite O, O' by exact H; reflexivity].
  apply (In_nth _ _ 0) in H. destruct H as (i & Hi & <-). rewrite V, V' by lia. reflexivity.
Qed.
Lemma rel_rshift (r : list nat) x y : NoDup r -> r <> [] -> y (nth 0 r 0) = x (last r 0) -> (forall i, S i < length r -> y (nth (S i) r 0) = x (nth i r 0)) -> only_in r x y ->
  y = run (rshift_c r) x.
Proof.
  intros N Hne V0 V O. destruct (run_rshift r x N Hne) as (V0' & V' & O'). extensionality q. destruct (in_dec Nat.eq_dec q r) as [H|H]; [|rewrite O, O' by exact H; reflexivity].
  apply (In_nth _ _ 0) in H. destruct H as ([|i] & Hi & <-); [congruence|]. rewrite V, V' by lia. reflexivity.
Qed.

(** *** Only controlled-not objects *)
Definition kind {A} (m : M A) : Prop := forall s a s1, Forall friendly (pipeline (bld s)) -> m s = Ret a s1 -> Forall friendly (pipeline (bld s1)).
Lemma kind_ret {A} (a : A) : kind (ret a).
Proof. intros s b s1 F H. injection H as _ <-. exact F. Qed.
Lemma kind_lift {A} (r : res A) : kind (lift r).
Proof. intros s b s1 F H. destruct r; try discriminate. injection H as _ <-. exact F. Qed.
Lemma kind_bind {A B} (m : M A) (f : A -> M B) : kind m -> (forall a, kind (f a)) -> kind (mbind m f).
Proof. intros H1 H2 s b s1 F H. unfold mbind in H. destruct (m s) as [a s'| |] eqn:E; try discriminate. eapply H2; [|exact H]. eapply H1; eassumption. Qed.
Lemma kind_fail {A} e : kind (@fail A e).
Proof. intros s a s1 _ H. discriminate. Qed.
Lemma kind_crash {A} e : kind (@crash A e).
Proof. intros s a s1 _ H. discriminate. Qed.
Lemma kind_unwrap {A} (m : M A) : kind m -> kind (unwrapM m).
Proof. intros K s a s1 F H. unfold unwrapM in H. destruct (m s) as [b s'| |] eqn:E; try discriminate. injection H as -> ->. eapply K; eassumption. Qed.
Lemma kind_mfold {A B} (f : A -> B -> M A) : (forall a b, kind (f a b)) -> forall l a, kind (mfold f l a).
Proof. intros H. induction l as [|b l IH]; intros a; [apply kind_ret|]. cbn [mfold]. apply kind_bind; [apply H|exact IH]. Qed.
Lemma kind_mmap {A B} (f : A -> M B) : (forall a, kind (f a)) -> forall l, kind (mmap f l).
Proof. intros H. induction l as [|b l IH]; [apply kind_ret|]. cbn [mmap]. apply kind_bind; [apply H|]. intros b'. apply kind_bind; [exact IH|]. intros bs. apply kind_ret. Qed.
Lemma kind_massert b : kind (massert b).
Proof. destruct b; [apply kind_ret|apply kind_crash]. Qed.
Lemma kind_push qs co : friendly (qs, co) -> kind (push (qs, co)).
Proof. intros H s a s1 F E. injection E as _ <-. cbn. apply Forall_app. split; [exact F|]. constructor; [exact H|constructor]. Qed.
Lemma kind_local_aco r co : (forall qs, friendly (qs, co)) -> kind (local_aco r co).
Proof.
  intros H. unfold local_aco. destruct (_ || _); [|apply kind_fail]. destruct (_ && _).
  - apply kind_bind; [apply kind_lift|]. intros rs. apply kind_bind; [apply kind_mfold; intros u q; apply kind_push, H|]. intros _. apply kind_bind; [apply kind_lift|]. intros m. apply kind_lift.
  - apply kind_bind; [apply kind_push, H|]. intros _. apply kind_ret.
Qed.
Lemma kind_cnot cr r : kind (cnot local_aco cr r).
Proof.
  unfold cnot. destruct (1 <? length cr); [apply kind_fail|]. apply kind_bind; [apply kind_lift|]. intros rs. apply kind_bind.
  - apply kind_mfold. intros [cr' acc] q. cbn [cnot_step]. apply kind_bind; [apply kind_lift|]. intros r'. apply kind_bind; [apply kind_local_aco; intros; exact Logic.I|]. intros r2.
    apply kind_bind; [apply kind_lift|]. intros []; try apply kind_crash. apply kind_ret.
  - intros [cr' rs']. apply kind_bind; [apply kind_lift|]. intros m. apply kind_bind; [apply kind_lift|]. intros r'. apply kind_ret.
Qed.
Lemma kind_swap ra rb : kind (swap local_aco ra rb).
Proof.
  unfold swap. destruct (_ =? _); [|apply kind_fail]. do 2 (apply kind_bind; [apply kind_lift|]; intros ?). apply kind_bind.
  - apply kind_mmap. intros [qa qb]. unfold swap_pair. do 2 (apply kind_bind; [apply kind_massert|]; intros ?). apply kind_unwrap. apply kind_bind; [apply kind_cnot|]. intros [? ?].
    apply kind_bind; [apply kind_cnot|]. intros [? ?]. apply kind_cnot.
  - intros prs. destruct (List.split prs). do 4 (apply kind_bind; [apply kind_lift|]; intros ?). apply kind_ret.
Qed.
Lemma kind_copy rs : kind (copy 0 rs).
Proof.
  unfold copy. destruct rs as [|ra [|rb [|]]]; try apply kind_crash. destruct (_ =? _); [|apply kind_fail]. do 2 (apply kind_bind; [apply kind_lift|]; intros ?). apply kind_bind.
  - apply kind_mfold. intros [? ?] [? ?]. unfold copy_step. apply kind_bind; [apply kind_cnot|]. intros [? ?]. apply kind_ret.
  - intros [? ?]. do 4 (apply kind_bind; [apply kind_lift|]; intros ?). apply kind_ret.
Qed.
Lemma kind_rshift rs : kind (rshift 0 rs).
Proof.
  unfold rshift. destruct rs as [|r [|]]; try apply kind_crash. do 2 (apply kind_bind; [apply kind_lift|]; intros ?). apply kind_bind.
  - apply kind_mfold. intros v i. unfold rshift_step. apply kind_bind; [apply kind_lift|]. intros [? ?]. apply kind_bind; [apply kind_lift|]. intros [? ?].
    apply kind_bind; [apply kind_unwrap, kind_swap|]. intros [? ?]. apply kind_ret.
  - intros v. do 2 (apply kind_bind; [apply kind_lift|]; intros ?). apply kind_ret.
Qed.

(** *** Inverses *)
Definition copy_cs (rs : list reg) : list gate := match rs with [ra; rb] => copy_c ra rb | _ => [] end.
Definition rshift_cs (rs : list reg) : list gate := match rs with [r] => rshift_c r | _ => [] end.
Lemma copy_natural f : forall ra rb, map (rng f) (copy_c ra rb) = copy_c (map f ra) (map f rb).
Proof. induction ra as [|a ra IH]; intros [|b rb]; try reflexivity. cbn. f_equal. apply IH. Qed.
Lemma shift_natural f (r : list nat) i : i < length r - 1 -> map (rng f) (shift_c r i) = shift_c (map f r) i.
Proof.
  intros H. pose proof (shift_pair r i H) as (Ho & _). unfold shift_c. rewrite map_length. set (o := if i =? 0 then _ else _) in *.
  rewrite (nth_indep (map f r) 0 (f 0)) by (rewrite map_length; lia). rewrite (nth_indep (map f r) 0 (f 0) (n := o)) by (rewrite map_length; lia). rewrite !map_nth. reflexivity.
Qed.
Lemma rshift_natural f (r : list nat) : map (rng f) (rshift_c r) = rshift_c (map f r).
Proof.
  unfold rshift_c. rewrite map_length, concat_map, map_map. f_equal. apply map_ext_in. intros i Hi. apply in_rev in Hi. apply in_seq in Hi. apply shift_natural. lia.
Qed.
Lemma copy_cs_natural f rs : map (rng f) (copy_cs rs) = copy_cs (map (map f) rs).
Proof. destruct rs as [|ra [|rb [|]]]; try reflexivity. apply copy_natural. Qed.
Lemma rshift_cs_natural f rs : map (rng f) (rshift_cs rs) = rshift_cs (map (map f) rs).
Proof. destruct rs as [|r [|]]; try reflexivity. apply rshift_natural. Qed.
Lemma copy_inv_acts d ra rb : length ra = length rb -> ra <> [] -> NoDup (ra ++ rb) -> acts d copy_inv [ra; rb] (eff (rev (copy_c ra rb))) /\ cok (ra ++ rb) (rev (copy_c ra rb)).
Proof.
  intros E Hne N. split; [|apply cok_rev, (copy_acts d); assumption]. set (n := length ra) in *. set (rs := [ra; rb] : list reg).
  assert (Hn : 0 < n) by (unfold n; destruct ra; [congruence|cbn; lia]).
  assert (Ec : concat rs = ra ++ rb) by (cbn [rs concat]; rewrite app_nil_r; reflexivity).
  assert (Lk : length (concat rs) = n + n) by (rewrite Ec, app_length; fold n; lia).
  assert (ER : ranges 0 (map (@length nat) rs) = [seq 0 n; seq n n]) by (cbn [rs map ranges]; fold n; rewrite <- E; reflexivity).
  assert (Es : seq 0 n ++ seq n n = seq 0 (n + n)) by (rewrite seq_app; reflexivity).
  assert (Nr : NoDup (seq 0 n ++ seq n n)) by (rewrite Es; apply seq_NoDup).
  assert (Ls : length (seq 0 n) = length (seq n n)) by (rewrite !seq_length; reflexivity).
  assert (Ns : seq 0 n <> []) by (destruct n; [lia|discriminate]).
  destruct (copy_acts 0 (seq 0 n) (seq n n) Ls Ns Nr) as (A & Ck).
  apply (inverse_acts d copy copy_cs rs (fun _ => true)).
  - rewrite Ec. exact N.
  - repeat apply Forall_cons; try apply Forall_nil; [exact Hne|]. intros ->. cbn in E. lia.
  - discriminate.
  - rewrite ER. exact A.
  - rewrite ER, Lk, <- Es. exact Ck.
  - rewrite copy_cs_natural. f_equal. apply (ranges_map rs []).
  - rewrite ER, Lk. cbn [copy_cs]. destruct (run_copy (seq 0 n) (seq n n) (fun _ => true) Ls Nr) as (V & _). rewrite seq_length in V.
    specialize (V (n - 1)). rewrite !seq_nth in V by lia. replace (n + n - 1) with (n + (n - 1)) by lia. rewrite V by lia. discriminate.
  - right. intros a s1 H. eapply kind_copy; [|exact H]. constructor.
Qed.
Lemma lshift_acts d (r : list nat) : 2 <= length r -> NoDup r -> acts d lshift [r] (eff (rev (rshift_c r))) /\ cok r (rev (rshift_c r)).
Proof.
  intros L N. assert (Hne : r <> []) by (intros ->; cbn in L; lia). split; [|apply cok_rev, (rshift_acts d); assumption]. set (n := length r) in *. set (rs := [r] : list reg).
  assert (Ec : concat rs = r) by (cbn [rs concat]; apply app_nil_r).
  assert (Lk : length (concat rs) = n) by (rewrite Ec; reflexivity).
  assert (ER : ranges 0 (map (@length nat) rs) = [seq 0 n]) by reflexivity.
  assert (Ns : seq 0 n <> []) by (destruct n; [lia|discriminate]).
  destruct (rshift_acts 0 (seq 0 n) Ns (seq_NoDup _ _)) as (A & Ck).
  apply (inverse_acts d rshift rshift_cs rs (fun q => q =? n - 1)).
  - rewrite Ec. exact N.
  - repeat constructor. exact Hne.
  - discriminate.
  - rewrite ER. exact A.
  - rewrite ER, Lk. exact Ck.
  - rewrite rshift_cs_natural. f_equal. apply (ranges_map rs []).
  - rewrite ER, Lk. cbn [rshift_cs]. destruct (run_rshift (seq 0 n) (fun q => q =? n - 1) (seq_NoDup _ _) Ns) as (_ & V & _). rewrite seq_length in V.
    specialize (V (n - 2)). replace (S (n - 2)) with (n - 1) in V by lia. rewrite !seq_nth in V by lia. cbn [Nat.add] in V. rewrite V by lia. rewrite Nat.eqb_refl.
    rewrite (proj2 (Nat.eqb_neq _ _)) by lia. discriminate.
  - right. intros a s1 H. eapply kind_rshift; [|exact H]. constructor.
Qed.
Lemma le_onto : forall n v, v < 2 ^ n -> exists l, length l = n /\ le l = v.
Proof.
  induction n as [|n IH]; intros v H; [exists []; cbn in *; split; lia|]. cbn [Nat.pow] in H. destruct (IH (v / 2)) as (l & Ll & El); [apply Nat.div_lt_upper_bound; lia|].
  exists (Nat.odd v :: l). split; [cbn; congruence|]. cbn [le]. rewrite El. pose proof (Nat.div_mod v 2 ltac:(lia)) as D. rewrite <- Nat.bit0_odd, Nat.bit0_eqb.
  destruct (Nat.eqb_spec (v mod 2) 1); cbn [b2n]; pose proof (Nat.mod_upper_bound v 2 ltac:(lia)); lia.
Qed.
