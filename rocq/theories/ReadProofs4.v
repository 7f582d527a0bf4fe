(** What [program!] does on basis states is what its lines read, if the functions called do on basis states what
    [sem] says of their names. *)
From Coq Require Import Reals FunctionalExtensionality Bool.
From Coquelicot Require Import Complex.
From Verif Require Import Base BitsSpec BitsProofs OpsModel OpsSpec Instances BuilderModel DenSpec DenProofs RunSpec SubSpec ProgramModel ProgramSpec ProgramProofs2
  GateProofs ArithSpec TextModel ReadSpec ReadProofs SoundSpec.
Local Open Scope nat_scope.

(** Writing values into qubits. *)
Definition assign (qs : list nat) (vs : list bool) (x : bs) : bs := fold_left (fun x p => upd x (fst p) (snd p)) (combine qs vs) x.
Lemma assign_out qs : forall vs x q, ~ In q qs -> assign qs vs x q = x q.
Proof.
  unfold assign. induction qs as [|a qs IH]; intros vs x q H; [reflexivity|]. destruct vs as [|v vs]; [reflexivity|]. cbn [combine fold_left fst snd].
  rewrite IH by (intros H'; apply H; now right). unfold upd. destruct (Nat.eqb_spec q a) as [->|E]; [exfalso; apply H; now left|reflexivity].
Qed.
Lemma assign_in qs : forall vs x, NoDup qs -> length vs = length qs -> map (assign qs vs x) qs = vs.
Proof.
  unfold assign. induction qs as [|a qs IH]; intros vs x N L; destruct vs as [|v vs]; try discriminate; [reflexivity|]. cbn [combine fold_left fst snd map].
  inversion N; subst. f_equal.
  - change (assign qs vs (upd x a v) a = v). rewrite assign_out by assumption. unfold upd. now rewrite Nat.eqb_refl.
  - apply IH; [assumption|now injection L].
Qed.
Lemma assign_app qs qs' vs vs' x : length vs = length qs -> assign (qs ++ qs') (vs ++ vs') x = assign qs' vs' (assign qs vs x).
Proof.
  intros L. unfold assign. replace (combine (qs ++ qs') (vs ++ vs')) with (combine qs vs ++ combine qs' vs'); [apply fold_left_app|].
  revert vs L. induction qs as [|a qs IH]; intros [|v vs] L; try discriminate; [reflexivity|]. cbn. f_equal. apply IH. now injection L.
Qed.
Lemma assign_same qs : forall x, assign qs (map x qs) x = x.
Proof.
  intros x. unfold assign. assert (G : forall x', (forall q, x' q = x q) -> fold_left (fun x p => upd x (fst p) (snd p)) (combine qs (map x qs)) x' = x).
  { induction qs as [|a qs IH]; intros x' H; cbn [map combine fold_left fst snd]; [now extensionality q|]. apply IH. intros q. unfold upd. destruct (Nat.eqb_spec q a) as [->|]; auto. }
  now apply G.
Qed.

(** One argument. *)
Lemma fetch1_is rs a x : arg_ok rs a -> fetch1 (map (map x) rs) a = map x (arg_qubits rs a).
Proof.
  destruct a as [k [is|]]; intros [H1 H2]; unfold fetch1, arg_qubits; cbn [fst snd] in *.
  - rewrite map_map. apply map_ext_in. intros i Hi. change (@nil bool) with (map x []) at 1. rewrite map_nth.
    rewrite (nth_indep _ false (x 0)) by (rewrite map_length; auto). apply map_nth.
  - change (@nil bool) with (map x []) at 1. apply map_nth.
Qed.
Lemma fetch_is rs g x : Forall (arg_ok rs) g -> fetch (map (map x) rs) g = map x (gather rs g).
Proof.
  intros H. unfold fetch, gather. induction H as [|a g Ha Hg IH]; [reflexivity|]. cbn [flat_map map concat]. now rewrite map_app, fetch1_is, IH.
Qed.
Lemma in_gather (rs : list reg) q k : In q (nth k rs []) -> k < length rs -> In q (concat rs).
Proof. intros H L. apply in_concat. exists (nth k rs []). split; [now apply nth_In|exact H]. Qed.
Lemma nth_unique (rs : list reg) : NoDup (concat rs) -> forall k k' q, k < length rs -> k' < length rs -> In q (nth k rs []) -> In q (nth k' rs []) -> k = k'.
Proof.
  induction rs as [|r rs IH]; intros N k k' q L L' H H'; [cbn in L; lia|]. cbn [concat] in N. apply NoDup_app_iff in N. destruct N as (N1 & N2 & N3).
  destruct k as [|k], k' as [|k']; cbn [nth length] in *; [reflexivity| | |f_equal; eapply IH; eauto; lia]; exfalso.
  - apply (N3 q H). eapply in_gather; [exact H'|lia].
  - apply (N3 q H'). eapply in_gather; [exact H|lia].
Qed.
Lemma upd_is {A} (f : A -> list bool) v k (l : list A) (d : A) : k < length l -> forall g, g (nth k l d) = v -> (forall j, j < length l -> j <> k -> g (nth j l d) = f (nth j l d)) ->
  upd_nth k v (map f l) = map g l.
Proof.
  intros L g E H. apply (nth_ext _ _ [] []); [now rewrite upd_nth_length, !map_length|]. rewrite upd_nth_length, map_length. intros j Hj.
  rewrite nth_upd_nth by (now rewrite map_length). rewrite (nth_indep (map g l) [] (g d)) by (now rewrite map_length). rewrite map_nth.
  destruct (Nat.eqb_spec j k) as [->|Ne]; [now rewrite E|]. rewrite (nth_indep (map f l) [] (f d)) by (now rewrite map_length). rewrite map_nth. symmetry. now apply H.
Qed.
Lemma fold_upd_is (r : reg) : NoDup r -> forall is v x, (forall i, In i is -> i < length r) ->
  fold_left (fun r p => upd_nth (fst p) (snd p) r) (combine is v) (map x r) = map (assign (map (fun i => nth i r 0) is) v x) r.
Proof.
  intros N. unfold assign. induction is as [|i is IH]; intros v x H; [reflexivity|]. destruct v as [|b v]; [reflexivity|].
  cbn [combine map fold_left fst snd]. rewrite <- IH by (intros j Hj; apply H; now right). f_equal.
  apply (nth_ext _ _ false false); [now rewrite upd_nth_length, !map_length|]. rewrite upd_nth_length, map_length. intros j Hj.
  rewrite nth_upd_nth by (rewrite map_length; apply H; now left).
  rewrite (nth_indep (map (upd x (nth i r 0) b) r) false (upd x (nth i r 0) b 0)) by (now rewrite map_length). rewrite map_nth. unfold upd at 1.
  destruct (Nat.eqb_spec j i) as [->|Ne]; [now rewrite Nat.eqb_refl|].
  destruct (Nat.eqb_spec (nth j r 0) (nth i r 0)) as [E|E]; [exfalso; apply Ne; apply (proj1 (NoDup_nth r 0) N); [exact Hj|apply H; now left|exact E]|].
  rewrite (nth_indep (map x r) false (x 0)) by (now rewrite map_length). apply map_nth.
Qed.
Lemma store1_is rs a v x : NoDup (concat rs) -> arg_ok rs a -> length v = length (arg_qubits rs a) ->
  store1 (map (map x) rs) a v = map (map (assign (arg_qubits rs a) v x)) rs.
Proof.
  intros N [H1 H2] L. destruct a as [k o]. unfold store1. cbn [fst snd] in *.
  assert (Nk : forall j, j < length rs -> NoDup (nth j rs [])).
  { intros j Hj. revert j Hj. clear - N. induction rs as [|r rs IH]; intros j Hj; [cbn in Hj; lia|]. cbn [concat] in N. apply NoDup_app_iff in N. destruct N as (N1 & N2 & _).
    destruct j; [exact N1|]. apply IH; [exact N2|cbn in Hj; lia]. }
  assert (Q : forall q, In q (arg_qubits rs (k, o)) -> In q (nth k rs [])).
  { intros q Hq. destruct o as [is|]; cbn [arg_qubits snd fst] in Hq; [|exact Hq]. apply in_map_iff in Hq. destruct Hq as (i & <- & Hi). apply nth_In. now apply H2. }
  apply (upd_is (map x) _ k rs [] H1).
  - destruct o as [is|]; cbn [arg_qubits fst snd] in *.
    + change (nth k (map (map x) rs) []) with (nth k (map (map x) rs) (map x [])). rewrite map_nth. symmetry. apply fold_upd_is; [now apply Nk|exact H2].
    + apply assign_in; [now apply Nk|exact L].
  - intros j Hj Ne. apply map_ext_in. intros q Hq. apply assign_out. intros Hq'. apply Ne. eapply nth_unique; eauto.
Qed.
Lemma store_is rs : NoDup (concat rs) -> forall g v x, Forall (arg_ok rs) g -> length v = length (gather rs g) ->
  store (map (map x) rs) g v = map (map (assign (gather rs g) v x)) rs.
Proof.
  intros N. induction g as [|a g IH]; intros v x H L; [reflexivity|]. inversion H as [|? ? Ha Hg]; subst. cbn [store].
  unfold gather in *. cbn [map concat] in *. rewrite app_length in L. rewrite fetch1_is, map_length by exact Ha.
  rewrite store1_is by (try assumption; rewrite firstn_length; lia). rewrite IH by (try assumption; rewrite skipn_length; lia).
  rewrite <- (firstn_skipn (length (arg_qubits rs a)) v) at 3. rewrite assign_app by (rewrite firstn_length; lia). reflexivity.
Qed.
Lemma stores_is rs : NoDup (concat rs) -> forall gs vs x, Forall (Forall (arg_ok rs)) gs -> map (@length bool) vs = map (fun g => length (gather rs g)) gs ->
  stores (map (map x) rs) gs vs = map (map (assign (concat (map (gather rs) gs)) (concat vs) x)) rs.
Proof.
  intros N. induction gs as [|g gs IH]; intros vs x H L; destruct vs as [|v vs]; try discriminate; [reflexivity|]. inversion H as [|? ? Hg Hgs]; subst.
  cbn [map] in L. injection L as L1 L2. cbn [stores map concat]. rewrite store_is, IH by assumption. now rewrite assign_app.
Qed.

(** One line. *)
Lemma chosen_is mask cr x : chosen mask (map x cr) = match mask with None => forallb x cr | Some m => matches cr m x end.
Proof.
  unfold chosen, matches. destruct mask as [m|].
  - rewrite map_length. enough (E : combine (seq 0 (length cr)) (map x cr) = map (fun i => (i, x (nth i cr 0))) (seq 0 (length cr))).
    { rewrite E. clear E. induction (seq 0 (length cr)) as [|i l IH]; [reflexivity|]. cbn. now rewrite IH. }
    apply (nth_ext _ _ (0, false) (0, false)); [rewrite combine_length, !map_length, seq_length; lia|]. rewrite combine_length, map_length, seq_length. intros i Hi.
    rewrite combine_nth by (now rewrite map_length, seq_length). rewrite (nth_indep (map (fun i => (i, x (nth i cr 0))) (seq 0 (length cr))) (0, false) (0, x (nth 0 cr 0))) by (rewrite map_length, seq_length; lia).
    rewrite (map_nth (fun i => (i, x (nth i cr 0)))), seq_nth by lia. cbn [plus]. f_equal. rewrite (nth_indep _ false (x 0)) by (rewrite map_length; lia). apply map_nth.
  - induction cr as [|q cr IH]; [reflexivity|]. cbn. now rewrite IH.
Qed.

Lemma assign_regs : forall (rs : list reg) vs x, NoDup (concat rs) -> map (@length bool) vs = map (@length nat) rs -> map (map (assign (concat rs) (concat vs) x)) rs = vs.
Proof.
  induction rs as [|r rs IH]; intros vs x N L; destruct vs as [|v vs]; try discriminate; [reflexivity|]. cbn [map] in L. injection L as L1 L2.
  cbn [map concat]. cbn [concat] in N. apply NoDup_app_iff in N. destruct N as (N1 & N2 & N3). rewrite assign_app by exact L1. f_equal; [|now apply IH].
  transitivity (map (assign r v x) r); [|now apply assign_in]. apply map_ext_in. intros q Hq. apply assign_out. now apply N3.
Qed.
Lemma map_fetch rs gs x : Forall (Forall (arg_ok rs)) gs -> map (fetch (map (map x) rs)) gs = map (map x) (map (gather rs) gs).
Proof. intros H. rewrite map_map. induction H as [|g gs Hg Hgs IH]; [reflexivity|]. cbn [map]. now rewrite fetch_is, IH. Qed.
Lemma map_len (rs : list reg) x : map (@length bool) (map (map x) rs) = map (@length nat) rs.
Proof. rewrite map_map. apply map_ext. intros r. apply map_length. Qed.
Lemma gather_in rs g q : Forall (arg_ok rs) g -> In q (gather rs g) -> In q (concat rs).
Proof.
  intros H Hq. unfold gather in Hq. apply in_concat in Hq. destruct Hq as (l & Hl & Hq). apply in_map_iff in Hl. destruct Hl as ([k o] & <- & Ha).
  pose proof (proj1 (Forall_forall _ _) H _ Ha) as [K1 K2]. cbn [fst snd] in K1, K2. apply (in_gather rs q k); [|exact K1]. unfold arg_qubits in Hq. cbn [fst snd] in Hq.
  destruct o as [is|]; [|exact Hq]. apply in_map_iff in Hq. destruct Hq as (i & <- & Hi). apply nth_In. now apply K2.
Qed.
Lemma gathers_in rs gs q : Forall (Forall (arg_ok rs)) gs -> In q (concat (map (gather rs) gs)) -> In q (concat rs).
Proof.
  intros H Hq. apply in_concat in Hq. destruct Hq as (l & Hl & Hq). apply in_map_iff in Hl. destruct Hl as (g & <- & Hg).
  eapply gather_in; [|exact Hq]. exact (proj1 (Forall_forall _ _) H _ Hg).
Qed.
Lemma matches_ext cr m x y : (forall q, In q cr -> x q = y q) -> matches cr m x = matches cr m y.
Proof. intros H. unfold matches. apply forallb_ext_in. intros i Hi. apply in_seq in Hi. rewrite H; [reflexivity|]. apply nth_In. lia. Qed.
Lemma forallb_same (cr : list nat) (x y : bs) : (forall q, In q cr -> x q = y q) -> forallb x cr = forallb y cr.
Proof. intros H. now apply forallb_ext_in. Qed.

Lemma some_inj {A} (a b : A) : Some a = Some b -> a = b.
Proof. congruence. Qed.
(** One line. *)
Lemma line_sound rs F sem t D x out : sized sem -> NoDup (concat rs) -> line_ok rs (compile F t) -> (t_ctl t <> None -> t_args t <> []) ->
  takes (means (call_targets (compile F t) (line_regs rs (compile F t))) (sem (t_name t))) D ->
  line_read sem (map (map x) rs) t = Some out ->
  exists y, out = map (map y) rs /\ only_in (concat rs) x y /\ forall psi, line_op rs (compile F t) D psi y = psi x.
Proof.
  intros Sz N (K1 & K2 & K3) Hc T R. destruct t as [ctl f args]. unfold line_read in R. cbn [t_ctl t_name t_args compile l_ctl l_fun l_args] in *.
  unfold line_regs, line_op, call_op, call_targets in *. cbn [l_ctl l_args] in *. rewrite map_fetch in R by exact K1. destruct ctl as [mask|].
  - destruct args as [|c args]; [now destruct (Hc ltac:(discriminate))|]. cbn [map hd tl concat] in *. inversion K1 as [|? ? Kc Ka]; subst.
    apply NoDup_app_iff in K3. destruct K3 as (Nc & Nt & Dj). rewrite chosen_is in R.
    set (cr := gather rs c) in *. set (tg := map (gather rs) args) in *.
    set (b := match mask with None => forallb x cr | Some m => matches cr m x end) in *.
    assert (Op : forall psi y, (forall q, In q cr -> y q = x q) -> (match mask with None => controlled cr D | Some m => selected cr m D end) psi y = if b then D psi y else psi y).
    { intros psi y Hy. unfold b. destruct mask as [m|]; unfold selected, controlled; [rewrite (matches_ext cr m y x Hy)|rewrite (forallb_same cr y x Hy)]; reflexivity. }
    destruct b eqn:B.
    + destruct (sem f (map (map x) tg)) as [vs|] eqn:E; [|discriminate]. cbn [option_map] in R. apply some_inj in R.
      pose proof (Sz _ _ _ E) as L. rewrite map_len in L.
      set (y := assign (concat tg) (concat vs) x). exists y.
      assert (Hy : forall q, ~ In q (concat tg) -> y q = x q) by (intros q Hq; apply assign_out; exact Hq).
      split; [|split].
      * rewrite <- R. rewrite stores_is; [|exact N|exact K1|].
        { cbn [map concat]. fold cr tg. rewrite assign_app by (now rewrite map_length). rewrite assign_same. reflexivity. }
        { cbn [map]. rewrite map_length. fold cr. f_equal. rewrite L. unfold tg. now rewrite map_map. }
      * intros q Hq. apply Hy. intros Hq'. apply Hq. eapply gathers_in; [exact Ka|exact Hq'].
      * intros psi. assert (Hcr : forall q, In q cr -> y q = x q) by (intros q Hq; apply Hy; now apply Dj).
        transitivity (D psi y); [destruct mask; exact (Op psi y Hcr)|]. apply T. split; [|exact Hy]. transitivity (Some vs); [exact E|]. f_equal. symmetry. now apply assign_regs.
    + cbn [option_map] in R. apply some_inj in R. exists x. split; [|split].
      * rewrite <- R. change (map x cr :: map (map x) tg) with (map (map x) (cr :: tg)). change (cr :: tg) with (map (gather rs) (c :: args)).
        rewrite stores_is; [|exact N|exact K1|rewrite map_len, map_map; reflexivity]. rewrite <- concat_map, assign_same. reflexivity.
      * intros q _. reflexivity.
      * intros psi. destruct mask; apply (Op psi x); reflexivity.
  - destruct (sem f (map (map x) (map (gather rs) args))) as [vs|] eqn:E; [|discriminate]. cbn [option_map] in R. apply some_inj in R.
    pose proof (Sz _ _ _ E) as L. rewrite map_len in L. set (tg := map (gather rs) args) in *.
    exists (assign (concat tg) (concat vs) x). split; [|split].
    + rewrite <- R. apply stores_is; [exact N|exact K1|]. rewrite L. unfold tg. now rewrite map_map.
    + intros q Hq. apply assign_out. intros Hq'. apply Hq. eapply gathers_in; [exact K1|exact Hq'].
    + intros psi. apply T. split; [transitivity (Some vs); [exact E|]; f_equal; symmetry; now apply assign_regs|]. intros q Hq. apply assign_out. exact Hq.
Qed.
Lemma text_sound d rs F sem tds : sized sem -> NoDup (concat rs) ->
  Forall (fun td => line_acts d rs (compile F (fst td)) (snd td) /\
    takes (means (call_targets (compile F (fst td)) (line_regs rs (compile F (fst td)))) (sem (t_name (fst td)))) (snd td)) tds ->
  takes (means rs (fun st => text_read sem st (map fst tds))) (lines_op rs (map (fun td => (compile F (fst td), snd td)) tds)).
Proof.
  intros Sz N H psi x y (E & O). revert psi x E O. induction H as [|[t D] tds [A T] H IH]; intros psi x E O.
  - cbn [map text_read lines_op] in *. injection E as E. f_equal. extensionality q. destruct (in_dec Nat.eq_dec q (concat rs)) as [Hq|Hq]; [|now apply O].
    clear - E Hq. revert Hq. induction rs as [|r rs IH]; intros Hq; [contradiction|]. cbn [map concat] in *. injection E as E1 E2. apply in_app_iff in Hq. destruct Hq as [Hq|Hq]; [|now apply IH].
    clear - E1 Hq. induction r as [|a r IH]; [contradiction|]. cbn [map] in E1. injection E1 as E0 E1. destruct Hq as [<-|Hq]; [now symmetry|now apply IH].
  - cbn [map fst snd text_read lines_op] in *. destruct (line_read sem (map (map x) rs) t) as [out|] eqn:R; [|discriminate].
    destruct A as (K & Hc & _). destruct (line_sound rs F sem t D x out Sz N K Hc T R) as (z & -> & Oz & Hz).
    rewrite (IH (line_op rs (compile F t) D psi) z E); [apply Hz|]. intros q Hq. rewrite O by exact Hq. symmetry. now apply Oz.
Qed.
