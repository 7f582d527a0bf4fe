(** Subcircuits: replay on other qubits. *)
From Coq Require Import Reals Lra FunctionalExtensionality Permutation.
From Coquelicot Require Import Complex.
From Verif Require Import Base BitsSpec BitsProofs OpsModel OpsSpec OpsProofs OpsProofs2 StateOpsProofs Instances BuilderModel RegProofs ConserveProofs DenSpec DenProofs SimSpec SimProofs LocalProofs
  RunSpec RunProofs GateProofs ToffoliProofs SwapProofs CondProofs SubSpec InvertProofs.
Local Open Scope nat_scope.
Local Open Scope mon_scope.

(** *** Which qubits an operation touches *)
Lemma within_incl L L' D : incl L L' -> within L D -> within L' D.
Proof. intros I H phi phi' z E. apply H. intros y Hy. apply E. intros q Hq. apply Hy. intros X. apply Hq, I, X. Qed.
Lemma within_id L : within L (fun psi => psi).
Proof. intros phi phi' z E. apply E. reflexivity. Qed.
Lemma within_comp L D1 D2 : within L D1 -> within L D2 -> within L (fun psi => D2 (D1 psi)).
Proof. intros H1 H2 phi phi' z E. apply H2. intros y Hy. apply H1. intros y' Hy'. apply E. intros q Hq. rewrite Hy', Hy by exact Hq. reflexivity. Qed.
Lemma within_on1 m q : within [q] (on1 m q).
Proof.
  intros phi phi' z E. unfold on1. rewrite !E; [reflexivity| |]; intros p Hp; apply upd_other; intros ->; apply Hp; left; reflexivity.
Qed.
Lemma within_point L f : (forall x q, ~ In q L -> f x q = x q) -> within L (fun psi x => psi (f x)).
Proof. intros H phi phi' z E. apply E. intros q Hq. apply H. exact Hq. Qed.
Lemma within_act qs M : within qs (act CN qs M).
Proof.
  intros phi phi' z E. unfold act. apply (big_ext CN). intros c _. rewrite E; [reflexivity|]. intros q Hq. apply updl_notin. exact Hq.
Qed.
Lemma within_oden e : within (fst e) (oden (snd e) (fst e)).
Proof.
  destruct e as [qs [k [u|m]]]; cbn [fst snd oden co_obj]; [|apply within_id].
  destruct u; cbn [uden]; try apply within_id; try apply within_act.
  all: try (destruct qs as [|q [|? ?]]; try apply within_id; apply within_on1).
  - destruct qs as [|c [|t [|? ?]]]; try apply within_id. apply (within_point [c; t] (cflip [c] t)). intros x q Hq. unfold cflip, flip.
    destruct (forallb x [c]); [|reflexivity]. apply upd_other. intros ->. apply Hq. right. left. reflexivity.
  - assert (E : firstn (length qs / 2) qs ++ skipn (length qs / 2) qs = qs) by apply firstn_skipn.
    assert (G : within qs (fun psi x => psi (exchange (firstn (length qs / 2) qs) (skipn (length qs / 2) qs) x))).
    { apply within_point. intros x q Hq. apply exchange_notin. rewrite E. exact Hq. }
    exact G.
Qed.
Lemma within_den L p : (forall e, In e p -> incl (fst e) L) -> within L (den p).
Proof.
  induction p as [|e p IH]; intros H; [apply within_id|]. intros phi phi' z E. rewrite !den_cons.
  apply (within_comp L (oden (snd e) (fst e)) (den p)); [eapply within_incl; [|apply within_oden]; apply H; left; reflexivity|apply IH; intros e' He'; apply H; right; exact He'|exact E].
Qed.
Definition zero : state := fun _ => RtoC 0.
Lemma oden_zero e : oden (snd e) (fst e) zero = zero.
Proof.
  destruct e as [qs [k [u|m]]]; cbn [fst snd oden co_obj]; [|reflexivity].
  assert (A : forall m q, on1 m q zero = zero) by (intros; extensionality x; unfold on1, zero; ring).
  destruct u; cbn [uden]; try reflexivity; try (destruct qs as [|q [|? ?]]; try reflexivity; apply A).
  - destruct qs as [|c [|t [|? ?]]]; reflexivity.
  - extensionality x. unfold act, zero. apply (big_zero CN CN_laws). intros c _. apply Cmult_0_r.
Qed.
Lemma den_zero p : den p zero = zero.
Proof. induction p as [|e p IH]; [reflexivity|]. rewrite den_cons, oden_zero. exact IH. Qed.
Lemma within_local L D : within L D -> D zero = zero -> local L D.
Proof.
  intros W Z q psi Hq Hc. rewrite clean1 in *. intros x Hx. transitivity (D zero x); [|rewrite Z; reflexivity]. apply W.
  intros y Hy. apply Hc. rewrite Hy by exact Hq. exact Hx.
Qed.

(** *** Conditions and composition *)
Lemma controlled_nil D psi : controlled [] D psi = D psi.
Proof. reflexivity. Qed.
Lemma controlled_comp K L D1 D2 psi : within L D2 -> (forall q, In q K -> ~ In q L) ->
  controlled K D2 (controlled K D1 psi) = controlled K (fun psi => D2 (D1 psi)) psi.
Proof.
  intros W H. extensionality x. unfold controlled. destruct (forallb x K) eqn:E; [|reflexivity]. apply W. intros y Hy.
  replace (forallb y K) with true; [reflexivity|]. rewrite <- E. apply forallb_ext_in. intros q Hq. symmetry. apply Hy, H, Hq.
Qed.
Lemma local_controlled K L D : within L D -> D zero = zero -> local (K ++ L) (controlled K D).
Proof.
  intros W Z q psi Hq Hc. assert (H : clean [q] (D psi)) by (apply (within_local L D W Z); [intros X; apply Hq, in_or_app; right; exact X|exact Hc]).
  rewrite clean1 in *. intros x Hx. unfold controlled. destruct (forallb x K); [apply H|apply Hc]; exact Hx.
Qed.

(** *** Renaming *)
Definition at_regs (rho : list nat) (x : bs) : bs := fun j => if j <? length rho then x (nth j rho 0) else false.
Definition put_regs (rho : list nat) (x y : bs) : bs := updl x rho (map y (seq 0 (length rho))).
Lemma embed_unfold rho D psi x : embed rho D psi x = D (fun y => psi (put_regs rho x y)) (at_regs rho x).
Proof. reflexivity. Qed.
Section Ren.
Context (rho : list nat) (ND : NoDup rho).
Notation n := (length rho).
Lemma put_spec x y w : (forall j, j < n -> w (nth j rho 0) = y j) -> (forall q, ~ In q rho -> w q = x q) -> put_regs rho x y = w.
Proof.
  intros H1 H2. unfold put_regs. apply updl_unique; [exact ND| |exact H2].
  transitivity (map w (map (fun j => nth j rho 0) (seq 0 n))); [rewrite seq_nth_map; reflexivity|]. rewrite map_map.
  apply map_ext_in. intros j Hj. apply in_seq in Hj. apply H1. lia.
Qed.
Lemma put_at x y j : j < n -> put_regs rho x y (nth j rho 0) = y j.
Proof.
  intros H. pose proof (updl_map x rho (map y (seq 0 n)) ND) as E. rewrite map_length, seq_length in E. specialize (E eq_refl).
  apply (f_equal (fun l => nth j l false)) in E.
  rewrite (nth_indep _ _ (updl x rho (map y (seq 0 n)) 0)) in E by (rewrite map_length; exact H). rewrite map_nth in E.
  rewrite (nth_indep (map y _) _ (y 0)) in E by (rewrite map_length, seq_length; exact H). rewrite map_nth, seq_nth in E by exact H. exact E.
Qed.
Lemma put_out x y q : ~ In q rho -> put_regs rho x y q = x q.
Proof. intros H. apply updl_notin. exact H. Qed.
Lemma put_put x y z : put_regs rho (put_regs rho x y) z = put_regs rho x z.
Proof. apply put_spec; [intros j Hj; apply put_at; exact Hj|]. intros q Hq. rewrite !put_out by exact Hq. reflexivity. Qed.
Lemma at_put x y j : at_regs rho (put_regs rho x y) j = (if j <? n then y j else false).
Proof. unfold at_regs. destruct (Nat.ltb_spec j n); [apply put_at; assumption|reflexivity]. Qed.
Lemma nth_inj i j : i < n -> j < n -> nth i rho 0 = nth j rho 0 -> i = j.
Proof. intros Hi Hj. apply NoDup_nth; assumption. Qed.
Lemma put_upd x q b : q < n -> put_regs rho x (upd (at_regs rho x) q b) = upd x (nth q rho 0) b.
Proof.
  intros H. apply put_spec.
  - intros j Hj. destruct (Nat.eq_dec j q) as [->|E]; [rewrite !upd_same; reflexivity|]. rewrite !upd_other.
    + unfold at_regs. destruct (Nat.ltb_spec j n); [reflexivity|lia].
    + exact E.
    + intros X. apply E. apply nth_inj; assumption.
  - intros p Hp. apply upd_other. intros ->. apply Hp, nth_In, H.
Qed.
Lemma at_in x q : q < n -> at_regs rho x q = x (nth q rho 0).
Proof. intros H. unfold at_regs. destruct (Nat.ltb_spec q n); [reflexivity|lia]. Qed.
Lemma put_self x : put_regs rho x (at_regs rho x) = x.
Proof. apply put_spec; [|reflexivity]. intros j Hj. symmetry. apply at_in. exact Hj. Qed.
Lemma map_inj_NoDup qs : NoDup qs -> (forall q, In q qs -> q < n) -> NoDup (map (fun j => nth j rho 0) qs).
Proof.
  induction qs as [|q qs IH]; intros N H; [constructor|]. inversion N; subst. cbn. constructor; [|apply IH; [assumption|intros; apply H; right; assumption]].
  intros X. apply in_map_iff in X. destruct X as (p & E & Hp). apply nth_inj in E; [subst; contradiction|apply H; right; exact Hp|apply H; left; reflexivity].
Qed.
Lemma put_updl x qs c : NoDup qs -> (forall q, In q qs -> q < n) -> length c = length qs ->
  put_regs rho x (updl (at_regs rho x) qs c) = updl x (map (fun j => nth j rho 0) qs) c.
Proof.
  intros N H L. symmetry. apply updl_unique.
  - apply map_inj_NoDup; assumption.
  - rewrite map_map. transitivity (map (updl (at_regs rho x) qs c) qs); [|apply updl_map; assumption].
    apply map_ext_in. intros q Hq. apply put_at. apply H. exact Hq.
  - intros q Hq. destruct (in_dec Nat.eq_dec q rho) as [I|I]; [|apply put_out; exact I].
    apply (In_nth _ _ 0) in I. destruct I as (j & Hj & <-). rewrite put_at by exact Hj. rewrite updl_notin; [apply at_in; exact Hj|].
    intros X. apply Hq. apply in_map_iff. exists j. auto.
Qed.
Lemma at_map x qs : (forall q, In q qs -> q < n) -> map (at_regs rho x) qs = map x (map (fun j => nth j rho 0) qs).
Proof. intros H. rewrite map_map. apply map_ext_in. intros q Hq. apply at_in. apply H. exact Hq. Qed.

Lemma oden_ren e : wf_entry n e -> oden (snd e) (map (fun j => nth j rho 0) (fst e)) = embed rho (oden (snd e) (fst e)).
Proof.
  destruct e as [qs [k [u|m]]]; intros (N & R & W); cbn [fst snd co_obj] in *; extensionality psi; extensionality x; rewrite embed_unfold;
    unfold oden; cbn [co_obj]; [|rewrite put_self; reflexivity].
  assert (A : forall mm q, q < n -> on1 mm (nth q rho 0) psi x = on1 mm q (fun y => psi (put_regs rho x y)) (at_regs rho x)).
  { intros mm q Hq. unfold on1. rewrite !put_upd, at_in by exact Hq. reflexivity. }
  destruct u; cbn [wf_unitary] in W.
  all: try match type of W with length ?l = 1 => destruct l as [|q [|? ?]]; try discriminate; cbn [map uden]; apply A, R; left; reflexivity end.
  - destruct qs as [|c [|t [|? ?]]]; try discriminate. cbn [map uden]. unfold ctl_not, cflip. cbn [forallb]. rewrite at_in by (apply R; left; reflexivity).
    destruct (x (nth c rho 0)); cbn [andb]; [|rewrite put_self; reflexivity]. unfold flip. rewrite at_in, put_upd by (apply R; right; left; reflexivity). reflexivity.
  - cbn [uden]. rewrite map_length, firstn_map, skipn_map. unfold exchange. rewrite <- map_app, firstn_skipn.
    destruct W as (Hne & k2 & Hk). rewrite <- !at_map by (intros q Hq; apply R; rewrite <- (firstn_skipn (length qs / 2) qs); apply in_or_app; auto).
    rewrite put_updl; [reflexivity|exact N|exact R|]. rewrite app_length, !map_length, firstn_length, skipn_length. lia.
  - cbn [uden]. unfold act. rewrite map_length. apply (big_ext CN). intros c Hc. apply In_bools in Hc. rewrite put_updl, at_map by assumption. reflexivity.
  - cbn [uden]. rewrite put_self. reflexivity.
Qed.
Lemma embed_comp D1 D2 : within (seq 0 n) D2 -> forall psi, embed rho D2 (embed rho D1 psi) = embed rho (fun psi => D2 (D1 psi)) psi.
Proof.
  intros W psi. extensionality x. rewrite !embed_unfold. apply W. intros y Hy. rewrite embed_unfold.
  replace (at_regs rho (put_regs rho x y)) with y; [f_equal; extensionality z; rewrite put_put; reflexivity|].
  extensionality j. rewrite at_put. destruct (Nat.ltb_spec j n); [reflexivity|]. rewrite Hy by (rewrite in_seq; lia). unfold at_regs. destruct (Nat.ltb_spec j n); [lia|reflexivity].
Qed.
Lemma den_ren p : Forall (wf_entry n) p -> forall psi, den (ren rho p) psi = embed rho (den p) psi.
Proof.
  induction p as [|e p IH]; intros W psi.
  - extensionality x. rewrite embed_unfold. cbn. rewrite put_self. reflexivity.
  - inversion W; subst. cbn [ren map]. rewrite den_cons. cbn [fst snd]. fold (ren rho p). rewrite IH, oden_ren by assumption.
    rewrite embed_comp; [|apply within_den; intros e' He' q Hq; rewrite in_seq; rewrite Forall_forall in H2; specialize (H2 e' He'); split; [lia|]; apply H2; exact Hq].
    f_equal.
Qed.
Lemma within_embed D : within rho (embed rho D).
Proof.
  intros phi phi' z E. rewrite !embed_unfold. f_equal. extensionality y. apply E. intros q Hq. apply put_out. exact Hq.
Qed.
Lemma embed_zero D : D zero = zero -> embed rho D zero = zero.
Proof. intros H. extensionality x. rewrite embed_unfold. change (D zero (at_regs rho x) = zero x). rewrite H. reflexivity. Qed.
Lemma wf_ren m e : wf_entry n e -> (forall q, In q rho -> q < m) -> wf_entry m (map (fun j => nth j rho 0) (fst e), snd e).
Proof.
  intros (N & R & W) H. split; [apply map_inj_NoDup; assumption|]. split.
  - intros q Hq. apply in_map_iff in Hq. destruct Hq as (j & <- & Hj). apply H, nth_In, R, Hj.
  - cbn [fst snd]. destruct (co_obj (snd e)) as [u|]; [|exact Logic.I]. destruct u; cbn [wf_unitary] in *; rewrite ?map_length; try exact W; destruct W as (W1 & W2); split; try assumption; destruct (fst e); try discriminate; congruence.
Qed.
End Ren.

(** Temporaries that start and end at 0 drop out. *)
Lemma embed_temps r ts e D D' psi : NoDup (r ++ ts) -> within (seq 0 (length r)) D' -> within (seq 0 (length r + length ts)) D -> D zero = zero ->
  (forall phi, clean (seq (length r) (length ts + e)) phi -> D phi = D' phi) -> (forall t, In t ts -> clean [t] psi) ->
  embed (r ++ ts) D psi = embed r D' psi.
Proof.
  intros N W WD Z H Hc. assert (Nr : NoDup r) by (apply NoDup_app_iff in N; apply N). extensionality x. rewrite !embed_unfold.
  assert (Z' : D' zero = zero) by (rewrite <- H; [exact Z|intros y t _ _; reflexivity]).
  assert (Lo : local (seq 0 (length r)) D') by (apply within_local; assumption).
  assert (Cl : clean (seq (length r) (length ts)) (fun y => psi (put_regs (r ++ ts) x y))).
  { intros y j Hj Hy. apply in_seq in Hj. specialize (Hc (nth (j - length r) ts 0)). rewrite clean1 in Hc. apply Hc; [apply nth_In; lia|].
    rewrite <- (app_nth2 r ts 0) by lia. rewrite put_at; [exact Hy|exact N|rewrite app_length; lia]. }
  set (n := length r + length ts) in *.
  set (phi := fun y : bs => if forallb (fun q => negb (y q)) (seq n e) then psi (put_regs (r ++ ts) x y) else RtoC 0).
  assert (Ag : forall y, (forall q, ~ In q (seq 0 n) -> y q = at_regs (r ++ ts) x q) -> psi (put_regs (r ++ ts) x y) = phi y).
  { intros y Hy. unfold phi. replace (forallb (fun q => negb (y q)) (seq n e)) with true; [reflexivity|]. symmetry. apply forallb_forall. intros q Hq. apply in_seq in Hq.
    rewrite Hy by (rewrite in_seq; lia). unfold at_regs. rewrite app_length. fold n. destruct (Nat.ltb_spec q n); [lia|reflexivity]. }
  assert (Hphi : D phi = D' phi).
  { apply H. intros y j Hj Hy. apply in_seq in Hj. unfold phi. destruct (forallb (fun q => negb (y q)) (seq n e)) eqn:E; [|reflexivity]. rewrite forallb_forall in E.
    destruct (Nat.ltb_spec j n) as [X|X]; [apply (Cl y j); [apply in_seq; unfold n in X; lia|exact Hy]|]. specialize (E j). rewrite in_seq, Hy in E. discriminate E. unfold n in *. lia. }
  transitivity (D' (fun y => psi (put_regs (r ++ ts) x y)) (at_regs (r ++ ts) x)).
  { etransitivity; [apply WD; exact Ag|]. rewrite Hphi. symmetry. apply W. intros y Hy. apply Ag. intros q Hq. apply Hy. rewrite in_seq in *. unfold n in Hq. lia. }
  destruct (forallb (fun t => negb (x t)) ts) eqn:E.
  - rewrite forallb_forall in E.
    replace (at_regs (r ++ ts) x) with (at_regs r x).
    + apply W. intros y Hy. f_equal. apply put_spec; [exact N| |].
      * intros j Hj. rewrite app_length in Hj. destruct (Nat.ltb_spec j (length r)) as [L|L].
        -- rewrite app_nth1, put_at by assumption. reflexivity.
        -- rewrite app_nth2 by lia. rewrite Hy by (rewrite in_seq; lia). unfold at_regs. destruct (Nat.ltb_spec j (length r)); [lia|].
           assert (I : In (nth (j - length r) ts 0) ts) by (apply nth_In; lia). specialize (E _ I). rewrite put_out; [destruct (x _); [discriminate|reflexivity]|].
           intros X. apply NoDup_app_iff in N. apply (proj2 (proj2 N) _ X I).
      * intros q Hq. apply put_out. intros X. apply Hq, in_or_app. left. exact X.
    + extensionality j. unfold at_regs. rewrite app_length. destruct (Nat.ltb_spec j (length r)), (Nat.ltb_spec j (length r + length ts)); try lia.
      * rewrite app_nth1 by assumption. reflexivity.
      * rewrite app_nth2 by lia. assert (I : In (nth (j - length r) ts 0) ts) by (apply nth_In; lia). specialize (E _ I). destruct (x _); [discriminate|reflexivity].
  - assert (X : exists t, In t ts /\ x t = true).
    { clear - E. induction ts as [|t ts IH]; [discriminate|]. cbn in E. destruct (x t) eqn:Ex; [exists t; split; [left; reflexivity|exact Ex]|].
      destruct IH as (t' & I & E'); [exact E|]. exists t'. split; [right; exact I|exact E']. }
    destruct X as (t & I & Et).
    transitivity (RtoC 0).
    + apply (In_nth _ _ 0) in I. destruct I as (j & Hj & <-).
      pose proof (Lo (length r + j) (fun y => psi (put_regs (r ++ ts) x y))) as Y. rewrite !clean1 in Y. apply Y; [rewrite in_seq; lia| |].
      * intros y Hy. apply (Cl y (length r + j)); [apply in_seq; lia|exact Hy].
      * unfold at_regs. rewrite app_length. destruct (Nat.ltb_spec (length r + j) (length r + length ts)); [|lia]. rewrite app_nth2_plus. exact Et.
    + replace (fun y => psi (put_regs r x y)) with zero; [rewrite Z'; reflexivity|]. extensionality y. specialize (Hc t I). rewrite clean1 in Hc. symmetry. apply Hc.
      rewrite put_out; [exact Et|]. intros X. apply NoDup_app_iff in N. apply (proj2 (proj2 N) _ X I).
Qed.
