(** Applying subcircuits, with and without conditions. *)
From Coq Require Import Reals Lra FunctionalExtensionality Permutation.
From Coquelicot Require Import Complex.
From Verif Require Import Base BitsSpec BitsProofs OpsModel OpsSpec Instances BuilderModel RegProofs ConserveProofs DenSpec DenProofs SimSpec SimProofs LocalProofs
  RunSpec RunProofs GateProofs ToffoliProofs SwapProofs CondProofs SubSpec InvertProofs SubProofs.
Local Open Scope nat_scope.
Local Open Scope mon_scope.

(** *** Registers of temporaries *)
Lemma quiet_make_list n : forall s L, tidy s -> live s L -> exists ts, length ts = n /\ (forall t, In t ts -> idle s t /\ ~ In t L) /\
  quiet s L (mmap (fun _ => make_zeroed_temp_qubit) (seq 0 n)) (singles ts) (ts ++ L).
Proof.
  assert (G : forall n a s L, tidy s -> live s L -> exists ts, length ts = n /\ (forall t, In t ts -> idle s t /\ ~ In t L) /\
    quiet s L (mmap (fun _ => make_zeroed_temp_qubit) (seq a n)) (singles ts) (ts ++ L)).
  2:{ intros s L. apply G. }
  clear n. induction n as [|n IH]; intros a s L T Lv; cbn [seq mmap].
  - exists []. split; [reflexivity|]. split; [intros t []|]. apply quiet_ret; assumption.
  - destruct (quiet_make s L T Lv) as (t & It & Nt & Q). pose proof Q as (s1 & H1 & H2 & H3 & H4 & H5 & H6 & H7 & H8).
    destruct (IH (S a) s1 (t :: L) H6 H7) as (ts & Hl & Hts & Q2).
    exists (t :: ts). split; [cbn; lia|]. split.
    + intros t' [<-|Ht']; [auto|]. destruct (Hts t' Ht') as (I1 & N1). cbn [In] in N1. pose proof (proj1 (H8 t') (or_introl I1)). tauto.
    + destruct Q2 as (s2 & G1 & G2 & G3 & G4 & G5 & G6 & G7 & G8).
      assert (Pm : Permutation (ts ++ t :: L) ((t :: ts) ++ L)) by (symmetry; apply Permutation_middle).
      exists s2. split; [unfold mbind; rewrite H1, G1; reflexivity|]. split; [congruence|]. split; [congruence|]. split; [lia|]. split; [congruence|]. split; [exact G6|].
      split; [eapply live_perm; [exact G7|exact Pm]|]. intros q. rewrite <- H8, <- G8. rewrite !in_app_iff. cbn [In]. tauto.
Qed.
Lemma quiet_make_reg s L n : tidy s -> live s L -> 0 < n -> exists ts, length ts = n /\ (forall t, In t ts -> idle s t /\ ~ In t L) /\
  quiet s L (make_zeroed_temp_register n) ts (ts ++ L).
Proof.
  intros T Lv Hn. destruct (quiet_make_list n s L T Lv) as (ts & Hl & Hts & Q). exists ts. split; [exact Hl|]. split; [exact Hts|].
  unfold make_zeroed_temp_register. eapply quiet_bind; [exact Q|]. intros s1 C1 T1 L1. eapply quiet_bind; [apply quiet_lift; [apply merge_singles|exact T1|exact L1]|].
  intros s2 C2 T2 L2. apply quiet_lift; [apply unwrap_new_reg; destruct ts; [cbn in Hl; lia|discriminate]|exact T2|exact L2].
Qed.
Lemma does_with_temps {A} s L n (k : reg -> M A) a L' D' : tidy s -> live s L -> 0 < n -> local L D' ->
  (forall ts s1, length ts = n -> conds s1 = conds s -> tidy s1 -> live s1 (ts ++ L) ->
    exists D, does s1 (ts ++ L) (k ts) a L' D /\ forall psi, (forall t, In t ts -> clean [t] psi) -> D psi = D' psi) ->
  does s L (mbind (make_zeroed_temp_register n) k) a L' D'.
Proof.
  intros T Lv Hn Lo H. destruct (quiet_make_reg s L n T Lv Hn) as (ts & Hl & It & s1 & H1 & H2 & H3 & H4 & H5 & H6 & H7 & H8).
  destruct (H ts s1 Hl H2 H6 H7) as (D & (s2 & p & G1 & G2 & G3 & G4 & G5 & G6 & G7 & G8 & G9 & G10 & G11 & G12) & E).
  exists s2, p. unfold mbind. rewrite H1. split; [exact G1|]. split; [congruence|]. split; [congruence|]. split; [lia|]. split; [congruence|].
  do 4 (split; [assumption|]). split; [intros q; rewrite G10; apply H8|]. split; [exact Lo|].
  intros psi Hp. rewrite G12.
  - apply E. intros t Ht. apply Hp; [apply It; exact Ht|]. assert (~ idle s1 t) by (apply H7, in_or_app; left; exact Ht). unfold idle in *. lia.
  - intros q Hq Hlt. apply Hp; [|exact Hlt]. assert (X : ~ In q (ts ++ L)) by (intros X; apply (proj2 H7 q X Hq)).
    pose proof (proj1 (H8 q) (or_introl Hq)) as Y. rewrite in_app_iff in X. tauto.
Qed.

(** *** One entry *)
Lemma put_back_ok rho : forall is, NoDup is -> (forall i, In i is -> i < length rho) ->
  foldM put_back (combine is (map (fun i => [nth i rho 0]) is)) (blanked rho is) = Ok (blanked rho []).
Proof.
  induction is as [|i is IH]; intros N H; [reflexivity|]. inversion N; subst. cbn [map combine foldM]. unfold put_back at 1.
  assert (Hi : i < length rho) by (apply H; left; reflexivity).
  rewrite (@idx_ok _ (blanked rho (i :: is)) i None) by (rewrite length_blanked; exact Hi). cbn [bind].
  assert (E0 : upd_nth i (Some [nth i rho 0]) (blanked rho (i :: is)) = blanked rho is).
  2:{ etransitivity; [|apply IH; [assumption|intros; apply H; right; assumption]]. f_equal. exact E0. }
  - apply nth_error_ext_eq. intros j. rewrite nth_error_upd_nth, length_blanked. destruct (Nat.ltb_spec i (length rho)); [|lia].
    destruct (Nat.ltb_spec j (length rho)) as [Hj|Hj].
    + rewrite !nth_error_blanked by exact Hj. cbn [existsb]. destruct (Nat.eqb_spec j i) as [->|E]; cbn [andb orb]; [|reflexivity].
      rewrite (proj2 (existsb_eqb_false _ _)) by assumption. reflexivity.
    + destruct (Nat.eqb_spec j i) as [X|X]; [lia|]. cbn [andb].
      transitivity (@None (option reg)); [|symmetry]; apply nth_error_None; rewrite length_blanked; lia.
Qed.
Lemma part_of (qs rho : list nat) : NoDup qs -> NoDup rho -> incl qs rho -> exists rest, Permutation (qs ++ rest) rho.
Proof.
  intros N1 N2 I. exists (filter (fun q => negb (existsb (Nat.eqb q) qs)) rho). apply NoDup_Permutation.
  - apply NoDup_app_iff. split; [exact N1|]. split; [apply NoDup_filter; exact N2|]. intros q Hq X. apply filter_In in X. destruct X as (_ & X).
    rewrite negb_true_iff, existsb_eqb_false in X. contradiction.
  - exact N2.
  - intros q. rewrite in_app_iff, filter_In, negb_true_iff, existsb_eqb_false. split; [intros [X|X]; [apply I; exact X|tauto]|]. intros X.
    destruct (in_dec Nat.eq_dec q qs); tauto.
Qed.
Lemma within_dens rho sc : Forall (wf_entry (length rho)) sc -> within rho (den (ren rho sc)).
Proof.
  intros W. apply within_den. intros e He. unfold ren in He. apply in_map_iff in He. destruct He as (e' & <- & He'). cbn [fst]. intros q Hq.
  apply in_map_iff in Hq. destruct Hq as (j & <- & Hj). apply nth_In. rewrite Forall_forall in W. apply (W e' He'). exact Hj.
Qed.
(** The pipeline with other objects on the same qubits. *)
Definition altp (alt : cobj -> cobj) (sc : pipe) : pipe := map (fun e => (fst e, alt (snd e))) sc.
Section Apply.
Context (ac : reg -> cobj -> M reg) (K : list nat) (cond : list (option reg)) (alt : cobj -> cobj).
(** What [ac] does to an object under the conditions [K]: carry out the meaning of the object [alt] of it. *)
Definition obj_alt (e : list nat * cobj) : Prop := forall s, conds s = cond -> tidy s -> live s (K ++ fst e) ->
  does s (K ++ fst e) (ac (fst e) (snd e)) (fst e) (K ++ fst e) (controlled K (oden (alt (snd e)) (fst e))).
Notation rn rho := (fun e : list nat * cobj => (map (fun j => nth j rho 0) (fst e), snd e)).

Lemma entry_alt rho e s : conds s = cond -> tidy s -> live s (K ++ rho) -> wf_entry (length rho) (fst e, alt (snd e)) -> fst e <> [] -> obj_alt (rn rho e) ->
  does s (K ++ rho) (apply_entry ac (map Some (singles rho)) e) (map Some (singles rho)) (K ++ rho) (controlled K (oden (alt (snd e)) (map (fun j => nth j rho 0) (fst e)))).
Proof.
  intros HC T Lv (N & R & W) Hne Ho. destruct e as [is co]. cbn [fst snd] in *.
  assert (Nr : NoDup rho) by (destruct Lv as (X & _); apply NoDup_app_iff in X; apply X).
  set (qs := map (fun j => nth j rho 0) is). assert (Nq : NoDup qs) by (apply map_inj_NoDup; assumption).
  assert (Iq : incl qs rho) by (intros q Hq; unfold qs in Hq; apply in_map_iff in Hq; destruct Hq as (j & <- & Hj); apply nth_In, R, Hj).
  assert (Hq : qs <> []) by (unfold qs; destruct is; [congruence|discriminate]).
  assert (Es : map (fun i => [nth i rho 0]) is = singles qs) by (unfold qs, singles; rewrite map_map; reflexivity).
  unfold apply_entry. rewrite <- blanked_nil.
  eapply quiet_then_does; [apply quiet_lift; [apply (take_all_ok rho is []); [exact N|exact R]|exact T|exact Lv]|apply incl_refl|apply incl_refl|].
  intros s1 C1 T1 L1. cbn beta iota. cbn [app]. rewrite Es.
  eapply quiet_then_does; [apply quiet_lift; [apply merge_singles|exact T1|exact L1]|apply incl_refl|apply incl_refl|]. intros s2 C2 T2 L2.
  eapply quiet_then_does; [apply quiet_lift; [apply unwrap_new_reg; exact Hq|exact T2|exact L2]|apply incl_refl|apply incl_refl|]. intros s3 C3 T3 L3.
  destruct (part_of qs rho Nq Nr Iq) as (rest & Pm).
  assert (Pm' : Permutation ((K ++ qs) ++ rest) (K ++ rho)) by (rewrite <- app_assoc; apply Permutation_app_head; exact Pm).
  eapply does_then_quiet.
  - eapply does_perm; [exact Pm'|exact Pm'|]. apply does_frame; [eapply live_perm; [exact L3|symmetry; exact Pm']|].
    apply Ho; [congruence|exact T3|]. cbn [fst]. eapply live_incl; [exact L3| |].
    + pose proof (Permutation_NoDup (Permutation_sym Pm') (proj1 L3)) as X. apply NoDup_app_iff in X. apply X.
    + intros q Hx. eapply Permutation_in; [exact Pm'|]. apply in_or_app. left. exact Hx.
  - intros s4 C4 T4 L4. eapply quiet_bind; [apply quiet_lift; [apply split_all_ok; assumption|exact T4|exact L4]|]. intros s5 C5 T5 L5.
    eapply quiet_bind; [apply quiet_lift; [etransitivity; [|apply (put_back_ok rho is); assumption]; rewrite Es; reflexivity|exact T5|exact L5]|]. intros s6 C6 T6 L6. rewrite blanked_nil.
    replace (forallb _ (map Some (singles rho))) with true; [eapply quiet_bind; [apply quiet_ret; assumption|]; intros s7 C7 T7 L7; apply quiet_ret; assumption|].
    symmetry. apply forallb_forall. intros o Ho'. apply in_map_iff in Ho'. destruct Ho' as (r & <- & _). reflexivity.
Qed.
Lemma entries_alt rho sc : forall s, conds s = cond -> tidy s -> live s (K ++ rho) -> Forall (wf_entry (length rho)) (altp alt sc) -> Forall (fun e => fst e <> []) sc -> Forall obj_alt (ren rho sc) ->
  does s (K ++ rho) (mfold (apply_entry ac) sc (map Some (singles rho))) (map Some (singles rho)) (K ++ rho) (controlled K (den (ren rho (altp alt sc)))).
Proof.
  induction sc as [|e sc IH]; intros s HC T Lv W Hne Ho; cbn [mfold].
  - eapply does_eq; [apply does_ret; assumption|]. intros psi. extensionality x. unfold controlled. cbn. destruct (forallb x K); reflexivity.
  - cbn [altp map] in W. inversion_clear W as [|? ? W1 W2]. inversion_clear Hne as [|? ? N1 N2]. cbn [ren map] in Ho. inversion_clear Ho as [|? ? O1 O2]. eapply does_eq.
    + eapply does_bind; [apply entry_alt; assumption|apply incl_refl|apply incl_refl|]. intros s1 C1 T1 L1. apply IH; try assumption; congruence.
    + intros psi. cbn beta. rewrite (controlled_comp K rho); [reflexivity|apply (within_dens rho (altp alt sc)); exact W2|].
      intros q Hq X. destruct Lv as (N & _). apply NoDup_app_iff in N. apply (proj2 (proj2 N) q Hq X).
Qed.

Lemma list_max_spec l : l <> [] -> exists m, list_max l = Some m /\ In m l /\ forall x, In x l -> x <= m.
Proof.
  destruct l as [|a l]; [congruence|]. intros _. cbn [list_max].
  assert (G : forall l a, exists m, fold_left Nat.max l a = m /\ (m = a \/ In m l) /\ a <= m /\ forall x, In x l -> x <= m).
  { clear. induction l as [|b l IH]; intros a; [exists a; cbn; split; [reflexivity|split; [left; reflexivity|split; [lia|intros x []]]]|]. cbn [fold_left]. destruct (IH (Nat.max a b)) as (m & E & I & G1 & G2). exists m. split; [exact E|].
    split; [destruct I as [->|I]; [destruct (Nat.max_spec a b) as [(_ & ->)|(_ & ->)]; cbn; auto|cbn; auto]|]. split; [lia|]. intros x [<-|Hx]; [lia|apply G2; exact Hx]. }
  destruct (G l a) as (m & -> & I & G1 & G2). exists m. split; [reflexivity|]. split; [destruct I as [->|I]; cbn; auto|]. intros x [<-|Hx]; auto.
Qed.
Lemma top_index n sc : Forall (wf_entry n) sc -> (exists e, In e sc /\ In (n - 1) (fst e)) ->
  list_max (concat (map (fun e : list nat * cobj => match list_max (fst e) with Some m => [m] | None => [] end) sc)) = Some (n - 1).
Proof.
  intros W (e & He & Hl). set (l := concat _).
  assert (Up : forall m, In m l -> m <= n - 1).
  { intros m Hm. unfold l in Hm. apply in_concat in Hm. destruct Hm as (x & Hx & Hm). apply in_map_iff in Hx. destruct Hx as (e' & <- & He').
    destruct (fst e') as [|a r] eqn:E; [destruct Hm|]. destruct (list_max_spec (a :: r)) as (m' & E' & I' & _); [discriminate|]. rewrite E' in Hm. destruct Hm as [<-|[]].
    rewrite Forall_forall in W. pose proof (proj1 (proj2 (W e' He')) m') as X. rewrite E in X. specialize (X I'). lia. }
  assert (Lo : In (n - 1) l).
  { destruct (list_max_spec (fst e)) as (m' & E' & I' & G'); [intros X; rewrite X in Hl; destruct Hl|].
    assert (m' = n - 1) as <-.
    { specialize (G' _ Hl). rewrite Forall_forall in W. pose proof (proj1 (proj2 (W e He)) m' I'). lia. }
    unfold l. apply in_concat. exists [m']. split; [|left; reflexivity]. apply in_map_iff. exists e. rewrite E'. auto. }
  destruct (list_max_spec l) as (m & E & I & G); [intros X; rewrite X in Lo; destruct Lo|]. rewrite E. f_equal. specialize (Up m I). specialize (G _ Lo). lia.
Qed.
Lemma wf_nonempty n sc : Forall (wf_entry n) sc -> Forall proper_entry sc -> Forall (fun e => fst e <> []) sc.
Proof.
  rewrite !Forall_forall. intros W Pr e He X. destruct (W e He) as (_ & _ & Wu). destruct (Pr e He) as (Pl & _). unfold plain_entry in Pl.
  destruct (co_obj (snd e)) as [u|]; [|exact Pl]. rewrite X in Wu. destruct u; cbn in Wu; try discriminate; try tauto; destruct Wu; congruence.
Qed.
Lemma pipe_alt n r sc D s : realizes n (length r) (altp alt sc) D -> (forall rho, length rho = n -> NoDup rho -> Forall obj_alt (ren rho sc)) ->
  conds s = cond -> tidy s -> live s (K ++ r) -> r <> [] ->
  does s (K ++ r) (apply_pipeline_objects ac sc r) r (K ++ r) (controlled K (embed r D)).
Proof.
  intros (Hk & W & Pr & Top & Wi & B & HB & HD) Ho HC T Lv Hr. pose proof (wf_nonempty n _ W Pr) as Hne0. set (sc' := altp alt sc) in *.
  assert (Hne : Forall (fun e => fst e <> []) sc) by (unfold sc', altp in Hne0; rewrite Forall_map in Hne0; exact Hne0).
  assert (NKr : NoDup (K ++ r)) by apply Lv. assert (Nr : NoDup r) by (apply NoDup_app_iff in NKr; apply NKr).
  assert (Hn : 0 < n) by (destruct r; [congruence|cbn in Hk; lia]).
  assert (TopE : list_max (concat (map (fun e : list nat * cobj => match list_max (fst e) with Some m => [m] | None => [] end) sc)) = Some (n - 1)).
  { rewrite <- (top_index n sc' W Top). unfold sc', altp. rewrite map_map. reflexivity. }
  assert (Wsc : within (seq 0 n) (den sc')).
  { apply within_den. intros e He q Hq. rewrite in_seq. rewrite Forall_forall in W. split; [lia|]. apply (W e He). exact Hq. }
  assert (Z' : D zero = zero) by (rewrite <- HD; [apply den_zero|intros y t _ _; reflexivity]).
  unfold apply_pipeline_objects. cbv zeta.
  eapply quiet_then_does; [apply quiet_lift; [apply split_all_ok; assumption|exact T|exact Lv]|apply incl_refl|apply incl_refl|]. intros s1 C1 T1 L1.
  eapply quiet_then_does; [apply quiet_lift; [rewrite TopE; reflexivity|exact T1|exact L1]|apply incl_refl|apply incl_refl|]. intros s2 C2 T2 L2.
  eapply quiet_then_does; [apply quiet_lift; [apply chk_sub_ok; lia|exact T2|exact L2]|apply incl_refl|apply incl_refl|]. intros s3 C3 T3 L3.
  replace (1 + (n - 1) - length r) with (n - length r) by lia.
  (* the rest, for any list of temporaries *)
  set (rest := fun rs : list reg => rs <- mfold (apply_entry ac) sc (map Some rs) ;; rs <- lift (mapM unwrap_opt rs) ;; '(rs, trs) <- split_vector_at rs (length r) ;;
     m <- lift (merge_registers trs) ;; _ <- match m with Some tr => return_zeroed_temp_register tr | None => ret tt end ;; m <- lift (merge_registers rs) ;; lift (unwrap_opt m)).
  assert (Rest : forall ts s, length r + length ts = n -> conds s = cond -> tidy s -> live s (K ++ r ++ ts) ->
    does s (K ++ r ++ ts) (rest (singles (r ++ ts))) r (K ++ r) (controlled K (den (ren (r ++ ts) sc')))).
  { intros ts s4 Hl C4 T4 L4. assert (N4 : NoDup (r ++ ts)) by (destruct L4 as (X & _); apply NoDup_app_iff in X; apply X).
    unfold rest. eapply does_then_quiet.
    - apply entries_alt; [exact C4|exact T4|exact L4|rewrite app_length, Hl; exact W|exact Hne|apply Ho; [rewrite app_length; exact Hl|exact N4]].
    - intros s5 C5 T5 L5.
      assert (Mu : mapM unwrap_opt (map Some (singles (r ++ ts))) = Ok (singles (r ++ ts))).
      { clear. induction (singles (r ++ ts)) as [|a l IH]; [reflexivity|]. cbn. cbn in IH. rewrite IH. reflexivity. }
      eapply quiet_bind; [apply quiet_lift; [exact Mu|exact T5|exact L5]|]. intros s6 C6 T6 L6.
      unfold split_vector_at. rewrite length_singles, app_length. destruct (Nat.leb_spec (length r) (length r + length ts)); [|lia].
      assert (Ef : firstn (length r) (singles (r ++ ts)) = singles r /\ skipn (length r) (singles (r ++ ts)) = singles ts).
      { unfold singles. rewrite map_app. rewrite <- (map_length (fun q => [q]) r). rewrite firstn_app, skipn_app, firstn_all, skipn_all, Nat.sub_diag. cbn. rewrite app_nil_r. auto. }
      destruct Ef as (-> & ->).
      eapply quiet_bind with (a := (singles r, singles ts)) (L1 := K ++ r ++ ts); [eapply quiet_bind; [apply quiet_ret; assumption|]; intros; apply quiet_ret; assumption|].
      intros s7 C7 T7 L7. cbn beta iota.
      eapply quiet_bind; [apply quiet_lift; [apply merge_singles|exact T7|exact L7]|]. intros s8 C8 T8 L8.
      eapply quiet_bind with (a := tt) (L1 := K ++ r).
      + destruct ts as [|t ts]; cbn [new_reg]; [rewrite app_nil_r in L8 |- *; apply quiet_ret; assumption|].
        assert (Pm : Permutation ((t :: ts) ++ K ++ r) (K ++ r ++ t :: ts)) by (rewrite (app_assoc K r); apply Permutation_app_comm).
        destruct (quiet_return s8 (t :: ts) (K ++ r) T8) as (s9 & G1 & G2 & G3 & G4 & G5 & G6 & G7 & G8); [eapply live_perm; [exact L8|symmetry; exact Pm]|discriminate|].
        exists s9. do 7 (split; [assumption|]). intros q. rewrite G8. rewrite !in_app_iff. tauto.
      + intros s9 C9 T9 L9. eapply quiet_bind; [apply quiet_lift; [apply merge_singles|exact T9|exact L9]|]. intros s10 C10 T10 L10.
        apply quiet_lift; [apply unwrap_new_reg; exact Hr|exact T10|exact L10]. }
  destruct (Nat.eqb_spec (n - length r) 0) as [E|E].
  - eapply quiet_then_does; [apply quiet_ret; [exact T3|exact L3]|apply incl_refl|apply incl_refl|]. intros s4 C4 T4 L4.
    pose proof (Rest [] s4) as X. rewrite !app_nil_r in X. eapply does_eq; [apply X; [cbn; lia|congruence|exact T4|exact L4]|].
    intros psi. extensionality x. unfold controlled. destruct (forallb x K); [|reflexivity]. rewrite den_ren; [|exact Nr|replace (length r) with n by lia; exact W].
    pose proof (embed_temps r [] (B - n) (den sc') D psi) as Y. cbn [length] in Y. rewrite app_nil_r, Nat.add_0_r in Y. rewrite Y; [reflexivity|exact Nr|exact Wi|replace (length r) with n by lia; exact Wsc|apply den_zero| |intros t []].
    replace (0 + (B - n)) with (B - length r) by lia. exact HD.
  - assert (Lo : local (K ++ r) (controlled K (embed r D))) by (apply local_controlled; [apply within_embed|apply embed_zero; exact Z']).
    assert (Assoc : forall A B (m : M A) (f : A -> M B) (g : B -> M reg), mbind (mbind m f) g = mbind m (fun a => mbind (f a) g)).
    { intros. extensionality s0. unfold mbind. destruct (m s0); reflexivity. }
    rewrite Assoc. apply does_with_temps; [exact T3|exact L3|lia|exact Lo|]. intros ts s4 Hl C4 T4 L4.
    assert (Pm : Permutation (ts ++ K ++ r) (K ++ r ++ ts)) by (rewrite (app_assoc K r); apply Permutation_app_comm).
    assert (L4' : live s4 (K ++ r ++ ts)) by (eapply live_perm; [exact L4|exact Pm]).
    assert (N4 : NoDup (r ++ ts)) by (destruct L4' as (X & _); apply NoDup_app_iff in X; apply X).
    exists (controlled K (den (ren (r ++ ts) sc'))). split.
    + eapply does_perm; [symmetry; exact Pm|reflexivity|]. rewrite Assoc.
      eapply quiet_then_does; [apply quiet_lift; [apply split_all_ok; [apply NoDup_app_iff in N4; apply N4|destruct ts; [cbn in Hl; lia|discriminate]]|exact T4|exact L4']|apply incl_refl|apply incl_refl|].
      intros s5 C5 T5 L5. cbn beta. replace (singles r ++ singles ts) with (singles (r ++ ts)) by (unfold singles; apply map_app).
      eapply quiet_then_does; [apply quiet_ret; [exact T5|exact L5]|apply incl_refl|apply incl_refl|]. intros s6 C6 T6 L6.
      apply Rest; [lia|congruence|exact T6|exact L6].
    + intros psi Hc. extensionality x. unfold controlled. destruct (forallb x K); [|reflexivity].
      rewrite den_ren; [|exact N4|rewrite app_length; replace (length r + length ts) with n by lia; exact W].
      rewrite (embed_temps r ts (B - n) (den sc') D psi N4 Wi); [reflexivity|replace (length r + length ts) with n by lia; exact Wsc|apply den_zero| |exact Hc].
      replace (length ts + (B - n)) with (B - length r) by lia. exact HD.
Qed.
End Apply.
Lemma altp_id sc : altp (fun c => c) sc = sc.
Proof. unfold altp. induction sc as [|[q c] sc IH]; [reflexivity|]. cbn. f_equal. exact IH. Qed.
Definition obj_ok (ac : reg -> cobj -> M reg) (K : list nat) (cond : list (option reg)) (e : list nat * cobj) : Prop := obj_alt ac K cond (fun c => c) e.
Lemma pipe_does ac K cond n r sc D s : realizes n (length r) sc D -> (forall rho, length rho = n -> NoDup rho -> Forall (obj_ok ac K cond) (ren rho sc)) ->
  conds s = cond -> tidy s -> live s (K ++ r) -> r <> [] ->
  does s (K ++ r) (apply_pipeline_objects ac sc r) r (K ++ r) (controlled K (embed r D)).
Proof. intros R. apply (pipe_alt ac K cond (fun c => c)). rewrite altp_id. exact R. Qed.
