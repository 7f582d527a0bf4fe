(** Costs of shifts and copies at any depth. *)
From Coq Require Import Permutation Reals FunctionalExtensionality.
From Verif Require Import Base BitsSpec OpsModel BuilderModel RegProofs DenSpec SimSpec RunSpec LocalProofs RunProofs GateProofs ToffoliProofs CondProofs
  SubSpec InvertProofs SubProofs SubProofs2 SubProofs3 SubProofs4 SubProofs5 SubProofs6 ProgramModel ProgramSpec ProgramProofs ProgramProofs2 CircProofs CircProofs2
  ArithModel ArithSpec ArithProofs ArithProofs2 ArithProofs3 ArithProofs4 ArithProofs5 ArithProofs6 ArithProofs7 ArithProofs8 ArithProofs9
  QfftCircSpec QfftCircProofs CostSpec CostProofs CostProofs2 CostProofs3 CostProofs4 ProgCostSpec ProgCostProofs ArithCostSpec ArithCostProofs.
Local Open Scope nat_scope.
Local Open Scope mon_scope.

Lemma cnot_paid d s a b L : at_depth d s -> tidy s -> live s L -> NoDup (cqs d (conds s) ++ [a; b]) -> incl (cqs d (conds s) ++ [a; b]) L ->
  paid s (cnot (aco d) [a] [b]) ([a], [b]) L (length (cqs d (conds s)) - 1) (nots (length (cqs d (conds s)))).
Proof.
  intros Ad T Lv N I. destruct (part_of _ _ N (proj1 Lv) I) as (rest & P).
  assert (L1 : live s (cqs d (conds s) ++ [a; b])) by (eapply live_incl; eassumption).
  assert (Hab : a <> b).
  { intros E. apply NoDup_app_iff in N. destruct N as (_ & X & _). inversion X as [|? ? Y _]; subst. apply Y. left. reflexivity. }
  eapply costs_paid.
  - destruct Ad as (El & W). destruct d as [|d].
    + exists (appended s [cn a b]). split; [apply records_cnot; exact Hab|]. split; [reflexivity|]. eapply uses_eq; [apply uses_appended|reflexivity|reflexivity].
    + eapply costs_eq; [apply cnot_costs; try assumption; [lia|discriminate]|reflexivity|]. unfold nots. rewrite Nat.add_1_r. cbn [length]. apply Nat.mul_1_l.
  - eapply does_perm; [exact P|exact P|]. apply does_frame; [eapply live_perm; [exact Lv|symmetry; exact P]|]. apply cnot_seg; assumption.
Qed.
Lemma paid_unwrap {A} s (m : M A) a L k g : paid s m a L k g -> paid s (unwrapM m) a L k g.
Proof. intros (s' & E & R). exists s'. unfold unwrapM. rewrite E. split; [reflexivity|exact R]. Qed.
Lemma paid_then {A B} s (m : M A) a L k g (f : A -> M B) b L' : paid s m a L k g ->
  (forall s1, conds s1 = conds s -> tidy s1 -> live s1 L -> paid s1 (f a) b L' 0 0) -> paid s (mbind m f) b L' k g.
Proof. intros H G. eapply paid_eq; [eapply (paid_bind _ _ _ L); eassumption|apply Nat.max_0_r|apply Nat.add_0_r]. Qed.
Lemma swap_paid d s a b L : at_depth d s -> tidy s -> live s L -> NoDup (cqs d (conds s) ++ [a; b]) -> incl (cqs d (conds s) ++ [a; b]) L ->
  paid s (swap (aco d) [a] [b]) ([a], [b]) L (length (cqs d (conds s)) - 1) (3 * nots (length (cqs d (conds s)))).
Proof.
  intros Ad T Lv N I. set (K := cqs d (conds s)) in *.
  assert (N' : NoDup (K ++ [b; a])) by (eapply Permutation_NoDup; [|exact N]; apply Permutation_app_head; constructor).
  assert (I' : incl (K ++ [b; a]) L) by (intros q Hq; apply I; rewrite in_app_iff in *; cbn [In] in *; tauto).
  unfold swap. cbn [length Nat.eqb].
  eapply paid_lift_bind; [apply split_all_ok; [repeat constructor; cbn; tauto|discriminate]|].
  eapply paid_lift_bind; [apply split_all_ok; [repeat constructor; cbn; tauto|discriminate]|]. cbn [singles map combine].
  assert (P : paid s (swap_pair (aco d) ([a], [b])) ([a], [b]) L (length K - 1) (3 * nots (length K))).
  { unfold swap_pair. cbn [length Nat.eqb]. unfold massert.
    change (paid s (unwrapM ('(ra, rb) <- cnot (aco d) [a] [b];; '(rb, ra) <- cnot (aco d) rb ra;; cnot (aco d) ra rb)) ([a], [b]) L (length K - 1) (3 * nots (length K))).
    apply paid_unwrap. eapply paid_eq.
    - eapply (paid_bind _ _ _ L _ _ _ _ L (length K - 1) (nots (length K) + nots (length K))); [apply cnot_paid; assumption|]. cbn beta iota. intros s1 C1 T1 L1.
      eapply paid_eq.
      + assert (EK : cqs d (conds s1) = K) by (rewrite C1; reflexivity).
        eapply (paid_bind _ _ ([b], [a]) L (length K - 1) (nots (length K)) _ _ L (length K - 1) (nots (length K))).
        * rewrite <- EK. apply cnot_paid; try assumption; [eapply at_depth_conds; eassumption| |]; rewrite EK; assumption.
        * cbn beta iota. intros s2 C2 T2 L2. assert (EK2 : cqs d (conds s2) = K) by (rewrite C2; exact EK). rewrite <- EK2. apply cnot_paid; try assumption; [eapply at_depth_conds; [|exact Ad]; congruence| |]; rewrite EK2; assumption.
      + lia.
      + reflexivity.
    - fold K. lia.
    - fold K. lia. }
  eapply (paid_then _ _ [([a], [b])] L).
  - cbn [mmap]. eapply (paid_then _ _ ([a], [b]) L); [exact P|]. intros s1 C1 T1 L1. apply (paid_then _ _ [] L); [apply paid_ret; assumption|]. intros s2 C2 T2 L2. apply paid_ret; assumption.
  - intros s1 C1 T1 L1. cbn [List.split]. eapply paid_lift_bind; [apply (merge_singles [a])|]. eapply paid_lift_bind; [reflexivity|].
    eapply paid_lift_bind; [apply (merge_singles [b])|]. eapply paid_lift_bind; [reflexivity|]. apply paid_ret; assumption.
Qed.

(** *** rshift *)
Section Shift.
Context (d : nat) (r : list nat) (N : NoDup r).
Notation v := (map Some (singles r)).
Lemma shift_paid s L i : i < length r - 1 -> at_depth d s -> tidy s -> live s L -> NoDup (cqs d (conds s) ++ r) -> incl (cqs d (conds s) ++ r) L ->
  paid s (rshift_step d (length r) v i) v L (length (cqs d (conds s)) - 1) (3 * nots (length (cqs d (conds s)))).
Proof.
  intros Hi Ad T Lv NK IK. pose proof (shift_pair r i Hi) as (Ho & Hn). unfold rshift_step. set (o := if i =? 0 then length r - 1 else i - 1) in *.
  assert (Hii : i < length r) by lia. set (a := nth i r 0). set (b := nth o r 0).
  assert (Hab : a <> b) by (intros X; apply Hn; symmetry; apply (proj1 (NoDup_nth r 0) N i o Hii Ho X)).
  assert (I : incl [a; b] r) by (intros q [<-|[<-|[]]]; apply nth_In; assumption).
  assert (E1 : take_at v i = Ok ([a], upd_nth i None v)) by (apply take_at_ok, nth_singles; exact Hii).
  assert (E2 : take_at (upd_nth i None v) o = Ok ([b], upd_nth o None (upd_nth i None v))).
  { apply take_at_ok. rewrite nth_error_upd_nth. rewrite (proj2 (Nat.eqb_neq _ _)) by congruence. apply nth_singles; exact Ho. }
  eapply paid_lift_bind; [exact E1|]. cbn beta iota zeta. eapply paid_lift_bind; [exact E2|]. cbn beta iota.
  eapply (paid_then _ _ ([a], [b]) L).
  - apply paid_unwrap, swap_paid; try assumption.
    + apply NoDup_app_iff in NK. destruct NK as (X1 & X2 & X3). apply NoDup_app_iff. split; [exact X1|]. split; [repeat constructor; cbn; intuition|]. intros q Hq Y. apply (X3 q Hq), I, Y.
    + intros q Hq. apply IK. apply in_app_or in Hq. apply in_or_app. destruct Hq as [Hq|Hq]; [left; exact Hq|right; apply I; exact Hq].
  - intros s1 C1 T1 L1. cbn beta iota.
    assert (EV : upd_nth o (Some [b]) (upd_nth i (Some [a]) (upd_nth o None (upd_nth i None v))) = v).
    { rewrite (upd_nth_comm _ i o) by congruence. rewrite (upd_nth_same v i (Some [a])) by (apply nth_singles; exact Hii).
      apply upd_nth_same, nth_singles. exact Ho. }
    unfold reg in *. rewrite EV. apply paid_ret; assumption.
Qed.
Lemma shifts_paid K L : forall is s, is <> [] -> Forall (fun i => i < length r - 1) is -> at_depth d s -> cqs d (conds s) = K -> tidy s -> live s L -> NoDup (K ++ r) -> incl (K ++ r) L ->
  paid s (mfold (rshift_step d (length r)) is v) v L (length K - 1) (length is * (3 * nots (length K))).
Proof.
  induction is as [|i is IH]; intros s He F Ad EK T Lv NK IK; [congruence|]. cbn [mfold].
  assert (Fi : i < length r - 1) by (inversion F; assumption). assert (Fs : Forall (fun i => i < length r - 1) is) by (inversion F; assumption).
  assert (P : paid s (rshift_step d (length r) v i) v L (length K - 1) (3 * nots (length K))) by (rewrite <- EK; apply shift_paid; try assumption; rewrite EK; assumption).
  destruct is as [|j is].
  - cbn [mfold]. eapply paid_eq; [eapply (paid_then _ _ v L _ _ _ v L P); intros; apply paid_ret; assumption|reflexivity|cbn [length]; lia].
  - eapply paid_eq.
    + eapply (paid_bind _ _ v L _ _ _ v L (length K - 1) (length (j :: is) * (3 * nots (length K))) P). intros s1 C1 T1 L1. apply IH; try assumption; [discriminate|eapply at_depth_conds; eassumption|congruence].
    + lia.
    + cbn [length]. lia.
Qed.
End Shift.
Lemma rshift_prices d (r : list nat) : 2 <= length r -> NoDup r -> prices d rshift [r] (fun c => c - 1) (fun c => (length r - 1) * (3 * nots c)).
Proof.
  intros Hr N s L Ad T Lv K NL IL. cbn [concat] in NL, IL. rewrite app_nil_r in NL, IL. assert (Hne : r <> []) by (intros ->; cbn in Hr; lia).
  change (paid s (rshift d [r]) [r] L (length K - 1) ((length r - 1) * (3 * nots (length K)))). unfold rshift.
  eapply paid_lift_bind; [apply split_all_ok; assumption|]. eapply paid_lift_bind with (a := length r - 1); [unfold chk_sub; destruct r; [congruence|reflexivity]|].
  eapply (paid_then _ _ (map Some (singles r)) L).
  - eapply paid_eq; [apply (shifts_paid d r N K L)| |]; try assumption; try reflexivity.
    + intros X. apply (f_equal (@length nat)) in X. rewrite rev_length, seq_length in X. cbn in X. lia.
    + apply Forall_forall. intros i Hi. apply in_rev in Hi. apply in_seq in Hi. lia.
    + rewrite rev_length, seq_length. reflexivity.
  - intros s1 C1 T1 L1. rewrite somes_map. eapply paid_lift_bind; [apply merge_singles|]. eapply paid_lift_bind; [apply unwrap_new_reg; exact Hne|]. apply paid_ret; assumption.
Qed.

(** *** copy *)
Lemma copy_paid d L K : forall ra rb s accA accB, length ra = length rb -> incl (K ++ ra ++ rb) L -> NoDup (K ++ ra ++ rb) -> at_depth d s -> cqs d (conds s) = K -> tidy s -> live s L ->
  paid s (mfold (copy_step d) (combine (singles ra) (singles rb)) (accA, accB)) (accA ++ singles ra, accB ++ singles rb) L (if length ra =? 0 then 0 else length K - 1) (length ra * nots (length K)).
Proof.
  induction ra as [|a ra IH]; intros [|b rb] s accA accB E I N Ad EK T Lv; try discriminate.
  - cbn [singles map combine mfold]. pose proof (app_nil_r accA) as X. pose proof (app_nil_r accB) as Y. unfold reg in *. rewrite X, Y. apply paid_ret; assumption.
  - cbn [length] in E. injection E as E.
    assert (P1 : Permutation (K ++ (a :: ra) ++ b :: rb) ((K ++ [a; b]) ++ ra ++ rb)).
    { rewrite <- app_assoc. apply Permutation_app_head. cbn [app]. constructor. symmetry. apply Permutation_middle. }
    assert (P2 : Permutation (K ++ (a :: ra) ++ b :: rb) ([a; b] ++ K ++ ra ++ rb)).
    { etransitivity; [exact P1|]. rewrite (app_assoc [a; b] K (ra ++ rb)). apply Permutation_app_tail. apply Permutation_app_comm. }
    assert (N1 : NoDup (K ++ [a; b])) by (apply (Permutation_NoDup P1) in N; apply NoDup_app_iff in N; apply N).
    assert (N2 : NoDup (K ++ ra ++ rb)) by (apply (Permutation_NoDup P2) in N; apply NoDup_app_iff in N; apply N).
    assert (I1 : incl (K ++ [a; b]) L) by (intros q Hq; apply I; eapply Permutation_in; [symmetry; exact P1|]; apply in_or_app; left; exact Hq).
    assert (I2 : incl (K ++ ra ++ rb) L) by (intros q Hq; apply I; eapply Permutation_in; [symmetry; exact P2|]; apply in_or_app; right; exact Hq).
    cbn [singles map combine mfold]. eapply paid_eq.
    + eapply (paid_bind _ _ (accA ++ [[a]], accB ++ [[b]]) L (length K - 1) (nots (length K)) _ _ L (if length ra =? 0 then 0 else length K - 1) (length ra * nots (length K))).
      * unfold copy_step. eapply (paid_then _ _ ([a], [b]) L); [rewrite <- EK; apply cnot_paid; try assumption; rewrite EK; assumption|]. intros s1 C1 T1 L1. apply paid_ret; assumption.
      * intros s1 C1 T1 L1. pose proof (IH rb s1 (accA ++ [[a]]) (accB ++ [[b]]) E I2 N2 (at_depth_conds _ _ _ C1 Ad) ltac:(congruence) T1 L1) as Y.
        fold (singles ra). fold (singles rb). rewrite <- !app_assoc in Y. exact Y.
    + cbn [length Nat.eqb]. destruct (length ra =? 0); lia.
    + cbn [length]. lia.
Qed.
Lemma copy_prices d ra rb : length ra = length rb -> ra <> [] -> prices d copy [ra; rb] (fun c => c - 1) (fun c => length ra * nots c).
Proof.
  intros E Hne s L Ad T Lv K NL IL. cbn [concat] in NL, IL. rewrite app_nil_r in NL, IL. assert (Hne2 : rb <> []) by (destruct ra, rb; congruence || discriminate).
  change (paid s (copy d [ra; rb]) [ra; rb] L (length K - 1) (length ra * nots (length K))). unfold copy. rewrite (proj2 (Nat.eqb_eq _ _) E).
  pose proof NL as N'. apply NoDup_app_iff in N'. destruct N' as (_ & N' & _). apply NoDup_app_iff in N'. destruct N' as (Na & Nb & _).
  eapply paid_lift_bind; [apply split_all_ok; assumption|]. eapply paid_lift_bind; [apply split_all_ok; assumption|].
  eapply (paid_then _ _ ([] ++ singles ra, [] ++ singles rb) L).
  - eapply paid_eq; [apply (copy_paid d L K ra rb s [] [] E IL NL Ad eq_refl T Lv)| |reflexivity]. destruct ra; [congruence|reflexivity].
  - intros s1 C1 T1 L1. cbn [app]. eapply paid_lift_bind; [apply merge_singles|]. eapply paid_lift_bind; [apply unwrap_new_reg; exact Hne|].
    eapply paid_lift_bind; [apply merge_singles|]. eapply paid_lift_bind; [apply unwrap_new_reg; exact Hne2|]. apply paid_ret; assumption.
Qed.

(** *** Inverses *)
Definition cnots (ps : list (nat * nat)) : pipe := map (fun p => cn (fst p) (snd p)) ps.
Lemma cnots_invert ps : invert_subcircuit (cnots ps) = Ok (cnots (rev ps)).
Proof.
  induction ps as [|p ps IH]; [reflexivity|]. change (cnots (p :: ps)) with ([cn (fst p) (snd p)] ++ cnots ps). cbn [rev]. unfold cnots. rewrite map_app. apply invert_app; [reflexivity|exact IH].
Qed.
Lemma cnots_inv_prices d (rs : list reg) (f : list reg -> M (list reg)) D out ps : acts d (fun d rs => inv_macro d rs f) rs D -> NoDup (concat rs) -> (forall r, In r rs -> r <> []) -> rs <> [] ->
  records (f (ranges 0 (map (@length nat) rs))) out (cnots ps) ->
  (forall a b, In (a, b) ps -> a <> b /\ a < length (concat rs) /\ b < length (concat rs)) -> (exists a, In (a, length (concat rs) - 1) ps) ->
  prices d (fun d rs => inv_macro d rs f) rs (fun c => c - 1) (fun c => length ps * nots c).
Proof.
  intros A N Hne Hrs R W (a & Top). eapply prices_eq.
  - apply (inv_prices d rs f D out (cnots ps) (cnots (rev ps)) A N Hne Hrs); [intros s _; apply R|apply cnots_invert| | | |].
    + apply Forall_forall. intros e He. apply in_map_iff in He. destruct He as ((x & y) & <- & He). apply in_rev in He. destruct (W x y He) as (W1 & W2 & W3). cbn [fst snd cn]. split; [repeat constructor; cbn; intuition|].
      split; [intros q [<-|[<-|[]]]; assumption|]. reflexivity.
    + apply Forall_forall. intros e He. apply in_map_iff in He. destruct He as ((x & y) & <- & He). split; [exact I|]. split; [exact I|reflexivity].
    + apply Forall_forall. intros e He. apply in_map_iff in He. destruct He as ((x & y) & <- & He). exact I.
    + eexists. split; [apply in_map; apply -> in_rev; exact Top|]. right. left. reflexivity.
  - intros c. unfold replay_temps. destruct (Nat.eqb_spec c 0) as [->|Hc]; [reflexivity|]. apply peak_is.
    + apply Forall_forall. intros k Hk. unfold cnots in Hk. rewrite map_map in Hk. apply in_map_iff in Hk. destruct Hk as (x & <- & _). apply le_n.
    + unfold cnots. rewrite map_map. apply in_map_iff. exists (a, length (concat rs) - 1). split; [reflexivity|]. apply -> in_rev. exact Top.
  - intros c. unfold replay_objects. rewrite <- (rev_length ps). generalize (rev ps). intros l. destruct (Nat.eqb_spec c 0) as [->|Hc].
    + unfold cnots. rewrite map_length. change (nots 0) with 1. lia.
    + unfold cnots. rewrite map_map. induction l as [|x l IH]; [reflexivity|]. cbn [map total fold_right length]. unfold total in IH. rewrite IH. cbn [Nat.mul]. f_equal. unfold nots, under_objects. cbn. rewrite Nat.add_1_r. reflexivity.
Qed.
Lemma copy_records : forall ra rb accA accB, length ra = length rb -> NoDup (ra ++ rb) ->
  records (mfold (copy_step 0) (combine (singles ra) (singles rb)) (accA, accB)) (accA ++ singles ra, accB ++ singles rb) (cnots (combine ra rb)).
Proof.
  induction ra as [|a ra IH]; intros [|b rb] accA accB E N; try discriminate.
  - cbn [singles map combine mfold]. pose proof (app_nil_r accA) as X. pose proof (app_nil_r accB) as Y. unfold reg in *. rewrite X, Y. apply records_ret.
  - cbn [length] in E. injection E as E. cbn [singles map combine mfold].
    assert (N2 : NoDup (ra ++ rb)) by (inversion N as [|? ? _ X]; subst; apply NoDup_remove_1 in X; exact X).
    assert (Hab : a <> b) by (inversion N as [|? ? X _]; subst; intros ->; apply X, in_or_app; right; left; reflexivity).
    change (cnots ((a, b) :: combine ra rb)) with ([cn a b] ++ cnots (combine ra rb)).
    eapply records_bind with (a := (accA ++ [[a]], accB ++ [[b]])).
    + unfold copy_step. eapply records_then; [apply records_cnot; exact Hab|]. apply records_ret.
    + pose proof (IH rb (accA ++ [[a]]) (accB ++ [[b]]) E N2) as Y. fold (singles ra). fold (singles rb). rewrite <- !app_assoc in Y. exact Y.
Qed.
Lemma copy_inv_prices d ra rb : length ra = length rb -> ra <> [] -> NoDup (ra ++ rb) -> prices d copy_inv [ra; rb] (fun c => c - 1) (fun c => length ra * nots c).
Proof.
  intros E Hne N. set (n := length ra) in *. assert (Hn : 0 < n) by (unfold n; destruct ra; [congruence|cbn; lia]).
  assert (Ec : concat [ra; rb] = ra ++ rb) by (cbn [concat]; rewrite app_nil_r; reflexivity).
  assert (Lk : length (concat [ra; rb]) = n + n) by (rewrite Ec, app_length; fold n; lia).
  assert (Es : seq 0 n ++ seq n n = seq 0 (n + n)) by (rewrite seq_app; reflexivity).
  assert (Nr : NoDup (seq 0 n ++ seq n n)) by (rewrite Es; apply seq_NoDup).
  assert (Ls : length (seq 0 n) = length (seq n n)) by (rewrite !seq_length; reflexivity).
  assert (Ns : seq 0 n <> [] /\ seq n n <> []) by (destruct n; [lia|split; discriminate]). destruct Ns as (Ns1 & Ns2).
  eapply prices_eq; [apply (cnots_inv_prices d [ra; rb] (copy 0) _ [seq 0 n; seq n n] (combine (seq 0 n) (seq n n)) (proj1 (copy_inv_acts d ra rb E Hne N)))| |].
  - rewrite Ec. exact N.
  - intros r [<-|[<-|[]]]; [exact Hne|]. intros ->. cbn in E. lia.
  - discriminate.
  - cbn [map ranges]. fold n. rewrite <- E. cbn [Nat.add]. unfold copy. rewrite (proj2 (Nat.eqb_eq _ _) Ls).
    eapply records_lift_bind; [apply split_all_ok; [apply seq_NoDup|exact Ns1]|]. eapply records_lift_bind; [apply split_all_ok; [apply seq_NoDup|exact Ns2]|].
    eapply records_then; [apply (copy_records (seq 0 n) (seq n n) [] [] Ls Nr)|]. cbn [app].
    eapply records_lift_bind; [apply merge_singles|]. eapply records_lift_bind; [apply unwrap_new_reg; exact Ns1|].
    eapply records_lift_bind; [apply merge_singles|]. eapply records_lift_bind; [apply unwrap_new_reg; exact Ns2|]. apply records_ret.
  - intros a b H. pose proof (in_combine_l _ _ _ _ H) as Ha. pose proof (in_combine_r _ _ _ _ H) as Hb. apply in_seq in Ha, Hb. lia.
  - exists (n - 1). rewrite Lk. replace (n - 1, n + n - 1) with (nth (n - 1) (combine (seq 0 n) (seq n n)) (0, 0)).
    + apply nth_In. rewrite combine_length, !seq_length. lia.
    + rewrite combine_nth by exact Ls. rewrite !seq_nth by lia. f_equal. lia.
  - reflexivity.
  - intros c. rewrite combine_length, !seq_length, Nat.min_id. reflexivity.
Qed.
Definition shift_pairs (m i : nat) : list (nat * nat) := let o := if i =? 0 then m - 1 else i - 1 in [(i, o); (o, i); (i, o)].
Lemma shift_records m i : i < m - 1 -> records (rshift_step 0 m (map Some (singles (seq 0 m))) i) (map Some (singles (seq 0 m))) (cnots (shift_pairs m i)).
Proof.
  intros Hi. set (r := seq 0 m). assert (Lr : length r = m) by apply seq_length. assert (Hi' : i < length r - 1) by lia.
  pose proof (shift_pair r i Hi') as (Ho & Hn). rewrite Lr in Ho, Hn. unfold rshift_step, shift_pairs. set (o := if i =? 0 then m - 1 else i - 1) in *.
  assert (Hii : i < m) by lia. set (v := map Some (singles r)).
  assert (Xi : nth_error v i = Some (Some [i])) by (unfold v; rewrite nth_singles by lia; unfold r; rewrite seq_nth by lia; reflexivity).
  assert (Xo : nth_error v o = Some (Some [o])) by (unfold v; rewrite nth_singles by lia; unfold r; rewrite seq_nth by lia; reflexivity).
  eapply records_lift_bind; [apply take_at_ok; exact Xi|]. cbn beta iota zeta.
  assert (X2 : nth_error (upd_nth i None v) o = Some (Some [o])) by (rewrite nth_error_upd_nth; rewrite (proj2 (Nat.eqb_neq _ _)) by congruence; exact Xo).
  eapply records_lift_bind; [apply take_at_ok; exact X2|]. cbn beta iota.
  apply (records_then _ ([i], [o])); [apply records_unwrap, records_swap; congruence|]. cbn beta iota.
  assert (EV : upd_nth o (Some [o]) (upd_nth i (Some [i]) (upd_nth o None (upd_nth i None v))) = v).
  { rewrite (upd_nth_comm _ i o) by congruence. rewrite (upd_nth_same v i (Some [i])) by exact Xi. apply upd_nth_same. exact Xo. }
  unfold reg in *. rewrite EV. apply records_ret.
Qed.
Lemma cnots_concat (l : list (list (nat * nat))) : cnots (concat l) = concat (map cnots l).
Proof. unfold cnots. apply concat_map. Qed.
Lemma lshift_prices d (r : list nat) : 2 <= length r -> NoDup r -> prices d lshift [r] (fun c => c - 1) (fun c => (length r - 1) * (3 * nots c)).
Proof.
  intros Hr N. set (m := length r) in *. set (ps := concat (map (shift_pairs m) (rev (seq 0 (m - 1))))).
  assert (Ec : concat [r] = r) by (cbn [concat]; apply app_nil_r). assert (Ns : seq 0 m <> []) by (destruct m; [lia|discriminate]).
  assert (Lm : length (concat [r]) = m) by (rewrite Ec; reflexivity).
  assert (R : forall i, In i (rev (seq 0 (m - 1))) -> i < m - 1) by (intros i Hi; apply in_rev in Hi; apply in_seq in Hi; lia).
  eapply prices_eq; [apply (cnots_inv_prices d [r] (rshift 0) _ [seq 0 m] ps (proj1 (lshift_acts d r Hr N)))| |].
  - rewrite Ec. exact N.
  - intros r0 [<-|[]]. intros ->. cbn in m. lia.
  - discriminate.
  - cbn [map ranges]. fold m. unfold rshift. rewrite seq_length.
    eapply records_lift_bind; [apply split_all_ok; [apply seq_NoDup|exact Ns]|]. eapply records_lift_bind with (a := m - 1); [unfold chk_sub; destruct m; [lia|reflexivity]|].
    eapply records_then.
    + unfold ps. rewrite cnots_concat, map_map. apply records_fold. intros i Hi. apply shift_records, R, Hi.
    + rewrite somes_map. eapply records_lift_bind; [apply merge_singles|]. eapply records_lift_bind; [apply unwrap_new_reg; exact Ns|]. apply records_ret.
  - intros a b H. rewrite Lm. unfold ps in H. apply in_concat in H. destruct H as (l & Hl & H). apply in_map_iff in Hl. destruct Hl as (i & <- & Hi). apply R in Hi.
    unfold shift_pairs in H. cbn [In] in H. destruct (Nat.eqb_spec i 0); destruct H as [H|[H|[H|[]]]]; injection H as <- <-; lia.
  - exists 0. rewrite Lm. unfold ps. apply in_concat. exists (shift_pairs m 0). split; [apply in_map; apply -> in_rev; apply in_seq; lia|]. left. reflexivity.
  - reflexivity.
  - intros c. replace (length ps) with ((m - 1) * 3); [lia|]. unfold ps. transitivity (length (rev (seq 0 (m - 1))) * 3); [rewrite rev_length, seq_length; reflexivity|].
    generalize (rev (seq 0 (m - 1))). induction l as [|i l IH]; [reflexivity|]. cbn [map concat length]. rewrite app_length, <- IH. cbn [shift_pairs length]. lia.
Qed.
