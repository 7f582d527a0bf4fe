(** Proofs about qubits a state does not have. *)
From Coq Require Import NArith ZArith.
From Verif Require Import Base BitsModel BitsSpec BitsProofs OpsModel OpsSpec OpsProofs WordModel WordSpec WordProofs OutsideSpec.
Local Open Scope nat_scope.
Local Open Scope res_scope.

Lemma on_qubits_indices {P} f (op : mop P) : op_indices (on_qubits f op) = map f (op_indices op).
Proof. destruct op; reflexivity. Qed.
Lemma on_qubits_wf {P} f (op : mop P) : wf_op op -> wf_op (on_qubits f op).
Proof. destruct op; cbn [on_qubits wf_op]; rewrite ?map_length; auto. Qed.
Lemma on_qubits_small {P} f (op : mop P) : small_op op -> small_op (on_qubits f op).
Proof. destruct op; cbn [on_qubits small_op]; auto. Qed.
Lemma on_qubits_mat {P} (N : num P) f (op : mop P) : op_mat N (on_qubits f op) = op_mat N op.
Proof. destruct op; cbn [on_qubits op_mat]; rewrite ?map_length; reflexivity. Qed.
Lemma word_qubit_range n qs : in_range 64 (map (word_qubit n) qs).
Proof. intros q Hq. apply in_map_iff in Hq. destruct Hq as (a & <- & _). unfold word_qubit. apply Nat.mod_upper_bound. lia. Qed.

Lemma amount_release k : amount Release k = Ok (k mod 64).
Proof. unfold amount. destruct (k <? 64) eqn:E; [|reflexivity]. apply Nat.ltb_lt in E. rewrite Nat.mod_small by exact E. reflexivity. Qed.

Lemma wsub_release a b : (N.of_nat a < 2 ^ 64)%N -> (N.of_nat b < 2 ^ 64)%N ->
  exists k, wsub Release a b = Ok k /\ (N.of_nat k < 2 ^ 64)%N /\ (Z.of_nat k mod 64 = (Z.of_nat a - Z.of_nat b) mod 64)%Z.
Proof.
  intros Ha Hb. unfold wsub. destruct (b <=? a) eqn:E.
  - apply Nat.leb_le in E. exists (a - b). split; [reflexivity|]. split; [lia|]. f_equal. lia.
  - apply Nat.leb_gt in E. eexists. split; [reflexivity|]. unfold word in *. change (2 ^ 64)%N with 18446744073709551616%N in *. split; [lia|].
    rewrite N_nat_Z. replace (Z.of_N (18446744073709551616 + N.of_nat a - N.of_nat b))%Z with (Z.of_nat a - Z.of_nat b + 288230376151711744 * 64)%Z by lia.
    apply Z.mod_add. lia.
Qed.

Lemma place n q : (N.of_nat n < 2 ^ 64)%N -> (N.of_nat q < 2 ^ 64)%N ->
  exists n1 p, wsub Release n 1 = Ok n1 /\ wsub Release n1 q = Ok p /\ p mod 64 = 63 - word_qubit n q.
Proof.
  intros Hn Hq. destruct (wsub_release n 1 Hn ltac:(reflexivity)) as (n1 & E1 & B1 & M1). destruct (wsub_release n1 q B1 Hq) as (p & E2 & B2 & M2).
  exists n1, p. split; [exact E1|]. split; [exact E2|]. unfold word_qubit.
  assert (H : (Z.of_nat p mod 64 = (Z.of_nat n - 1 - Z.of_nat q) mod 64)%Z).
  { rewrite M2. rewrite Zminus_mod, M1. rewrite <- Zminus_mod. reflexivity. }
  apply Nat2Z.inj. assert (U : (q + (64 - n mod 64)) mod 64 < 64) by (apply Nat.mod_upper_bound; lia). assert (V : n mod 64 < 64) by (apply Nat.mod_upper_bound; lia).
  rewrite Nat2Z.inj_sub by lia. rewrite !Nat2Z.inj_mod. rewrite Nat2Z.inj_add, Nat2Z.inj_sub, Nat2Z.inj_mod by lia.
  change (Z.of_nat 64) with 64%Z. change (Z.of_nat 63) with 63%Z. rewrite H. clear. Z.div_mod_to_equations. lia.
Qed.

Lemma set_release acc k v : wset_bit Release acc k v = Ok (set_bit acc (k mod 64) v).
Proof.
  assert (E : wset_bit Release acc k v = wset_bit Release acc (k mod 64) v).
  { unfold wset_bit, wshl. rewrite !amount_release. rewrite Nat.mod_mod by lia. reflexivity. }
  rewrite E. apply wset_bit_ok. assert (k mod 64 < 64) by (apply Nat.mod_upper_bound; lia). lia.
Qed.
Lemma get_release a k : wget_bit Release a k = Ok (get_bit a (k mod 64)).
Proof.
  assert (E : wget_bit Release a k = wget_bit Release a (k mod 64)).
  { unfold wget_bit, wshr. rewrite !amount_release. rewrite Nat.mod_mod by lia. reflexivity. }
  rewrite E. apply wget_bit_ok. assert (k mod 64 < 64) by (apply Nat.mod_upper_bound; lia). lia.
Qed.

Lemma enumerate_map {A B} (f : A -> B) l : enumerate (map f l) = map (fun e => (fst e, f (snd e))) (enumerate l).
Proof.
  unfold enumerate. rewrite map_length. generalize 0. induction l as [|a l IH]; intros s; [reflexivity|]. cbn. f_equal. apply IH.
Qed.
Lemma foldM_map {A B C} (g : C -> B) (f : A -> B -> res A) l : forall a, foldM f (map g l) a = foldM (fun a c => f a (g c)) l a.
Proof. induction l as [|c l IH]; intros a; [reflexivity|]. cbn [map foldM]. destruct (f a (g c)); cbn [bind]; auto. Qed.

Section Word.
Context (n : nat) (qs : list nat) (Hn : (N.of_nat n < 2 ^ 64)%N) (Hq : forall q, In q qs -> (N.of_nat q < 2 ^ 64)%N).

Lemma wfull_to_sub_release i : wfull_to_sub Release n qs i = wfull_to_sub Release 64 (map (word_qubit n) qs) i.
Proof.
  unfold wfull_to_sub. cbn zeta. rewrite map_length, enumerate_map, foldM_map. apply foldM_ext. intros acc [j q] Hin. cbn [fst snd].
  apply In_enumerate, nth_error_In in Hin. destruct (place n q Hn (Hq q Hin)) as (n1 & p & E1 & E2 & E3).
  rewrite E1. cbn [bind]. rewrite E2. cbn [bind]. rewrite get_release, E3.
  assert (U : word_qubit n q < 64) by (apply Nat.mod_upper_bound; lia).
  rewrite (wsub_ok Release 64 1) by lia. cbn [bind]. rewrite (wsub_ok Release (64 - 1) (word_qubit n q)) by lia. cbn [bind]. rewrite get_release.
  rewrite (Nat.mod_small (64 - 1 - _)) by lia. reflexivity.
Qed.
Lemma wsub_to_full_release c i : wsub_to_full Release n qs c i = wsub_to_full Release 64 (map (word_qubit n) qs) c i.
Proof.
  unfold wsub_to_full. cbn zeta. rewrite map_length, enumerate_map, foldM_map. apply foldM_ext. intros acc [j q] Hin. cbn [fst snd].
  apply In_enumerate, nth_error_In in Hin. destruct (place n q Hn (Hq q Hin)) as (n1 & p & E1 & E2 & E3).
  assert (U : word_qubit n q < 64) by (apply Nat.mod_upper_bound; lia).
  destruct (wsub Release (length qs) 1) as [k1| |]; cbn [bind]; try reflexivity. destruct (wsub Release k1 j) as [k2| |]; cbn [bind]; try reflexivity.
  rewrite !get_release. cbn [bind]. rewrite E1. cbn [bind]. rewrite E2. cbn [bind]. rewrite set_release, E3.
  rewrite (wsub_ok Release 64 1) by lia. cbn [bind]. rewrite (wsub_ok Release (64 - 1) (word_qubit n q)) by lia. cbn [bind]. rewrite set_release.
  rewrite (Nat.mod_small (64 - 1 - _)) by lia. reflexivity.
Qed.
End Word.

Section Release.
Context {P : Type} (N : num P).
Lemma wrow_release n (op : mop P) input outrow ioff ooff : (N.of_nat n < 2 ^ 64)%N -> (forall q, In q (op_indices op) -> (N.of_nat q < 2 ^ 64)%N) ->
  wapply_op_row_indices Release N n op input outrow ioff ooff (op_indices op) =
  wapply_op_row_indices Release N 64 (on_qubits (word_qubit n) op) input outrow ioff ooff (map (word_qubit n) (op_indices op)).
Proof.
  intros Hn Hq. unfold wapply_op_row_indices. destruct (wadd Release ooff outrow) as [row| |]; cbn [bind]; try reflexivity.
  rewrite (wfull_to_sub_release n _ Hn Hq). destruct (wfull_to_sub Release 64 _ row) as [mr| |]; cbn [bind]; try reflexivity.
  unfold wsum_for_op_cols. rewrite map_length.
  assert (E : wop_iter Release N (on_qubits (word_qubit n) op) (length (op_indices op)) mr = wop_iter Release N op (length (op_indices op)) mr).
  { destruct op; cbn [on_qubits wop_iter]; rewrite ?map_length; reflexivity. }
  assert (F : op_fuel (on_qubits (word_qubit n) op) = op_fuel op).
  { destruct op; cbn [on_qubits op_fuel]; rewrite ?map_length; reflexivity. }
  rewrite E, F. destruct (wop_iter Release N op _ mr) as [it| |]; cbn [bind]; try reflexivity. destruct (collect _ _ _) as [items| |]; cbn [bind]; try reflexivity.
  f_equal. apply mapM_ext. intros [i v] _. unfold wrow_term. rewrite (wsub_to_full_release n _ Hn Hq). reflexivity.
Qed.
Lemma wapply_op_overwrite_release n (op : mop P) input output ioff ooff : (N.of_nat n < 2 ^ 64)%N -> (forall q, In q (op_indices op) -> (N.of_nat q < 2 ^ 64)%N) ->
  wf_op op -> length (op_indices op) <= 63 ->
  wapply_op_overwrite Release N n op input output ioff ooff = wapply_op_overwrite Release N 64 (on_qubits (word_qubit n) op) input output ioff ooff.
Proof.
  intros Hn Hq W Hk. unfold wapply_op_overwrite. rewrite wmat_indices_ok, wf_mat_indices by assumption.
  rewrite wmat_indices_ok, wf_mat_indices by (rewrite ?on_qubits_indices, ?map_length; try apply on_qubits_wf; assumption). cbn [bind].
  apply mapM_ext. intros [i o] _. rewrite on_qubits_indices. apply wrow_release; assumption.
Qed.
Lemma wapply_op_release n (op : mop P) input output ioff ooff : (N.of_nat n < 2 ^ 64)%N -> (forall q, In q (op_indices op) -> (N.of_nat q < 2 ^ 64)%N) ->
  wf_op op -> length (op_indices op) <= 63 ->
  wapply_op Release N n op input output ioff ooff = wapply_op Release N 64 (on_qubits (word_qubit n) op) input output ioff ooff.
Proof.
  intros Hn Hq W Hk. unfold wapply_op. rewrite wmat_indices_ok, wf_mat_indices by assumption.
  rewrite wmat_indices_ok, wf_mat_indices by (rewrite ?on_qubits_indices, ?map_length; try apply on_qubits_wf; assumption). cbn [bind].
  apply mapM_ext. intros [i o] _. rewrite on_qubits_indices. rewrite wrow_release by assumption. reflexivity.
Qed.
End Release.

(** *** Debug builds *)
Definition ok_or_under {A} (r : res A) : Prop := (exists a, r = Ok a) \/ r = Panic PUnderflow.
Lemma oou_wsub a b : ok_or_under (wsub Debug a b).
Proof. unfold wsub. destruct (b <=? a); [left; eexists; reflexivity|right; reflexivity]. Qed.
Lemma oou_get a k : ok_or_under (wget_bit Debug a k).
Proof. unfold wget_bit, wshr, amount. destruct (k <? 64); cbn [bind]; [left; eexists; reflexivity|right; reflexivity]. Qed.
Lemma oou_set a k v : ok_or_under (wset_bit Debug a k v).
Proof. unfold wset_bit, wshl, amount. destruct (k <? 64); cbn [bind]; [left; eexists; reflexivity|right; reflexivity]. Qed.
Lemma oou_bind {A B} (r : res A) (f : A -> res B) : ok_or_under r -> (forall a, ok_or_under (f a)) -> ok_or_under (bind r f).
Proof. intros [[a ->]| ->] H; [apply H|right; reflexivity]. Qed.
Lemma foldM_hits {A B} (f : A -> B -> res A) l x : (forall a b, ok_or_under (f a b)) -> (forall a, f a x = Panic PUnderflow) -> In x l -> forall a, foldM f l a = Panic PUnderflow.
Proof.
  intros H Hx. induction l as [|y l IH]; [intros []|]. intros [->|Hin] a; cbn [foldM]; [rewrite Hx; reflexivity|].
  destruct (H a y) as [[a' ->]| ->]; [apply IH; exact Hin|reflexivity].
Qed.
Lemma wfull_to_sub_debug n qs i q : In q qs -> n <= q -> wfull_to_sub Debug n qs i = Panic PUnderflow.
Proof.
  intros Hin Hq. apply In_nth_error in Hin. destruct Hin as (j & Hj). apply In_enumerate in Hj. unfold wfull_to_sub. cbn zeta.
  apply (foldM_hits _ _ (j, q)); [| |exact Hj].
  - intros a [j' q']. repeat (apply oou_bind; [first [apply oou_wsub|apply oou_get]|intros ?]). apply oou_set.
  - intros a. destruct (oou_wsub n 1) as [[n1 E]|E]; rewrite E; cbn [bind]; [|reflexivity].
    unfold wsub in E. destruct (1 <=? n) eqn:En; [|discriminate]. apply Nat.leb_le in En. injection E as <-.
    unfold wsub at 1. destruct (q <=? n - 1) eqn:Eq; [apply Nat.leb_le in Eq; lia|reflexivity].
Qed.
Lemma wsub_to_full_debug n qs c i q : In q qs -> n <= q -> wsub_to_full Debug n qs c i = Panic PUnderflow.
Proof.
  intros Hin Hq. apply In_nth_error in Hin. destruct Hin as (j & Hj). apply In_enumerate in Hj. unfold wsub_to_full. cbn zeta.
  apply (foldM_hits _ _ (j, q)); [| |exact Hj].
  - intros a [j' q']. repeat (apply oou_bind; [first [apply oou_wsub|apply oou_get]|intros ?]). apply oou_set.
  - intros a. destruct (oou_wsub (length qs) 1) as [[k1 ->]| ->]; cbn [bind]; [|reflexivity].
    destruct (oou_wsub k1 j) as [[k2 ->]| ->]; cbn [bind]; [|reflexivity]. destruct (oou_get c k2) as [[b ->]| ->]; cbn [bind]; [|reflexivity].
    destruct (oou_wsub n 1) as [[n1 E]|E]; rewrite E; cbn [bind]; [|reflexivity].
    unfold wsub in E. destruct (1 <=? n) eqn:En; [|discriminate]. apply Nat.leb_le in En. injection E as <-.
    unfold wsub at 1. destruct (q <=? n - 1) eqn:Eq; [apply Nat.leb_le in Eq; lia|reflexivity].
Qed.
