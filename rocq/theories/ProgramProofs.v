(** Routing of qubits by [program!]. *)
From Coq Require Import Permutation.
From Verif Require Import Base BitsSpec OpsSpec BuilderModel RegProofs DenSpec RunSpec SubSpec ProgramModel ProgramSpec.

Definition cell (P : nat -> bool) (q : nat) : option reg := if P q then None else Some [q].
(** The input registers with the qubits satisfying [P] taken out. *)
Definition holes (rs : list reg) (P : nat -> bool) : env := map (fun r : reg => map (cell P) r) rs.
Definition inb (l : list nat) (q : nat) : bool := existsb (Nat.eqb q) l.

Lemma holes_ext rs (P Q : nat -> bool) : (forall q, In q (concat rs) -> P q = Q q) -> holes rs P = holes rs Q.
Proof.
  intros H. unfold holes. apply map_ext_in. intros r Hr. apply map_ext_in. intros q Hq. unfold cell. rewrite H; [reflexivity|].
  apply in_concat. eauto.
Qed.
Lemma holes_nth (rs : list reg) P k : nth k (holes rs P) [] = map (cell P) (nth k rs []).
Proof. unfold holes. exact (map_nth (fun r : reg => map (cell P) r) rs [] k). Qed.
Lemma in_register (rs : list reg) k q : In q (nth k rs []) -> In q (concat rs).
Proof.
  intros H. apply in_concat. destruct (Nat.lt_ge_cases k (length rs)) as [L|L].
  - exists (nth k rs []). split; [apply nth_In; exact L|exact H].
  - rewrite nth_overflow in H by exact L. destruct H.
Qed.
Lemma NoDup_register (rs : list reg) k : NoDup (concat rs) -> NoDup (nth k rs []).
Proof.
  revert k. induction rs as [|r rs IH]; intros [|k] H; cbn in *; try constructor; apply NoDup_app_iff in H; try apply H. apply IH. apply H.
Qed.
Lemma registers_disjoint (rs : list reg) k k' q : NoDup (concat rs) -> In q (nth k rs []) -> In q (nth k' rs []) -> k = k'.
Proof.
  revert k k'. induction rs as [|r rs IH]; intros [|k] [|k'] H H1 H2; cbn in *; try reflexivity; try (destruct H1; fail); try (destruct H2; fail);
    apply NoDup_app_iff in H; destruct H as (A & B & C).
  - exfalso. apply (C q H1). eapply in_register. exact H2.
  - exfalso. apply (C q H2). eapply in_register. exact H1.
  - f_equal. eapply IH; eassumption.
Qed.
(** Changing one register only. *)
Lemma holes_upd (rs : list reg) (P Q : nat -> bool) k : NoDup (concat rs) -> (forall q, ~ In q (nth k rs []) -> P q = Q q) ->
  upd_nth k (map (cell Q) (nth k rs [])) (holes rs P) = holes rs Q.
Proof.
  intros N H. apply nth_error_ext_eq. intros i. rewrite nth_error_upd_nth. unfold holes. rewrite !nth_error_map, ?map_length.
  destruct (Nat.eqb_spec i k) as [->|Hne]; cbn [andb].
  - destruct (Nat.ltb_spec k (length rs)) as [L|L].
    + rewrite (nth_error_nth' rs [] L). reflexivity.
    + apply nth_error_None in L. rewrite L. reflexivity.
  - destruct (nth_error rs i) as [r|] eqn:E; [|reflexivity]. cbn. f_equal. apply map_ext_in. intros q Hq. unfold cell. rewrite H; [reflexivity|].
    intros Hk. apply Hne. apply (registers_disjoint rs i k q N); [|exact Hk]. pose proof (nth_error_nth rs i [] E) as X. unfold reg in *. rewrite X. exact Hq.
Qed.
Lemma inb_In l q : inb l q = true <-> In q l.
Proof. apply existsb_eqb_In. Qed.
Lemma inb_app a b q : inb (a ++ b) q = inb a q || inb b q.
Proof. apply existsb_app. Qed.

(** *** Taking *)
Lemma take_all_holes (r : reg) : forall is P, NoDup r -> (forall i, In i is -> i < length r) -> NoDup (map (fun i => nth i r 0) is) ->
  (forall i, In i is -> P (nth i r 0) = false) ->
  take_all (map (cell P) r) is =
    Ok (singles (map (fun i => nth i r 0) is), map (cell (fun q => P q || inb (map (fun i => nth i r 0) is) q)) r).
Proof.
  induction is as [|i is IH]; intros P N R Ni HP; cbn [take_all map].
  - f_equal. f_equal. apply map_ext. intros q. unfold cell. cbn. rewrite orb_false_r. reflexivity.
  - cbn [map] in Ni. inversion Ni as [|? ? Ni1 Ni2]; subst.
    rewrite (take_at_ok _ i [nth i r 0]).
    2:{ rewrite nth_error_map, (nth_error_nth' r 0) by (apply R; left; reflexivity). cbn. unfold cell. rewrite HP by (left; reflexivity). reflexivity. }
    cbn [bind]. set (P' := fun q => P q || (q =? nth i r 0)).
    replace (upd_nth i None (map (cell P) r)) with (map (cell P') r).
    2:{ apply nth_error_ext_eq. intros j. rewrite nth_error_upd_nth, !nth_error_map, map_length. destruct (Nat.eqb_spec j i) as [->|Hne]; cbn [andb].
        - assert (L : i < length r) by (apply R; left; reflexivity). destruct (Nat.ltb_spec i (length r)); [|lia]. rewrite (nth_error_nth' r 0 L). cbn. unfold cell, P'.
          rewrite Nat.eqb_refl, orb_true_r. reflexivity.
        - destruct (nth_error r j) as [q|] eqn:E; [|reflexivity]. cbn. f_equal. unfold cell, P'. destruct (Nat.eqb_spec q (nth i r 0)) as [Eq|]; [|rewrite orb_false_r; reflexivity].
          exfalso. apply Hne. assert (L : j < length r) by (apply nth_error_Some; congruence). apply (proj1 (NoDup_nth r 0) N); [exact L|apply R; left; reflexivity|].
          rewrite (nth_error_nth _ _ 0 E). exact Eq. }
    rewrite IH; [| | | |].
    + cbn [bind singles map]. f_equal. f_equal. apply map_ext. intros q. unfold cell, P'. cbn [inb existsb].
      change (existsb (Nat.eqb q) (map (fun i0 => nth i0 r 0) is)) with (inb (map (fun i0 => nth i0 r 0) is) q).
      rewrite <- orb_assoc. reflexivity.
    + exact N.
    + intros j Hj. apply R. right. exact Hj.
    + exact Ni2.
    + intros j Hj. unfold P'. rewrite HP by (right; exact Hj). cbn. apply Nat.eqb_neq. intros E. apply Ni1. rewrite <- E. apply in_map_iff. exists j. auto.
Qed.
Lemma arg_qubits_indices (rs : list reg) P a : map (fun i => nth i (nth (fst a) rs []) 0) (arg_indices (holes rs P) a) = arg_qubits rs a.
Proof.
  unfold arg_indices, arg_qubits. destruct (snd a) as [is|]; [reflexivity|]. rewrite holes_nth, map_length. apply nth_error_ext_eq. intros i.
  rewrite nth_error_map. destruct (Nat.lt_ge_cases i (length (nth (fst a) rs []))) as [L|L].
  - rewrite nth_error_nth' with (d := 0) by (rewrite seq_length; exact L). rewrite seq_nth by exact L. cbn. rewrite nth_error_nth' with (d := 0) by exact L. reflexivity.
  - rewrite (proj2 (nth_error_None _ _)) by (rewrite seq_length; exact L). rewrite (proj2 (nth_error_None _ _)) by exact L. reflexivity.
Qed.
Lemma arg_indices_ok (rs : list reg) P a : arg_ok rs a -> forall i, In i (arg_indices (holes rs P) a) -> i < length (nth (fst a) rs []).
Proof.
  intros (_ & H) i. unfold arg_indices. destruct (snd a) as [is|]; [apply H|]. rewrite holes_nth, map_length, in_seq. lia.
Qed.
Lemma arg_qubits_in (rs : list reg) a q : arg_ok rs a -> In q (arg_qubits rs a) -> In q (nth (fst a) rs []).
Proof.
  intros (_ & H). unfold arg_qubits. destruct (snd a) as [is|]; [|auto]. intros Hq. apply in_map_iff in Hq. destruct Hq as (i & <- & Hi). apply nth_In, H, Hi.
Qed.
Lemma take_arg_ok (rs : list reg) P a : NoDup (concat rs) -> arg_ok rs a -> NoDup (arg_qubits rs a) -> (forall q, In q (arg_qubits rs a) -> P q = false) ->
  take_all (nth (fst a) (holes rs P) []) (arg_indices (holes rs P) a) =
    Ok (singles (arg_qubits rs a), nth (fst a) (holes rs (fun q => P q || inb (arg_qubits rs a) q)) []).
Proof.
  intros N A Na HP. rewrite !holes_nth. rewrite <- (arg_qubits_indices rs P a) in *. apply take_all_holes.
  - apply NoDup_register. exact N.
  - apply arg_indices_ok. exact A.
  - exact Na.
  - intros i Hi. apply HP. apply in_map_iff. exists i. auto.
Qed.
Lemma singles_app (a b : reg) : singles (a ++ b) = singles a ++ singles b.
Proof. apply map_app. Qed.
Lemma take_group_ok (rs : list reg) : forall g P, NoDup (concat rs) -> Forall (arg_ok rs) g -> NoDup (gather rs g) -> (forall q, In q (gather rs g) -> P q = false) ->
  take_group (holes rs P) g = Ok (singles (gather rs g), holes rs (fun q => P q || inb (gather rs g) q)).
Proof.
  induction g as [|a g IH]; intros P N A Ng HP; cbn [take_group].
  - f_equal. f_equal. apply holes_ext. intros q _. cbn. rewrite orb_false_r. reflexivity.
  - inversion A as [|? ? A1 A2]; subst. unfold gather in Ng, HP. cbn [map concat] in Ng, HP. apply NoDup_app_iff in Ng. destruct Ng as (N1 & N2 & N3).
    rewrite take_arg_ok; [|exact N|exact A1|exact N1|intros q Hq; apply HP, in_or_app; left; exact Hq]. cbn [bind].
    rewrite holes_nth, holes_upd; [|exact N|].
    + rewrite IH; [|exact N|exact A2|exact N2|].
      * cbn [bind]. unfold gather. cbn [map concat]. rewrite singles_app. f_equal. f_equal. apply holes_ext. intros q _. rewrite inb_app, orb_assoc. reflexivity.
      * intros q Hq. apply orb_false_iff. split; [apply HP, in_or_app; right; exact Hq|]. destruct (inb (arg_qubits rs a) q) eqn:E; [|reflexivity].
        apply inb_In in E. exfalso. apply (N3 q E Hq).
    + intros q Hq. destruct (inb (arg_qubits rs a) q) eqn:E; [|rewrite orb_false_r; reflexivity]. apply inb_In in E. exfalso. apply Hq. eapply arg_qubits_in; eassumption.
Qed.
Lemma take_groups_ok (rs : list reg) : forall gs P, NoDup (concat rs) -> Forall (Forall (arg_ok rs)) gs -> Forall (fun r => r <> []) (map (gather rs) gs) ->
  NoDup (concat (map (gather rs) gs)) -> (forall q, In q (concat (map (gather rs) gs)) -> P q = false) ->
  take_groups (holes rs P) gs = Ok (map (gather rs) gs, holes rs (fun q => P q || inb (concat (map (gather rs) gs)) q)).
Proof.
  induction gs as [|g gs IH]; intros P N A Ne Ng HP; cbn [take_groups map concat].
  - f_equal. f_equal. apply holes_ext. intros q _. cbn. rewrite orb_false_r. reflexivity.
  - cbn [map concat] in *. inversion A as [|? ? A1 A2]; subst. inversion Ne as [|? ? E1 E2]; subst. apply NoDup_app_iff in Ng. destruct Ng as (N1 & N2 & N3).
    rewrite take_group_ok; [|exact N|exact A1|exact N1|intros q Hq; apply HP, in_or_app; left; exact Hq]. cbn [bind].
    rewrite merge_singles. cbn [bind]. rewrite unwrap_new_reg by exact E1. cbn [bind].
    rewrite IH; [|exact N|exact A2|exact E2|exact N2|].
    + cbn [bind]. f_equal. f_equal. apply holes_ext. intros q _. rewrite inb_app, orb_assoc. reflexivity.
    + intros q Hq. apply orb_false_iff. split; [apply HP, in_or_app; right; exact Hq|]. destruct (inb (gather rs g) q) eqn:E; [|reflexivity].
      apply inb_In in E. exfalso. apply (N3 q E Hq).
Qed.

(** *** Putting back *)
Lemma put_one_ok (rs : list reg) P k (v : list (option reg)) index i : NoDup (concat rs) -> i < length (nth k rs []) -> nth_error v index = Some (Some [nth i (nth k rs []) 0]) ->
  put_one k (holes rs P, v, index) i = Ok (holes rs (fun q => P q && negb (q =? nth i (nth k rs []) 0)), upd_nth index None v, S index).
Proof.
  intros N Hi E. unfold put_one. unfold idx. rewrite E. cbn [bind]. rewrite holes_nth, nth_error_map, (nth_error_nth' _ 0 Hi). cbn [option_map bind].
  f_equal. f_equal. f_equal. rewrite <- (holes_upd rs P (fun q => P q && negb (q =? nth i (nth k rs []) 0)) k N).
  - f_equal. apply nth_error_ext_eq. intros j. rewrite nth_error_upd_nth, !nth_error_map, map_length. destruct (Nat.eqb_spec j i) as [->|Hne]; cbn [andb].
    + destruct (Nat.ltb_spec i (length (nth k rs []))); [|lia]. rewrite (nth_error_nth' _ 0 Hi). cbn. unfold cell. rewrite Nat.eqb_refl, andb_false_r. reflexivity.
    + destruct (nth_error (nth k rs []) j) as [q|] eqn:Ej; [|reflexivity]. cbn. f_equal.
      unfold cell. destruct (Nat.eqb_spec q (nth i (nth k rs []) 0)) as [Eq|]; [|rewrite andb_true_r; reflexivity].
      exfalso. apply Hne. assert (L : j < length (nth k rs [])) by (apply nth_error_Some; congruence).
      apply (proj1 (NoDup_nth _ 0) (NoDup_register rs k N)); [exact L|exact Hi|]. rewrite (nth_error_nth _ _ 0 Ej). exact Eq.
  - intros q Hq. destruct (Nat.eqb_spec q (nth i (nth k rs []) 0)) as [->|]; [|rewrite andb_true_r; reflexivity]. exfalso. apply Hq, nth_In, Hi.
Qed.
Lemma put_indices_ok (rs : list reg) k : forall is P (v : list (option reg)) index, NoDup (concat rs) -> (forall i, In i is -> i < length (nth k rs [])) ->
  (forall j, j < length is -> nth_error v (index + j) = Some (Some [nth (nth j is 0) (nth k rs []) 0])) ->
  exists v', foldM (put_one k) is (holes rs P, v, index) =
    Ok (holes rs (fun q => P q && negb (inb (map (fun i => nth i (nth k rs []) 0) is) q)), v', index + length is) /\
    forall j, index + length is <= j -> nth_error v' j = nth_error v j.
Proof.
  induction is as [|i is IH]; intros P v index N R E; cbn [foldM].
  - exists v. rewrite Nat.add_0_r. split; [|reflexivity]. f_equal. f_equal. f_equal. apply holes_ext. intros q _. cbn. rewrite andb_true_r. reflexivity.
  - rewrite put_one_ok; [|exact N|apply R; left; reflexivity|]. 2:{ specialize (E 0). cbn [nth length] in E. rewrite Nat.add_0_r in E. apply E. lia. }
    cbn [bind].
    destruct (IH (fun q => P q && negb (q =? nth i (nth k rs []) 0)) (upd_nth index None v) (S index) N) as (v' & H1 & H2).
    + intros j Hj. apply R. right. exact Hj.
    + intros j Hj. rewrite nth_error_upd_nth. destruct (Nat.eqb_spec (S index + j) index); [lia|]. specialize (E (S j)). cbn [nth length] in E.
      replace (S index + j) with (index + S j) by lia. apply E. lia.
    + exists v'. cbn [length]. replace (index + S (length is)) with (S index + length is) by lia. split.
      * rewrite H1. f_equal. f_equal. f_equal. apply holes_ext. intros q _. cbn [map inb existsb].
        change (existsb (Nat.eqb q) (map (fun i0 => nth i0 (nth k rs []) 0) is)) with (inb (map (fun i0 => nth i0 (nth k rs []) 0) is) q).
        rewrite negb_orb, <- andb_assoc. reflexivity.
      * intros j Hj. rewrite H2 by exact Hj. rewrite nth_error_upd_nth. destruct (Nat.eqb_spec j index); [lia|reflexivity].
Qed.
Lemma length_arg_indices (rs : list reg) P a : length (arg_indices (holes rs P) a) = length (arg_qubits rs a).
Proof. rewrite <- (arg_qubits_indices rs P a), map_length. reflexivity. Qed.
Lemma put_args_ok (rs : list reg) : forall g P (v : list (option reg)) index, NoDup (concat rs) -> Forall (arg_ok rs) g ->
  (forall j, j < length (gather rs g) -> nth_error v (index + j) = Some (Some [nth j (gather rs g) 0])) ->
  exists v' n, foldM put_arg g (holes rs P, v, index) = Ok (holes rs (fun q => P q && negb (inb (gather rs g) q)), v', n).
Proof.
  induction g as [|a g IH]; intros P v index N A E; cbn [foldM].
  - exists v, index. f_equal. f_equal. f_equal. apply holes_ext. intros q _. cbn. rewrite andb_true_r. reflexivity.
  - inversion A as [|? ? A1 A2]; subst. unfold put_arg at 1. cbn [fst].
    unfold gather in E. cbn [map concat] in E.
    destruct (put_indices_ok rs (fst a) (arg_indices (holes rs P) a) P v index N (arg_indices_ok rs P a A1)) as (v1 & H1 & H2).
    + intros j Hj. rewrite length_arg_indices in Hj. rewrite E by (rewrite app_length; lia). rewrite app_nth1 by exact Hj.
      rewrite <- (arg_qubits_indices rs P a). f_equal. f_equal. f_equal. apply nth_error_nth. rewrite nth_error_map.
      rewrite (nth_error_nth' _ 0) by (rewrite length_arg_indices; exact Hj). reflexivity.
    + rewrite H1. cbn [bind]. rewrite arg_qubits_indices.
      destruct (IH (fun q => P q && negb (inb (arg_qubits rs a) q)) v1 (index + length (arg_indices (holes rs P) a)) N A2) as (v' & n & H).
      * intros j Hj. rewrite H2 by lia. rewrite length_arg_indices, <- Nat.add_assoc. rewrite E by (rewrite app_length; unfold gather in Hj; lia).
        rewrite app_nth2 by lia. f_equal. f_equal. f_equal. unfold gather. f_equal. lia.
      * exists v', n. rewrite H. f_equal. f_equal. f_equal. apply holes_ext. intros q _. unfold gather. cbn [map concat]. rewrite inb_app, negb_orb, andb_assoc. reflexivity.
Qed.
Lemma put_groups_ok (rs : list reg) : forall gs P, NoDup (concat rs) -> Forall (Forall (arg_ok rs)) gs -> Forall (fun r => r <> []) (map (gather rs) gs) ->
  NoDup (concat (map (gather rs) gs)) ->
  foldM put_group (combine gs (map (gather rs) gs)) (holes rs P) = Ok (holes rs (fun q => P q && negb (inb (concat (map (gather rs) gs)) q))).
Proof.
  induction gs as [|g gs IH]; intros P N A Ne Ng; cbn [map combine foldM concat].
  - f_equal. apply holes_ext. intros q _. cbn. rewrite andb_true_r. reflexivity.
  - cbn [map concat] in *. inversion A as [|? ? A1 A2]; subst. inversion Ne as [|? ? E1 E2]; subst. apply NoDup_app_iff in Ng. destruct Ng as (N1 & N2 & N3).
    unfold put_group at 1. rewrite split_all_ok by assumption. cbn [bind].
    destruct (put_args_ok rs g P (map Some (singles (gather rs g))) 0 N A1) as (v' & n & H).
    + intros j Hj. cbn. unfold singles. rewrite !nth_error_map. pose proof (nth_error_nth' (gather rs g) 0 Hj) as X. unfold reg in *. rewrite X. reflexivity.
    + rewrite H. cbn [bind]. rewrite IH by assumption. f_equal. apply holes_ext. intros q _. rewrite inb_app, negb_orb, andb_assoc. reflexivity.
Qed.
Lemma holes_none (rs : list reg) : holes rs (fun _ => false) = map (fun r => map Some (singles r)) rs.
Proof. unfold holes. apply map_ext. intros r. unfold singles. rewrite map_map. reflexivity. Qed.
Lemma somes_some {A} (l : list A) : somes (map Some l) = l.
Proof. unfold somes. rewrite map_map. induction l as [|a l IH]; [reflexivity|]. cbn. f_equal. exact IH. Qed.
