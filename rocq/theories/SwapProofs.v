(** What swap does. *)
From Coq Require Import Reals FunctionalExtensionality Permutation.
From Coquelicot Require Import Complex.
From Verif Require Import Base BitsSpec BitsProofs OpsModel Instances BuilderModel RegProofs DenSpec DenProofs RunSpec RunProofs GateProofs ToffoliProofs.
Local Open Scope nat_scope.
Local Open Scope mon_scope.

Lemma exchange_1 a b x : a <> b -> exchange [a] [b] x = upd (upd x a (x b)) b (x a).
Proof. reflexivity. Qed.
Lemma exchange_notin a b x q : ~ In q (a ++ b) -> exchange a b x q = x q.
Proof. intros H. unfold exchange. apply updl_notin. exact H. Qed.
Lemma exchange_map a b x : NoDup (a ++ b) -> length a = length b -> map (exchange a b x) (a ++ b) = map x b ++ map x a.
Proof. intros N E. unfold exchange. apply updl_map; [exact N|]. rewrite !app_length, !map_length. lia. Qed.
Lemma app_inj_len {A} (a a' b b' : list A) : length a = length a' -> a ++ b = a' ++ b' -> a = a' /\ b = b'.
Proof.
  revert a'. induction a as [|x a IH]; intros [|y a'] E H; try discriminate; [auto|]. cbn in *. inversion H; subst.
  destruct (IH a') as (-> & ->); auto.
Qed.
Lemma exchange_map2 a b x : NoDup (a ++ b) -> length a = length b -> map (exchange a b x) a = map x b /\ map (exchange a b x) b = map x a.
Proof. intros N E. apply app_inj_len; [rewrite !map_length; exact E|]. rewrite <- map_app. apply exchange_map; assumption. Qed.

(** Exchanging pair by pair. *)
Lemma exchange_cons a b la lb x : NoDup (a :: b :: la ++ lb) -> length la = length lb ->
  exchange [a] [b] (exchange la lb x) = exchange (a :: la) (b :: lb) x.
Proof.
  intros N E. inversion N as [|? ? Ha N1]; subst. inversion N1 as [|? ? Hb N2]; subst. cbn [In] in Ha.
  destruct (exchange_map2 la lb x N2 E) as (M1 & M2).
  symmetry. unfold exchange at 1. apply updl_unique.
  - apply (Permutation_NoDup (l := a :: b :: la ++ lb)); [|exact N]. cbn [app]. constructor. apply Permutation_middle.
  - assert (Ex : forall l, ~ In a l -> ~ In b l -> map (exchange [a] [b] (exchange la lb x)) l = map (exchange la lb x) l).
    { intros l Hal Hbl. apply map_ext_in. intros q Hq. apply exchange_notin. cbn. intros [<-|[<-|[]]]; contradiction. }
    rewrite in_app_iff in Ha, Hb. rewrite map_app. cbn [map]. rewrite !Ex, M1, M2 by tauto. cbn [app].
    assert (Hab : a <> b) by (intros ->; tauto). rewrite exchange_1 by exact Hab. rewrite upd_same. rewrite upd_other, upd_same by exact Hab.
    rewrite !exchange_notin by (rewrite in_app_iff; tauto). reflexivity.
  - intros q Hq. rewrite in_app_iff in Hq. cbn [In] in Hq. rewrite !exchange_notin; [reflexivity|rewrite in_app_iff; tauto|cbn; tauto].
Qed.

(** Exchange where all of [K] are 1. *)
Lemma ctl_swap_3 K a b psi : NoDup (K ++ [a; b]) ->
  ctl_nots (K ++ [a]) [b] (ctl_nots (K ++ [b]) [a] (ctl_nots (K ++ [a]) [b] psi)) = ctl_swap K [a] [b] psi.
Proof.
  intros N. apply NoDup_app_iff in N. destruct N as (_ & N2 & NK). assert (Hab : a <> b) by (inversion N2; subst; cbn in *; intuition).
  assert (Ka : forall q, In q K -> ~ In q [a]) by (intros q Hq [<-|[]]; apply (NK a Hq); left; reflexivity).
  assert (Kb : forall q, In q K -> ~ In q [b]) by (intros q Hq [<-|[]]; apply (NK b Hq); right; left; reflexivity).
  assert (FK : forall x t v, In t [a; b] -> forallb (upd x t v) K = forallb x K).
  { intros x t v Ht. apply forallb_upd. intros X. apply (NK t X Ht). }
  extensionality x. rewrite !ctl_not_nots. unfold ctl_not, ctl_swap.
  assert (FA : forall (y : bs) (l : list nat) (q : nat), forallb y (l ++ [q]) = forallb y l && y q) by (intros; rewrite forallb_app; cbn; rewrite andb_true_r; reflexivity).
  assert (V : forall y c t q, cflip (K ++ [c]) t y q = if q =? t then xorb (y t) (forallb y K && y c) else y q).
  { intros y c t q. unfold cflip, flip. rewrite FA. destruct (forallb y K && y c); unfold upd; destruct (Nat.eqb_spec q t); subst; try destruct (y t); reflexivity. }
  assert (VK : forall y c t, In t [a; b] -> forallb (cflip (K ++ [c]) t y) K = forallb y K).
  { intros y c t Ht. unfold cflip, flip. destruct (forallb y (K ++ [c])); [apply FK; exact Ht|reflexivity]. }
  assert (E : cflip (K ++ [a]) b (cflip (K ++ [b]) a (cflip (K ++ [a]) b x)) = if forallb x K then exchange [a] [b] x else x).
  { extensionality q. rewrite exchange_1 by exact Hab.
    assert (Eab : a =? b = false) by (apply Nat.eqb_neq; auto). assert (Eba : b =? a = false) by (apply Nat.eqb_neq; auto).
    rewrite !V, !VK by (cbn; tauto). rewrite !Nat.eqb_refl, !Eab, !Eba. unfold upd.
    destruct (forallb x K); cbn [andb]; destruct (Nat.eqb_spec q a), (Nat.eqb_spec q b); subst; try congruence; destruct (x a), (x b); reflexivity || destruct (x q); reflexivity. }
  rewrite E. destruct (forallb x K); reflexivity.
Qed.

(** *** swap, given what a CNOT object does under conditions [K] *)
Section Swap.
Context (ac : reg -> cobj -> M reg) (K : list nat) (cond : list (option reg)).
Context (HC : forall s c t, conds s = cond -> tidy s -> live s (K ++ [c; t]) ->
  does s (K ++ [c; t]) (ac [c; t] (mkCO 2 (OUnit UCNOT))) [c; t] (K ++ [c; t]) (ctl_nots (K ++ [c]) [t])).

Lemma cnot1_does s c t : conds s = cond -> tidy s -> live s (K ++ [c; t]) ->
  does s (K ++ [c; t]) (cnot ac [c] [t]) ([c], [t]) (K ++ [c; t]) (ctl_nots (K ++ [c]) [t]).
Proof.
  intros E T Lv. apply (cnot_does ac K cond s c [t] E T Lv); [discriminate|]. intros s1 t' E1 T1 L1. apply HC; assumption.
Qed.
Lemma swap_pair_does s a b : conds s = cond -> tidy s -> live s (K ++ [a; b]) ->
  does s (K ++ [a; b]) (swap_pair ac ([a], [b])) ([a], [b]) (K ++ [a; b]) (ctl_swap K [a] [b]).
Proof.
  intros E T Lv. unfold swap_pair. cbn [length Nat.eqb massert].
  eapply quiet_then_does; [apply quiet_ret; assumption|apply incl_refl|apply incl_refl|]. intros s1 C1 T1 L1.
  eapply quiet_then_does; [apply quiet_ret; assumption|apply incl_refl|apply incl_refl|]. intros s2 C2 T2 L2.
  apply does_unwrap. pose proof (proj1 Lv) as N.
  assert (P : Permutation (K ++ [b; a]) (K ++ [a; b])) by (apply Permutation_app_head, perm_swap).
  eapply does_eq. {
    dbind; [apply cnot1_does; [congruence|exact T2|exact L2]|]. intros s3 C3 T3 L3. cbn beta iota.
    dbind; [apply (does_perm _ _ _ _ _ _ _ _ P P), cnot1_does; [congruence|exact T3|eapply live_perm; [exact L3|symmetry; exact P]]|].
    intros s4 C4 T4 L4. cbn beta iota. apply cnot1_does; [congruence|exact T4|exact L4]. }
  intros psi. cbv beta. apply ctl_swap_3. exact N.
Qed.
Lemma local_ctl_swap la lb L : length la = length lb -> NoDup (la ++ lb) -> incl (la ++ lb) L -> local L (ctl_swap K la lb).
Proof.
  intros E N I q psi Hq. rewrite !clean1. intros H x Hx. unfold ctl_swap. destruct (forallb x K); apply H; [|exact Hx].
  rewrite exchange_notin; [exact Hx|]. intros X. apply Hq, I, X.
Qed.
Lemma ctl_swap_cons a b la lb psi : NoDup (K ++ a :: b :: la ++ lb) -> length la = length lb ->
  ctl_swap K la lb (ctl_swap K [a] [b] psi) = ctl_swap K (a :: la) (b :: lb) psi.
Proof.
  intros N E. apply NoDup_app_iff in N. destruct N as (_ & N & NK). extensionality x. unfold ctl_swap.
  assert (F : forallb (exchange la lb x) K = forallb x K).
  { apply forallb_ext_in. intros q Hq. apply exchange_notin. intros X. apply (NK q Hq). right. right. exact X. }
  rewrite F. destruct (forallb x K); [|reflexivity]. rewrite exchange_cons by assumption. reflexivity.
Qed.
Lemma swaps_does la : forall s lb, conds s = cond -> tidy s -> length la = length lb -> live s (K ++ la ++ lb) ->
  does s (K ++ la ++ lb) (mmap (swap_pair ac) (combine (singles la) (singles lb))) (combine (singles la) (singles lb)) (K ++ la ++ lb) (ctl_swap K la lb).
Proof.
  induction la as [|a la IH]; intros s [|b lb] E T El Lv; try discriminate.
  - cbn [singles map combine mmap]. eapply does_eq; [apply does_ret; assumption|]. intros psi. extensionality x. unfold ctl_swap, exchange. cbn. destruct (forallb x K); reflexivity.
  - cbn [singles map combine mmap]. fold (singles la). fold (singles lb). pose proof (proj1 Lv) as N.
    assert (P1 : Permutation ((K ++ [a; b]) ++ la ++ lb) (K ++ (a :: la) ++ b :: lb)).
    { rewrite <- app_assoc. apply Permutation_app_head. cbn [app]. constructor. apply Permutation_middle. }
    assert (P2 : Permutation ((K ++ la ++ lb) ++ [a; b]) (K ++ (a :: la) ++ b :: lb)).
    { rewrite <- P1, <- !app_assoc. apply Permutation_app_head. rewrite app_assoc. apply Permutation_app_comm. }
    eapply does_eq. {
      dbind; [eapply does_sub; [exact P1|exact Lv|]; intros Lx; apply swap_pair_does; assumption|]. intros s1 C1 T1 L1.
      eapply does_then_quiet; [eapply does_sub; [exact P2|exact L1|]; intros Lx; apply IH; [congruence|exact T1|cbn in El; lia|exact Lx]|].
      intros s2 C2 T2 L2. apply quiet_ret; assumption. }
    intros psi. cbv beta. apply ctl_swap_cons; [|cbn in El; lia]. eapply Permutation_NoDup; [|exact N]. rewrite <- P1, <- app_assoc. reflexivity.
Qed.
Lemma split_combine_singles la lb : length la = length lb -> List.split (combine (singles la) (singles lb)) = (singles la, singles lb).
Proof. intros E. apply combine_split. rewrite !length_singles. exact E. Qed.

Lemma swap_does s la lb : conds s = cond -> tidy s -> length la = length lb -> la <> [] -> live s (K ++ la ++ lb) ->
  does s (K ++ la ++ lb) (swap ac la lb) (la, lb) (K ++ la ++ lb) (ctl_swap K la lb).
Proof.
  intros E T El Hne Lv. unfold swap. rewrite (proj2 (Nat.eqb_eq _ _) El). assert (Hne2 : lb <> []) by (destruct la, lb; congruence || discriminate).
  pose proof (proj1 Lv) as N. apply NoDup_app_iff in N. destruct N as (_ & N & _). apply NoDup_app_iff in N. destruct N as (Na & Nb & _).
  eapply quiet_then_does; [apply quiet_lift; [apply split_all_ok; assumption|exact T|exact Lv]|apply incl_refl|apply incl_refl|]. intros s1 C1 T1 L1.
  eapply quiet_then_does; [apply quiet_lift; [apply split_all_ok; assumption|exact T1|exact L1]|apply incl_refl|apply incl_refl|]. intros s2 C2 T2 L2.
  eapply does_then_quiet; [apply swaps_does; [congruence|exact T2|exact El|exact L2]|]. intros s3 C3 T3 L3. rewrite split_combine_singles by exact El.
  eapply quiet_bind; [apply quiet_lift; [apply merge_singles|exact T3|exact L3]|]. intros s4 C4 T4 L4.
  eapply quiet_bind; [apply quiet_lift; [apply unwrap_new_reg; exact Hne|exact T4|exact L4]|]. intros s5 C5 T5 L5.
  eapply quiet_bind; [apply quiet_lift; [apply merge_singles|exact T5|exact L5]|]. intros s6 C6 T6 L6.
  eapply quiet_bind; [apply quiet_lift; [apply unwrap_new_reg; exact Hne2|exact T6|exact L6]|]. intros s7 C7 T7 L7.
  apply quiet_ret; assumption.
Qed.
End Swap.

Lemma local_swap_does s la lb : tidy s -> length la = length lb -> la <> [] -> live s (la ++ lb) ->
  does s (la ++ lb) (swap (aco 0) la lb) (la, lb) (la ++ lb) (fun psi x => psi (exchange la lb x)).
Proof.
  intros T El Hne Lv. apply (swap_does local_aco [] (conds s)); [|reflexivity|exact T|exact El|exact Hne|exact Lv].
  intros s1 c t _ T1 L1. apply local_cnot_obj; assumption.
Qed.
Lemma swap_sizes ac s la lb : length la <> length lb -> swap ac la lb s = Fail ESizes s.
Proof. intros H. unfold swap. rewrite (proj2 (Nat.eqb_neq _ _) H). reflexivity. Qed.
