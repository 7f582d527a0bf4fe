(** Freshness over whole histories; why distinct positions are needed. *)
From Coq Require Import Reals.
From Coquelicot Require Import Complex.
From Verif Require Import Base BuilderModel RegProofs ConserveProofs ConserveProofs2 HistorySpec HistoryProofs.
Local Open Scope nat_scope.

Lemma reach_trans ok cl1 cl2 cl3 : reach ok cl1 cl2 -> reach ok cl2 cl3 -> reach ok cl1 cl3.
Proof. intros H1 H2. revert H1. induction H2 as [|a b c call ps H IH Hc Hl Hd]; intros H1; [exact H1|]. eapply reach_step; [apply IH; exact H1|exact Hc|exact Hl|exact Hd]. Qed.

Lemma register_never_before cl0 cl k : reach distinct_positions start cl0 -> reach distinct_positions cl0 cl -> 0 < k ->
  exists cl', do_call cl (CRegister k) [] = Some cl' /\
    snd cl' = snd cl ++ [seq (bn (bld (fst cl))) k] /\ bn (bld (fst cl')) = bn (bld (fst cl)) + k /\
    pipeline (bld (fst cl')) = pipeline (bld (fst cl)) /\
    (forall q, In q (seq (bn (bld (fst cl))) k) -> ~ In q (held cl0) /\ forall e, In e (pipeline (bld (fst cl0))) -> ~ In q (fst e)).
Proof.
  intros H0 H1 Hk. destruct (register_fresh cl k [] (reach_trans _ _ _ _ H0 H1) Hk eq_refl) as (cl' & E1 & E2 & E3 & E4 & _).
  exists cl'. do 4 (split; [assumption|]). destruct (reach_no_cloning _ H0) as ((_ & R) & EN). destruct (reach_append _ _ _ H1) as (_ & B).
  intros q Hq. apply in_seq in Hq. split.
  - intros Hh. apply R in Hh. lia.
  - intros e He Hqe. unfold entries_ok in EN. rewrite Forall_forall in EN. destruct (EN e He) as (_ & X). apply X in Hqe. lia.
Qed.

Lemma qudit_zero s : qudit 0 s = Ret None s.
Proof. reflexivity. Qed.
Lemma qudit_pos k s : 0 < k -> qudit k s = match register k s with Ret r s' => Ret (Some r) s' | Fail e s' => Fail e s' | Crash p => Crash p end.
Proof. destruct k; [lia|]. intros _. reflexivity. Qed.

(** A repeated position clones a qubit. *)
Lemma repeated_position_clones : exists cl, reach (fun _ => True) start cl /\ ~ no_cloning cl.
Proof.
  exists (mkSt (mkB [] 2 [] 0) [], [[0; 0]; [1]]). split.
  - eapply reach_step with (c := CSplitRel [0; 0]) (ps := [0]).
    + eapply reach_step with (c := CRegister 2) (ps := []); [apply reach_refl|exact I|split; [constructor|intros ? []]|reflexivity].
    + exact I.
    + split; [repeat constructor; cbn; tauto|intros q [<-|[]]; cbn; lia].
    + reflexivity.
  - intros (N & _). unfold held in N. cbn in N. inversion N as [|? ? Hn]; subst. apply Hn. left. reflexivity.
Qed.

(** Running a list of calls, used to exhibit concrete histories. *)
Fixpoint nodupb (l : list nat) : bool := match l with [] => true | x :: l => negb (existsb (Nat.eqb x) l) && nodupb l end.
Lemma nodupb_ok l : nodupb l = true -> NoDup l.
Proof.
  induction l as [|x l IH]; intros H; [constructor|]. cbn [nodupb] in H. apply andb_prop in H. destruct H as (H1 & H2).
  constructor; [|auto]. intros Hi. apply negb_true_iff in H1. assert (X : existsb (Nat.eqb x) l = true); [|congruence].
  apply existsb_exists. exists x. split; [exact Hi|apply Nat.eqb_refl].
Qed.
Definition legalb (rs : list reg) (ps : list nat) : bool := nodupb ps && forallb (fun p => p <? length rs) ps.
Fixpoint play (l : list (call * list nat)) (cl : client) : option client :=
  match l with
  | [] => Some cl
  | (c, ps) :: l => if legalb (snd cl) ps then match do_call cl c ps with Some cl' => play l cl' | None => None end else None
  end.
Lemma play_reach ok l : forall cl cl', Forall (fun c => ok (fst c)) l -> play l cl = Some cl' -> reach ok cl cl'.
Proof.
  induction l as [|[c ps] l IH]; intros cl cl' F H; cbn [play] in H.
  - inversion H. apply reach_refl.
  - inversion F; subst. destruct (legalb (snd cl) ps) eqn:L; [|discriminate]. destruct (do_call cl c ps) as [cl1|] eqn:E; [|discriminate].
    apply (reach_trans ok cl cl1 cl'); [|apply IH; assumption]. eapply reach_step; [apply reach_refl|eassumption| |exact E].
    unfold legalb in L. apply andb_prop in L. destruct L as (L1 & L2). split; [apply nodupb_ok; exact L1|]. intros p Hp. rewrite forallb_forall in L2. apply Nat.ltb_lt. auto.
Qed.
