(** exp_mod with one exponent qubit. *)
From Coq Require Import Reals Lra FunctionalExtensionality Permutation.
From Coquelicot Require Import Complex.
From Verif Require Import Base BitsSpec BitsProofs OpsModel OpsSpec Instances BuilderModel RegProofs DenSpec DenProofs LocalProofs LinkProofs
  RunSpec RunProofs GateProofs ToffoliProofs CondProofs SubSpec SubProofs SubProofs2 SubProofs3 SubProofs5 SubProofs6 ProgramModel ProgramSpec ProgramProofs ProgramProofs2 CircProofs CircProofs2
  ArithModel ArithSpec ArithProofs ArithProofs2 ArithProofs3 ArithProofs4 ArithProofs5 ArithProofs6 ArithProofs7 ArithProofs8 WeakProofs TraceProofs ArithProofs9 ArithProofs10 ArithProofs11 ArithProofs12 ArithProofs14 ArithProofs16 ArithProofs17.
Local Open Scope nat_scope.
Local Open Scope mon_scope.

Lemma times_amp_at d K ra rb rm rp rt rc psi x : length ra = S (length rm) -> length rp = S (length rm) -> rm <> [] -> length rb = S (length rm) -> length rt = length rb -> length rc = length rm ->
  NoDup (K ++ concat [ra; rb; rm; rp; rt; rc]) -> zero_in rt x -> zero_in rc x -> val rm x = 2 ^ (length rm - 1) -> zero_in ra x -> one_in K x -> settled (ra ++ rm ++ rt ++ rc) x psi ->
  times_d (S d) ra rb rm rt rc K psi x = Cmult (cpow sh (2 * length rb)) (psi x).
Proof.
  intros La Lp Hm Lrb Lt Lc NdK Zt Zc Vm Za Kx Se. assert (Hb : rb <> []) by (apply ne_length; lia). apply NoDup_app_iff in NdK. destruct NdK as (_ & Nd & DK).
  pose proof (fun i => proj1 (only_D1 (S d) ra rb rm rp rt rc Hm Hb La Lp Lt Lc Nd i)) as W. pose proof (nodup_add ra rb rm rp rt rc Nd) as N. unfold times_d. rewrite <- Lt.
  assert (Nt : NoDup rt /\ forall q, In q rt -> ~ In q (rc ++ rm ++ ra)).
  { split; [pose proof (t_nodup ra rb rm rp rt rc Nd) as X; rewrite !NoDup_app_iff in X; tauto|]. intros q Hq X. pose proof (t_sep ra rb rm rp rt rc Nd) as (S1 & S2 & S3 & S4 & S5).
    rewrite !in_app_iff in X. destruct X as [X|[X|X]]; [apply (S5 q Hq X)|apply S3 in X; tauto|apply S1 in X; tauto]. }
  assert (HK : forall q, In q K -> ~ In q (rt ++ rc ++ rm ++ ra)) by (intros q Hq X; apply (DK q Hq); cbn [concat]; rewrite !in_app_iff in *; tauto).
  assert (E1 : exists cs c, rc = cs ++ [c]) by (destruct (exists_last (l := rc)) as (l & q & E); [intros E; rewrite E in Lc; destruct rm; [congruence|discriminate]|eauto]). destruct E1 as (cs & c & E1).
  assert (E2 : exists ms m, rm = ms ++ [m]) by (destruct (exists_last Hm) as (l & q & E); eauto). destruct E2 as (ms & m & E2).
  assert (E3 : exists bs0 a t, ra = bs0 ++ [a; t]).
  { destruct (exists_last (l := ra)) as (l & t & E); [intros E; rewrite E in La; discriminate|]. destruct (exists_last (l := l)) as (l' & a & E').
    - intros E'. rewrite E' in E. rewrite E in La. destruct rm; [congruence|discriminate].
    - exists l', a, t. rewrite E, E', <- app_assoc. reflexivity. }
  destruct E3 as (bs0 & a & t & E3).
  assert (L1 : length ms = length cs) by (rewrite E1, E2, !app_length in Lc; cbn in Lc; lia). assert (L2 : length bs0 = length cs) by (rewrite E2, E3, !app_length in La; cbn in La; lia).
  assert (L3 : length rt = S (length rm)) by lia. clear Hm Hb La Lp Lc Nd DK Lt Lrb. subst rc rm ra. destruct Nt as (Nt & Dt).
  assert (Hx : zero_in ms x /\ x m = true).
  { rewrite app_length in Vm. cbn [length] in Vm. rewrite Nat.add_sub, val_app in Vm. unfold val at 2 in Vm. cbn [map le] in Vm. pose proof (val_bound ms x) as B. destruct (x m); cbn [b2n] in Vm.
    - split; [|reflexivity]. assert (V0 : val ms x = 0) by lia. intros q Hq. apply (val_inj ms x (fun _ => false)); [|exact Hq]. rewrite V0. symmetry. apply val_zero. intros p _. reflexivity.
    - lia. }
  apply (times_hot' d cs ms bs0 c m a t L1 L2 rt N Nt Dt K HK).
  - intros i Hi. apply W.
  - exact L3.
  - intros z.
    assert (Dec : (exists q, In q ((bs0 ++ [a; t]) ++ (ms ++ [m]) ++ rt ++ cs ++ [c]) /\ z q <> x q) \/ forall q, In q ((bs0 ++ [a; t]) ++ (ms ++ [m]) ++ rt ++ cs ++ [c]) -> z q = x q).
    { generalize ((bs0 ++ [a; t]) ++ (ms ++ [m]) ++ rt ++ cs ++ [c]). intros l. induction l as [|q l IH]; [right; intros q []|]. destruct IH as [(p & Hp & X)|IH]; [left; exists p; split; [right; exact Hp|exact X]|].
      destruct (bool_dec (z q) (x q)) as [E|E]; [right; intros p [<-|Hp]; [exact E|apply IH; exact Hp]|left; exists q; split; [left; reflexivity|exact E]]. }
    destruct Dec as [D|D]; [left; apply Se; exact D|right]. split; [|split; [|split]].
    + intros q Hq. rewrite D; [apply Zc; exact Hq|]. rewrite !in_app_iff in *. tauto.
    + intros q Hq. rewrite D; [apply Hx; exact Hq|]. rewrite !in_app_iff in *. tauto.
    + rewrite D; [apply Hx|]. rewrite !in_app_iff. cbn. tauto.
    + intros q Hq. rewrite D; [apply Za; exact Hq|]. rewrite !in_app_iff in *. tauto.
  - intros z q Hq Hz. apply Se. exists q. split; [rewrite !in_app_iff; tauto|]. rewrite (Zt q Hq), Hz. discriminate.
  - split; [exact Zc|exact Hx].
  - exact Kx.
  - exact Zt.
  - exact Za.
Qed.

(** One exponent qubit, which is 1, and ra = 0, rp = 0, rm = 2^(n-1). *)
Lemma exp_amp d b K ra rm rp re s s' p psi x : length ra = S (length rm) -> length rp = S (length rm) -> length re = S (length rm) -> rm <> [] -> NoDup (K ++ concat [ra; [b]; rm; rp; re]) ->
  tr_exp1 ra rm rp re d b K s s' p -> (forall q, In q (K ++ concat [ra; [b]; rm; rp; re]) -> q < bn (bld s')) ->
  zero_in ra x -> zero_in rp x -> x b = true -> one_in K x -> val rm x = 2 ^ (length rm - 1) -> (forall q, idle s q -> q < bn (bld s') -> x q = false) -> settled (seq 0 (bn (bld s'))) x psi ->
  den p psi x = Cmult (cpow sh (2 * S (length rm))) (psi x).
Proof.
  intros La Lp Le Hm N (s1 & p1 & p23 & -> & Q1 & s2 & p2 & p3 & -> & Q2 & B3 & ->) Hlt Za Zp Xb Kx Vm Z Se. rewrite app_nil_r.
  destruct Q1 as (B1 & J1 & W1 & P1 & D1). destruct Q2 as (B2 & J2 & W2 & P2 & rt & rc & Lt & Lc & N' & It & D2).
  set (B := bn (bld s')) in *.
  assert (Cl : forall q, q < B -> x q = false -> clean [q] psi).
  { intros q Hq Hx z q' [<-|[]] Hz. apply Se. exists q. split; [apply in_seq; lia|]. rewrite Hx, Hz. discriminate. }
  assert (Ci : forall q, idle s q -> q < B -> clean [q] psi) by (intros q Iq Hq; apply Cl; [exact Hq|apply Z; assumption]).
  assert (Hp : rp <> []) by (apply ne_length; lia).
  assert (Nc : NoDup (rp ++ re)) by (cbn [concat] in N; rewrite app_nil_r, !NoDup_app_iff in N; apply NoDup_app_iff; tauto).
  assert (Kp : eff (copy_c rp re) psi = psi).
  { apply copy_zero_keeps; try assumption; [|lia]. intros y. destruct (existsb (fun q => y q) rp) eqn:Ey.
    - left. apply existsb_exists in Ey. destruct Ey as (q & Hq & Hy). apply Se. exists q. split; [apply in_seq; split; [lia|]; apply Hlt; cbn [concat]; rewrite !in_app_iff; tauto|rewrite Hy, (Zp q Hq); discriminate].
    - right. intros q Hq. destruct (y q) eqn:Hy; [|reflexivity]. rewrite <- Ey. symmetry. apply existsb_exists. exists q. split; assumption. }
  assert (R1 : den p1 psi = psi).
  { rewrite D1 by (intros q Iq Hq; apply Ci; [exact Iq|lia]). extensionality y. unfold controlled, selected. rewrite Kp. destruct (forallb y K), (matches [b] 0 y); reflexivity. }
  rewrite den_app, R1, (D2 B psi).
  - rewrite <- Lp. apply (times_amp_at d ([b] ++ K) ra rp rm re rt rc psi x La Le Hm Lp Lt Lc N').
    + intros q Hq. apply Z; [apply J1, It; apply in_or_app; left; exact Hq|]. destruct (It q) as (_ & X); [apply in_or_app; left; exact Hq|]. lia.
    + intros q Hq. apply Z; [apply J1, It; apply in_or_app; right; exact Hq|]. destruct (It q) as (_ & X); [apply in_or_app; right; exact Hq|]. lia.
    + exact Vm.
    + exact Za.
    + intros q [<-|Hq]; [exact Xb|apply Kx; exact Hq].
    + eapply settled_incl; [|exact Se]. intros q Hq. apply in_seq. split; [lia|]. cbn [plus]. rewrite !in_app_iff in Hq.
      destruct (in_dec Nat.eq_dec q (rt ++ rc)) as [I|I]; [specialize (It q I); lia|]. rewrite in_app_iff in I. apply Hlt. cbn [concat]. rewrite !in_app_iff. tauto.
  - lia.
  - intros q Iq Hq. apply Ci; [apply J1; exact Iq|exact Hq].
  - intros z q Hq Hz. apply (Cl q) with (t := q); [apply Hlt; cbn [concat]; rewrite !in_app_iff; tauto|apply Zp; exact Hq|left; reflexivity|exact Hz].
Qed.
