(** Initial values of disjoint registers; pairs of global phases. *)
From Coq Require Import Reals QArith Qreals FunctionalExtensionality Lra.
From Coquelicot Require Import Complex.
From Verif Require Import Base BitsSpec BitsProofs OpsModel OpsSpec Instances MeasureModel MeasureSpec MeasureProofs MeasureProofs2 BuilderModel RegProofs
  SimModel DenSpec DenProofs SimSpec HandleProofs SimProofs LocalProofs.
Local Open Scope nat_scope.

(** The assignment holding the values. *)
Fixpoint loaded (it : list (reg * nat)) : bs :=
  match it with
  | [] => fun _ => false
  | (r, v) :: it => fun q => match find (fun j => nth j r 0 =? q) (seq 0 (length r)) with Some j => Nat.testbit v j | None => loaded it q end
  end.
Lemma find_pos_None r q : ~ In q r -> find (fun j => nth j r 0 =? q) (seq 0 (length r)) = None.
Proof.
  intros H. destruct (find _ _) as [j|] eqn:E; [|reflexivity]. apply find_some in E. destruct E as (Hj & E). apply in_seq in Hj. apply Nat.eqb_eq in E.
  exfalso. apply H. subst. apply nth_In. lia.
Qed.
Lemma find_pos_Some r j : NoDup r -> j < length r -> find (fun i => nth i r 0 =? nth j r 0) (seq 0 (length r)) = Some j.
Proof.
  intros N H. destruct (find _ _) as [i|] eqn:E.
  - apply find_some in E. destruct E as (Hi & E). apply in_seq in Hi. apply Nat.eqb_eq in E. f_equal. eapply NoDup_nth; eauto. lia.
  - exfalso. pose proof (find_none _ _ E j ltac:(apply in_seq; lia)) as X. cbv beta in X. rewrite Nat.eqb_refl in X. discriminate X.
Qed.
Lemma loads_loaded it : NoDup (concat (map fst it)) -> loads it (loaded it).
Proof.
  induction it as [|[r v] it IH]; intros N; cbn [map fst concat] in N.
  - split; [intros ? ? []|reflexivity].
  - apply NoDup_app_iff in N. destruct N as (N1 & N2 & D). specialize (IH N2). destruct IH as (IH1 & IH2). split.
    + intros r' v' Hin j Hj. cbn [loaded]. destruct Hin as [E|Hin].
      * inversion E; subst. rewrite find_pos_Some by assumption. reflexivity.
      * rewrite find_pos_None; [apply (IH1 r' v' Hin j Hj)|]. intros Hr. apply (D _ Hr). apply in_concat. exists r'.
        split; [apply in_map_iff; exists (r', v'); auto|apply nth_In; exact Hj].
    + intros q Hq. cbn [loaded]. rewrite find_pos_None by (apply (Hq r v); left; reflexivity). apply IH2. intros r' v' Hin. apply (Hq r' v'). right. exact Hin.
Qed.

Lemma initial_state b it draws : (forall r v, In (r, v) it -> in_range (bn b) r) -> NoDup (concat (map fst it)) -> pipeline b = [] ->
  exists x w, loads it x /\ calculate_state_with_init b it draws = Ok (w, []) /\ length w = 2 ^ bn b /\ st_of CN (bn b) w = ket (bn b) x.
Proof.
  intros R N E. exists (loaded it). destruct (simulate_ok b it (loaded it) draws R (loads_loaded it N)) as (w & H1 & H2 & H3).
  - rewrite E. constructor.
  - rewrite E. constructor.
  - exists w. split; [apply loads_loaded; exact N|]. rewrite E, den_nil in H3. auto.
Qed.

Lemma measure_initial_disjoint b it draws r v k p2 :
  (forall r v, In (r, v) it -> in_range (bn b) r) -> NoDup (concat (map fst it)) -> In (r, v) it ->
  (0 < draws 0%nat <= 1)%R -> pipeline b = (r, mkCO k (OMeas MSingle)) :: p2 ->
  forall w ms, calculate_state_with_init b it draws = Ok (w, ms) -> get_measurement ms 0 = Ok (v mod 2 ^ length r, 1%R).
Proof.
  intros R N Hin Hd E w ms H. eapply (measure_initial b it (loaded it)); eauto; [apply loads_loaded; exact N|].
  clear - N Hin. induction it as [|[r' v'] it IH]; [destruct Hin|]. cbn in N. apply NoDup_app_iff in N. destruct N as (N1 & N2 & _).
  destruct Hin as [X|Hin]; [inversion X; subst; exact N1|auto].
Qed.

(** The measuring run does return. *)
Lemma measure_initial_runs b it draws r v k :
  (forall r v, In (r, v) it -> in_range (bn b) r) -> NoDup (concat (map fst it)) -> In (r, v) it ->
  (0 < draws 0%nat <= 1)%R -> pipeline b = [(r, mkCO k (OMeas MSingle))] ->
  exists w ms, calculate_state_with_init b it draws = Ok (w, ms).
Proof.
  intros R N Hin Hd E. unfold calculate_state_with_init. rewrite (initial_index_ok _ _ (loaded it) R (loads_loaded it N)). cbn [bind].
  rewrite sim_start by apply enc_lt. cbn [bind]. rewrite E. cbn [foldM]. unfold sim_step. cbn [co_obj length].
  destruct (measure_ok (draws 0) (bn b) r (upd_nth (enc (bn b) (loaded it)) (RtoC 1) (repeat (RtoC 0) (2 ^ bn b))) (repeat (RtoC 0) (2 ^ bn b)))
    as (m & p & w & Em & _).
  - exact (R r v Hin).
  - clear - N Hin. induction it as [|[r' v'] it IH]; [destruct Hin|]. cbn in N. apply NoDup_app_iff in N. destruct N as (N1 & N2 & _).
    destruct Hin as [X|Hin]; [inversion X; subst; exact N1|auto].
  - rewrite upd_nth_length. apply repeat_length.
  - apply repeat_length.
  - rewrite prob_magnitude_norm2. apply norm2_basis, enc_lt.
  - exact Hd.
  - rewrite Em. cbn [bind]. eauto.
Qed.

Lemma phase_pair_anywhere b p1 p2 qs k t qs' k' t' it draws :
  calculate_state_with_init (with_pipeline b (p1 ++ (qs, mkCO k (OUnit (UPhase t))) :: (qs', mkCO k' (OUnit (UPhase t'))) :: p2)) it draws =
  calculate_state_with_init (with_pipeline b (p1 ++ p2)) it draws.
Proof.
  unfold calculate_state_with_init. cbn [bn with_pipeline pipeline]. destruct (initial_index (bn b) it) as [i| |]; cbn [bind]; try reflexivity.
  destruct (idx _ i) as [z| |]; cbn [bind]; try reflexivity. rewrite !foldM_app.
  destruct (foldM _ p1 _) as [[[v a] ms]| |]; cbn [bind]; try reflexivity.
Qed.
