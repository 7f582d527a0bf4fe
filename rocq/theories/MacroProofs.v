(** Proofs about the macros. *)
From Coq Require Import String Ascii.
From Verif Require Import Base BuilderModel ProgramModel MacroModel MacroSpec.
Local Open Scope nat_scope.
Local Open Scope res_scope.
Local Open Scope list_scope.

(** *** Fuel *)
Lemma tsizes_cons t ts : tsizes (t :: ts) = tsize t + tsizes ts.
Proof. reflexivity. Qed.
Lemma tsize_pos t : 0 < tsize t.
Proof. destruct t; cbn [tsize]; lia. Qed.
Lemma tsizes_app a b : tsizes (a ++ b) = tsizes a + tsizes b.
Proof. unfold tsizes. rewrite map_app, list_sum_app. reflexivity. Qed.
Lemma tsizes_group d g : tsizes [TGroup d g] = S (tsizes g).
Proof. unfold tsizes. cbn. lia. Qed.

Lemma parse_list_fuel : forall fuel ts, tsizes ts < fuel ->
  (forall gs rest, parse_list_of_registers fuel ts = Ok (gs, rest) -> tsizes rest <= tsizes ts /\ length rest <= length ts) /\ parse_list_of_registers fuel ts <> Panic PFuel.
Proof.
  induction fuel as [|fuel IH]; intros ts Hf; [lia|]. cbn [parse_list_of_registers]. destruct ts as [|t ts].
  { split; [intros gs rest E; injection E as <- <-; lia|discriminate]. }
  rewrite tsizes_cons in *. pose proof (tsize_pos t) as Hp.
  destruct t as [s|c j|s|d inner].
  - cbn [parse_register_and_indices]. destruct ts as [|t ts]; [|rewrite tsizes_cons in Hf; destruct (is_punct ";" t || is_punct "," t)%bool]; cbn [bind].
    + destruct (IH [] ltac:(cbn; cbn in Hf; lia)) as (A & B). destruct (parse_list_of_registers fuel []) as [(gs, rest)| |] eqn:E; cbn [bind].
      * split; [|discriminate]. intros gs' rest' X. injection X as <- <-. destruct (A _ _ eq_refl). cbn in *. lia.
      * split; discriminate.
      * split; [discriminate|congruence].
    + destruct (IH (t :: ts) ltac:(rewrite tsizes_cons; lia)) as (A & B). destruct (parse_list_of_registers fuel (t :: ts)) as [(gs, rest)| |] eqn:E; cbn [bind].
      * split; [|discriminate]. intros gs' rest' X. injection X as <- <-. destruct (A _ _ eq_refl). cbn [length] in *. lia.
      * split; discriminate.
      * split; [discriminate|congruence].
    + destruct (IH ts ltac:(lia)) as (A & B). destruct (parse_list_of_registers fuel ts) as [(gs, rest)| |] eqn:E; cbn [bind].
      * split; [|discriminate]. intros gs' rest' X. injection X as <- <-. destruct (A _ _ eq_refl). rewrite tsizes_cons. cbn [length] in *. lia.
      * split; discriminate.
      * split; [discriminate|congruence].
  - destruct (Ascii.eqb c ","); [|destruct (Ascii.eqb c ";")].
    + destruct (IH ts ltac:(lia)) as (A & B). split; [|exact B]. intros gs rest E. destruct (A _ _ E). cbn [length]. lia.
    + split; [|discriminate]. intros gs rest E. injection E as <- <-. cbn [length]. lia.
    + split; discriminate.
  - split; discriminate.
  - assert (Hi : tsizes inner < fuel) by (cbn [tsize] in Hf; unfold tsizes in *; lia).
    destruct (IH inner Hi) as (A & B). destruct (parse_list_of_registers fuel inner) as [(sub, r)| |] eqn:E; cbn [bind]; [|split; discriminate|split; [discriminate|congruence]].
    match goal with |- context [forallb ?f sub] => destruct (forallb f sub) end; [|split; discriminate].
    destruct (IH ts ltac:(lia)) as (A' & B'). destruct (parse_list_of_registers fuel ts) as [(gs, rest)| |] eqn:E'; cbn [bind].
    + split; [|discriminate]. intros gs' rest' X. injection X as <- <-. destruct (A' _ _ eq_refl). cbn [length]. lia.
    + split; discriminate.
    + split; [discriminate|congruence].
Qed.
Lemma parse_arguments_len ts a rest : parse_arguments ts = (a, rest) -> length rest <= length ts.
Proof. unfold parse_arguments. destruct ts as [|[| | |[]] ts]; intros E; injection E as <- <-; cbn [length]; lia. Qed.
Lemma parse_head_len ts h rest : parse_head ts = Ok (h, rest) -> length rest <= length ts /\ (ts <> [] -> length rest < length ts).
Proof.
  unfold parse_head. destruct ts as [|[f| | |] ts]; try discriminate; [intros E; injection E as <- <-; cbn; split; [lia|congruence]|].
  destruct (String.eqb f "control").
  - destruct ts as [|[g| | |d bits] ts]; try discriminate; [intros E; injection E as <- <-; cbn; split; intros; lia| |].
    + destruct (parse_arguments ts) as (a, r) eqn:E. intros X. injection X as <- <-. apply parse_arguments_len in E. cbn [length]. split; intros; lia.
    + destruct ts as [|[g| | |] ts]; try discriminate; [intros E; injection E as <- <-; cbn; split; intros; lia|].
      destruct (parse_arguments ts) as (a, r) eqn:E. intros X. injection X as <- <-. apply parse_arguments_len in E. cbn [length]. split; intros; lia.
  - destruct (parse_arguments ts) as (a, r) eqn:E. intros X. injection X as <- <-. apply parse_arguments_len in E. cbn [length]. split; intros; lia.
Qed.
Lemma parse_head_fuel ts : parse_head ts <> Panic PFuel.
Proof.
  unfold parse_head. destruct ts as [|[f| | |] ts]; try discriminate. destruct (String.eqb f "control").
  - destruct ts as [|[g| | |d bits] ts]; try discriminate; [destruct (parse_arguments ts); discriminate|]. destruct ts as [|[g| | |] ts]; try discriminate. destruct (parse_arguments ts); discriminate.
  - destruct (parse_arguments ts); discriminate.
Qed.
Lemma parse_line_fuel ts : parse_line ts <> Panic PFuel /\ forall l rest, parse_line ts = Ok (l, rest) -> ts <> [] -> length rest < length ts.
Proof.
  unfold parse_line. pose proof (parse_head_fuel ts) as F. destruct (parse_head ts) as [((((control, bits), f), a), rest)| |] eqn:E; cbn [bind]; [|split; discriminate|split; [congruence|discriminate]].
  apply parse_head_len in E. destruct (parse_list_fuel (S (tsizes rest)) rest ltac:(lia)) as (A & B).
  destruct (parse_list_of_registers (S (tsizes rest)) rest) as [(gs, rest')| |]; cbn [bind]; [|split; discriminate|split; [congruence|discriminate]].
  destruct (A _ _ eq_refl) as (_ & L). assert (C : call_registers control (length gs) <> Panic PFuel).
  { unfold call_registers, chk_sub. destruct (_ <? _); [discriminate|]. destruct (_ =? _); [discriminate|]. destruct (1 <=? length gs); discriminate. }
  destruct (call_registers control (length gs)) as [k| |]; cbn [bind]; [|split; discriminate|split; [congruence|discriminate]].
  split; [discriminate|]. intros l r X Ne. injection X as <- <-. destruct E as (_ & E). specialize (E Ne). lia.
Qed.
Lemma parse_line_nil : parse_line [] = Panic PUnderflow.
Proof. reflexivity. Qed.
Lemma parse_lines_fuel : forall fuel ts, length ts < fuel -> parse_lines fuel ts <> Panic PFuel.
Proof.
  induction fuel as [|fuel IH]; intros ts Hf; [lia|]. cbn [parse_lines]. destruct (parse_line_fuel ts) as (F & L). destruct ts as [|u ts]; [discriminate|].
  destruct (parse_line (u :: ts)) as [(l, rest)| |]; cbn [bind]; [|discriminate|congruence].
  destruct rest as [|t rest]; [discriminate|]. specialize (L _ _ eq_refl ltac:(discriminate)). assert (X : length (t :: rest) < fuel) by lia.
  specialize (IH _ X). destruct (parse_lines fuel (t :: rest)) as [ls| |]; cbn [bind]; [discriminate|discriminate|congruence].
Qed.
Lemma parse_inputs_fuel : forall ts, parse_inputs ts <> Panic PFuel.
Proof.
  induction ts as [|t ts IH]; [discriminate|]. destruct t as [s|c j|s|d g]; cbn [parse_inputs]; try discriminate.
  - destruct (parse_inputs ts) as [(l, r)| |]; cbn [bind]; [discriminate|discriminate|congruence].
  - destruct (Ascii.eqb c ";"); [discriminate|]. destruct (Ascii.eqb c ","); [exact IH|discriminate].
Qed.
Lemma parse_program_fuel ts : parse_program ts <> Panic PFuel.
Proof.
  unfold parse_program. destruct (parse_builder ts) as (b, rest). pose proof (parse_inputs_fuel rest) as F. destruct (parse_inputs rest) as [(inputs, rest')| |]; cbn [bind]; [|discriminate|congruence].
  destruct (negb _); [discriminate|]. pose proof (parse_lines_fuel (S (length rest')) rest' ltac:(lia)) as G. destruct (parse_lines (S (length rest')) rest'); cbn [bind]; [discriminate|discriminate|congruence].
Qed.

(** *** Reading back what was written *)
Definition preg (r : wreg) : string * option tok := (fst r, option_map (TGroup DBracket) (snd r)).
Definition parg (a : warg) : pgroup := map preg (arg_regs a).
(** What may follow an argument. *)
Definition ends (T : list tok) : Prop := T = [] \/ exists U, T = comma :: U \/ T = semi :: U.

Lemma read_reg fuel r T : ends T -> parse_list_of_registers (S fuel) (write_reg r ++ T) = ('(gs, rest) <- parse_list_of_registers fuel T ;; Ok ([preg r] :: gs, rest)).
Proof.
  intros H. destruct r as (s, [i|]); cbn [write_reg fst snd app parse_list_of_registers parse_register_and_indices].
  - reflexivity.
  - destruct H as [->|(U & [->| ->])]; reflexivity.
Qed.
Lemma read_comma fuel T : parse_list_of_registers (S fuel) (comma :: T) = parse_list_of_registers fuel T.
Proof. reflexivity. Qed.
Lemma sep_cons {A} (s : A) a l : l <> [] -> sep_by s (a :: l) = a ++ s :: sep_by s l.
Proof. destruct l; [congruence|reflexivity]. Qed.
Lemma write_reg_size r : 0 < tsizes (write_reg r).
Proof. unfold write_reg. rewrite tsizes_cons. pose proof (tsize_pos (TIdent (fst r))). lia. Qed.
Lemma read_regs : forall rs fuel, tsizes (sep_by comma (map write_reg rs)) < fuel -> parse_list_of_registers fuel (sep_by comma (map write_reg rs)) = Ok (map (fun r => [preg r]) rs, []).
Proof.
  induction rs as [|r rs IH]; intros fuel Hf; [destruct fuel; [lia|reflexivity]|].
  destruct rs as [|r' rs].
  - cbn [map sep_by] in *. pose proof (write_reg_size r). destruct fuel as [|[|fuel]]; try lia. rewrite <- (app_nil_r (write_reg r)), read_reg by (left; reflexivity). reflexivity.
  - cbn [map] in *. rewrite sep_cons in * by discriminate. rewrite tsizes_app, tsizes_cons in Hf. pose proof (write_reg_size r). pose proof (tsize_pos comma).
    destruct fuel as [|[|fuel]]; try lia. rewrite read_reg by (right; eexists; left; reflexivity). rewrite read_comma. cbn [map] in IH. rewrite IH by lia. reflexivity.
Qed.
Lemma forallb_single (rs : list wreg) : forallb (fun g : pgroup => length g =? 1) (map (fun r => [preg r]) rs) = true.
Proof. induction rs; cbn; auto. Qed.
Lemma concat_single (rs : list wreg) : concat (map (fun r => [preg r]) rs) = map preg rs.
Proof. induction rs; cbn; congruence. Qed.
Lemma read_arg fuel a T : ends T -> tsizes (write_arg a) <= fuel -> parse_list_of_registers (S fuel) (write_arg a ++ T) = ('(gs, rest) <- parse_list_of_registers fuel T ;; Ok (parg a :: gs, rest)).
Proof.
  intros H Hf. destruct a as [r|rs].
  - apply read_reg. exact H.
  - cbn [write_arg app parse_list_of_registers]. cbn [write_arg] in Hf. rewrite tsizes_group in Hf. rewrite read_regs by lia. cbn [bind]. rewrite forallb_single, concat_single. reflexivity.
Qed.
Lemma write_arg_size a : 0 < tsizes (write_arg a).
Proof. destruct a as [r|rs]; [apply write_reg_size|]. cbn [write_arg]. rewrite tsizes_group. lia. Qed.
(** The end of the list of arguments, and what is left behind it. *)
Definition tail_of (T rest : list tok) : Prop := (T = [] /\ rest = []) \/ T = semi :: rest.
Lemma read_tail fuel T rest : tail_of T rest -> parse_list_of_registers (S fuel) T = Ok ([], rest).
Proof. intros [(-> & ->)| ->]; reflexivity. Qed.
Lemma tail_ends T rest : tail_of T rest -> ends T.
Proof. intros [(-> & ->)| ->]; [left; reflexivity|right; exists rest; right; reflexivity]. Qed.
Lemma read_args : forall az fuel T rest, tail_of T rest -> tsizes (sep_by comma (map write_arg az) ++ T) < fuel -> parse_list_of_registers fuel (sep_by comma (map write_arg az) ++ T) = Ok (map parg az, rest).
Proof.
  induction az as [|a az IH]; intros fuel T rest Ht Hf; [destruct fuel; [lia|apply read_tail; exact Ht]|].
  destruct az as [|a' az].
  - cbn [map sep_by] in *. rewrite tsizes_app in Hf. pose proof (write_arg_size a). destruct fuel as [|[|fuel]]; try lia. rewrite read_arg by (try lia; eapply tail_ends; exact Ht). rewrite (read_tail _ T rest Ht). reflexivity.
  - cbn [map] in *. rewrite sep_cons in * by discriminate. rewrite <- app_assoc in *. cbn [app] in *. rewrite tsizes_app, tsizes_cons in Hf. pose proof (write_arg_size a). pose proof (tsize_pos comma).
    destruct fuel as [|[|fuel]]; try lia. rewrite read_arg by (try lia; right; eexists; left; reflexivity). rewrite read_comma. rewrite (IH fuel T rest Ht) by lia. reflexivity.
Qed.

Definition controlled_line (w : wline) : bool := match w_ctl w with None => false | Some _ => true end.
Definition w_start (w : wline) : nat := if controlled_line w then 1 else 0.
Definition pline_of (w : wline) : pline :=
  mkPline (controlled_line w) (match w_ctl w with Some (Some b) => Some b | _ => None end) (w_fun w) (w_extra w) (map parg (w_args w)) (seq (w_start w) (length (w_args w) - w_start w)).
Lemma read_extra e az T : az <> [] -> parse_arguments (write_opt e ++ sep_by comma (map write_arg az) ++ T) = (e, sep_by comma (map write_arg az) ++ T).
Proof.
  intros H. destruct e as [g|]; [reflexivity|]. cbn [write_opt app]. destruct az as [|a az]; [congruence|].
  assert (E : exists t U, sep_by comma (map write_arg (a :: az)) ++ T = t :: U /\ match t with TGroup DParen _ => False | _ => True end).
  { destruct a as [(s, i)|rs]; destruct az; cbn [map sep_by write_arg write_reg fst snd app]; eexists _, _; (split; [reflexivity|exact I]). }
  destruct E as (t & U & -> & Ht). destruct t as [| | |[]]; cbn [parse_arguments]; try reflexivity. destruct Ht.
Qed.
Lemma read_call (w : wline) : w_start w < length (w_args w) -> call_registers (controlled_line w) (length (map parg (w_args w))) = Ok (seq (w_start w) (length (w_args w) - w_start w)).
Proof.
  intros H. rewrite map_length. unfold call_registers. fold (w_start w). set (k := length (w_args w)) in *. set (s := w_start w) in *. clearbody k s.
  destruct (Nat.ltb_spec k s); [lia|]. destruct (Nat.eqb_spec (k - s) 1) as [->|E]; [reflexivity|]. unfold chk_sub. destruct (Nat.leb_spec 1 k); [|lia]. cbn [bind]. f_equal.
  replace (k - s) with (S (k - 1 - s)) by lia. rewrite seq_S. f_equal. f_equal. lia.
Qed.
Lemma read_line w T rest : tail_of T rest -> (w_ctl w = None -> w_fun w <> "control"%string) -> w_start w < length (w_args w) -> parse_line (write_line w ++ T) = Ok (pline_of w, rest).
Proof.
  intros Ht Hc Ha. assert (Hz : w_args w <> []) by (intros E; rewrite E in Ha; cbn in Ha; lia).
  assert (E : parse_head (write_line w ++ T) = Ok (controlled_line w, match w_ctl w with Some (Some b) => Some b | _ => None end, w_fun w, w_extra w, sep_by comma (map write_arg (w_args w)) ++ T)).
  { unfold write_line, controlled_line. rewrite <- !app_assoc. cbn [app]. rewrite <- !app_assoc. destruct (w_ctl w) as [[b|]|] eqn:Ec; cbn [write_opt app parse_head].
    - rewrite String.eqb_refl, read_extra by exact Hz. reflexivity.
    - rewrite String.eqb_refl, read_extra by exact Hz. reflexivity.
    - destruct (String.eqb_spec (w_fun w) "control") as [X|X]; [exfalso; exact (Hc eq_refl X)|]. rewrite read_extra by exact Hz. reflexivity. }
  unfold parse_line. rewrite E. cbn [bind]. rewrite (read_args (w_args w) _ T rest Ht) by lia. cbn [bind]. rewrite read_call by exact Ha. reflexivity.
Qed.
Definition line_written (w : wline) : Prop := (w_ctl w = None -> w_fun w <> "control"%string) /\ w_start w < length (w_args w).
Lemma read_lines : forall ws fuel (last : bool), ws <> [] -> Forall line_written ws -> length (sep_by semi (map write_line ws) ++ if last then [semi] else []) < fuel ->
  parse_lines fuel (sep_by semi (map write_line ws) ++ if last then [semi] else []) = Ok (map pline_of ws).
Proof.
  induction ws as [|w ws IH]; intros fuel last Hne F Hf; [congruence|]. inversion F as [|? ? (H1 & H2) F']. destruct fuel as [|fuel]; [lia|]. destruct ws as [|w' ws].
  - cbn [map sep_by parse_lines]. rewrite (read_line w _ []); [reflexivity| |exact H1|exact H2]. destruct last; [right; reflexivity|left; split; reflexivity].
  - cbn [map] in *. rewrite sep_cons in * by discriminate. rewrite <- app_assoc in *. cbn [app] in *. cbn [parse_lines].
    set (R := sep_by semi (write_line w' :: map write_line ws) ++ if last then [semi] else []) in *.
    rewrite (read_line w _ R); [|right; reflexivity|exact H1|exact H2]. cbn [bind].
    assert (Hr : R <> []).
    { unfold R. intros E. apply app_eq_nil in E. destruct E as (E & _). assert (X : exists t U, write_line w' = t :: U) by (unfold write_line; destruct (w_ctl w'); cbn [app]; eexists _, _; reflexivity).
      destruct X as (t & U & X). rewrite X in E. destruct ws; discriminate. }
    assert (E : parse_lines fuel R = Ok (pline_of w' :: map pline_of ws)) by (apply (IH fuel last); [discriminate|exact F'|fold R; rewrite app_length in Hf; cbn [length] in Hf; lia]).
    clearbody R. destruct R as [|t R']; [congruence|]. rewrite E. reflexivity.
Qed.
Lemma read_builder : forall b T, Forall (fun t => is_punct ";" t = false) b -> parse_builder (b ++ semi :: T) = (b ++ [semi], T).
Proof.
  induction b as [|t b IH]; intros T F; [reflexivity|]. inversion F as [|? ? H F']. cbn [app parse_builder]. rewrite H, (IH T F'). reflexivity.
Qed.
Lemma read_inputs : forall rs T, parse_inputs (sep_by comma (map (fun r => [TIdent r]) rs) ++ semi :: T) = Ok (rs, T).
Proof.
  induction rs as [|r rs IH]; intros T; [reflexivity|]. destruct rs as [|r' rs]; [reflexivity|]. cbn [map] in *. rewrite sep_cons by discriminate. cbn [app parse_inputs Ascii.eqb]. rewrite IH. reflexivity.
Qed.
Lemma dedup_nodup : forall l, NoDup l -> dedup l = l.
Proof.
  induction l as [|a l IH]; intros N; [reflexivity|]. inversion N as [|? ? Ha N']. cbn [dedup]. rewrite (IH N'). destruct l as [|b l]; [reflexivity|].
  destruct (String.eqb_spec a b) as [->|_]; [exfalso; apply Ha; left; reflexivity|reflexivity].
Qed.
Lemma read_program_lines last b regs ws : Forall (fun t => is_punct ";" t = false) b -> NoDup regs -> ws <> [] -> Forall line_written ws ->
  parse_program (write_prog last (mkWprog b regs ws)) = Ok (mkPprog (b ++ [semi]) regs (map pline_of ws)).
Proof.
  intros Hb N Hl F. unfold parse_program, write_prog. cbn [w_builder w_regs w_lines]. rewrite read_builder by exact Hb. rewrite read_inputs. cbn [bind]. rewrite dedup_nodup, Nat.eqb_refl by exact N. cbn [negb].
  rewrite read_lines; [reflexivity|exact Hl|exact F|lia].
Qed.
Lemma read_program last p : written_ok p -> parse_program (write_prog last p) = Ok (mkPprog (w_builder p ++ [semi]) (w_regs p) (map pline_of (w_lines p))).
Proof.
  intros (Hb & N & Hl & F). destruct p as [b regs ws]. apply read_program_lines; try assumption. eapply Forall_impl; [|exact F]. intros w (H1 & H2 & _). split; [exact H1|]. unfold w_start, controlled_line. destruct (w_ctl w); exact H2.
Qed.

(** *** The generated code *)
Lemma find_nth : forall names r, In r names -> NoDup names -> exists k, find_name names r = Some k /\ nth_error names k = Some r.
Proof.
  intros names r Hin _. unfold find_name. destruct (find (fun i => String.eqb (nth i names EmptyString) r) (seq 0 (length names))) as [k|] eqn:E.
  - exists k. split; [reflexivity|]. apply find_some in E. destruct E as (Hk & E). apply in_seq in Hk. apply String.eqb_eq in E. rewrite <- E. apply nth_error_nth'. lia.
  - exfalso. apply In_nth with (d := EmptyString) in Hin. destruct Hin as (i & Hi & Ei). apply (find_none _ _ E i) in Hi || (assert (X := find_none _ _ E i ltac:(apply in_seq; lia)); cbv beta in X; rewrite Ei, String.eqb_refl in X; discriminate).
Qed.
Section Code.
Context (fn : string -> option (list tok) -> nat -> list reg -> M (list reg)) (ix : tok -> list nat) (mask : list tok -> nat).
Lemma omap_forall2 {A B} (f : A -> option B) (P : A -> B -> Prop) : forall l, Forall (fun a => exists b, f a = Some b /\ P a b) l -> exists bs, omap f l = Some bs /\ Forall2 P l bs.
Proof.
  induction l as [|a l IH]; intros F; [exists []; split; [reflexivity|constructor]|]. inversion F as [|? ? (b & E & H) F']. destruct (IH F') as (bs & E' & H'). exists (b :: bs). cbn [omap]. rewrite E, E'. split; [reflexivity|constructor; assumption].
Qed.
Lemma omap_map {A B C} (f : B -> option C) (g : A -> B) : forall l, omap f (map g l) = omap (fun a => f (g a)) l.
Proof. induction l as [|a l IH]; [reflexivity|]. cbn [map omap]. rewrite IH. reflexivity. Qed.
Lemma line_means names w : NoDup names -> w_start w < length (w_args w) -> Forall (fun a => Forall (fun r => In (fst r) names) (arg_regs a)) (w_args w) ->
  exists l, line_code fn ix mask names (pline_of w) = Some l /\ means_line fn ix mask names w l.
Proof.
  intros N Ha F. unfold line_code, pline_of. cbn [p_control p_bits p_fun p_args p_regs p_call]. fold (w_start w). rewrite map_length.
  destruct (list_eq_dec Nat.eq_dec _ _) as [_|X]; [|exfalso; apply X; reflexivity].
  assert (G : exists gs, omap (omap (arg_code ix names)) (map parg (w_args w)) = Some gs /\ Forall2 (fun a g => Forall2 (means_reg ix names) (arg_regs a) g) (w_args w) gs).
  { rewrite omap_map. apply omap_forall2. eapply Forall_impl; [|exact F]. intros a Fa. unfold parg. rewrite omap_map. apply omap_forall2. eapply Forall_impl; [|exact Fa].
    intros r Hr. destruct (find_nth names (fst r) Hr N) as (k & E & Ek). exists (k, option_map (fun i => ix (TGroup DBracket i)) (snd r)). unfold arg_code, preg. cbn [fst snd]. rewrite E. cbn [option_map].
    split; [destruct (snd r); reflexivity|]. split; [exact Ek|reflexivity]. }
  destruct G as (gs & -> & G). cbn [option_map]. eexists. split; [reflexivity|]. split; [|split; [reflexivity|exact G]]. cbn [l_ctl]. unfold controlled_line. destruct (w_ctl w) as [[b|]|]; reflexivity.
Qed.
Lemma program_means last p : written_ok p ->
  exists q ls, parse_program (write_prog last p) = Ok q /\ program_code fn ix mask q = Some (fun d rs => program d rs ls) /\ Forall2 (means_line fn ix mask (w_regs p)) (w_lines p) ls.
Proof.
  intros W. eexists. rewrite (read_program last p W). destruct W as (Hb & N & Hl & F).
  assert (G : exists ls, omap (line_code fn ix mask (w_regs p)) (map pline_of (w_lines p)) = Some ls /\ Forall2 (means_line fn ix mask (w_regs p)) (w_lines p) ls).
  { rewrite omap_map. apply omap_forall2. eapply Forall_impl; [|exact F]. intros w (_ & H2 & H3). apply line_means; [exact N| |exact H3]. unfold w_start, controlled_line. destruct (w_ctl w); exact H2. }
  destruct G as (ls & E & G). exists ls. split; [reflexivity|]. split; [|exact G]. unfold program_code. cbn [p_inputs p_lines]. destruct (list_eq_dec string_dec _ _) as [_|X]; [rewrite E; reflexivity|].
  exfalso. apply X. apply nodup_fixed_point. exact N.
Qed.
End Code.

(** *** #[invert] *)
Lemma never_tl P t ts : never_before P (t :: ts) -> never_before P ts.
Proof. intros H a s u b E. apply (H (t :: a) s u b). rewrite E. reflexivity. Qed.
Lemma never_hd P s t ts : never_before P (TIdent s :: t :: ts) -> ~ P t.
Proof. intros H. apply (H [] s t ts). reflexivity. Qed.
Lemma attr_idents : forall l, attr_args (sep_by comma (map (fun s => [TIdent s]) l)) = l.
Proof. induction l as [|a l IH]; [reflexivity|]. destruct l as [|b l]; [reflexivity|]. cbn [map] in *. rewrite sep_cons by discriminate. cbn [app attr_args]. rewrite IH. reflexivity. Qed.
Lemma read_attr a : parse_attr (write_attr a) = match a with None => (None, []) | Some (new, skip) => (Some (TIdent new), skip) end.
Proof.
  destruct a as [(new, skip)|]; [|reflexivity]. unfold write_attr. destruct skip as [|s skip]; [reflexivity|]. pose proof (attr_idents (s :: skip)) as E. cbn [map] in *. rewrite sep_cons by discriminate.
  set (R := sep_by _ _) in *. clearbody R. cbn [app]. unfold parse_attr, skip_punct, comma. rewrite E. reflexivity.
Qed.
(** The name is found where it stands. *)
Lemma read_name : forall h s T, never_before paren_or_lt (h ++ [TIdent s]) -> (exists t U, T = t :: U /\ paren_or_lt t) -> find_function (h ++ TIdent s :: T) = (h, Some s, T).
Proof.
  induction h as [|t h IH]; intros s T H HT.
  - destruct HT as (t & U & -> & Pt). cbn [app find_function]. destruct t as [|c j| |d g]; cbn in Pt; try contradiction; [subst c; reflexivity|destruct d; try contradiction; reflexivity].
  - cbn [app] in *. specialize (IH s T (never_tl _ _ _ H) HT). cbn [find_function]. rewrite IH. destruct t as [u| | |]; try reflexivity.
    destruct h as [|v h]; cbn [app] in *; [reflexivity|]. apply never_hd in H. destruct v as [|c j| |d g]; try reflexivity.
    + destruct (Ascii.eqb_spec c "<") as [->|_]; [exfalso; apply H; reflexivity|reflexivity].
    + destruct d; try reflexivity. exfalso. apply H. exact I.
Qed.
Lemma read_fargs_group : forall gen g T, no_group DParen gen -> find_args (gen ++ TGroup DParen g :: T) = (gen ++ [TGroup DParen g], parse_function_args g, T).
Proof.
  induction gen as [|t gen IH]; intros g T H; [reflexivity|]. cbn [app find_args]. assert (H' : no_group DParen gen) by (intros x X; apply (H x); right; exact X). rewrite (IH g T H').
  destruct t as [| | |[]]; try reflexivity. exfalso. eapply H. left. reflexivity.
Qed.
Lemma read_until : forall t b, no_group DBrace t -> until_brace (t ++ [TGroup DBrace b]) = t.
Proof.
  induction t as [|u t IH]; intros b H; [reflexivity|]. cbn [app until_brace]. assert (H' : no_group DBrace t) by (intros x X; apply (H x); right; exact X). rewrite (IH b H').
  destruct u as [| | |[]]; try reflexivity. exfalso. eapply H. left. reflexivity.
Qed.
Lemma pfa_step t ts : (forall s, t = TIdent s -> match ts with u :: _ => u <> colon | [] => True end) -> parse_function_args (t :: ts) = parse_function_args ts.
Proof.
  intros H. destruct t as [s| | |]; try reflexivity. specialize (H s eq_refl). destruct ts as [|[|c [|]| |] ts]; try reflexivity. cbn [parse_function_args].
  destruct (Ascii.eqb_spec c ":") as [->|_]; [exfalso; apply H; reflexivity|reflexivity].
Qed.
Lemma read_type : forall ty T, never_before lone_colon ty -> match T with u :: _ => u <> colon | [] => True end -> parse_function_args (ty ++ T) = parse_function_args T.
Proof.
  induction ty as [|t ty IH]; intros T H HT; [reflexivity|]. cbn [app]. rewrite pfa_step; [apply IH; [eapply never_tl; exact H|exact HT]|].
  intros s ->. destruct ty as [|u ty]; cbn [app]; [exact HT|]. apply never_hd in H. exact H.
Qed.
Lemma read_farg a T : never_before lone_colon (snd a) -> match T with u :: _ => u <> colon | [] => True end -> parse_function_args (write_farg a ++ T) = snd (fst a) :: parse_function_args T.
Proof.
  intros H HT. destruct a as ((m, s), ty). cbn [write_farg fst snd] in *. destruct m; cbn [app].
  - rewrite pfa_step by (intros x _; discriminate). change (parse_function_args (TIdent s :: colon :: ty ++ T)) with (s :: parse_function_args (ty ++ T)). rewrite read_type by assumption. reflexivity.
  - change (parse_function_args (TIdent s :: colon :: ty ++ T)) with (s :: parse_function_args (ty ++ T)). rewrite read_type by assumption. reflexivity.
Qed.
Lemma read_fargs : forall l, Forall (fun a => never_before lone_colon (snd a)) l -> parse_function_args (sep_by comma (map write_farg l)) = map (fun a => snd (fst a)) l.
Proof.
  induction l as [|a l IH]; intros F; [reflexivity|]. inversion F as [|? ? H F']. destruct l as [|b l].
  - cbn [map sep_by]. rewrite <- (app_nil_r (write_farg a)). rewrite read_farg; [reflexivity|exact H|exact I].
  - cbn [map] in *. rewrite sep_cons by discriminate. rewrite read_farg; [|exact H|discriminate]. rewrite pfa_step by (intros s X; discriminate). rewrite (IH F'). reflexivity.
Qed.
Definition new_name (f : wfn) (a : option (string * list string)) : string := match a with Some (new, _) => new | None => (f_name f ++ "_inv")%string end.
Definition skips (a : option (string * list string)) : list string := match a with Some (_, skip) => skip | None => [] end.
Lemma read_fn f a b others : fn_ok f -> map (fun x => snd (fst x)) (f_args f) = b :: others ->
  invert (write_attr a) (write_fn f) = Ok (write_fn f ++ write_sig f (TIdent (new_name f a)),
    mkPinv b (f_name f) (filter (fun s => negb (skipped (skips a) s)) others) (map (fun s => (s, negb (skipped (skips a) s))) others)).
Proof.
  intros (H1 & H2 & H3 & H4 & H5) E. unfold invert. rewrite read_attr.
  assert (EF : write_fn f = f_head f ++ TIdent (f_name f) :: f_generics f ++ TGroup DParen (sep_by comma (map write_farg (f_args f))) :: f_tail f ++ [TGroup DBrace (f_body f)]).
  { unfold write_fn, write_sig. rewrite <- !app_assoc. cbn [app]. rewrite <- !app_assoc. reflexivity. }
  assert (EN : find_function (write_fn f) = (f_head f, Some (f_name f), f_generics f ++ TGroup DParen (sep_by comma (map write_farg (f_args f))) :: f_tail f ++ [TGroup DBrace (f_body f)])).
  { rewrite EF. apply read_name; [exact H1|]. destruct H2 as [->|(g & ->)]; cbn [app]; eexists _, _; (split; [reflexivity|]); [exact I|reflexivity]. }
  rewrite EN.
  rewrite read_fargs_group by exact H3. rewrite read_fargs by exact H4. rewrite E. rewrite read_until by exact H5. unfold write_sig, new_name, skips.
  destruct a as [(new, skip)|]; cbn [idx nth_error bind tl]; do 3 f_equal; rewrite <- !app_assoc; reflexivity.
Qed.
(** An identifier with parentheses before the name, or parentheses in the generics. *)
Lemma misread_head a h u g T : never_before paren_or_lt (h ++ [TIdent u]) -> parse_function_args g = [] -> invert a (h ++ TIdent u :: TGroup DParen g :: T) = Panic PIndex.
Proof.
  intros H E. unfold invert. destruct (parse_attr a) as (nn, sk). rewrite read_name; [|exact H|eexists _, _; split; [reflexivity|exact I]]. cbn [find_args]. rewrite E. reflexivity.
Qed.
Lemma misread_generics a h s gen g T : never_before paren_or_lt (h ++ [TIdent s]) -> no_group DParen gen -> parse_function_args g = [] ->
  invert a (h ++ TIdent s :: TPunct "<" false :: gen ++ TGroup DParen g :: T) = Panic PIndex.
Proof.
  intros H Hg E. unfold invert. destruct (parse_attr a) as (nn, sk). rewrite read_name; [|exact H|eexists _, _; split; [reflexivity|reflexivity]].
  assert (Hg' : no_group DParen (TPunct "<" false :: gen)) by (intros x [X|X]; [discriminate|exact (Hg x X)]).
  pose proof (read_fargs_group (TPunct "<" false :: gen) g T Hg') as X. cbn [app] in X. rewrite X, E. reflexivity.
Qed.
