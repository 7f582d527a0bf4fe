(** The macros [program!] and [#[invert]]: C75 and C76. *)
From Coq Require Import String Ascii.
From Verif Require Import Base BuilderModel ProgramModel MacroModel MacroSpec MacroProofs.
Local Open Scope nat_scope.
Local Open Scope list_scope.

(** *** C75: program! runs the program that is written *)
(** Every program written as documented is accepted, and the generated code runs its lines in
    order, each with the function, control, mask, registers and indices that are written. *)
Theorem C75_program_means : forall fn ix mask last p, written_ok p ->
  exists q ls, parse_program (write_prog last p) = Ok q /\ program_code fn ix mask q = Some (fun d rs => program d rs ls) /\ Forall2 (means_line fn ix mask (w_regs p)) (w_lines p) ls.
Proof. apply program_means. Qed.
Print Assumptions C75_program_means.
(** The macro always comes to an end. *)
Theorem C75_terminates : forall ts, parse_program ts <> Panic PFuel.
Proof. apply parse_program_fuel. Qed.
Print Assumptions C75_terminates.
(** Groups inside groups are rejected, unless they hold one register. *)
Lemma read_nested fuel d before rs after T : length rs <> 1 -> tsizes [TGroup d (sep_by comma (map write_reg before ++ [TGroup DBracket (sep_by comma (map write_reg rs))] :: map write_reg after))] < fuel ->
  parse_list_of_registers fuel (TGroup d (sep_by comma (map write_reg before ++ [TGroup DBracket (sep_by comma (map write_reg rs))] :: map write_reg after)) :: T) = Panic PAssert.
Proof.
  intros Hr Hf. rewrite tsizes_group in Hf. destruct fuel as [|fuel]; [lia|]. cbn [parse_list_of_registers].
  assert (E : exists gs, parse_list_of_registers fuel (sep_by comma (map write_reg before ++ [TGroup DBracket (sep_by comma (map write_reg rs))] :: map write_reg after)) = Ok (gs, []) /\ In (map preg rs) gs).
  { assert (X : map write_reg before ++ [TGroup DBracket (sep_by comma (map write_reg rs))] :: map write_reg after = map write_arg (map WOne before ++ WMany rs :: map WOne after)) by (rewrite map_app; cbn [map]; rewrite !map_map; reflexivity).
    rewrite X in *. exists (map parg (map WOne before ++ WMany rs :: map WOne after)). split.
    - rewrite <- (app_nil_r (sep_by comma (map write_arg _))). apply read_args; [left; split; reflexivity|]. rewrite app_nil_r. lia.
    - rewrite map_app. apply in_or_app. right. left. reflexivity. }
  destruct E as (gs & -> & Hin). cbn [bind]. match goal with |- context [forallb ?f gs] => destruct (forallb f gs) eqn:Ef end; [|reflexivity].
  exfalso. rewrite forallb_forall in Ef. specialize (Ef _ Hin). rewrite map_length in Ef. apply Nat.eqb_eq in Ef. exact (Hr Ef).
Qed.
Theorem C75_nested_groups_panic : forall b regs f d before rs after T, Forall (fun t => is_punct ";" t = false) b -> NoDup regs -> f <> "control"%string -> d <> DParen -> length rs <> 1 ->
  parse_program (b ++ semi :: sep_by comma (map (fun r => [TIdent r]) regs) ++ semi :: TIdent f ::
    TGroup d (sep_by comma (map write_reg before ++ [TGroup DBracket (sep_by comma (map write_reg rs))] :: map write_reg after)) :: T) = Panic PAssert.
Proof.
  intros b regs f d before rs after T Hb N Hf Hd Hr. unfold parse_program. rewrite read_builder by exact Hb. rewrite read_inputs. cbn [bind]. rewrite dedup_nodup, Nat.eqb_refl by exact N. cbn [negb].
  assert (E : forall fuel G, (forall k, tsizes [G] < k -> parse_list_of_registers k (G :: T) = Panic PAssert) -> (exists g, G = TGroup d g) -> parse_lines (S fuel) (TIdent f :: G :: T) = Panic PAssert).
  { intros fuel G H (g & ->). cbn [parse_lines]. unfold parse_line. cbn [parse_head]. destruct (String.eqb_spec f "control") as [X|_]; [contradiction|].
    assert (P : parse_arguments (TGroup d g :: T) = (None, TGroup d g :: T)) by (destruct d; [congruence|reflexivity|reflexivity|reflexivity]). rewrite P. cbn [bind]. rewrite H; [reflexivity|]. rewrite !(tsizes_cons (TGroup d g)). change (tsizes []) with 0. lia. }
  rewrite E; [reflexivity| |eexists; reflexivity]. intros k Hk. apply read_nested; assumption.
Qed.
Print Assumptions C75_nested_groups_panic.
(** A program needs a line. *)
Theorem C75_no_lines_panics : forall b regs, Forall (fun t => is_punct ";" t = false) b -> NoDup regs ->
  parse_program (b ++ semi :: sep_by comma (map (fun r => [TIdent r]) regs) ++ [semi]) = Panic PUnderflow.
Proof.
  intros b regs Hb N. unfold parse_program. rewrite read_builder by exact Hb. rewrite read_inputs. cbn [bind]. rewrite dedup_nodup, Nat.eqb_refl by exact N. reflexivity.
Qed.
Print Assumptions C75_no_lines_panics.
(** Not everything that is not documented is rejected: what stands behind a semicolon inside a
    group, whatever it is, is dropped without a word. *)
Lemma read_dropped : forall rs fuel junk, tsizes (sep_by comma (map write_reg rs) ++ semi :: junk) < fuel -> exists rest, parse_list_of_registers fuel (sep_by comma (map write_reg rs) ++ semi :: junk) = Ok (map (fun r => [preg r]) rs, rest).
Proof.
  intros rs fuel junk Hf. exists junk. replace (map write_reg rs) with (map write_arg (map WOne rs)) in * by (rewrite map_map; reflexivity).
  rewrite (read_args (map WOne rs) fuel (semi :: junk) junk); [|right; reflexivity|exact Hf]. rewrite map_map. reflexivity.
Qed.
Theorem C75_semicolon_refuted : forall b regs f rs junk args, Forall (fun t => is_punct ";" t = false) b -> NoDup regs -> f <> "control"%string -> args <> [] ->
  exists q, parse_program (b ++ semi :: sep_by comma (map (fun r => [TIdent r]) regs) ++ semi :: TIdent f :: TGroup DBracket (sep_by comma (map write_reg rs) ++ semi :: junk) :: comma :: sep_by comma (map write_arg args)) = Ok q /\
    parse_program (write_prog false (mkWprog b regs [mkWline None f None (WMany rs :: args)])) = Ok q.
Proof.
  intros b regs f rs junk args Hb N Hf Ha. destruct args as [|a args]; [congruence|].
  set (w := mkWline None f None (WMany rs :: a :: args)). exists (mkPprog (b ++ [semi]) regs [pline_of w]). split.
  - unfold parse_program. rewrite read_builder by exact Hb. rewrite read_inputs. cbn [bind]. rewrite dedup_nodup, Nat.eqb_refl by exact N. cbn [negb]. 
    set (inner := sep_by comma (map write_reg rs) ++ semi :: junk) in *. set (az := sep_by comma (map write_arg (a :: args))) in *.
    set (k := length _). assert (E : parse_lines (S k) (TIdent f :: TGroup DBracket inner :: comma :: az) = Ok [pline_of w]).
    { cbn [parse_lines]. unfold parse_line. cbn [parse_head]. destruct (String.eqb_spec f "control") as [X|_]; [contradiction|]. cbn [parse_arguments bind].
      rewrite tsizes_cons. cbn [parse_list_of_registers]. destruct (read_dropped rs (tsize (TGroup DBracket inner) + tsizes (comma :: az)) junk) as (rest & Er).
      { fold inner. cbn [tsize]. change (list_sum (map tsize inner)) with (tsizes inner). lia. }
      fold inner in Er. rewrite Er. cbn [bind]. rewrite forallb_single, concat_single. rewrite tsizes_cons. cbn [tsize comma Nat.add].
      assert (Ea : forall n, tsizes az < n -> parse_list_of_registers n az = Ok (map parg (a :: args), [])).
      { intros n Hn. rewrite <- (app_nil_r az). apply read_args; [left; split; reflexivity|]. fold az. rewrite app_nil_r. exact Hn. }
      replace (S (list_sum (map tsize inner)) + S (tsizes az)) with (S (S (list_sum (map tsize inner) + tsizes az))) by lia.
      unfold comma. rewrite read_comma. rewrite Ea by lia. cbn [bind]. change (map preg rs :: map parg (a :: args)) with (map parg (w_args w)).
      change false with (controlled_line w). rewrite (read_call w) by (cbn; lia). cbn [bind]. reflexivity. }
    rewrite E. reflexivity.
  - apply (read_program_lines false b regs [w]); try assumption; [discriminate|]. apply Forall_cons; [split; [intros _; exact Hf|cbn; lia]|apply Forall_nil].
Qed.
Print Assumptions C75_semicolon_refuted.

Local Open Scope string_scope.
Definition num (s : string) : list tok := [TLit s].
(** [gamma [ra[0], rb[0]], ra[2]; control(0b110) gamma(true) rb, ra[0..2], ra[2]] as written in the README. *)
Definition ex_prog : wprog := mkWprog [TPunct "&" false; TIdent "mut"; TIdent "b"] ["ra"; "rb"]
  [mkWline None "gamma" None [WMany [("ra", Some (num "0")); ("rb", Some (num "0"))]; WOne ("ra", Some (num "2"))];
   mkWline (Some (Some (num "0b110"))) "gamma" (Some [TIdent "true"]) [WOne ("rb", None); WOne ("ra", Some [TLit "0"; TPunct "." true; TPunct "." false; TLit "2"]); WOne ("ra", Some (num "2"))]].
Definition ex_ix (t : tok) : list nat :=
  match t with TGroup DBracket [TLit s] => if String.eqb s "0" then [0] else [2] | _ => [0; 1] end.
Example C75_example : forall fn, written_ok ex_prog /\
  exists q, parse_program (write_prog true ex_prog) = Ok q /\
    program_code fn ex_ix (fun _ => 6) q = Some (fun d rs => program d rs
      [mkLine None (fn "gamma" None) [[(0, Some [0]); (1, Some [0])]; [(0, Some [2])]];
       mkLine (Some (Some 6)) (fn "gamma" (Some [TIdent "true"])) [[(1, None)]; [(0, Some [0; 1])]; [(0, Some [2])]]]).
Proof.
  intros fn. split.
  - repeat split; cbn.
    + repeat constructor.
    + repeat constructor; cbn; intuition discriminate.
    + discriminate.
    + repeat (apply Forall_cons || apply Forall_nil); (split; [intros X Y; discriminate|split; [cbn; lia|]]); repeat (apply Forall_cons || apply Forall_nil); cbn; auto.
  - eexists. split; reflexivity.
Qed.
(** [gamma [ra[0]; rb[0]], ra[2]] is taken as [gamma [ra[0]], ra[2]]. *)
Example C75_semicolon_example : exists q, parse_program
    (w_builder ex_prog ++ semi :: [TIdent "ra"; comma; TIdent "rb"; semi; TIdent "gamma"; TGroup DBracket [TIdent "ra"; TGroup DBracket (num "0"); semi; TIdent "rb"; TGroup DBracket (num "0")]; comma; TIdent "ra"; TGroup DBracket (num "2")])%list = Ok q /\
  p_lines q = [mkPline false None "gamma" None [[("ra", Some (TGroup DBracket (num "0")))]; [("ra", Some (TGroup DBracket (num "2")))]] [0; 1]].
Proof. eexists. split; reflexivity. Qed.

(** *** C76: #[invert] *)
(** For a function written as documented the macro keeps it and adds a function of the new name
    with the same signature, whose body inverts a call of the original: the builder and the
    function are named right, the registers are the arguments not listed, in order, and the
    listed arguments are passed on. *)
Theorem C76_invert_means : forall f a b others fn, fn_ok f -> map (fun x => snd (fst x)) (f_args f) = b :: others ->
  let skip := match a with Some (_, skip) => skip | None => [] end in
  exists p, invert (write_attr a) (write_fn f) = Ok (write_fn f ++ write_sig f (TIdent (match a with Some (new, _) => new | None => f_name f ++ "_inv" end)), p)%list /\
    i_builder p = b /\ map fst (i_call p) = others /\ (forall s t, In (s, t) (i_call p) -> (t = true <-> ~ In s skip)) /\ i_regs p = map fst (filter snd (i_call p)) /\
    exists given, (forall s, In s given <-> In s others /\ In s skip) /\ forall d rs, invert_code fn p d rs = inv_macro d rs (fn (f_name f) given 0).
Proof.
  intros f a b others fn H E skip. rewrite (read_fn f a b others H E). eexists. split; [destruct a as [(?, ?)|]; reflexivity|].
  assert (Es : skips a = skip) by (unfold skips, skip; destruct a as [(?, ?)|]; reflexivity). rewrite Es. cbn [i_builder i_fun i_regs i_call]. split; [reflexivity|]. split; [|split; [|split]].
  - rewrite map_map. apply map_id.
  - intros s t X. apply in_map_iff in X. destruct X as (s' & X & _). injection X as <- <-. unfold skipped. destruct (in_dec string_dec s' skip) as [I|I]; cbn; split; intros; try discriminate; try contradiction; auto.
  - clear. induction others as [|o others IH]; [reflexivity|]. cbn [filter map snd]. destruct (negb (skipped skip o)); cbn [map fst]; congruence.
  - eexists. split; [|intros d rs; reflexivity]. intros s. cbn [i_call]. rewrite in_map_iff. split.
    + intros ((s', t) & <- & X). apply filter_In in X. destruct X as (X & Y). apply in_map_iff in X. destruct X as (s & X & I). injection X as <- <-. cbn [fst snd] in *. rewrite negb_involutive in Y.
      split; [exact I|]. unfold skipped in Y. destruct (in_dec string_dec s skip); [assumption|discriminate].
    + intros (I & K). exists (s, negb (skipped skip s)). split; [reflexivity|]. apply filter_In. split; [apply (in_map (fun s => (s, negb (skipped skip s)))); exact I|].
      cbn [snd]. rewrite negb_involutive. unfold skipped. destruct (in_dec string_dec s skip); [reflexivity|contradiction].
Qed.
Print Assumptions C76_invert_means.
(** A function with a restricted visibility, as in [pub(crate) fn f], makes the macro panic. *)
Theorem C76_visibility_refuted : forall attr before g T, never_before paren_or_lt (before ++ [TIdent "pub"])%list -> g = [TIdent "crate"] \/ g = [TIdent "super"] \/ g = [TIdent "self"] ->
  invert attr (before ++ TIdent "pub" :: TGroup DParen g :: T)%list = Panic PIndex.
Proof. intros attr before g T H G. apply misread_head; [exact H|]. destruct G as [->|[->| ->]]; reflexivity. Qed.
Print Assumptions C76_visibility_refuted.
(** So does a bound with parentheses among the generics, as in [fn f<F: Fn(usize) -> usize>(..)]. *)
Theorem C76_generics_refuted : forall attr f gen args T, never_before paren_or_lt (f_head f ++ [TIdent (f_name f)])%list -> no_group DParen gen -> never_before lone_colon args ->
  f_generics f = (TPunct "<" false :: gen ++ TGroup DParen args :: T)%list -> invert attr (write_fn f) = Panic PIndex.
Proof.
  intros attr f gen args T H Hg Ha E. unfold write_fn, write_sig. rewrite E. rewrite <- !app_assoc. cbn [app]. rewrite <- !app_assoc. cbn [app]. apply misread_generics; [exact H|exact Hg|].
  rewrite <- (app_nil_r args). rewrite read_type; [reflexivity|exact Ha|exact I].
Qed.
Print Assumptions C76_generics_refuted.
(** [#[doc] pub fn gamma<B>(b: &mut B, skip: bool, mut ra: B::Register) -> R where B: T { .. }] with [#[invert(gamma_inv, skip)]]. *)
Definition ex_fn : wfn := mkWfn [TPunct "#" false; TGroup DBracket [TIdent "doc"]; TIdent "pub"; TIdent "fn"] "gamma" [TPunct "<" false; TIdent "B"; TPunct ">" false]
  [(false, "b", [TPunct "&" false; TIdent "mut"; TIdent "B"]); (false, "skip", [TIdent "bool"]); (true, "ra", [TIdent "B"; TPunct ":" true; TPunct ":" false; TIdent "Register"])]
  [TPunct "-" true; TPunct ">" false; TIdent "R"; TIdent "where"; TIdent "B"; colon; TIdent "T"] [TIdent "todo"].
Ltac no_before := let E := fresh in intros ? ? ? ? E; repeat match type of E with _ = (?a ++ _)%list => destruct a; cbn [app] in E; [try discriminate E; injection E as; subst; cbn; try congruence; try tauto|try discriminate E; injection E as _ E] end.
Example C76_example : fn_ok ex_fn /\ exists p, invert (write_attr (Some ("gamma_inv", ["skip"]))) (write_fn ex_fn) = Ok (write_fn ex_fn ++ write_sig ex_fn (TIdent "gamma_inv"), p)%list /\
  p = mkPinv "b" "gamma" ["ra"] [("skip", false); ("ra", true)].
Proof.
  split.
  - unfold fn_ok, ex_fn. cbn [f_head f_name f_generics f_args f_tail app]. split; [|split; [|split; [|split]]].
    + no_before.
    + right. eexists. reflexivity.
    + intros g X. cbn in X. intuition discriminate.
    + repeat apply Forall_cons; try apply Forall_nil; cbn [snd]; no_before; unfold lone_colon, colon; congruence.
    + intros g X. cbn in X. intuition discriminate.
  - eexists. split; reflexivity.
Qed.
Example C76_refuted_example : invert [] (TIdent "pub" :: TGroup DParen [TIdent "crate"] :: write_fn ex_fn) = Panic PIndex.
Proof. reflexivity. Qed.
