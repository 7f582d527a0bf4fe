(** Registers named twice in [program!]: C75. *)
From Coq Require Import String Ascii.
From Verif Require Import Base BuilderModel ProgramModel MacroModel MacroSpec MacroProofs.
Local Open Scope nat_scope.
Local Open Scope list_scope.

Lemma dedup_length : forall l, length (dedup l) <= length l.
Proof.
  induction l as [|a l IH]; [reflexivity|]. cbn [dedup]. destruct (dedup l) as [|b r] eqn:E; cbn in *; [lia|]. destruct (String.eqb a b); cbn; lia.
Qed.
Lemma dedup_head a l : exists r, dedup (a :: l) = a :: r.
Proof. cbn [dedup]. destruct (dedup l) as [|b r]; [eauto|]. destruct (String.eqb_spec a b) as [->|]; eauto. Qed.
Lemma dedup_short : forall l1 a l2, length (dedup (l1 ++ a :: a :: l2)) < length (l1 ++ a :: a :: l2).
Proof.
  induction l1 as [|b l1 IH]; intros a l2.
  - cbn [app]. destruct (dedup_head a l2) as (r & E). pose proof (dedup_length (a :: l2)) as L. rewrite E in L. set (l := a :: l2) in *.
    cbn [dedup]. rewrite E, String.eqb_refl. cbn in *. lia.
  - cbn [app]. specialize (IH a l2). set (l := l1 ++ a :: a :: l2) in *. cbn [dedup]. destruct (dedup l) as [|c r]; cbn in *; [|destruct (String.eqb b c); cbn]; lia.
Qed.
(** *** C75: a register that is listed twice in a row stops the macro with its message. *)
Theorem C75_repeated_panics : forall b before r after T, Forall (fun t => is_punct ";" t = false) b ->
  parse_program (b ++ semi :: sep_by comma (map (fun r => [TIdent r]) (before ++ r :: r :: after)) ++ semi :: T) = Panic PAssert.
Proof.
  intros b before r after T Hb. unfold parse_program. rewrite read_builder by exact Hb. rewrite read_inputs. cbn [bind]. pose proof (dedup_short before r after) as L.
  destruct (Nat.eqb_spec (length (before ++ r :: r :: after)) (length (dedup (before ++ r :: r :: after)))) as [E|E]; [lia|reflexivity].
Qed.
Print Assumptions C75_repeated_panics.
(** Listed twice with another register between, it passes the macro's check, whatever the lines. *)
Theorem C75_repeated_unnoticed_refuted : forall b r r' T, Forall (fun t => is_punct ";" t = false) b -> r <> r' ->
  parse_program (b ++ semi :: sep_by comma (map (fun r => [TIdent r]) [r; r'; r]) ++ semi :: T) =
  bind (parse_lines (S (length T)) T) (fun ls => Ok (mkPprog (b ++ [semi]) [r; r'; r] ls)).
Proof.
  intros b r r' T Hb Hr. unfold parse_program. rewrite read_builder by exact Hb. rewrite read_inputs. cbn [bind dedup].
  destruct (String.eqb_spec r' r) as [E|_]; [congruence|]. destruct (String.eqb_spec r r') as [E|_]; [congruence|]. reflexivity.
Qed.
Print Assumptions C75_repeated_unnoticed_refuted.
(** No program that lists a register twice is ever run: what the macro lets through, rustc rejects. *)
Theorem C75_repeated_never_runs : forall fn ix mask b regs T q, Forall (fun t => is_punct ";" t = false) b -> ~ NoDup regs ->
  parse_program (b ++ semi :: sep_by comma (map (fun r => [TIdent r]) regs) ++ semi :: T) = Ok q -> program_code fn ix mask q = None.
Proof.
  intros fn ix mask b regs T q Hb N E. unfold parse_program in E. rewrite read_builder in E by exact Hb. rewrite read_inputs in E. cbn [bind] in E.
  destruct (negb (length regs =? length (dedup regs))); [discriminate|]. destruct (parse_lines (S (length T)) T) as [ls| |]; [|discriminate|discriminate]. cbn [bind] in E. injection E as <-.
  unfold program_code. cbn [p_inputs]. destruct (list_eq_dec string_dec (nodup string_dec regs) regs) as [X|X]; [|reflexivity]. exfalso. apply N. rewrite <- X. apply NoDup_nodup.
Qed.
Print Assumptions C75_repeated_never_runs.
Example C75_repeated_example : exists q, parse_program ([TIdent "b"] ++ semi :: sep_by comma (map (fun r => [TIdent r]) ["ra"; "rb"; "ra"]%string) ++ semi :: [TIdent "f"; TIdent "ra"]) = Ok q /\
  parse_program ([TIdent "b"] ++ semi :: sep_by comma (map (fun r => [TIdent r]) ["rb"; "ra"; "ra"]%string) ++ semi :: [TIdent "f"; TIdent "ra"]) = Panic PAssert.
Proof. eexists. split; reflexivity. Qed.
