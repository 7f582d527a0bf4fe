(** How programs and functions are written (README.md, "The Program Macro" and "The Invert
    Macro"), and what is meant by them. *)
From Coq Require Import String Ascii.
From Verif Require Import Base BuilderModel ProgramModel MacroModel.
Local Open Scope nat_scope.
Local Open Scope string_scope.

Definition comma : tok := TPunct "," false.
Definition semi : tok := TPunct ";" false.
Definition colon : tok := TPunct ":" false.
Fixpoint sep_by {A} (s : A) (l : list (list A)) : list A :=
  match l with [] => [] | [a] => a | a :: l' => (a ++ s :: sep_by s l')%list end.

(** A register, whole or with an index expression in brackets: [ra], [ra[0..2]]. *)
Definition wreg := (string * option (list tok))%type.
(** An argument: a register, or several in brackets: [[ra[0], rb[0]]]. *)
Inductive warg := WOne (r : wreg) | WMany (rs : list wreg).
(** A line: [control(bits) f(extra) args;]. *)
Record wline := mkWline { w_ctl : option (option (list tok)); w_fun : string; w_extra : option (list tok); w_args : list warg }.
(** [program!(builder; registers; lines)] *)
Record wprog := mkWprog { w_builder : list tok; w_regs : list string; w_lines : list wline }.

Definition write_reg (r : wreg) : list tok := TIdent (fst r) :: match snd r with None => [] | Some i => [TGroup DBracket i] end.
Definition write_arg (a : warg) : list tok :=
  match a with WOne r => write_reg r | WMany rs => [TGroup DBracket (sep_by comma (map write_reg rs))] end.
Definition write_opt (o : option (list tok)) : list tok := match o with None => [] | Some g => [TGroup DParen g] end.
Definition write_line (l : wline) : list tok :=
  (match w_ctl l with None => [] | Some bits => TIdent "control" :: write_opt bits end ++ TIdent (w_fun l) :: write_opt (w_extra l) ++ sep_by comma (map write_arg (w_args l)))%list.
(** [last]: whether the last line has its semicolon too. *)
Definition write_prog (last : bool) (p : wprog) : list tok :=
  (w_builder p ++ semi :: sep_by comma (map (fun r => [TIdent r]) (w_regs p)) ++ semi :: sep_by semi (map write_line (w_lines p)) ++ if last then [semi] else [])%list.

(** What is meant. *)
Definition arg_regs (a : warg) : list wreg := match a with WOne r => [r] | WMany rs => rs end.
Section Meaning.
Context (fn : string -> option (list tok) -> nat -> list reg -> M (list reg)) (ix : tok -> list nat) (mask : list tok -> nat).
(** [k] is where the name stands among the names of the registers. *)
Definition means_reg (names : list string) (r : wreg) (a : arg) : Prop :=
  nth_error names (fst a) = Some (fst r) /\ snd a = option_map (fun i => ix (TGroup DBracket i)) (snd r).
Definition means_line (names : list string) (w : wline) (l : line) : Prop :=
  l_ctl l = option_map (option_map mask) (w_ctl w) /\ l_fun l = fn (w_fun w) (w_extra w) /\
  Forall2 (fun a g => Forall2 (means_reg names) (arg_regs a) g) (w_args w) (l_args l).
End Meaning.

(** Written as documented: the builder expression has no semicolon of its own, the registers
    have different names, there is a line, a function named [control] is not called without
    [control], every line names known registers and has a register besides the condition. *)
Definition written_ok (p : wprog) : Prop :=
  Forall (fun t => is_punct ";" t = false) (w_builder p) /\ NoDup (w_regs p) /\ w_lines p <> [] /\
  Forall (fun l => (w_ctl l = None -> w_fun l <> "control") /\ (match w_ctl l with None => 0 | Some _ => 1 end) < length (w_args l) /\
    Forall (fun a => Forall (fun r => In (fst r) (w_regs p)) (arg_regs a)) (w_args l)) (w_lines p).

(** *** A function with [#[invert]]
    [head fn name generics (arguments) tail { body }], the first argument being the builder. *)
Record wfn := mkWfn { f_head : list tok; f_name : string; f_generics : list tok; f_args : list (bool * string * list tok); f_tail : list tok; f_body : list tok }.
(** [mut name : type] *)
Definition write_farg (a : bool * string * list tok) : list tok :=
  let '(m, s, ty) := a in ((if m then [TIdent "mut"] else []) ++ TIdent s :: colon :: ty)%list.
Definition write_sig (f : wfn) (name : tok) : list tok :=
  (f_head f ++ name :: f_generics f ++ TGroup DParen (sep_by comma (map write_farg (f_args f))) :: f_tail f)%list.
Definition write_fn (f : wfn) : list tok := (write_sig f (TIdent (f_name f)) ++ [TGroup DBrace (f_body f)])%list.
(** No identifier of [ts] is directly followed by a token that satisfies [P]; [next] is the
    token behind [ts]. *)
Definition paren_or_lt (t : tok) : Prop := match t with TGroup DParen _ => True | TPunct c _ => c = "<"%char | _ => False end.
Definition lone_colon (t : tok) : Prop := t = colon.
Definition never_before (P : tok -> Prop) (ts : list tok) : Prop := forall a s t b, ts = (a ++ TIdent s :: t :: b)%list -> ~ P t.
Definition no_group (d : delim) (ts : list tok) : Prop := forall g, ~ In (TGroup d g) ts.
(** A function the macro is documented for: no identifier before the name is followed by a
    parenthesis or [<], the generics start with [<] and hold no parentheses, the types have no
    bounds written with a colon, and the body is the first group in braces after the arguments. *)
Definition fn_ok (f : wfn) : Prop :=
  never_before paren_or_lt (f_head f ++ [TIdent (f_name f)])%list /\
  (f_generics f = [] \/ exists g, f_generics f = TPunct "<" false :: g) /\ no_group DParen (f_generics f) /\
  Forall (fun a => never_before lone_colon (snd a)) (f_args f) /\ no_group DBrace (f_tail f).
(** [#[invert]], [#[invert(new)]], [#[invert(new, skip, ...)]] *)
Definition write_attr (a : option (string * list string)) : list tok :=
  match a with None => [] | Some (new, skip) => sep_by comma (map (fun s => [TIdent s]) (new :: skip)) end.
