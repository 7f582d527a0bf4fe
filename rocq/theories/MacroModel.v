(** The procedural macros [program!] and [#[invert]] (qip-macros/src/lib.rs) as functions on
    token trees.

    Simplified: spans are left out; a literal is its text; an explicit [panic!] is [PAssert];
    register groups and index groups, which the code keeps in two vectors of the same shape, are
    kept as one list of pairs; the text of the generated code is not spelled out: [pprog] and
    [pinv] hold the names and token streams that the format strings are filled with, and
    [program_code] and [invert_code] say what the filled-in text does in terms of
    ProgramModel.v and BuilderModel.v. *)
From Coq Require Import String Ascii.
From Verif Require Import Base BuilderModel ProgramModel.
Local Open Scope nat_scope.
Local Open Scope res_scope.

(** proc_macro::{Delimiter, TokenTree}.  [joint] is [Spacing::Joint]. *)
Inductive delim := DParen | DBrace | DBracket | DNone.
Inductive tok := TIdent (s : string) | TPunct (c : ascii) (joint : bool) | TLit (s : string) | TGroup (d : delim) (ts : list tok).

(** The number of tokens, at all levels; only used as fuel. *)
Fixpoint tsize (t : tok) : nat := match t with TGroup _ ts => S (list_sum (map tsize ts)) | _ => 1 end.
Definition tsizes (ts : list tok) : nat := list_sum (map tsize ts).

Definition is_punct (c : ascii) (t : tok) : bool := match t with TPunct c' _ => Ascii.eqb c' c | _ => false end.

(** lib.rs:10-35 *)
Definition parse_register_and_indices (ts : list tok) : res (string * option tok * list tok) :=
  match ts with
  | TIdent s :: rest =>
      match rest with
      | [] => Ok (s, None, [])
      | t :: rest' => if is_punct ";" t || is_punct "," t then Ok (s, None, rest) else Ok (s, Some t, rest')
      end
  | _ => Panic PAssert
  end.

(** One argument of a line: a group of registers with indices. *)
Definition pgroup := list (string * option tok).
(** lib.rs:37-88; [fuel] bounds the loop and the recursion together.  What follows a [;] inside
    a group is dropped with the iterator of the group. *)
Fixpoint parse_list_of_registers (fuel : nat) (ts : list tok) : res (list pgroup * list tok) :=
  match fuel with
  | 0 => Panic PFuel
  | S fuel =>
      match ts with
      | [] => Ok ([], [])
      | TGroup _ inner :: rest =>
          '(sub, _) <- parse_list_of_registers fuel inner ;;
          if forallb (fun g => length g =? 1) sub then
            '(gs, rest) <- parse_list_of_registers fuel rest ;; Ok (concat sub :: gs, rest)
          else Panic PAssert
      | TPunct c _ :: rest =>
          if Ascii.eqb c "," then parse_list_of_registers fuel rest
          else if Ascii.eqb c ";" then Ok ([], rest)
          else Panic PAssert
      | TIdent _ :: _ =>
          '(r, i, rest) <- parse_register_and_indices ts ;;
          '(gs, rest) <- parse_list_of_registers fuel rest ;; Ok ([(r, i)] :: gs, rest)
      | TLit _ :: _ => Panic PAssert
      end
  end.

(** lib.rs:153-159, 174-180, 197-204: the arguments that may follow a function name. *)
Definition parse_arguments (ts : list tok) : option (list tok) * list tok :=
  match ts with TGroup DParen g :: rest => (Some g, rest) | _ => (None, ts) end.
(** lib.rs:140-143, the state of one pass of the loop.  [p_call]: which registers the function is
    called with. *)
Record pline := mkPline { p_control : bool; p_bits : option (list tok); p_fun : string; p_args : option (list tok); p_regs : list pgroup; p_call : list nat }.
Definition phead := (bool * option (list tok) * string * option (list tok))%type.
(** lib.rs:145-211 *)
Definition parse_head (ts : list tok) : res (phead * list tok) :=
  match ts with
  | [] => Ok (false, None, EmptyString, None, [])
  | TIdent f :: rest =>
      if String.eqb f "control" then
        match rest with
        | [] => Ok (true, None, EmptyString, None, [])
        | TIdent f :: rest => let '(a, rest) := parse_arguments rest in Ok (true, None, f, a, rest)
        | TGroup _ bits :: rest =>
            match rest with
            | [] => Ok (true, Some bits, EmptyString, None, [])
            | TIdent f :: rest => let '(a, rest) := parse_arguments rest in Ok (true, Some bits, f, a, rest)
            | _ => Panic PAssert
            end
        | _ => Panic PAssert
        end
      else let '(a, rest) := parse_arguments rest in Ok (false, None, f, a, rest)
  | _ => Panic PAssert
  end.
(** lib.rs:265-286: the registers in the generated call. *)
Definition call_registers (control : bool) (n : nat) : res (list nat) :=
  let start := if control then 1 else 0 in
  if n <? start then Panic PIndex
  else if n - start =? 1 then Ok [start]
  else last <- chk_sub n 1 ;; Ok (seq start (last - start) ++ [last]).
(** lib.rs:139-324: one pass of the loop. *)
Definition parse_line (ts : list tok) : res (pline * list tok) :=
  '(control, bits, f, a, rest) <- parse_head ts ;;
  '(gs, rest) <- parse_list_of_registers (S (tsizes rest)) rest ;;
  call <- call_registers control (length gs) ;;
  Ok (mkPline control bits f a gs call, rest).

(** lib.rs:139 and 321-324: the loop ends when no token is left after a line. *)
Fixpoint parse_lines (fuel : nat) (ts : list tok) : res (list pline) :=
  match fuel with
  | 0 => Panic PFuel
  | S fuel =>
      '(l, rest) <- parse_line ts ;;
      match rest with [] => Ok [l] | _ => ls <- parse_lines fuel rest ;; Ok (l :: ls) end
  end.
(** lib.rs:97-106: the builder expression, with its [;]. *)
Fixpoint parse_builder (ts : list tok) : list tok * list tok :=
  match ts with
  | [] => ([], [])
  | t :: rest => if is_punct ";" t then ([t], rest) else let '(b, rest) := parse_builder rest in (t :: b, rest)
  end.
(** lib.rs:108-122 *)
Fixpoint parse_inputs (ts : list tok) : res (list string * list tok) :=
  match ts with
  | [] => Ok ([], [])
  | TPunct c _ :: rest => if Ascii.eqb c ";" then Ok ([], rest) else if Ascii.eqb c "," then parse_inputs rest else Panic PAssert
  | TIdent s :: rest => '(l, rest) <- parse_inputs rest ;; Ok (s :: l, rest)
  | _ => Panic PAssert
  end.
(** Vec::dedup: equal neighbours become one. *)
Fixpoint dedup (l : list string) : list string :=
  match l with
  | [] => []
  | a :: l' => match dedup l' with [] => [a] | b :: r => if String.eqb a b then b :: r else a :: b :: r end
  end.
Record pprog := mkPprog { p_builder : list tok; p_inputs : list string; p_lines : list pline }.
(** lib.rs:92-354 *)
Definition parse_program (ts : list tok) : res pprog :=
  let '(b, rest) := parse_builder ts in
  '(inputs, rest) <- parse_inputs rest ;;
  if negb (length inputs =? length (dedup inputs)) then Panic PAssert
  else ls <- parse_lines (S (length rest)) rest ;; Ok (mkPprog b inputs ls).

(** *** The generated code of [program!]
    [fn f a] is the function called by the name [f] with the extra arguments [a], [ix t] is the
    value of the index expression [t] (program.rs:24-65: an array, a range or a range in
    brackets are the list of their members), [mask t] the value of a mask expression.  [None]
    if rustc rejects the text: an input register named twice is moved twice, an unknown register
    has no value, and the call needs at least one register that was not moved into the
    condition. *)
Definition find_name (names : list string) (r : string) : option nat := find (fun i => String.eqb (nth i names EmptyString) r) (seq 0 (length names)).
Fixpoint omap {A B} (f : A -> option B) (l : list A) : option (list B) :=
  match l with [] => Some [] | a :: l' => match f a, omap f l' with Some b, Some bs => Some (b :: bs) | _, _ => None end end.
Section Code.
Context (fn : string -> option (list tok) -> nat -> list reg -> M (list reg)) (ix : tok -> list nat) (mask : list tok -> nat).
(** lib.rs:222-228 *)
Definition arg_code (names : list string) (p : string * option tok) : option arg :=
  option_map (fun k => (k, option_map ix (snd p))) (find_name names (fst p)).
(** lib.rs:216-319 *)
Definition line_code (names : list string) (l : pline) : option line :=
  let start := if p_control l then 1 else 0 in
  if list_eq_dec Nat.eq_dec (p_call l) (seq start (length (p_regs l) - start)) then
    option_map (fun gs => mkLine (if p_control l then Some (option_map mask (p_bits l)) else None) (fn (p_fun l) (p_args l)) gs) (omap (omap (arg_code names)) (p_regs l))
  else None.
Definition program_code (p : pprog) : option (nat -> list reg -> M (list reg)) :=
  if list_eq_dec string_dec (nodup string_dec (p_inputs p)) (p_inputs p) then
    option_map (fun ls d rs => program d rs ls) (omap (line_code (p_inputs p)) (p_lines p))
  else None.
End Code.

(** *** [#[invert]] *)
(** lib.rs:356-368: an identifier followed by a lone colon. *)
Fixpoint parse_function_args (ts : list tok) : list string :=
  match ts with
  | TIdent s :: ((TPunct c false :: _) as rest) => if Ascii.eqb c ":" then s :: parse_function_args rest else parse_function_args rest
  | _ :: rest => parse_function_args rest
  | [] => []
  end.
(** lib.rs:375-387 *)
Definition skip_punct (ts : list tok) : list tok := match ts with TPunct _ _ :: rest => rest | _ => ts end.
Fixpoint attr_args (ts : list tok) : list string :=
  match ts with
  | TIdent s :: rest => s :: match rest with TPunct _ _ :: rest' => attr_args rest' | _ => attr_args rest end
  | _ => []
  end.
Definition parse_attr (ts : list tok) : option tok * list string :=
  match ts with [] => (None, []) | t :: rest => (Some t, attr_args (skip_punct rest)) end.
(** lib.rs:389-425: the tokens copied, the function name, what is left. *)
Fixpoint find_function (ts : list tok) : list tok * option string * list tok :=
  match ts with
  | [] => ([], None, [])
  | t :: rest =>
      let go := let '(out, f, rest) := find_function rest in (t :: out, f, rest) in
      match t, rest with
      | TIdent s, TGroup DParen _ :: _ => ([], Some s, rest)
      | TIdent s, TPunct c _ :: _ => if Ascii.eqb c "<" then ([], Some s, rest) else go
      | _, _ => go
      end
  end.
(** lib.rs:427-445: up to and with the arguments. *)
Fixpoint find_args (ts : list tok) : list tok * list string * list tok :=
  match ts with
  | [] => ([], [], [])
  | TGroup DParen g :: rest => ([TGroup DParen g], parse_function_args g, rest)
  | t :: rest => let '(out, a, rest) := find_args rest in (t :: out, a, rest)
  end.
(** lib.rs:447-458 *)
Fixpoint until_brace (ts : list tok) : list tok :=
  match ts with
  | [] => []
  | TGroup DBrace _ :: _ => []
  | t :: rest => t :: until_brace rest
  end.
(** What the format string of the new body is filled with (lib.rs:460-527): the builder, the
    function called, the registers, and the arguments of the call in order, [true] for a register. *)
Record pinv := mkPinv { i_builder : string; i_fun : string; i_regs : list string; i_call : list (string * bool) }.
Definition skipped (skip : list string) (s : string) : bool := if in_dec string_dec s skip then true else false.
(** lib.rs:370-531: the tokens put out before the new body, and the new body. *)
Definition invert (attr ts : list tok) : res (list tok * pinv) :=
  let '(new_name, skip) := parse_attr attr in
  let '(out, f, rest) := find_function ts in
  let name := match f with Some s => s | None => "foo"%string end in
  let added := match f with None => [] | Some s => [match new_name with Some t => t | None => TIdent (s ++ "_inv")%string end] end in
  let '(out2, args, rest) := find_args rest in
  builder <- idx args 0 ;;
  let others := tl args in
  Ok (ts ++ out ++ added ++ out2 ++ until_brace rest,
      mkPinv builder name (filter (fun s => negb (skipped skip s)) others) (map (fun s => (s, negb (skipped skip s))) others)).
(** The new body: the function is called on a new builder with new registers for the registers
    and the other arguments as they are. *)
Definition invert_code (fn : string -> list string -> nat -> list reg -> M (list reg)) (p : pinv) (d : nat) (rs : list reg) : M (list reg) :=
  inv_macro d rs (fn (i_fun p) (map fst (filter (fun a => negb (snd a)) (i_call p))) 0).
