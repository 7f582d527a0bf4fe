(** The code generated by [program!] (qip-macros/src/lib.rs:91-365) and its helpers in
    qip/src/macros/program.rs and program_ops.rs.

    A program is the list of its input registers and its lines.  A line names a function, its
    arguments (each a group of input registers with optional index lists), and may be
    controlled, with an optional mask.  Simplified: the macro's parsing is not part of this file;
    input registers are numbered instead of named; extra non-register arguments of a line are
    part of the function; tuples of registers are lists (the Rust type checker fixes their
    length). *)
From Verif Require Import Base BuilderModel.
Local Open Scope mon_scope.

(** Input register and indices; [None] is the whole register (lib.rs:222-228). *)
Definition arg := (nat * option (list nat))%type.
(** [l_ctl]: not controlled, controlled, controlled with mask.  [l_fun d] is the function called
    with the builder at depth [d]. *)
Record line := mkLine { l_ctl : option (option nat); l_fun : nat -> list reg -> M (list reg); l_args : list (list arg) }.

(** The shadowed input registers: one vector of single qubits each (lib.rs:134-136). *)
Definition env := list (list (option reg)).

(** lib.rs:223-228 and 304-308 *)
Definition arg_indices (e : env) (a : arg) : list nat :=
  match snd a with Some is => is | None => seq 0 (length (nth (fst a) e [])) end.

(** lib.rs:222-229: the chained [take().unwrap()]s of one group. *)
Fixpoint take_group (e : env) (g : list arg) : res (list reg * env) :=
  match g with
  | [] => Ok ([], e)
  | a :: g' =>
      bind (take_all (nth (fst a) e []) (arg_indices e a)) (fun '(l, v) =>
      bind (take_group (upd_nth (fst a) v e) g') (fun '(l', e) => Ok (l ++ l', e)))
  end.
(** lib.rs:219-238 *)
Fixpoint take_groups (e : env) (gs : list (list arg)) : res (list reg * env) :=
  match gs with
  | [] => Ok ([], e)
  | g :: gs' =>
      bind (take_group e g) (fun '(l, e) =>
      bind (merge_registers l) (fun m => bind (unwrap_opt m) (fun r =>
      bind (take_groups e gs') (fun '(rs, e) => Ok (r :: rs, e)))))
  end.

(** lib.rs:310-316: [r[i] = reg[index].take(); index += 1] *)
Definition put_one (k : nat) (acc : env * list (option reg) * nat) (i : nat) : res (env * list (option reg) * nat) :=
  let '(e, v, index) := acc in
  bind (idx v index) (fun o =>
  bind (idx (nth k e []) i) (fun _ =>
    Ok (upd_nth k (upd_nth i o (nth k e [])) e, upd_nth index None v, S index))).
(** lib.rs:303-317 *)
Definition put_arg (acc : env * list (option reg) * nat) (a : arg) : res (env * list (option reg) * nat) :=
  foldM (put_one (fst a)) (arg_indices (fst (fst acc)) a) acc.
(** lib.rs:300-318 *)
Definition put_group (e : env) (p : list arg * reg) : res env :=
  let '(g, r) := p in
  bind (split_all r) (fun rs =>
  bind (foldM put_arg g (e, map Some rs, 0)) (fun '(e, _, _) => Ok e)).

(** program.rs:6-22, through the builder at depth [d]. *)
Definition negate_step (d : nat) (acc : list reg * nat) (q : reg) : M (list reg * nat) :=
  let '(qs, mask) := acc in
  q <- (if Nat.even mask then g_x (aco d) q else ret q) ;;
  ret (qs ++ [q], Nat.div2 mask).
Definition negate_bitmask (d : nat) (r : reg) (mask : nat) : M reg :=
  rs <- lift (split_all r) ;;
  '(rs, _) <- mfold (negate_step d) rs ([], mask) ;;
  m <- lift (merge_registers rs) ;;
  lift (unwrap_opt m).

(** lib.rs:255 and 290-292, around the call. *)
Definition in_condition {A} (cr : reg) (m : M A) : M (reg * A) :=
  scoped (_ <- condition_with cr ;; a <- m ;; cr <- dissolve ;; ret (cr, a)).
(** lib.rs:240-296 *)
Definition call_line (d : nat) (l : line) (rs : list reg) : M (list reg) :=
  match l_ctl l with
  | None => l_fun l d rs
  | Some mask =>
      match rs with
      | [] => crash PUnreachable
      | cr :: rest =>
          cr <- match mask with Some m => negate_bitmask d cr m | None => ret cr end ;;
          '(cr, rest) <- in_condition cr (l_fun l (S d) rest) ;;
          cr <- match mask with Some m => negate_bitmask d cr m | None => ret cr end ;;
          ret (cr :: rest)
      end
  end.
(** lib.rs:138-324: one line. *)
Definition run_line (d : nat) (e : env) (l : line) : M env :=
  '(rs, e) <- lift (take_groups e (l_args l)) ;;
  rs <- call_line d l rs ;;
  lift (foldM put_group (combine (l_args l) rs) e).
(** lib.rs:91-365 *)
Definition program (d : nat) (rs : list reg) (ls : list line) : M (list reg) :=
  e <- lift (mapM (fun r => bind (split_all r) (fun v => Ok (map Some v))) rs) ;;
  e <- mfold (run_line d) ls e ;;
  lift (mapM (fun v => bind (merge_registers (somes v)) unwrap_opt) e).

(** program_ops.rs:5-25; [not] is [x] (builder_traits.rs:378-380). *)
Definition op1 (g : (reg -> cobj -> M reg) -> reg -> M reg) (d : nat) (rs : list reg) : M (list reg) :=
  match rs with [r] => r <- g (aco d) r ;; ret [r] | _ => crash PUnreachable end.
Definition op_x := op1 g_x.
Definition op_not := op1 g_x.
Definition op_h := op1 g_h.
Definition op_y := op1 g_y.
Definition op_z := op1 g_z.
Definition op_s := op1 g_s.
Definition op_t := op1 g_t.
(** program_ops.rs:27-43 *)
Definition op2 (g : (reg -> cobj -> M reg) -> reg -> reg -> M (reg * reg)) (d : nat) (rs : list reg) : M (list reg) :=
  match rs with [cr; r] => '(cr, r) <- g (aco d) cr r ;; ret [cr; r] | _ => crash PUnreachable end.
Definition op_cnot := op2 cnot.
Definition op_toffoli := op2 toffoli.
