(** Reading a program line by line on the values of its registers, every function named doing what its
    documentation says.  A register's value is its list of bits, qubit 0 (the lowest) first. *)
From Coq Require Import Arith Bool List.
Import ListNotations.
From Verif Require Import Base ProgramModel TextModel.

(** Bits of a number; the number of a list of bits. *)
Definition bits (n v : nat) : list bool := map (Nat.testbit v) (seq 0 n).
Fixpoint num (l : list bool) : nat := match l with [] => 0 | b :: r => Nat.b2n b + 2 * num r end.

(** What is in the qubits of an argument, of a group of them, and putting it back. *)
Definition fetch1 (st : list (list bool)) (a : arg) : list bool :=
  match snd a with None => nth (fst a) st [] | Some is => map (fun i => nth i (nth (fst a) st []) false) is end.
Definition fetch (st : list (list bool)) (g : list arg) : list bool := flat_map (fetch1 st) g.
Definition store1 (st : list (list bool)) (a : arg) (v : list bool) : list (list bool) :=
  upd_nth (fst a) (match snd a with
                   | None => v
                   | Some is => fold_left (fun r p => upd_nth (fst p) (snd p) r) (combine is v) (nth (fst a) st [])
                   end) st.
Fixpoint store (st : list (list bool)) (g : list arg) (v : list bool) : list (list bool) :=
  match g with
  | [] => st
  | a :: g' => let w := length (fetch1 st a) in store (store1 st a (firstn w v)) g' (skipn w v)
  end.
Fixpoint stores (st : list (list bool)) (gs : list (list arg)) (vs : list (list bool)) : list (list bool) :=
  match gs, vs with g :: gs', v :: vs' => stores (store st g v) gs' vs' | _, _ => st end.

(** A line acts when qubit i of its control equals bit i of the mask; without a mask, when all are 1. *)
Definition chosen (mask : option nat) (c : list bool) : bool :=
  match mask with None => forallb (fun b => b) c | Some m => forallb (fun p => Bool.eqb (snd p) (Nat.testbit m (fst p))) (combine (seq 0 (length c)) c) end.
(** [None]: the line calls a function outside of what is documented for it. *)
Definition line_read (sem : fname -> list (list bool) -> option (list (list bool))) (st : list (list bool)) (t : tline) : option (list (list bool)) :=
  let vs := map (fetch st) (t_args t) in
  option_map (stores st (t_args t))
    match t_ctl t, vs with
    | None, _ => sem (t_name t) vs
    | Some mask, c :: rest => if chosen mask c then option_map (cons c) (sem (t_name t) rest) else Some vs
    | Some _, [] => None
    end.
Fixpoint text_read (sem : fname -> list (list bool) -> option (list (list bool))) (st : list (list bool)) (ts : list tline) : option (list (list bool)) :=
  match ts with
  | [] => Some st
  | t :: ts' => match line_read sem st t with Some st' => text_read sem st' ts' | None => None end
  end.
Fixpoint texts_read (sem : fname -> list (list bool) -> option (list (list bool))) (st : list (list bool)) (tss : list (list tline)) : option (list (list bool)) :=
  match tss with
  | [] => Some st
  | ts :: tss' => match text_read sem st ts with Some st' => texts_read sem st' tss' | None => None end
  end.

Definition zero (l : list bool) : bool := forallb negb l.
(** What the documentation says of each function.  add (arithmetic.rs:26-28): a + b in b, the carry 0 before and
    after; on the top bit as theorem C56 has it (modulo 2^(m+1)).  add_mod (:91-92), times_mod (:134-135), copy (:220),
    square_mod (:252) as written there; rshift as a rotation (theorem C57).  The functions named [_inv] undo the others. *)
Definition doc (f : fname) (vs : list (list bool)) : option (list (list bool)) :=
  match f, vs with
  | Nx, [r] => Some [map negb r]
  | Nadd, [c; a; b] =>
      if (length c =? length a) && (length b =? length a + 1) && zero c
      then Some [c; a; bits (length b) (num b + num a)] else None
  | Nadd_inv, [c; a; b] =>
      if (length c =? length a) && (length b =? length a + 1) && zero c
      then Some [c; a; bits (length b) (num b + 2 ^ length b - num a)] else None
  | Nadd_mod, [a; b; m] =>
      if (length a =? length m) && (length b =? length a + 1) && (num a <? num m) && (num b <? num m)
      then Some [a; bits (length b) ((num a + num b) mod num m); m] else None
  | Ntimes, [a; b; m; p] =>
      if (length a =? length m + 1) && (length p =? length m + 1) && (num a <? num m) && (num p <? num m)
      then Some [a; b; m; bits (length p) ((num p + num b * num a) mod num m)] else None
  | Ntimes_inv, [a; b; m; p] =>
      if (length a =? length m + 1) && (length p =? length m + 1) && (num a <? num m) && (num p <? num m)
      then Some [a; b; m; bits (length p) ((num p + (num m - (num b * num a) mod num m)) mod num m)] else None
  | Nsquare, [a; m; s] =>
      if (length a =? length m + 1) && (length s =? length m + 1) && (num a <? num m) && (num s <? num m)
      then Some [a; m; bits (length s) ((num s + num a * num a) mod num m)] else None
  | Nsquare_inv, [a; m; s] =>
      if (length a =? length m + 1) && (length s =? length m + 1) && (num a <? num m) && (num s <? num m)
      then Some [a; m; bits (length s) ((num s + (num m - (num a * num a) mod num m)) mod num m)] else None
  | Nrshift, [b :: r] => Some [last (b :: r) false :: removelast (b :: r)]
  | Nlshift, [b :: r] => Some [r ++ [b]]
  | Ncopy, [a; b] | Ncopy_inv, [a; b] =>
      if length a =? length b then Some [a; map (fun p => xorb (fst p) (snd p)) (combine a b)] else None
  | _, _ => None
  end.

(** The functions with temporaries: those begin as 0 and have to be 0 again when returned. *)
Definition add_mod_read (a b m : list bool) : option (list (list bool)) :=
  match text_read doc [a; b; m; [false]; repeat false (length a)] (add_mod_text (length a)) with
  | Some [a; b; m; t; c] => if zero t && zero c then Some [a; b; m] else None
  | _ => None
  end.
Definition times_read (a b m p : list bool) : option (list (list bool)) :=
  let n := length m in let k := length b in
  match texts_read doc [a; b; m; p; repeat false k; repeat false n] (map (times_first_text n) (seq 0 k)) with
  | Some [a; b; m; p; t; c] =>
      match texts_read doc [a; m; t; c] (map (times_second_text n) (rev (seq 0 k))) with
      | Some [a; m; t; c] => if zero t && zero c then Some [a; b; m; p] else None
      | _ => None
      end
  | _ => None
  end.
Definition square_read (a m s : list bool) : option (list (list bool)) :=
  match text_read doc [a; m; s; repeat false (length m)] (square_text (length m)) with
  | Some [a; m; s; t] => if zero t then Some [a; m; s] else None
  | _ => None
  end.
(** [exp_mod] is read with its own lines where it calls itself. *)
Fixpoint exp_read (fuel : nat) (a b m p e : list bool) : option (list (list bool)) :=
  match fuel with
  | 0 => None
  | S fuel' =>
      let sem := fun f vs => match f, vs with Nexp, [a; b; m; p; e] => exp_read fuel' a b m p e | _, _ => doc f vs end in
      let n := length m in let k := length b in
      if negb ((length a =? n + 1) && (length p =? n + 1) && (length e =? n + 1)) then None
      else if k =? 1 then text_read sem [a; b; m; p; e] exp_one_text
      else match text_read sem [a; b; m; p; e; repeat false (n + 1); repeat false (n + 1)] (exp_text k) with
           | Some [a; b; m; p; e; u; v] => if zero u && zero v then Some [a; b; m; p; e] else None
           | _ => None
           end
  end.
