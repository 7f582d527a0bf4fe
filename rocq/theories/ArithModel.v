(** Arithmetic circuits: qip/src/boolean_circuits/arithmetic.rs.  Every function takes the depth
    of the builder it is called with and its registers as a list. *)
From Verif Require Import Base BuilderModel ProgramModel.
Local Open Scope mon_scope.

(** A whole register, some of its qubits. *)
Definition whole (k : nat) : list arg := [(k, None)].
Definition part (k : nat) (is : list nat) : list arg := [(k, Some is)].
Definition call (f : nat -> list reg -> M (list reg)) (args : list (list arg)) : line := mkLine None f args.
Definition control (f : nat -> list reg -> M (list reg)) (args : list (list arg)) : line := mkLine (Some None) f args.
Definition control_mask (m : nat) (f : nat -> list reg -> M (list reg)) (args : list (list arg)) : line := mkLine (Some (Some m)) f args.

(** arithmetic.rs:61-71; registers rc, ra, rb *)
Definition sum (d : nat) (rs : list reg) : M (list reg) :=
  program d rs [control op_x [whole 1; whole 2]; control op_x [whole 0; whole 2]].

(** arithmetic.rs:73-89; registers rc, ra, rb, rcp *)
Definition carry (d : nat) (rs : list reg) : M (list reg) :=
  program d rs
    [control op_x [whole 1 ++ whole 2; whole 3];
     control op_x [whole 1; whole 2];
     control op_x [whole 0 ++ whole 2; whole 3];
     control op_x [whole 1; whole 2]].
Definition carry_inv (d : nat) (rs : list reg) : M (list reg) := inv_macro d rs (carry 0).

(** arithmetic.rs:26-59; registers rc, ra, rb.  Recursion on fuel: rc shrinks by one. *)
Fixpoint add_fuel (fuel d : nat) (rs : list reg) : M (list reg) :=
  match fuel, rs with
  | S fuel', [rc; ra; rb] =>
      let n := length rc in
      if (n =? 1) && (length ra =? 1) && (length rb =? 2) then
        program d rs
          [call carry [whole 0; whole 1; part 2 [0]; part 2 [1]];
           call sum [whole 0; whole 1; part 2 [0]]]
      else if (n =? length ra) && (n + 1 =? length rb) then
        program d rs
          [call carry [part 0 [0]; part 1 [0]; part 2 [0]; part 0 [1]];
           call (add_fuel fuel') [part 0 (seq 1 (n - 1)); part 1 (seq 1 (n - 1)); part 2 (seq 1 n)];
           call carry_inv [part 0 [0]; part 1 [0]; part 2 [0]; part 0 [1]];
           call sum [part 0 [0]; part 1 [0]; part 2 [0]]]
      else fail (EOther 10)
  | 0, _ => crash PFuel
  | _, _ => crash PUnreachable
  end.
Definition add (d : nat) (rs : list reg) : M (list reg) := add_fuel (S (length (nth 0 rs []))) d rs.
Definition add_inv (d : nat) (rs : list reg) : M (list reg) := inv_macro d rs (add 0).

(** arithmetic.rs:91-131; registers ra, rb, rm *)
Definition add_mod (d : nat) (rs : list reg) : M (list reg) :=
  match rs with
  | [ra; rb; rm] =>
      if negb (length ra =? length rm) then fail (EOther 11)
      else if negb (length rb =? length ra + 1) then fail (EOther 12)
      else
        let n := length ra in
        rt <- make_zeroed_temp_qubit ;;
        rc <- make_zeroed_temp_register n ;;
        rs <- program d [ra; rb; rm; rt; rc]
          [call add [whole 4; whole 0; whole 1];
           call add_inv [whole 4; whole 2; whole 1];
           control op_x [part 1 [n]; whole 3];
           control add [whole 3; whole 4; whole 2; whole 1];
           call add_inv [whole 4; whole 0; whole 1];
           control_mask 0 op_x [part 1 [n]; whole 3];
           call add [whole 4; whole 0; whole 1]] ;;
        match rs with
        | [ra; rb; rm; rt; rc] =>
            _ <- return_zeroed_temp_register rt ;;
            _ <- return_zeroed_temp_register rc ;;
            ret [ra; rb; rm]
        | _ => crash PUnreachable
        end
  | _ => crash PUnreachable
  end.
Definition add_mod_inv (d : nat) (rs : list reg) : M (list reg) := inv_macro d rs (add_mod 0).

(** arithmetic.rs:195-219.  [rs[indx].take().unwrap()] twice, swap, put back. *)
Definition rshift_step (d n : nat) (rs : list (option reg)) (indx : nat) : M (list (option reg)) :=
  '(ra, rs) <- lift (take_at rs indx) ;;
  let offset := if indx =? 0 then n - 1 else indx - 1 in
  '(rb, rs) <- lift (take_at rs offset) ;;
  '(ra, rb) <- unwrapM (swap (aco d) ra rb) ;;
  ret (upd_nth offset (Some rb) (upd_nth indx (Some ra) rs)).
Definition rshift (d : nat) (rs : list reg) : M (list reg) :=
  match rs with
  | [r] =>
      let n := length r in
      rs <- lift (split_all r) ;;
      n1 <- lift (chk_sub n 1) ;;
      rs <- mfold (rshift_step d n) (rev (seq 0 n1)) (map Some rs) ;;
      m <- lift (merge_registers (somes rs)) ;;
      r <- lift (unwrap_opt m) ;;
      ret [r]
  | _ => crash PUnreachable
  end.
Definition lshift (d : nat) (rs : list reg) : M (list reg) := inv_macro d rs (rshift 0).

(** arithmetic.rs:221-250; registers ra, rb *)
Definition copy_step (d : nat) (acc : list reg * list reg) (p : reg * reg) : M (list reg * list reg) :=
  let '(ras, rbs) := acc in
  let '(ra, rb) := p in
  '(ra, rb) <- cnot (aco d) ra rb ;;
  ret (ras ++ [ra], rbs ++ [rb]).
Definition copy (d : nat) (rs : list reg) : M (list reg) :=
  match rs with
  | [ra; rb] =>
      if length ra =? length rb then
        ras <- lift (split_all ra) ;;
        rbs <- lift (split_all rb) ;;
        '(ras, rbs) <- mfold (copy_step d) (combine ras rbs) ([], []) ;;
        ma <- lift (merge_registers ras) ;; ra <- lift (unwrap_opt ma) ;;
        mb <- lift (merge_registers rbs) ;; rb <- lift (unwrap_opt mb) ;;
        ret [ra; rb]
      else fail (EOther 13)
  | _ => crash PUnreachable
  end.
Definition copy_inv (d : nat) (rs : list reg) : M (list reg) := inv_macro d rs (copy 0).

(** arithmetic.rs:133-192; registers ra, rb, rm, rp *)
Definition times_first (d n indx : nat) (rs : list reg) : M (list reg) :=
  program d rs
    [call add_inv [whole 5; whole 2; whole 0];
     control op_x [part 0 [n]; part 4 [indx]];
     control add [part 4 [indx]; whole 5; whole 2; whole 0];
     control add_mod [part 1 [indx]; part 0 (seq 0 n); whole 3; whole 2];
     call rshift [whole 0]].
Definition times_second (d n indx : nat) (rs : list reg) : M (list reg) :=
  match rs with
  | [ra; rb; rm; rp; rt; rc] =>
      rs <- program d [ra; rm; rt; rc]
        [call lshift [whole 0];
         control add_inv [part 2 [indx]; whole 3; whole 1; whole 0];
         control op_x [part 0 [n]; part 2 [indx]];
         call add [whole 3; whole 1; whole 0]] ;;
      match rs with
      | [ra; rm; rt; rc] => ret [ra; rb; rm; rp; rt; rc]
      | _ => crash PUnreachable
      end
  | _ => crash PUnreachable
  end.
Definition times_mod (d : nat) (rs : list reg) : M (list reg) :=
  match rs with
  | [ra; rb; rm; rp] =>
      let n := length rm in
      let k := length rb in
      if negb (length ra =? n + 1) then fail (EOther 14)
      else if negb (length rp =? n + 1) then fail (EOther 15)
      else
        rt <- make_zeroed_temp_register k ;;
        rc <- make_zeroed_temp_register n ;;
        rs <- mfold (fun rs indx => times_first d n indx rs) (seq 0 k) [ra; rb; rm; rp; rt; rc] ;;
        rs <- mfold (fun rs indx => times_second d n indx rs) (rev (seq 0 k)) rs ;;
        match rs with
        | [ra; rb; rm; rp; rt; rc] =>
            _ <- return_zeroed_temp_register rc ;;
            _ <- return_zeroed_temp_register rt ;;
            ret [ra; rb; rm; rp]
        | _ => crash PUnreachable
        end
  | _ => crash PUnreachable
  end.
Definition times_mod_inv (d : nat) (rs : list reg) : M (list reg) := inv_macro d rs (times_mod 0).

(** arithmetic.rs:252-284; registers ra, rm, rs *)
Definition square_mod (d : nat) (rs : list reg) : M (list reg) :=
  match rs with
  | [ra; rm; rs] =>
      let n := length rm in
      if negb (length ra =? n + 1) then fail (EOther 16)
      else if negb (length rs =? n + 1) then fail (EOther 17)
      else
        rt <- make_zeroed_temp_register n ;;
        out <- program d [ra; rm; rs; rt]
          [call copy [part 0 (seq 0 n); whole 3];
           call times_mod [whole 0; whole 3; whole 1; whole 2];
           call copy_inv [part 0 (seq 0 n); whole 3]] ;;
        match out with
        | [ra; rm; rs; rt] => _ <- return_zeroed_temp_register rt ;; ret [ra; rm; rs]
        | _ => crash PUnreachable
        end
  | _ => crash PUnreachable
  end.
Definition square_mod_inv (d : nat) (rs : list reg) : M (list reg) := inv_macro d rs (square_mod 0).

(** arithmetic.rs:286-340; registers ra, rb, rm, rp, re.  Recursion on fuel: rb shrinks by one. *)
Fixpoint exp_mod_fuel (fuel d : nat) (rs : list reg) : M (list reg) :=
  match fuel, rs with
  | S fuel', [ra; rb; rm; rp; re] =>
      let n := length rm in
      let k := length rb in
      if negb (length ra =? n + 1) then fail (EOther 18)
      else if negb (length rp =? n + 1) then fail (EOther 19)
      else if negb (length re =? n + 1) then fail (EOther 20)
      else if k =? 1 then
        program d rs
          [control_mask 0 copy [part 1 [0]; whole 3; whole 4];
           control times_mod [part 1 [0]; whole 0; whole 3; whole 2; whole 4]]
      else
        ru <- make_zeroed_temp_register (n + 1) ;;
        rv <- make_zeroed_temp_register (n + 1) ;;
        out <- program d [ra; rb; rm; rp; re; ru; rv]
          [control_mask 0 copy [part 1 [0]; whole 3; whole 6];
           control times_mod [part 1 [0]; whole 0; whole 3; whole 2; whole 4];
           call square_mod [whole 0; whole 2; whole 5];
           call (exp_mod_fuel fuel') [whole 5; part 1 (seq 1 (k - 1)); whole 2; whole 6; whole 4];
           call square_mod_inv [whole 0; whole 2; whole 5];
           control times_mod_inv [part 1 [0]; whole 0; whole 3; whole 2; whole 4];
           control_mask 0 copy_inv [part 1 [0]; whole 3; whole 6]] ;;
        match out with
        | [ra; rb; rm; rp; re; ru; rv] =>
            _ <- return_zeroed_temp_register ru ;;
            _ <- return_zeroed_temp_register rv ;;
            ret [ra; rb; rm; rp; re]
        | _ => crash PUnreachable
        end
  | 0, _ => crash PFuel
  | _, _ => crash PUnreachable
  end.
Definition exp_mod (d : nat) (rs : list reg) : M (list reg) := exp_mod_fuel (S (length (nth 1 rs []))) d rs.
