(** C111: the lines of add_mod, times_mod, square_mod and exp_mod, every function called doing what is documented,
    add up to what is documented of the whole: so for the first three, not for exp_mod with two exponent qubits or more. *)
From Coq Require Import Arith Bool List Lia.
Import ListNotations.
From Verif Require Import Base BuilderModel ProgramModel ArithModel TextModel ReadSpec ReadProofs ReadProofs2 ReadProofs3.

(** The texts are those of the model of the code. *)
Section Lines.
Local Open Scope mon_scope.
Theorem C111_lines_add_mod : forall d ra rb rm, length rm = length ra -> length rb = length ra + 1 ->
  add_mod d [ra; rb; rm] =
  (rt <- make_zeroed_temp_qubit ;;
   rc <- make_zeroed_temp_register (length ra) ;;
   rs <- program d [ra; rb; rm; rt; rc] (map (compile (code 0)) (add_mod_text (length ra))) ;;
   match rs with
   | [ra; rb; rm; rt; rc] => _ <- return_zeroed_temp_register rt ;; _ <- return_zeroed_temp_register rc ;; ret [ra; rb; rm]
   | _ => crash PUnreachable
   end).
Proof. intros d ra rb rm H1 H2. unfold add_mod. rewrite H1, H2, !Nat.eqb_refl. reflexivity. Qed.
Theorem C111_lines_times_mod : forall d ra rb rm rp, length ra = length rm + 1 -> length rp = length rm + 1 ->
  let n := length rm in let k := length rb in
  times_mod d [ra; rb; rm; rp] =
  (rt <- make_zeroed_temp_register k ;;
   rc <- make_zeroed_temp_register n ;;
   rs <- mfold (fun rs indx => program d rs (map (compile (code 0)) (times_first_text n indx))) (seq 0 k) [ra; rb; rm; rp; rt; rc] ;;
   rs <- mfold (fun rs indx =>
     match rs with
     | [ra; rb; rm; rp; rt; rc] =>
         rs <- program d [ra; rm; rt; rc] (map (compile (code 0)) (times_second_text n indx)) ;;
         match rs with [ra; rm; rt; rc] => ret [ra; rb; rm; rp; rt; rc] | _ => crash PUnreachable end
     | _ => crash PUnreachable
     end) (rev (seq 0 k)) rs ;;
   match rs with
   | [ra; rb; rm; rp; rt; rc] => _ <- return_zeroed_temp_register rc ;; _ <- return_zeroed_temp_register rt ;; ret [ra; rb; rm; rp]
   | _ => crash PUnreachable
   end).
Proof. intros d ra rb rm rp H1 H2 n k. unfold times_mod, n, k. rewrite H1, H2, !Nat.eqb_refl. reflexivity. Qed.
Theorem C111_lines_square_mod : forall d ra rm rs, length ra = length rm + 1 -> length rs = length rm + 1 ->
  square_mod d [ra; rm; rs] =
  (rt <- make_zeroed_temp_register (length rm) ;;
   out <- program d [ra; rm; rs; rt] (map (compile (code 0)) (square_text (length rm))) ;;
   match out with [ra; rm; rs; rt] => _ <- return_zeroed_temp_register rt ;; ret [ra; rm; rs] | _ => crash PUnreachable end).
Proof. intros d ra rm rs H1 H2. unfold square_mod. rewrite H1, H2, !Nat.eqb_refl. reflexivity. Qed.
Theorem C111_lines_exp_mod : forall fuel d ra rb rm rp re, length ra = length rm + 1 -> length rp = length rm + 1 -> length re = length rm + 1 ->
  let n := length rm in let k := length rb in
  exp_mod_fuel (S fuel) d [ra; rb; rm; rp; re] =
  (if k =? 1 then program d [ra; rb; rm; rp; re] (map (compile (code fuel)) exp_one_text)
   else
     ru <- make_zeroed_temp_register (n + 1) ;;
     rv <- make_zeroed_temp_register (n + 1) ;;
     out <- program d [ra; rb; rm; rp; re; ru; rv] (map (compile (code fuel)) (exp_text k)) ;;
     match out with
     | [ra; rb; rm; rp; re; ru; rv] => _ <- return_zeroed_temp_register ru ;; _ <- return_zeroed_temp_register rv ;; ret [ra; rb; rm; rp; re]
     | _ => crash PUnreachable
     end).
Proof. intros fuel d ra rb rm rp re H1 H2 H3 n k. unfold n, k. cbn [exp_mod_fuel]. rewrite H1, H2, H3, !Nat.eqb_refl. reflexivity. Qed.
End Lines.
Print Assumptions C111_lines_add_mod.
Print Assumptions C111_lines_times_mod.
Print Assumptions C111_lines_square_mod.
Print Assumptions C111_lines_exp_mod.

(** add_mod: (a + b) mod M, temporaries 0 again. *)
Theorem C111_add_mod : forall a b m, length a = length m -> length b = S (length m) -> num a < num m -> num b < num m ->
  add_mod_read a b m = Some [a; bits (length b) ((num a + num b) mod num m); m].
Proof.
  intros a b m L1 L2 Ha Hb. pose proof (num_lt m) as Hm. pose proof (read_add_mod (length m) (num a) (num b) (num m) Ha Hb Hm) as R.
  rewrite <- L2 in R. rewrite bits_num in R. rewrite <- L1 in R at 1 3. rewrite !bits_num in R. exact R.
Qed.
Print Assumptions C111_add_mod.
(** times_mod: (p + b a) mod M, the multiplicand as it was, temporaries 0 again. *)
Theorem C111_times_mod : forall a b m p, length a = S (length m) -> length p = S (length m) -> num a < num m -> num p < num m ->
  times_read a b m p = Some [a; b; m; bits (length p) ((num p + num b * num a) mod num m)].
Proof.
  intros a b m p L1 L2 Ha Hp. pose proof (num_lt m) as Hm. pose proof (num_lt b) as Hb.
  pose proof (read_times (length m) (length b) (num a) (num b) (num m) (num p) Ha Hp Hm Hb) as R.
  rewrite !bits_num in R. rewrite <- L1 in R at 1 3. rewrite !bits_num in R. rewrite <- L2 in R. rewrite bits_num in R. exact R.
Qed.
Print Assumptions C111_times_mod.
(** square_mod: (s + a a) mod M. *)
Theorem C111_square_mod : forall a m s, length a = S (length m) -> length s = S (length m) -> num a < num m -> num s < num m ->
  square_read a m s = Some [a; m; bits (length s) ((num s + num a * num a) mod num m)].
Proof.
  intros a m s L1 L2 Ha Hs. pose proof (num_lt m) as Hm.
  pose proof (read_square (length m) (num a) (num m) (num s) Ha Hs Hm) as R.
  rewrite !bits_num in R. rewrite <- L1 in R at 1 3. rewrite !bits_num in R. rewrite <- L2 in R. rewrite bits_num in R. exact R.
Qed.
Print Assumptions C111_square_mod.
(** The functions read with the lines of others agree with what [doc] says of them: reading may be nested. *)
Theorem C111_nested : forall a b m p, length a = S (length m) -> length p = S (length m) -> num a < num m -> num p < num m ->
  times_read a b m p = doc Ntimes [a; b; m; p] /\ square_read a m p = doc Nsquare [a; m; p].
Proof.
  intros a b m p L1 L2 Ha Hp. rewrite C111_times_mod, C111_square_mod by assumption. cbn [doc].
  rewrite L1, L2, Nat.add_1_r, Nat.eqb_refl, (ltb_l _ _ Ha), (ltb_l _ _ Hp). cbn [andb]. now split.
Qed.
Print Assumptions C111_nested.

(** exp_mod, any number of exponent qubits: the power comes out when every exponent qubit but the last is 0, and 0
    otherwise. *)
Theorem C111_exp_mod_exact : forall a b m p e, length a = S (length m) -> length p = S (length m) -> length e = S (length m) -> b <> [] ->
  num a < num m -> num p < num m -> zero e = true ->
  exp_read (S (length b)) a b m p e =
  Some [a; b; m; p; bits (length e) (if num b mod 2 ^ (length b - 1) =? 0 then (num p * num a ^ num b) mod num m else 0)].
Proof.
  intros a b m p e L1 L2 L3 Hb Ha Hp Z. pose proof (num_lt m) as Hm. pose proof (num_lt b) as Hb'.
  assert (E : e = bits (length e) 0).
  { clear - Z. induction e as [|x e IH]; [reflexivity|]. cbn [zero forallb] in Z. apply andb_true_iff in Z. destruct Z as [Z1 Z2].
    cbn [length]. rewrite bits_S. cbn [Nat.odd Nat.even negb Nat.div2]. rewrite <- (IH Z2). now destruct x. }
  destruct b as [|x b]; [congruence|]. assert (Hl : length (x :: b) - 1 = length b) by (cbn; lia). rewrite Hl.
  destruct (Nat.eqb_spec (num (x :: b) mod 2 ^ length b) 0) as [H|H].
  - pose proof (read_exp_power (length m) (num m) Hm (length b) (S (S (length b))) (num a) (num (x :: b)) (num p) ltac:(lia) Ha Hp Hb' H) as R.
    change (S (length b)) with (length (x :: b)) in R. rewrite !bits_num in R. rewrite <- L1 in R at 1 4. rewrite bits_num in R.
    rewrite <- L2 in R at 1 3. rewrite bits_num in R. rewrite <- L3 in R. rewrite <- E in R. exact R.
  - pose proof (read_exp_keep (length m) (num m) Hm (length b) (S (S (length b))) (num a) (num (x :: b)) (num p) 0 ltac:(lia) Ha Hp ltac:(lia) (or_intror H)) as R.
    change (S (length b)) with (length (x :: b)) in R. rewrite !bits_num in R. rewrite <- L1 in R at 1 4. rewrite bits_num in R.
    rewrite <- L2 in R at 1 3. rewrite bits_num in R. rewrite <- L3 in R. rewrite <- E in R. rewrite <- E. exact R.
Qed.
Print Assumptions C111_exp_mod_exact.
(** So with one exponent qubit it is right. *)
Theorem C111_exp_mod_one : forall a b m p e, length a = S (length m) -> length p = S (length m) -> length e = S (length m) -> length b = 1 ->
  num a < num m -> num p < num m -> zero e = true ->
  exp_read 2 a b m p e = Some [a; b; m; p; bits (length e) ((num p * num a ^ num b) mod num m)].
Proof.
  intros a b m p e L1 L2 L3 Hb Ha Hp Z. rewrite <- Hb. rewrite C111_exp_mod_exact by (assumption || (intros ->; discriminate)).
  rewrite Hb. change (2 ^ (1 - 1)) with 1. rewrite Nat.mod_1_r. reflexivity.
Qed.
Print Assumptions C111_exp_mod_one.
(** With more it is wrong at every exponent that is not 0 or the highest power of two, unless the power is 0. *)
Theorem C111_exp_mod_refuted : forall a b m p e, length a = S (length m) -> length p = S (length m) -> length e = S (length m) -> b <> [] ->
  num a < num m -> num p < num m -> zero e = true -> num b mod 2 ^ (length b - 1) <> 0 -> (num p * num a ^ num b) mod num m <> 0 ->
  exp_read (S (length b)) a b m p e = Some [a; b; m; p; e] /\
  exp_read (S (length b)) a b m p e <> Some [a; b; m; p; bits (length e) ((num p * num a ^ num b) mod num m)].
Proof.
  intros a b m p e L1 L2 L3 Hb Ha Hp Z Hn Hz.
  assert (E : bits (length e) 0 = e).
  { clear - Z. induction e as [|x e IH]; [reflexivity|]. cbn [zero forallb] in Z. apply andb_true_iff in Z. destruct Z as [Z1 Z2].
    cbn [length]. rewrite bits_S. cbn [Nat.odd Nat.even negb Nat.div2]. rewrite (IH Z2). now destruct x. }
  rewrite C111_exp_mod_exact by assumption. apply Nat.eqb_neq in Hn. rewrite Hn. split; [now rewrite E|]. intros H. injection H as H.
  apply (f_equal num) in H. rewrite num_zero, num_bits in H; [congruence|].
  assert ((num p * num a ^ num b) mod num m < num m) by (apply Nat.mod_upper_bound; lia). pose proof (num_lt m). rewrite L3, Nat.pow_succ_r'. lia.
Qed.
Print Assumptions C111_exp_mod_refuted.

(** 1 * 2^1 mod 3 with two exponent qubits: 0 comes out; with one: 2. *)
Example C111_exp_mod_witness :
  exp_read 3 (bits 3 2) (bits 2 1) (bits 2 3) (bits 3 1) (bits 3 0) = Some [bits 3 2; bits 2 1; bits 2 3; bits 3 1; bits 3 0] /\
  exp_read 2 (bits 3 2) (bits 1 1) (bits 2 3) (bits 3 1) (bits 3 0) = Some [bits 3 2; bits 1 1; bits 2 3; bits 3 1; bits 3 2] /\
  (1 * 2 ^ 1) mod 3 = 2.
Proof. vm_compute. repeat split. Qed.
(** 4 + 6 * 5 mod 7 and 3 + 5 * 5 mod 7. *)
Example C111_times_example :
  times_read (bits 4 5) (bits 3 6) (bits 3 7) (bits 4 4) = Some [bits 4 5; bits 3 6; bits 3 7; bits 4 6] /\
  square_read (bits 4 5) (bits 3 7) (bits 4 3) = Some [bits 4 5; bits 3 7; bits 4 0] /\
  add_mod_read (bits 3 5) (bits 4 4) (bits 3 7) = Some [bits 3 5; bits 4 2; bits 3 7].
Proof. vm_compute. repeat split. Qed.
