(** qip/src/qfft.rs:8-41, through the builder at depth [d]. *)
From Coq Require Import ZArith.
From Verif Require Import Base BuilderModel ProgramModel.
Local Open Scope nat_scope.
Local Open Scope mon_scope.

(** qfft.rs:21: [1 << k] as i64; shifting by 64 or more panics (with overflow checks). *)
Definition shl_i64 (k : nat) : res Z :=
  if k <? 63 then Ok (2 ^ Z.of_nat k)%Z else if k =? 63 then Ok (- 2 ^ 63)%Z else Panic PUnderflow.
(** qfft.rs:18-24: [rz_pi_by] on the conditioned builder is the one of LocalBuilder
    (conditioning.rs:157-159). *)
Definition qfft_rot (i : nat) (acc : reg * list (option reg)) (j : nat) : M (reg * list (option reg)) :=
  let '(ri, rs) := acc in
  '(rj, rs) <- lift (take_at rs j) ;;
  '(rj, ri) <- in_condition rj (m <- lift (shl_i64 (j - i)) ;; rz_pi_by ri m) ;;
  ret (ri, upd_nth j (Some rj) rs).
(** qfft.rs:16-27 *)
Definition qfft_qubit (d n : nat) (rs : list (option reg)) (i : nat) : M (list (option reg)) :=
  '(ri, rs) <- lift (take_at rs i) ;;
  '(ri, rs) <- mfold (qfft_rot i) (seq (i + 1) (n - (i + 1))) (ri, rs) ;;
  ri <- g_h (aco d) ri ;;
  ret (upd_nth i (Some ri) rs).
(** qfft.rs:28-36 *)
Definition qfft_swap (d n : nat) (rs : list (option reg)) (i : nat) : M (list (option reg)) :=
  let ib := n - 1 - i in
  '(ra, rs) <- lift (take_at rs i) ;;
  '(rb, rs) <- lift (take_at rs ib) ;;
  '(ra, rb) <- swap (aco d) ra rb ;;
  ret (upd_nth ib (Some rb) (upd_nth i (Some ra) rs)).
(** qfft.rs:8-41 *)
Definition qfft (d : nat) (r : reg) : M reg :=
  rs <- lift (split_all r) ;;
  let n := length rs in
  rs <- mfold (qfft_qubit d n) (seq 0 n) (map Some rs) ;;
  rs <- mfold (qfft_swap d n) (seq 0 (n / 2)) rs ;;
  rs <- lift (mapM unwrap_opt rs) ;;
  m <- lift (merge_registers rs) ;;
  match m with Some r => ret r | None => fail (EOther 20) end.
