(** The circuit builder: qip/src/builder.rs, builder_traits.rs, conditioning.rs, inverter.rs.

    A builder call is a computation [M A] on the state of one [LocalBuilder] together with the
    condition registers held by the [Conditioned] wrappers around it.  A call returns a value, an
    [Err] (the state reached is kept, since Rust keeps the mutations made before [?]), or panics.

    Simplified: [usize]/[i64] do not overflow; floats are reals; [Rational64] is [Q]; registers
    are plain lists (Rust's moves are enforced by the type checker, here by the theorems'
    hypotheses); iterator laziness is ignored where evaluation order cannot be observed. *)
From Coq Require Import Reals QArith Qreals ZArith.
From Coquelicot Require Import Complex.
From Verif Require Import Base OpsModel Instances.
Local Open Scope nat_scope.

(** builder.rs:66-68: [Qudit] is a non-empty list of qubit indices. *)
Definition reg := list nat.

(** builder.rs:147-153 *)
Inductive rot := Floating (theta : R) | PiRational (q : Q).

(** builder.rs:119-144 *)
Inductive unitary :=
| UX | UY | UZ | UH | US | UT | UCNOT | USWAP
| URz (theta : rot) | UMAT (data : list C) | UPhase (theta : rot).

(** builder.rs:272-278 *)
Inductive mobj := MSingle | MStoch.

(** builder.rs:110-115 *)
Inductive obj := OUnit (u : unitary) | OMeas (m : mobj).

(** builder.rs:103-106 *)
Record cobj := mkCO { co_n : nat; co_obj : obj }.

Definition pipe := list (list nat * cobj).

(** builder.rs:22-28 *)
Record builder := mkB { pipeline : pipe; bn : nat; zeroed : list reg; meas : nat }.

(** [LocalBuilder::default()] *)
Definition empty_builder : builder := mkB [] 0 [] 0.

(** conditioning.rs:29-32.  [conds] holds field [cr] of every live [Conditioned] wrapper:
    entry 0 is the wrapper directly around the LocalBuilder, entry [d] wraps entry [d-1].
    A wrapper "at depth d" is the builder seen through [d] wrappers. *)
Record st := mkSt { bld : builder; conds : list (option reg) }.

Inductive out (A : Type) :=
| Ret (a : A) (s : st)
| Fail (e : cerr) (s : st)
| Crash (p : panic).
Arguments Ret {A}. Arguments Fail {A}. Arguments Crash {A}.

Definition M (A : Type) := st -> out A.
Definition ret {A} (a : A) : M A := fun s => Ret a s.
Definition fail {A} (e : cerr) : M A := fun s => Fail e s.
Definition crash {A} (p : panic) : M A := fun _ => Crash p.
Definition mbind {A B} (m : M A) (f : A -> M B) : M B := fun s =>
  match m s with Ret a s' => f a s' | Fail e s' => Fail e s' | Crash p => Crash p end.
(** A computation that does not touch the builder. *)
Definition lift {A} (r : res A) : M A := fun s =>
  match r with Ok a => Ret a s | Err e => Fail e s | Panic p => Crash p end.
(** [Result::unwrap] *)
Definition unwrapM {A} (m : M A) : M A := fun s =>
  match m s with Ret a s' => Ret a s' | Fail _ _ => Crash PUnwrap | Crash p => Crash p end.
(** [Option::unwrap] *)
Definition unwrap_opt {A} (o : option A) : res A := match o with Some a => Ok a | None => Panic PUnwrap end.
(** [assert!] *)
Definition massert (b : bool) : M unit := if b then ret tt else crash PAssert.

Declare Scope mon_scope.
Delimit Scope mon_scope with mon.
Notation "x <- m ;; k" := (mbind m (fun x => k))
  (at level 61, m at next level, right associativity) : mon_scope.
Notation "' pat <- m ;; k" := (mbind m (fun x => match x with pat => k end))
  (at level 61, pat pattern, m at next level, right associativity) : mon_scope.

Fixpoint mfold {A B} (f : A -> B -> M A) (l : list B) (a : A) : M A :=
  match l with [] => ret a | b :: l' => mbind (f a b) (fun a' => mfold f l' a') end.
Fixpoint mmap {A B} (f : A -> M B) (l : list A) : M (list B) :=
  match l with [] => ret [] | a :: l' => mbind (f a) (fun b => mbind (mmap f l') (fun bs => ret (b :: bs))) end.

Definition get : M builder := fun s => Ret (bld s) s.
Definition put (b : builder) : M unit := fun s => Ret tt (mkSt b (conds s)).

(** ** Registers *)

(** builder.rs:81-98 *)
Definition new_reg (l : list nat) : option reg := match l with [] => None | _ => Some l end.

(** builder.rs:329-331 *)
Definition merge2 (r1 r2 : reg) : res reg := unwrap_opt (new_reg (r1 ++ r2)).

(** builder_traits.rs:94-102 *)
Definition merge_step (acc : option reg) (r1 : reg) : res (option reg) :=
  match acc with Some r2 => bind (merge2 r2 r1) (fun r => Ok (Some r)) | None => Ok (Some r1) end.
Definition merge_registers (rs : list reg) : res (option reg) := foldM merge_step rs None.

(** builder_traits.rs:22-30 *)
Inductive split_result := Selected (r : reg) | Unselected (r : reg) | Split (r1 r2 : reg).

(** The [filter_map] at builder.rs:341-347: the bound check is [<=], so position [len]
    is indexed out of bounds. *)
Fixpoint select (r : reg) (indices : list nat) : res (list nat) :=
  match indices with
  | [] => Ok []
  | i :: is' =>
      if i <=? length r
      then bind (idx r i) (fun q => bind (select r is') (fun qs => Ok (q :: qs)))
      else select r is'
  end.

(** builder.rs:333-362 *)
Definition split_rel (r : reg) (indices : list nat) : res split_result :=
  bind (select r indices) (fun sel =>
    let r1 := new_reg sel in
    let r2 := new_reg (filter (fun oi => match r1 with
                                         | Some r1 => negb (existsb (Nat.eqb oi) r1)
                                         | None => true end) r) in
    match r1, r2 with
    | Some r1, None => Ok (Selected r1)
    | None, Some r2 => Ok (Unselected r2)
    | Some r1, Some r2 => Ok (Split r1 r2)
    | None, None => Panic PUnreachable
    end).

(** builder_traits.rs:114-128: [find] returns the index itself, not its position. *)
Definition split_abs (r : reg) (indices : list nat) : res split_result :=
  split_rel r (concat (map (fun a => match find (fun i => i =? a) r with Some i => [i] | None => [] end) indices)).

(** builder_traits.rs:224-240.  Recursion on fuel; every split shortens the register. *)
Fixpoint split_helper (fuel : nat) (r : reg) (acc : list reg) : res (list reg) :=
  match fuel with
  | 0 => Panic PFuel
  | S fuel' =>
      bind (split_rel r [0]) (fun sp =>
        match sp with
        | Selected r => Ok (acc ++ [r])
        | Split r0 r => split_helper fuel' r (acc ++ [r0])
        | Unselected _ => Panic PUnreachable
        end)
  end.
(** builder_traits.rs:131-133 *)
Definition split_all (r : reg) : res (list reg) := split_helper (S (length r)) r [].

(** builder_traits.rs:137-143 *)
Definition split_first_qubit (r : reg) : res (option reg * reg) :=
  bind (split_rel r [0]) (fun sp =>
    match sp with
    | Selected r => Ok (None, r)
    | Split ra rb => Ok (Some ra, rb)
    | Unselected _ => Panic PUnreachable
    end).

(** builder_traits.rs:146-153 *)
Definition split_last_qubit (r : reg) : res (reg * option reg) :=
  bind (chk_sub (length r) 1) (fun n1 =>
  bind (split_rel r [n1]) (fun sp =>
    match sp with
    | Selected r => Ok (r, None)
    | Split ra rb => Ok (rb, Some ra)
    | Unselected _ => Panic PUnreachable
    end)).

(** [rs[i].take().unwrap()] *)
Definition take_at (rs : list (option reg)) (i : nat) : res (reg * list (option reg)) :=
  bind (idx rs i) (fun o => bind (unwrap_opt o) (fun r => Ok (r, upd_nth i None rs))).
Fixpoint take_all (rs : list (option reg)) (is : list nat) : res (list reg * list (option reg)) :=
  match is with
  | [] => Ok ([], rs)
  | i :: is' => bind (take_at rs i) (fun '(r, rs) => bind (take_all rs is') (fun '(l, rs) => Ok (r :: l, rs)))
  end.
(** [into_iter().flatten()] on options *)
Definition somes {A} (l : list (option A)) : list A :=
  concat (map (fun o => match o with Some a => [a] | None => [] end) l).

(** builder_traits.rs:33-39 *)
Inductive split_many := AllSelected (rs : list reg) | Remaining (rs : list reg) (r : reg).

(** builder_traits.rs:177-202; an empty group yields no register ([flat_map] over [None]). *)
Definition group_step (acc : list reg * list (option reg)) (is : list nat) : res (list reg * list (option reg)) :=
  let '(sel, rs) := acc in
  bind (take_all rs is) (fun '(subrs, rs) =>
  bind (merge_registers subrs) (fun m =>
    Ok (sel ++ match m with Some r => [r] | None => [] end, rs))).
Definition split_groups (r : reg) (groups : list (list nat)) : res split_many :=
  bind (split_all r) (fun rs =>
  bind (foldM group_step groups ([], map Some rs)) (fun '(selected, rs) =>
  bind (merge_registers (somes rs)) (fun rem =>
    match rem with None => Ok (AllSelected selected) | Some r => Ok (Remaining selected r) end))).

Local Open Scope mon_scope.

(** ** LocalBuilder *)

(** builder.rs:322-327 ([n] is a NonZeroUsize). *)
Definition register (k : nat) : M reg :=
  b <- get ;;
  r <- lift (unwrap_opt (new_reg (seq (bn b) k))) ;;
  _ <- put (mkB (pipeline b) (bn b + k) (zeroed b) (meas b)) ;;
  ret r.
(** builder_traits.rs:73-75 *)
Definition qubit : M reg := register 1.
(** builder_traits.rs:78-80, and try_register at 86-88 *)
Definition qudit (k : nat) : M (option reg) :=
  if k =? 0 then ret None else r <- register k ;; ret (Some r).

Definition push (e : list nat * cobj) : M unit :=
  b <- get ;; put (mkB (pipeline b ++ [e]) (bn b) (zeroed b) (meas b)).

(** builder.rs:364-386 *)
Definition local_aco (r : reg) (c : cobj) : M reg :=
  if (co_n c =? 1) || (co_n c =? length r) then
    if (co_n c =? 1) && (1 <? length r) then
      rs <- lift (split_all r) ;;
      _ <- mfold (fun _ r => push (r, c)) rs tt ;;
      m <- lift (merge_registers rs) ;;
      lift (unwrap_opt m)
    else
      _ <- push (r, c) ;; ret r
  else fail EObjSize.

(** builder.rs:565-577 and conditioning.rs:173-181 (forwarded to the parent).
    [Vec::pop] takes the last element. *)
Definition make_zeroed_temp_qubit : M reg :=
  b <- get ;;
  match rev (zeroed b) with
  | r :: z => _ <- put (mkB (pipeline b) (bn b) (rev z) (meas b)) ;; ret r
  | [] => qubit
  end.
Definition return_zeroed_temp_register (r : reg) : M unit :=
  rs <- lift (split_all r) ;;
  b <- get ;;
  put (mkB (pipeline b) (bn b) (zeroed b ++ rs) (meas b)).
(** builder_traits.rs:490-495 *)
Definition make_zeroed_temp_register (n : nat) : M reg :=
  rs <- mmap (fun _ => make_zeroed_temp_qubit) (seq 0 n) ;;
  m <- lift (merge_registers rs) ;; lift (unwrap_opt m).

(** builder.rs:590-599 and 611-623: the handle is the value of the counter. *)
Definition measure_with (m : mobj) (r : reg) : M (reg * nat) :=
  b <- get ;;
  _ <- put (mkB (pipeline b ++ [(r, mkCO (length r) (OMeas m))]) (bn b) (zeroed b) (S (meas b))) ;;
  ret (r, meas b).
Definition measure_single := measure_with MSingle.
Definition measure_stochastic := measure_with MStoch.

(** ** Trait default methods, over the builder's [apply_circuit_object] *)
Section Trait.
Context (aco : reg -> cobj -> M reg).

(** builder.rs:520-561 (make_x ...), builder_traits.rs:378-422 *)
Definition gate (u : unitary) (r : reg) : M reg := unwrapM (aco r (mkCO 1 (OUnit u))).
Definition g_x := gate UX.
Definition g_y := gate UY.
Definition g_z := gate UZ.
Definition g_h := gate UH.
Definition g_s := gate US.
Definition g_t := gate UT.
Definition g_s_dagger (r : reg) : M reg := r <- g_z r ;; g_s r.
Definition g_t_dagger (r : reg) : M reg := r <- g_s_dagger r ;; g_t r.

(** builder_traits.rs:244-283, builder.rs:510-517.  The object's size is the register's. *)
Definition apply_matrix (r : reg) (data : list C) : M reg := aco r (mkCO (length r) (OUnit (UMAT data))).
Definition broadcast_single_qubit_matrix (r : reg) (data : list C) : M reg := unwrapM (apply_matrix r data).

(** builder_traits.rs:425-451 *)
Definition cnot_step (acc : reg * list reg) (r : reg) : M (reg * list reg) :=
  let '(cr, acc) := acc in
  r <- lift (merge2 cr r) ;;
  r <- aco r (mkCO 2 (OUnit UCNOT)) ;;
  sp <- lift (split_rel r [0]) ;;
  match sp with
  | Split cr r => ret (cr, acc ++ [r])
  | _ => crash PUnreachable
  end.
Definition cnot (cr r : reg) : M (reg * reg) :=
  if 1 <? length cr then fail (EOther 1)
  else
    rs <- lift (split_all r) ;;
    '(cr, rs) <- mfold cnot_step rs (cr, []) ;;
    m <- lift (merge_registers rs) ;;
    r <- lift (unwrap_opt m) ;;
    ret (cr, r).

(** builder_traits.rs:454-483 *)
Definition swap_pair (p : reg * reg) : M (reg * reg) :=
  let '(ra, rb) := p in
  _ <- massert (length ra =? 1) ;;
  _ <- massert (length rb =? 1) ;;
  unwrapM ('(ra, rb) <- cnot ra rb ;; '(rb, ra) <- cnot rb ra ;; cnot ra rb).
Definition swap (ra rb : reg) : M (reg * reg) :=
  if length ra =? length rb then
    ras <- lift (split_all ra) ;;
    rbs <- lift (split_all rb) ;;
    prs <- mmap swap_pair (combine ras rbs) ;;
    let '(ras, rbs) := List.split prs in
    ma <- lift (merge_registers ras) ;; ra <- lift (unwrap_opt ma) ;;
    mb <- lift (merge_registers rbs) ;; rb <- lift (unwrap_opt mb) ;;
    ret (ra, rb)
  else fail ESizes.

(** builder_traits.rs:505-538 *)
Definition basic_toffoli (cr r : reg) : M (reg * reg) :=
  if length cr =? 2 then
    sp <- lift (split_rel cr [0]) ;;
    match sp with
    | Split cra crb =>
        r <- g_h r ;;
        '(crb, r) <- unwrapM (cnot crb r) ;;
        r <- g_t_dagger r ;;
        '(cra, r) <- unwrapM (cnot cra r) ;;
        r <- g_t r ;;
        '(crb, r) <- unwrapM (cnot crb r) ;;
        r <- g_t_dagger r ;;
        '(cra, r) <- unwrapM (cnot cra r) ;;
        crb <- g_t crb ;;
        r <- g_t r ;;
        '(cra, crb) <- unwrapM (cnot cra crb) ;;
        r <- g_h r ;;
        cra <- g_t cra ;;
        crb <- g_t_dagger crb ;;
        '(cra, crb) <- unwrapM (cnot cra crb) ;;
        cr <- lift (merge2 cra crb) ;;
        ret (cr, r)
    | _ => crash PUnreachable
    end
  else fail (EOther 2).

(** builder_traits.rs:541-569.  Recursion on fuel: the recursive calls have 2 and
    [cr.n() - 1] controls. *)
Fixpoint toffoli_fuel (fuel : nat) (cr r : reg) : M (reg * reg) :=
  match fuel with
  | 0 => crash PFuel
  | S fuel' =>
      if length cr =? 1 then cnot cr r
      else if length cr =? 2 then basic_toffoli cr r
      else
        sp <- lift (split_rel cr [0; 1]) ;;
        match sp with
        | Split crhead crtail =>
            tr <- make_zeroed_temp_qubit ;;
            '(crhead, tr) <- unwrapM (toffoli_fuel fuel' crhead tr) ;;
            cr <- lift (merge2 crtail tr) ;;
            '(cr, r) <- unwrapM (toffoli_fuel fuel' cr r) ;;
            '(crtail, tr) <- lift (split_last_qubit cr) ;;
            tr <- lift (unwrap_opt tr) ;;
            '(crhead, tr) <- unwrapM (toffoli_fuel fuel' crhead tr) ;;
            _ <- return_zeroed_temp_register tr ;;
            cr <- lift (merge2 crhead crtail) ;;
            ret (cr, r)
        | _ => crash PUnreachable
        end
  end.
Definition toffoli (cr r : reg) : M (reg * reg) := toffoli_fuel (S (length cr)) cr r.

(** builder.rs:805-814.  Simplified: the pop-and-reverse loop is written with firstn/skipn. *)
Definition split_vector_at {A} (v : list A) (x : nat) : M (list A * list A) :=
  _ <- massert (x <=? length v) ;; ret (firstn x v, skipn x v).

Definition list_max (l : list nat) : option nat :=
  match l with [] => None | a :: l' => Some (fold_left Nat.max l' a) end.

(** The closure at builder.rs:888-901; [indices] are used to take qubits out of [rs] and to
    put them back. *)
Definition put_back (rs : list (option reg)) (p : nat * reg) : res (list (option reg)) :=
  let '(index, r) := p in bind (idx rs index) (fun _ => Ok (upd_nth index (Some r) rs)).
Definition apply_entry (rs : list (option reg)) (e : list nat * cobj) : M (list (option reg)) :=
  let '(indices, co) := e in
  '(sub_rs, rs) <- lift (take_all rs indices) ;;
  m <- lift (merge_registers sub_rs) ;;
  sub_r <- lift (unwrap_opt m) ;;
  sub_r <- aco sub_r co ;;
  sub_rs <- lift (split_all sub_r) ;;
  rs <- lift (foldM put_back (combine indices sub_rs) rs) ;;
  _ <- massert (forallb (fun o => match o with Some _ => true | None => false end) rs) ;;
  ret rs.

(** builder.rs:865-909 *)
Definition apply_pipeline_objects (sc : pipe) (r : reg) : M reg :=
  let rn := length r in
  rs <- lift (split_all r) ;;
  max_r_index <- lift (unwrap_opt (list_max (concat (map (fun e => match list_max (fst e) with Some m => [m] | None => [] end) sc)))) ;;
  temp_n <- lift (chk_sub (1 + max_r_index) rn) ;;
  rs <- (if temp_n =? 0 then ret rs
         else temp <- make_zeroed_temp_register temp_n ;; ts <- lift (split_all temp) ;; ret (rs ++ ts)) ;;
  rs <- mfold apply_entry sc (map Some rs) ;;
  rs <- lift (mapM unwrap_opt rs) ;;
  '(rs, trs) <- split_vector_at rs rn ;;
  m <- lift (merge_registers trs) ;;
  _ <- match m with Some tr => return_zeroed_temp_register tr | None => ret tt end ;;
  m <- lift (merge_registers rs) ;;
  lift (unwrap_opt m).

End Trait.

(** ** Rotations of LocalBuilder (the wrappers only forward, conditioning.rs:130-168) *)

(** [Ratio::new(1, m)]: reduced with positive denominator; panics for m = 0, and for
    i64::MIN because the denominator is negated (num-rational, with overflow checks). *)
Definition ratio_1 (m : Z) : res Q :=
  if (m =? 0)%Z then Panic PDivZero else if (m =? - 2 ^ 63)%Z then Panic PUnderflow else Ok (Qmake (Z.sgn m) (Z.to_pos (Z.abs m))).

(** builder.rs:627-635 *)
Definition rz (r : reg) (theta : R) : M reg :=
  unwrapM (local_aco r (mkCO (length r) (OUnit (URz (Floating theta))))).
(** builder.rs:636-648 *)
Definition rz_pi_by (r : reg) (m : Z) : M reg :=
  if (m =? 0)%Z then fail EZeroRatio
  else q <- lift (ratio_1 m) ;; local_aco r (mkCO (length r) (OUnit (URz (PiRational q)))).
(** builder_traits.rs:576-588 *)
Definition rx (r : reg) (theta : R) : M reg :=
  r <- g_h local_aco r ;; r <- rz r theta ;; g_h local_aco r.
Definition ry (r : reg) (theta : R) : M reg :=
  r <- g_s_dagger local_aco r ;; r <- g_h local_aco r ;; r <- rz r (- theta)%R ;;
  r <- g_h local_aco r ;; g_s local_aco r.
(** builder_traits.rs:590-592: [P::from(theta)] is the ratio itself, with no factor pi. *)
Definition rz_ratio (r : reg) (q : Q) : M reg := rz r (Q2R q).
(** builder_traits.rs:594-606 *)
Definition rx_ratio (r : reg) (q : Q) : M reg :=
  r <- g_h local_aco r ;; r <- rz_ratio r q ;; g_h local_aco r.
Definition ry_ratio (r : reg) (q : Q) : M reg :=
  r <- g_s local_aco r ;; r <- g_h local_aco r ;; r <- rz_ratio r (Qopp q) ;;
  r <- g_h local_aco r ;; g_s_dagger local_aco r.
(** builder_traits.rs:612-618 *)
Definition rx_pi_by (r : reg) (m : Z) : M reg := q <- lift (ratio_1 m) ;; rx_ratio r q.
Definition ry_pi_by (r : reg) (m : Z) : M reg := q <- lift (ratio_1 m) ;; ry_ratio r q.

(** builder.rs:32-56 *)
Definition apply_global_phase (r : reg) (theta : R) : M reg :=
  unwrapM (local_aco r (mkCO (length r) (OUnit (UPhase (Floating theta))))).
Definition apply_global_phase_ratio (r : reg) (q : Q) : M reg :=
  unwrapM (local_aco r (mkCO (length r) (OUnit (UPhase (PiRational q))))).
Definition apply_global_phase_pi_by (r : reg) (m : Z) : M reg :=
  q <- lift (ratio_1 m) ;; apply_global_phase_ratio r q.

(** ** Conditioning *)

(** builder.rs:679-700: S and T through a temporary. *)
Definition cond_phase (g : reg -> M reg) (cr r : reg) : M (reg * reg) :=
  cr <- lift (merge2 cr r) ;;
  tq <- make_zeroed_temp_qubit ;;
  '(cr, tq) <- toffoli local_aco cr tq ;;
  tq <- g tq ;;
  '(cr, tq) <- toffoli local_aco cr tq ;;
  _ <- return_zeroed_temp_register tq ;;
  '(cr, r) <- lift (split_last_qubit cr) ;;
  r <- lift (unwrap_opt r) ;;
  ret (cr, r).

(** One step of the fold at builder.rs:706-738 ([debug_assert]s included). *)
Definition cond_swap_half (cr ra rb : reg) : M (reg * reg * reg) :=
  new_cr <- lift (merge2 cr ra) ;;
  '(new_cr, rb) <- cnot local_aco new_cr rb ;;
  '(cr, ra) <- lift (split_last_qubit new_cr) ;;
  ra <- lift (unwrap_opt ra) ;;
  ret (cr, ra, rb).
Definition cond_swap_step (acc : reg * list reg * list reg) (p : reg * reg) : M (reg * list reg * list reg) :=
  let '(cr, ras, rbs) := acc in
  let '(ra, rb) := p in
  _ <- massert (length ra =? 1) ;;
  _ <- massert (length rb =? 1) ;;
  '(cr, ra, rb) <- cond_swap_half cr ra rb ;;
  '(cr, rb, ra) <- cond_swap_half cr rb ra ;;
  '(cr, ra, rb) <- cond_swap_half cr ra rb ;;
  ret (cr, ras ++ [ra], rbs ++ [rb]).

(** builder.rs:652-802 *)
Definition local_try (cr r : reg) (co : cobj) : M (reg * reg) :=
  match co_obj co with
  | OUnit u =>
      match u with
      | UX => toffoli local_aco cr r
      | UY =>
          r <- g_s local_aco r ;;
          '(cr, r) <- toffoli local_aco cr r ;;
          r <- g_s_dagger local_aco r ;;
          ret (cr, r)
      | UZ =>
          r <- g_h local_aco r ;;
          '(cr, r) <- toffoli local_aco cr r ;;
          r <- g_h local_aco r ;;
          ret (cr, r)
      | UH =>
          r <- ry_pi_by r 4 ;;
          '(cr, r) <- toffoli local_aco cr r ;;
          r <- ry_pi_by r (-4) ;;
          ret (cr, r)
      | US => cond_phase (g_s local_aco) cr r
      | UT => cond_phase (g_t local_aco) cr r
      | USWAP =>
          let n := length r in
          _ <- massert (n mod 2 =? 0) ;;
          rs <- lift (split_all r) ;;
          '(ra, rb) <- split_vector_at rs (n / 2) ;;
          '(cr, ras, rbs) <- mfold cond_swap_step (combine ra rb) (cr, [], []) ;;
          m <- lift (merge_registers (ras ++ rbs)) ;;
          r <- lift (unwrap_opt m) ;;
          ret (cr, r)
      | UCNOT =>
          _ <- massert (length r =? 2) ;;
          '(ra, r) <- lift (split_first_qubit r) ;;
          ra <- lift (unwrap_opt ra) ;;
          cr <- lift (merge2 cr ra) ;;
          '(cr, r) <- toffoli local_aco cr r ;;
          '(cr, ra) <- lift (split_last_qubit cr) ;;
          ra <- lift (unwrap_opt ra) ;;
          r <- lift (merge2 ra r) ;;
          ret (cr, r)
      | UPhase phase =>
          tq <- make_zeroed_temp_qubit ;;
          '(cr, tq) <- toffoli local_aco cr tq ;;
          tq <- match phase with
                | Floating theta =>
                    let half := (theta * (1/2))%R in
                    tq <- rz tq half ;; apply_global_phase tq half
                | PiRational q =>
                    let half := (q / 2)%Q in
                    tq <- rz_ratio tq half ;; apply_global_phase_ratio tq half
                end ;;
          '(cr, tq) <- toffoli local_aco cr tq ;;
          _ <- return_zeroed_temp_register tq ;;
          ret (cr, r)
      | URz phase =>
          let crn := length cr in
          cr <- lift (merge2 cr r) ;;
          tq <- make_zeroed_temp_qubit ;;
          '(cr, tq) <- toffoli local_aco cr tq ;;
          tq <- match phase with
                | Floating theta => rz tq theta
                | PiRational q => rz_ratio tq q
                end ;;
          '(cr, tq) <- toffoli local_aco cr tq ;;
          _ <- return_zeroed_temp_register tq ;;
          sp <- lift (split_rel cr (seq 0 crn)) ;;
          match sp with
          | Split cr r => ret (cr, r)
          | _ => crash PUnreachable
          end
      | UMAT _ => crash PTodo
      end
  | OMeas _ => fail EMeasureCond
  end.

(** [self.cr.take().unwrap()] and [self.cr = Some(cr)] of the wrapper in entry [k]. *)
Definition take_cr (k : nat) : M reg := fun s =>
  match nth_error (conds s) k with
  | Some (Some r) => Ret r (mkSt (bld s) (upd_nth k None (conds s)))
  | _ => Crash PUnwrap
  end.
Definition put_cr (k : nat) (r : reg) : M unit := fun s =>
  Ret tt (mkSt (bld s) (upd_nth k (Some r) (conds s))).

(** conditioning.rs:198-206 and 265-273: split the merged condition again. *)
Definition give_back (k ncr : nat) (cr r : reg) : M (reg * reg) :=
  sp <- lift (split_rel cr (seq 0 ncr)) ;;
  match sp with
  | Split cr ccr => _ <- put_cr k ccr ;; ret (cr, r)
  | _ => crash PUnreachable
  end.

(** [try_apply_with_condition] at depth [d]: builder.rs:652-802 for d = 0,
    conditioning.rs:188-207 otherwise. *)
Fixpoint try_cond (d : nat) (cr r : reg) (co : cobj) : M (reg * reg) :=
  match d with
  | 0 => local_try cr r co
  | S k =>
      let ncr := length cr in
      ccr <- take_cr k ;;
      cr <- lift (merge2 cr ccr) ;;
      '(cr, r) <- try_cond k cr r co ;;
      give_back k ncr cr r
  end.

(** [apply_circuit_object] at depth [d]: builder.rs:364-386, conditioning.rs:76-85. *)
Definition aco (d : nat) (r : reg) (c : cobj) : M reg :=
  match d with
  | 0 => local_aco r c
  | S k =>
      cr <- take_cr k ;;
      '(cr, r) <- try_cond k cr r c ;;
      _ <- put_cr k cr ;;
      ret r
  end.

(** conditioning.rs:22-24 and 35-40: [condition_with] wraps the builder once more;
    conditioning.rs:43-45: [dissolve] consumes the wrapper. *)
Definition condition_with (cr : reg) : M unit := fun s =>
  Ret tt (mkSt (bld s) (conds s ++ [Some cr])).
Definition dissolve : M reg := fun s =>
  match rev (conds s) with
  | Some cr :: c => Ret cr (mkSt (bld s) (rev c))
  | _ => Crash PUnwrap
  end.
(** A wrapper going out of scope without [dissolve] (an early return by [?]). *)
Definition scoped {A} (m : M A) : M A := fun s =>
  match m s with
  | Fail e s' => Fail e (mkSt (bld s') (firstn (length (conds s)) (conds s')))
  | o => o
  end.

(** ** Subcircuits *)

(** builder.rs:819-821, conditioning.rs:223-225 *)
Definition make_subcircuit : M pipe := b <- get ;; ret (pipeline b).

(** Run on the same LocalBuilder seen through other wrappers: the wrappers in place are out of
    reach meanwhile (they are mutably borrowed), and the inner ones are dropped at the end. *)
Definition with_conds {A} (c : list (option reg)) (m : M A) : M A := fun s =>
  match m (mkSt (bld s) c) with
  | Ret a s' => Ret a (mkSt (bld s') (conds s))
  | Fail e s' => Fail e (mkSt (bld s') (conds s))
  | Crash p => Crash p
  end.

(** builder.rs:852-862: condition the LocalBuilder itself. *)
Definition local_cond_subcircuit (sc : pipe) (cr r : reg) : M (reg * reg) :=
  with_conds [Some cr]
    (r <- apply_pipeline_objects (aco 1) sc r ;; cr <- dissolve ;; ret (cr, r)).

(** [apply_conditioned_subcircuit] at depth [d]: builder.rs:852-862, conditioning.rs:256-274. *)
Fixpoint apply_cond_subcircuit (d : nat) (sc : pipe) (cr r : reg) : M (reg * reg) :=
  match d with
  | 0 => local_cond_subcircuit sc cr r
  | S k =>
      let ncr := length cr in
      ccr <- take_cr k ;;
      cr <- lift (merge2 cr ccr) ;;
      '(cr, r) <- apply_cond_subcircuit k sc cr r ;;
      give_back k ncr cr r
  end.

(** [apply_subcircuit] at depth [d]: builder.rs:823-829, conditioning.rs:227-236. *)
Definition apply_subcircuit (d : nat) (sc : pipe) (r : reg) : M reg :=
  match d with
  | 0 => apply_pipeline_objects local_aco sc r
  | S k =>
      cr <- take_cr k ;;
      '(cr, r) <- apply_cond_subcircuit k sc cr r ;;
      _ <- put_cr k cr ;;
      ret r
  end.

(** builder.rs:155-164 *)
Definition rot_neg (t : rot) : rot :=
  match t with Floating f => Floating (- f)%R | PiRational q => PiRational (Qopp q) end.

(** builder.rs:929-940 *)
Definition invert_data (n : nat) (data : list C) : res (list C) :=
  let nn := 2 ^ n in
  foldM (fun acc i => foldM (fun acc j =>
      let index_a := i * nn + j in
      let index_b := j * nn + i in
      bind (idx data index_b) (fun v => bind (idx acc index_a) (fun _ => Ok (upd_nth index_a (Cconj v) acc))))
    (seq 0 nn) acc) (seq 0 nn) (repeat (RtoC 0) (length data)).

(** builder.rs:911-955 *)
Definition invert_circuit_object (co : cobj) : res (list cobj) :=
  match co_obj co with
  | OUnit u =>
      bind (match u with
            | UX | UY | UZ | UH | UCNOT | USWAP => Ok [u]
            | US => Ok [UZ; u]
            | UT => Ok [UZ; US; u]
            | URz phase => Ok [URz (rot_neg phase)]
            | UPhase phase => Ok [UPhase (rot_neg phase)]
            | UMAT data => bind (invert_data (co_n co) data) (fun d => Ok [UMAT d])
            end) (fun us => Ok (map (fun u => mkCO (co_n co) (OUnit u)) us))
  | OMeas _ => Err EMeasureInvert
  end.

(** builder.rs:839-848 *)
Definition invert_subcircuit (sc : pipe) : res pipe :=
  foldM (fun acc e => let '(indices, co) := e in
      bind (invert_circuit_object co) (fun cos => Ok (acc ++ map (fun co => (indices, co)) cos)))
    (rev sc) [].

(** inverter.rs:36-43 *)
Definition apply_inverted_subcircuit (d : nat) (sc : pipe) (r : reg) : M reg :=
  sc <- lift (invert_subcircuit sc) ;; apply_subcircuit d sc r.

(** Run [m] on a new builder ([new_similar], builder.rs:835-837), keeping the current one. *)
Definition on_new {A} (m : M A) : M A := fun s =>
  match m (mkSt empty_builder []) with
  | Ret a _ => Ret a s
  | Fail e _ => Fail e s
  | Crash p => Crash p
  end.

(** The ranges [n..n+rn] at inverter.rs:69-75. *)
Fixpoint ranges (n : nat) (ls : list nat) : list (list nat) :=
  match ls with [] => [] | k :: ls' => seq n k :: ranges (n + k) ls' end.

(** inverter.rs:48-83 and 86-95, at depth [d]; [f] is given the new builder (depth 0). *)
Definition inverter (d : nat) (rs : list reg) (f : list reg -> M (list reg)) : M (list reg) :=
  sc <- on_new (sub_rs <- mmap (fun r => register (length r)) rs ;; _ <- f sub_rs ;; make_subcircuit) ;;
  m <- lift (merge_registers rs) ;;
  r <- lift (unwrap_opt m) ;;
  r <- apply_inverted_subcircuit d sc r ;;
  sp <- lift (split_groups r (ranges 0 (map (@length nat) rs))) ;;
  match sp with
  | AllSelected rs => ret rs
  | Remaining _ _ => crash PUnreachable
  end.

(** qip-macros/src/lib.rs:460-527: the body generated by [#[invert]]; it differs from
    [inverter] in using [get_all_selected().expect(..)]. *)
Definition inv_macro (d : nat) (rs : list reg) (f : list reg -> M (list reg)) : M (list reg) :=
  sc <- on_new (sub_rs <- mmap (fun r => register (length r)) rs ;; _ <- f sub_rs ;; make_subcircuit) ;;
  m <- lift (merge_registers rs) ;;
  r <- lift (unwrap_opt m) ;;
  r <- apply_inverted_subcircuit d sc r ;;
  sp <- lift (split_groups r (ranges 0 (map (@length nat) rs))) ;;
  match sp with
  | AllSelected rs => ret rs
  | Remaining _ _ => crash PUnwrap
  end.
