(** Specification of operators: matrices indexed by bit lists, acting on functions of the
    values of the chosen qubits.  Nothing here mentions iterators, rows or flat indices,
    except to say where a dense or sparse matrix entry is stored. *)
From Verif Require Import Base BitsSpec OpsModel.

(** Laws of the amplitude type: a semiring with a correct zero test. *)
Record num_laws {P} (N : num P) : Prop := mkLaws {
  l_add_comm : forall a b, nadd N a b = nadd N b a;
  l_add_assoc : forall a b c, nadd N a (nadd N b c) = nadd N (nadd N a b) c;
  l_add_0 : forall a, nadd N (n0 N) a = a;
  l_mul_assoc : forall a b c, nmul N a (nmul N b c) = nmul N (nmul N a b) c;
  l_mul_1 : forall a, nmul N (n1 N) a = a;
  l_mul_1r : forall a, nmul N a (n1 N) = a;
  l_mul_0 : forall a, nmul N (n0 N) a = n0 N;
  l_mul_0r : forall a, nmul N a (n0 N) = n0 N;
  l_distr_l : forall a b c, nmul N a (nadd N b c) = nadd N (nmul N a b) (nmul N a c);
  l_distr_r : forall a b c, nmul N (nadd N b c) a = nadd N (nmul N b a) (nmul N c a);
  l_is0 : forall a, nis0 N a = true <-> a = n0 N }.

Arguments l_add_comm {P N}. Arguments l_add_assoc {P N}. Arguments l_add_0 {P N}.
Arguments l_mul_assoc {P N}. Arguments l_mul_1 {P N}. Arguments l_mul_1r {P N}.
Arguments l_mul_0 {P N}. Arguments l_mul_0r {P N}. Arguments l_distr_l {P N}.
Arguments l_distr_r {P N}. Arguments l_is0 {P N}.

Section Spec.
Context {P : Type} (N : num P).

(** Sum of [f a] over a list. *)
Fixpoint big {A} (f : A -> P) (l : list A) : P :=
  match l with [] => n0 N | a :: l' => nadd N (f a) (big f l') end.

Definition lb_eq (a b : list bool) : bool :=
  if list_eq_dec Bool.bool_dec a b then true else false.
Definition delta (a b : list bool) : P := if lb_eq a b then n1 N else n0 N.

(** The matrix of an operator on its own qubits, rows and columns given as bit lists in the
    order of the operator's indices (first index most significant). *)
Fixpoint op_mat (op : mop P) (r c : list bool) : P :=
  match op with
  | Matrix ind data => nth (be r * 2 ^ length ind + be c) data (n0 N)
  | Sparse ind rows => big (fun e => if fst e =? be c then snd e else n0 N) (nth (be r) rows [])
  | Swap n ind => delta c (skipn n r ++ firstn n r)
  | Control nc ind op' =>
      if forallb (fun b => b) (firstn nc r) then
        if forallb (fun b => b) (firstn nc c) then op_mat op' (skipn nc r) (skipn nc c) else n0 N
      else delta r c
  end.

(** Well-formed operators: sizes match. *)
Fixpoint wf_op (op : mop P) : Prop :=
  match op with
  | Matrix ind data => length data = 2 ^ (2 * length ind)
  | Sparse ind rows =>
      length rows = 2 ^ length ind /\
      forall row, In row rows -> forall e, In e row -> fst e < 2 ^ length ind
  | Swap n ind => length ind = n + n
  | Control nc ind op' => length ind = nc + length (op_indices op') /\ wf_op op'
  end.

(** The action of a matrix on qubits [qs] of a state, a state being a function from basis
    states to amplitudes. *)
Definition act (qs : list nat) (M : list bool -> list bool -> P) (psi : bs -> P) : bs -> P :=
  fun x => big (fun c => nmul N (M (map x qs) c) (psi (updl x qs c))) (bools (length qs)).

(** Amplitude of basis index [i] in a vector holding the indices from [off] on; 0 outside. *)
Definition amp_off (off : nat) (v : list P) (i : nat) : P :=
  if i <? off then n0 N else nth (i - off) v (n0 N).

(** A vector of 2^n amplitudes as a function of basis states, and back. *)
Definition st_of (n : nat) (v : list P) : bs -> P := fun x => nth (enc n x) v (n0 N).
Definition vec_of (n : nat) (psi : bs -> P) : list P := map (fun i => psi (dec n i)) (seq 0 (2 ^ n)).

End Spec.
