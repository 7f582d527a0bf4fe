(** Parallel loops (feature "parallel"): qip-iterators/src/rayon_helper/mod.rs:1-95 turns
    [iter_mut], [iter], [into_iter] into rayon's parallel iterators.
    - [iter_mut!(v).enumerate().for_each(f)]: each cell is rewritten once, in any order.
      The closures used read only shared immutable data and their own cell.
    - [.map(f).sum()]: the items are summed along an arbitrary binary tree; rayon may add
      the zero of empty splits anywhere. *)
From Verif Require Import Base OpsModel.
Local Open Scope res_scope.

(** Rewriting the cells of [v] in the order [sched]. *)
Definition par_for_each {A} (f : nat -> A -> res A) (sched : list nat) (v : list A) : res (list A) :=
  foldM (fun v i => a <- idx v i ;; a' <- f i a ;; Ok (upd_nth i a' v)) sched v.

(** Reduction trees. *)
Inductive rtree (A : Type) := Empty | Leaf (a : A) | Node (l r : rtree A).
Arguments Empty {A}. Arguments Leaf {A}. Arguments Node {A}.
Fixpoint leaves {A} (t : rtree A) : list A :=
  match t with Empty => [] | Leaf a => [a] | Node l r => leaves l ++ leaves r end.
Fixpoint par_sum {P} (N : num P) (t : rtree P) : P :=
  match t with
  | Empty => n0 N
  | Leaf a => a
  | Node l r => nadd N (par_sum N l) (par_sum N r)
  end.

(** matrix_ops.rs:98-123 and 127-152 with rows processed in the order [sched]. *)
Definition apply_op_par {P} (N : num P) (n : nat) (op : mop P) (input output : list P)
  (input_offset output_offset : nat) (sched : list nat) : res (list P) :=
  mi <- mat_indices op ;;
  par_for_each (fun outputrow outputloc =>
    v <- apply_op_row_indices N n op input outputrow input_offset output_offset mi ;;
    Ok (nadd N outputloc v)) sched output.
Definition apply_op_overwrite_par {P} (N : num P) (n : nat) (op : mop P) (input output : list P)
  (input_offset output_offset : nat) (sched : list nat) : res (list P) :=
  mi <- mat_indices op ;;
  par_for_each (fun outputrow _ =>
    apply_op_row_indices N n op input outputrow input_offset output_offset mi) sched output.
