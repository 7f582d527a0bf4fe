(** What the text of an operator is meant to tell: its kinds and its qubits. *)
From Verif Require Import Base OpsModel.
Local Open Scope nat_scope.

Inductive outline := Dense (qs : list nat) | Rows (qs : list nat) | Exchange (qs : list nat) | Under (cs : list nat) (o : outline).
Fixpoint outline_of {P} (op : mop P) : outline :=
  match op with
  | Matrix ind _ => Dense ind
  | Sparse ind _ => Rows ind
  | Swap _ ind => Exchange ind
  | Control k ind op' => Under (firstn k ind) (outline_of op')
  end.
(** The qubits an outline shows, controls first. *)
Fixpoint shown (o : outline) : list nat :=
  match o with Dense qs | Rows qs | Exchange qs => qs | Under cs o => cs ++ shown o end.
(** Every operator within is given the qubits it was made with. *)
Fixpoint consistent {P} (op : mop P) : Prop :=
  match op with Control k ind op' => k <= length ind /\ skipn k ind = op_indices op' /\ consistent op' | _ => True end.
(** No control count is larger than the list it counts in. *)
Fixpoint counts_fit {P} (op : mop P) : Prop :=
  match op with Control k ind op' => k <= length ind /\ counts_fit op' | _ => True end.
