(** A client that keeps the state in pieces, each with the index of its first amplitude, and calls the
    functions of state_ops on the pieces; the same steps on one vector. *)
From Coq Require Import Reals.
From Coquelicot Require Import Complex.
From Verif Require Import Base BitsSpec BitsProofs OpsModel OpsSpec OpsProofs2 Instances MeasureModel MeasureSpec MeasureProofs BuilderModel SimModel DenSpec.
Local Open Scope nat_scope.
Local Open Scope res_scope.

(** An operator, and the lengths of the pieces of the new state; or the collapse to outcome [m]. *)
Inductive dstep := DGate (op : mop C) (layout : list nat) | DShow (qs : list nat) (m : nat).

(** Every new piece starts as zeros, and every old piece is applied to it. *)
Fixpoint out_pieces (n : nat) (op : mop C) (chunks : list (list C)) (layout : list nat) (ooff : nat) : res (list (list C)) :=
  match layout with
  | [] => Ok []
  | k :: ks =>
      c <- apply_chunks CN n op chunks (repeat (RtoC 0) k) 0 ooff ;;
      cs <- out_pieces n op chunks ks (ooff + k) ;;
      Ok (c :: cs)
  end.
(** Every piece is collapsed by itself, with the probability of the whole. *)
Fixpoint collapse_pieces (n : nat) (qs : list nat) (m : nat) (p : R) (chunks : list (list C)) (off : nat) : res (list (list C)) :=
  match chunks with
  | [] => Ok []
  | c :: cs =>
      w <- measure_state n qs (m, p) c (repeat (RtoC 0) (length c)) off off ;;
      ws <- collapse_pieces n qs m p cs (off + length c) ;;
      Ok (w :: ws)
  end.
Definition dist_step (n : nat) (chunks : list (list C)) (s : dstep) : res (list (list C) * list R) :=
  match s with
  | DGate op layout => cs <- out_pieces n op chunks layout 0 ;; Ok (cs, [])
  | DShow qs m =>
      ps <- chunk_probs n m qs chunks 0 ;;
      cs <- collapse_pieces n qs m (rsum (fun p => p) ps) chunks 0 ;;
      Ok (cs, [rsum (fun p => p) ps])
  end.
Fixpoint dist_run (n : nat) (ss : list dstep) (chunks : list (list C)) : res (list (list C) * list R) :=
  match ss with
  | [] => Ok (chunks, [])
  | s :: ss' => '(c, p) <- dist_step n chunks s ;; '(c', ps) <- dist_run n ss' c ;; Ok (c', p ++ ps)
  end.

(** On one vector; the draw given to [measure] is not used. *)
Definition whole_step (n : nat) (v : list C) (s : dstep) : res (list C * list R) :=
  match s with
  | DGate op _ => w <- apply_op CN n op v (repeat (RtoC 0) (2 ^ n)) 0 0 ;; Ok (w, [])
  | DShow qs m => '((_, p), w) <- measure 0 n qs v (repeat (RtoC 0) (2 ^ n)) None (Some (m, None)) ;; Ok (w, [p])
  end.
Fixpoint whole_run (n : nat) (ss : list dstep) (v : list C) : res (list C * list R) :=
  match ss with
  | [] => Ok (v, [])
  | s :: ss' => '(w, p) <- whole_step n v s ;; '(w', ps) <- whole_run n ss' w ;; Ok (w', p ++ ps)
  end.
Definition step_fits (n : nat) (s : dstep) : Prop :=
  match s with
  | DGate op layout => wf_op op /\ in_range n (op_indices op) /\ list_sum layout = 2 ^ n
  | DShow qs _ => NoDup qs /\ in_range n qs
  end.

(** The steps of a recorded circuit, given the outcomes of its measurements. *)
Fixpoint steps_of (p : pipe) (ms : list nat) (layouts : list (list nat)) : list dstep :=
  match p, layouts with
  | (qs, co) :: p', l :: ls =>
      match co_obj co with
      | OMeas _ => match ms with m :: ms' => DShow qs m :: steps_of p' ms' ls | [] => [] end
      | OUnit u => match unitary_op qs u with Ok op => DGate op l :: steps_of p' ms ls | _ => [] end
      end
  | _, _ => []
  end.
(** The pieces with the index of their first amplitude. *)
Fixpoint placed (off : nat) (chunks : list (list C)) : list (nat * list C) :=
  match chunks with [] => [] | c :: cs => (off, c) :: placed (off + length c) cs end.
