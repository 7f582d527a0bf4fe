(** Small accessors of registers, split results and builders: qip/src/builder_traits.rs, builder.rs. *)
From Verif Require Import Base BuilderModel.

(** builder_traits.rs:14-16 *)
Definition n_nonzero (r : reg) : res nat := if length r =? 0 then Panic PUnwrap else Ok (length r).
(** builder_traits.rs:43-48; [inl] is [Ok], [inr] is [Err]. *)
Definition get_all_selected (sm : split_many) : list reg + list reg :=
  match sm with AllSelected v => inl v | Remaining v _ => inr v end.
(** builder_traits.rs:51-56 *)
Definition get_selected (sm : split_many) : list reg :=
  match sm with AllSelected v => v | Remaining v _ => v end.
(** builder.rs:59-61 *)
Definition pipeline_depth (b : builder) : nat := length (pipeline b).
