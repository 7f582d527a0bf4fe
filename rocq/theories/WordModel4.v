(** The builder's qubit counter on 64-bit words. *)
From Verif Require Import Base BuilderModel WordModel.
Local Open Scope mon_scope.

(** builder.rs:322-327, with [self.n] and [n] words: the end of the range is [self.n + n], which a release build wraps;
    a range whose end is not above its start is empty, and [unwrap] of no register panics.  Not modelled: that a vector
    of 2^60 or more indices cannot be allocated, which panics as well. *)
Definition wregister (m : build) (k : nat) : M reg :=
  b <- get ;;
  e <- lift (wadd m (bn b) k) ;;
  r <- lift (unwrap_opt (new_reg (seq (bn b) (e - bn b)))) ;;
  e' <- lift (wadd m (bn b) k) ;;
  _ <- put (mkB (pipeline b) e' (zeroed b) (meas b)) ;;
  ret r.
