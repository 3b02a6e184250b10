(** Order of names and what is asked of the logarithm. *)
From Coq Require Import List Arith QArith ZArith.
Import ListNotations.
Local Open Scope nat_scope.

(** The order of a directory listing sorted by name. *)
Fixpoint before (l m : list nat) : Prop :=
  match l, m with
  | [], [] => False
  | [], _ :: _ => True
  | _ :: _, [] => False
  | a :: l', b :: m' => a < b \/ a = b /\ before l' m'
  end.
(** The logarithm of a number above a power of ten is not below the exponent. It may be too small at the power itself. *)
Definition not_too_small (log10 : nat -> Q) : Prop :=
  forall k n, 10 ^ k < n -> (inject_Z (Z.of_nat k) <= log10 n)%Q.
