(** What is asked of the logarithm. *)
From Coq Require Import ZArith Reals.
From Flocq Require Import Core.Core IEEE754.BinarySingleNaN.
From Verif Require Import Float_Model Float_Spec.
Local Open Scope R_scope.

(** The logarithm to base two of every positive number is off by at most [e]. *)
Definition accurate (e : R) (log2 : f64 -> f64) : Prop :=
  forall x, finite x -> 0 < value x -> finite (log2 x) /\ Rabs (value (log2 x) - ln (value x) / ln 2) <= e.
(** It is rounded correctly. *)
Definition correctly_rounded (log2 : f64 -> f64) : Prop :=
  forall x, finite x -> 0 < value x -> closest (log2 x) (ln (value x) / ln 2).
(** Its values at the ends of the domain, as IEEE 754 recommends. *)
Definition standard_limits (log2 : f64 -> f64) : Prop :=
  log2 (B754_infinity false) = B754_infinity false /\ (forall s, log2 (B754_zero s) = B754_infinity true) /\ log2 B754_nan = B754_nan.
