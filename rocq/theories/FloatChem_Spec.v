(** Valid temperatures and fractions. *)
From Coq Require Import Reals.
From Flocq Require Import Core.Core IEEE754.BinarySingleNaN.
From Verif Require Import Float_Model Float_Spec FloatChem_Model.
Local Open Scope R_scope.

(** A number that is not negative, possibly infinite. *)
Definition not_negative (x : f64) : Prop :=
  match x with B754_nan => False | B754_infinity s => s = false | _ => 0 <= value x end.
(** A fraction between the two bounds, [1e-10] and [1 - 1e-10] as numbers of type [f64]. *)
Definition in_bounds (x : f64) : Prop := finite x /\ value fraction_epsilon <= value x <= value largest_fraction.
(** A safety factor below one. *)
Definition a_safety (x : f64) : Prop := finite x /\ 0 <= value x < 1.
