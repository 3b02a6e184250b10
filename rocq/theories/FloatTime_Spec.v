(** Exact sums of times, for the comparison with the rounded ones. *)
From Coq Require Import List Reals.
From Flocq Require Import Core.Core.
From Verif Require Import Float_Model Float_Spec.
Import ListNotations.
Local Open Scope R_scope.

Fixpoint total (l : list f64) : R := match l with [] => 0 | x :: r => value x + total r end.
(** A time step: a finite number far from overflow and underflow. *)
Definition a_step (x : f64) : Prop := finite x /\ moderate (value x).
(** [x] and [y] differ at most by the fraction [e] of [y]. *)
Definition relatively_close (e x y : R) : Prop := Rabs (x - y) <= e * y.
(** When snapshot number [n] should be written. *)
Definition exact_output_time (first : option f64) (between : f64) (n : nat) : R :=
  match first with Some f => value f | None => 0 end + INR n * value between.
Definition a_first (first : option f64) : Prop := match first with Some f => a_step f | None => True end.
