(** The exact rate that enters a cell, and the inputs the theorems speak of. *)
From Coq Require Import List Reals.
From Flocq Require Import Core.Core.
From Verif Require Import Float_Model Float_Spec FloatRate_Model.
Import ListNotations.
Local Open Scope R_scope.

Fixpoint sum_of (l : list f64) : R := match l with [] => 0 | x :: r => value x + sum_of r end.
(** The last rate each upwind cell has sent off, told from the events alone. *)
Fixpoint last_rate (j : nat) (events : list event) : R :=
  match events with
  | [] => 0
  | Upwind i r :: l => if (Nat.eqb i j && negb (existsb (fun e => match e with Upwind i' _ => Nat.eqb i' j | Own => false end) l))%bool
                       then value r else last_rate j l
  | Own :: l => last_rate j l
  end.
(** The share of these rates that enters the cell. *)
Fixpoint entering_from (j : nat) (weights : list f64) (events : list event) : R :=
  match weights with [] => 0 | w :: l => value w * last_rate j events + entering_from (S j) l events end.
Definition entering (weights : list f64) (events : list event) : R := entering_from 0 weights events.

Definition a_weight (w : f64) : Prop := finite w /\ 0 <= value w.
Definition a_rate (M : R) (r : f64) : Prop := finite r /\ 0 <= value r <= M.
(** The events concern cells that are upwind, and no rate is larger than [M]. *)
Definition possible (n : nat) (M : R) (e : event) : Prop := match e with Upwind j r => (j < n)%nat /\ a_rate M r | Own => True end.
