From Coq Require Import String Bool Arith List Permutation.
From Verif Require Import Plugins_Model.
Import ListNotations.

(** How often a hook of a plugin was called. *)
Definition hook_eq_dec (a b : string * hook) : {a = b} + {a <> b}.
Proof. decide equality; [decide equality | apply string_dec]. Defined.
Definition times_called (log : list (string * hook)) (n : string) (h : hook) : nat := count_occ hook_eq_dec log (n, h).
Definition called_before (log : list (string * hook)) (n : string) (h h' : hook) : Prop :=
  forall l1 l2, log = l1 ++ (n, h') :: l2 -> In (n, h) l1.

(** An order in which a scheduler may run systems: each of them once, and after those after which it has to run. *)
Definition runs_in {A} (systems : list (A * list A)) (order : list A) : Prop :=
  Permutation order (map fst systems) /\
  forall s after a l1 l2, In (s, after) systems -> In a after -> order = l1 ++ s :: l2 -> In a l1.
