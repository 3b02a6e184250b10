(** What the deposition of sources should do. *)
From Coq Require Import List Arith NArith QArith.
From Verif Require Import Sources_Model.
Import ListNotations.

Definition qsum (l : list Q) : Q := fold_right Qplus 0%Q l.
Definition total_rate (l : list source) : Q := qsum (map s_rate l).

(** The search finds one of the points. *)
Definition finds (nearest : list pos -> pos -> nat) : Prop :=
  forall ps q, ps <> [] -> (nearest ps q < length ps)%nat.

(** Sum of the rates of the sources selected by [f]. *)
Definition rate_where (f : source -> bool) (l : list source) : Q := total_rate (filter f l).
