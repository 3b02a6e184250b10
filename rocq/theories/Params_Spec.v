(** What an override should do. *)
From Coq Require Import List String Ascii.
From Verif Require Import Params_Model.
Import ListNotations.
Local Open Scope string_scope.

(** The value found by following a path of keys. *)
Inductive found : value -> list string -> value -> Prop :=
| found_here : forall v, found v [] v
| found_below : forall m k sub p v, In (k, sub) m -> found sub p v -> found (Mapping m) (k :: p) v.

(** In a mapping no key occurs twice. *)
Inductive well_formed : value -> Prop :=
| wf_null : well_formed Null
| wf_scalar : forall s, well_formed (Scalar s)
| wf_mapping : forall m, NoDup (map fst m) -> (forall k v, In (k, v) m -> well_formed v) -> well_formed (Mapping m).

(** One path does not lead through the other. *)
Definition prefix (p q : list string) : Prop := exists r, q = (p ++ r)%list.
Definition apart (p q : list string) : Prop := ~ prefix p q /\ ~ prefix q p.

(** Text without a character. *)
Fixpoint without (c : ascii) (s : string) : Prop :=
  match s with EmptyString => True | String d s' => d <> c /\ without c s' end.

(** Section and keys joined by slashes. *)
Fixpoint joined (section : string) (keys : list string) : string :=
  match keys with [] => section | k :: keys' => section ++ String "/" (joined k keys') end.

Fixpoint occurrences (c : ascii) (s : string) : nat :=
  match s with EmptyString => 0 | String d s' => (if Ascii.eqb d c then 1 else 0) + occurrences c s' end.
