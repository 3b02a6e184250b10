(** Which outputs are wanted. *)
From Coq Require Import List String.
From Verif Require Import OutputFields_Model.
Definition wanted (f : fields) (name : string) : Prop := match f with All => True | Chosen names => In name names end.
