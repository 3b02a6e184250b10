(** Runs of the program, as far as the measurements go. *)
From Coq Require Import String QArith ZArith Bool Arith List Permutation Sorted.
From Verif Require Import Performance_Model.
Import ListNotations.
Local Open Scope nat_scope.

Definition name_of (o : op) : name := match o with Start n | Stop n | Record n _ => n end.
(** Operations of the systems of the program itself. *)
Definition own (o : op) : bool := match name_of o with Own _ => true | OfLabel _ => false end.

(** One pass through the stages [remaining] of a schedule with the stages [labels]. The systems of a stage run in any order. Only the
    systems of the timers are in the stages of the timers. *)
Inductive pass (labels : list label) : list label -> list (Q * op) -> Prop :=
  | pass_end : pass labels [] []
  | pass_stage l remaining block others rest :
      Permutation (map snd block) (timer_systems labels l ++ others) ->
      (forall o, In o others -> own o = true) -> (is_timer_stage l = true -> others = []) ->
      pass labels remaining rest -> pass labels (l :: remaining) (block ++ rest).

(** The start-up stages once, then the main stages [n] times. *)
Inductive passes (labels : list label) : nat -> list (Q * op) -> Prop :=
  | passes_none : passes labels 0 []
  | passes_one n block rest : pass labels labels block -> passes labels n rest -> passes labels (S n) (block ++ rest).
Definition run (startup main : list label) (n : nat) (trace : list (Q * op)) : Prop :=
  exists t1 t2, pass startup startup t1 /\ passes main n t2 /\ trace = t1 ++ t2.

(** A clock that does not go backwards. *)
Definition clock (trace : list (Q * op)) : Prop := StronglySorted (fun a b => (fst a <= fst b)%Q) trace.

(** [a] comes before [b] in [l]. *)
Definition before {A} (l : list A) (a b : A) : Prop := exists l1 l2 l3, l = l1 ++ a :: l2 ++ b :: l3.
(** A stage that makes something, and a stage that uses it. *)
Definition startup_needs : list (startup_stage * startup_stage) :=
  [(SReadInput, SInsertDerivedComponents); (SReadInput, SDecomposition); (SDecomposition, SSetOutgoingEntities); (SSetOutgoingEntities, SExchange);
   (SExchange, SAssignParticleIds); (SExchange, STreeConstruction); (STreeConstruction, SRemap); (SAssignParticleIds, SInsertGrid); (STreeConstruction, SInsertGrid);
   (SInsertGrid, SInsertComponentsAfterGrid); (SInsertComponentsAfterGrid, SInitSweep)].
Definition main_needs : list (stage * stage) := [(Initial, Sweep); (Sweep, AfterSweep); (AfterSweep, Output); (CreateOutputFiles, Output); (Output, Final)].
