(** Model of the registration of plugins, of ordered systems and of the check of the parameter sections in src/simulation/mod.rs. *)
From Coq Require Import String Bool Arith List.
Import ListNotations.

(** src/simulation/subsweep_plugin.rs:4-48: the functions of a plugin that are called while it is added. *)
Inductive hook : Type := AlwaysOnce | OnceEverywhere | OnceOnMainRank | OnceOnOtherRanks | Everywhere | OnMainRank | OnOtherRanks.

(** One call of [add_plugin]: the name of the plugin, [allow_adding_twice], and what [should_build] returns in this call. Plugins which
    a plugin adds in turn are calls of their own; the calls are in the order in which they enter [add_plugin]. *)
Record call : Type := Call { plugin : string; allow_adding_twice : bool; should_build : bool }.

(** What [has_world_rank] and [on_main_rank] say (mod.rs:328-340). *)
Inductive place : Type := NoRank | MainRank | OtherRank.

Definition mem (n : string) (labels : list string) : bool := if in_dec string_dec n labels then true else false.

(** mod.rs:94-96 [already_added] with 98-126 [add_plugin]: the new set of labels and the hooks that were called. [None] is the panic. *)
Definition add_plugin (r : place) (labels : list string) (c : call) : option (list string * list (string * hook)) :=
  let already_added := mem (plugin c) labels in
  let labels := plugin c :: labels in
  let named := map (fun h => (plugin c, h)) in
  let always := if already_added then [] else [AlwaysOnce] in
  if negb (should_build c) then Some (labels, named always)
  else if negb (allow_adding_twice c) && already_added then None
  else
    let once := if already_added then [] else
      OnceEverywhere :: match r with NoRank => [] | MainRank => [OnceOnMainRank] | OtherRank => [OnceOnOtherRanks] end in
    let every := Everywhere :: match r with NoRank => [] | MainRank => [OnMainRank] | OtherRank => [OnOtherRanks] end in
    Some (labels, named (always ++ once ++ every)).
Fixpoint add_plugins (r : place) (labels : list string) (calls : list call) : option (list (string * hook)) :=
  match calls with
  | [] => Some []
  | c :: calls =>
      match add_plugin r labels c with
      | None => None
      | Some (labels, hooks) => option_map (app hooks) (add_plugins r labels calls)
      end
  end.

(** mod.rs:193-222 [add_well_ordered_system_to_stage]: the systems of one marker, with those after which each of them has to run. *)
Definition add_well_ordered {A} (systems : list (A * list A)) (s : A) : list (A * list A) :=
  match map fst systems with
  | [] => systems ++ [(s, [])]
  | first :: labels => systems ++ [(s, first :: first :: labels)]
  end.
Definition well_ordered {A} (l : list A) : list (A * list A) := fold_left add_well_ordered l [].

(** mod.rs:443-470 [validate]; [false] is the panic. *)
Definition validate (section_names parameter_sections : list string) : bool :=
  let unused := filter (fun s => negb (mem s parameter_sections)) section_names in
  match unused with
  | [] => true
  | [s] => if string_dec s "visualization" then true else false
  | _ => false
  end.
