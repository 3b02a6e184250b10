(** C85: the registration of plugins, of ordered systems, and the check for unused parameters. *)
From Coq Require Import String Bool Arith List Permutation.
From Verif Require Import Plugins_Model Plugins_Spec Plugins_Proofs.
Import ListNotations.
Open Scope string_scope.
Open Scope list_scope.
Open Scope nat_scope.

(** Adding plugins panics exactly if one that must not be added twice, and that is to be built, has been added before. *)
Theorem C85_panics : forall r calls, add_plugins r [] calls = None <->
  exists pre c post, calls = pre ++ c :: post /\ should_build c = true /\ allow_adding_twice c = false /\ In (plugin c) (map plugin pre).
Proof. exact panics_iff. Qed.
Print Assumptions C85_panics.

(** Every addition that is to be built calls [build_everywhere] and, depending on the rank, [build_on_main_rank] or
    [build_on_other_ranks]; [build_always_once] is called once for every plugin. *)
Theorem C85_every_call : forall r calls log n, add_plugins r [] calls = Some log ->
  let built := length (filter (fun c => (if string_dec (plugin c) n then true else false) && should_build c) calls) in
  times_called log n Everywhere = built /\
  times_called log n OnMainRank = (match r with MainRank => built | _ => 0 end) /\
  times_called log n OnOtherRanks = (match r with OtherRank => built | _ => 0 end) /\
  (In n (map plugin calls) -> times_called log n AlwaysOnce = 1).
Proof. exact every_call. Qed.
Print Assumptions C85_every_call.

(** If the plugin is built whenever it is added, what is to be built once is built exactly once, and first. *)
Theorem C85_once : forall r calls log n, add_plugins r [] calls = Some log -> In n (map plugin calls) ->
  (forall c, In c calls -> plugin c = n -> should_build c = true) ->
  times_called log n OnceEverywhere = 1 /\
  times_called log n OnceOnMainRank = (match r with MainRank => 1 | _ => 0 end) /\
  times_called log n OnceOnOtherRanks = (match r with OtherRank => 1 | _ => 0 end) /\
  called_before log n OnceEverywhere Everywhere.
Proof. exact once. Qed.
Print Assumptions C85_once.

(** Output of two datasets, and a third plugin that is not built. *)
Definition calls : list call := [Call "output" true true; Call "input" true false; Call "output" true true].
Example C85_example : add_plugins MainRank [] calls =
  Some [("output", AlwaysOnce); ("output", OnceEverywhere); ("output", OnceOnMainRank); ("output", Everywhere); ("output", OnMainRank);
        ("input", AlwaysOnce); ("output", Everywhere); ("output", OnMainRank)] /\
  (forall c, In c calls -> plugin c = "output" -> should_build c = true).
Proof. split; [vm_compute; reflexivity|]. intros c H E. cbn in H. destruct H as [<-|[<-|[<-|[]]]]; (reflexivity || discriminate E). Qed.

(** Refuted: that [build_once_everywhere] has been called whenever a plugin has been built. A plugin that is not built when it is added
    first counts as added; when it is built later what it has to build once is missing. *)
Theorem C85_once_refuted : exists r calls log n, add_plugins r [] calls = Some log /\ times_called log n Everywhere = 1 /\ times_called log n OnceEverywhere = 0.
Proof.
  exists MainRank, [Call "parameters" true false; Call "parameters" true true]. eexists. exists "parameters". split; [vm_compute; reflexivity|].
  split; vm_compute; reflexivity.
Qed.
Print Assumptions C85_once_refuted.

(** Systems which are added as well-ordered can only be executed in the order in which they were added. *)
Theorem C85_well_ordered : forall (A : Type) (l order : list A), NoDup l -> runs_in (well_ordered l) order -> order = l.
Proof. exact @insertion_order. Qed.
Print Assumptions C85_well_ordered.
Example C85_example_order : NoDup [3; 1; 2] /\ runs_in (well_ordered [3; 1; 2]) [3; 1; 2].
Proof.
  split; [repeat constructor; cbn; intuition discriminate|]. split; [reflexivity|]. intros s after a l1 l2 I Ia E. cbn in I.
  destruct I as [I|[I|[I|[]]]]; injection I as <- <-; [destruct Ia | |];
    (destruct l1 as [|x [|y [|z [|]]]]; try discriminate E; injection E as; subst; cbn in Ia |- *; tauto).
Qed.

(** The check before the run passes exactly if every section of the parameter file is one of the registered ones, with the possible
    exception of one section "visualization". *)
Theorem C85_sections : forall sections used, validate sections used = true <->
  (forall s, In s sections -> In s used) \/ (exists l1 l2, sections = l1 ++ "visualization" :: l2 /\ ~ In "visualization" used /\
    forall s, In s (l1 ++ l2) -> In s used).
Proof. exact validate_ok. Qed.
Print Assumptions C85_sections.
Example C85_example_sections : validate ["sweep"; "visualization"; "input"] ["input"; "sweep"; "output"] = true /\
  validate ["sweep"; "sweeep"] ["sweep"] = false.
Proof. split; reflexivity. Qed.
