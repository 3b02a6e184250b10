(** Property C31: parameter overrides. *)
From Coq Require Import List String Ascii.
Import ListNotations.
From Verif Require Import Params_Model Params_Spec Params_Proofs.
Local Open Scope string_scope.

(** C31. After applying overrides with non-empty key paths, every override which is not
    followed by one on the same path (or above or below it) is in effect, and all paths
    apart from the overridden ones lead to what they led to before. Missing intermediate
    sections are therefore created. *)
Theorem C31_overrides : forall l v v', insert_overrides v l = Some v' -> well_formed v ->
  (forall o, In o l -> o_keys o <> [] /\ well_formed (o_value o)) ->
  well_formed v'
  /\ (forall l1 o l2, l = (l1 ++ o :: l2)%list -> (forall o', In o' l2 -> apart (o_keys o) (o_keys o')) -> found v' (o_keys o) (o_value o))
  /\ (forall p w, (forall o, In o l -> apart p (o_keys o)) -> (found v' p w <-> found v p w)).
Proof. exact insert_overrides_ok. Qed.
Print Assumptions C31_overrides.

(** The value at a path is unique. *)
Theorem C31_value_unique : forall v p w, well_formed v -> found v p w -> forall w', found v p w' -> w' = w.
Proof. exact found_fun. Qed.
Print Assumptions C31_value_unique.

(** An override fails (the program panics) exactly if its path leads through something
    which is not a mapping. *)
Theorem C31_failure : forall keys v target, well_formed v ->
  (set_sublevel_value_by_keys v keys target = None
   <-> exists p k r w, keys = (p ++ k :: r)%list /\ found v p w /\ (forall m, w <> Mapping m)).
Proof. exact set_none. Qed.
Print Assumptions C31_failure.

(** Reading a section applies the overrides for this section in their order, records the
    values that are in effect (they are written next to the output), and touches no
    other section. *)
Theorem C31_extraction : forall T parse unparse c name t c', extract_parameter_struct T parse unparse c name = Some (t, c') ->
  (exists v', insert_overrides (match get name (sections c) with Some v => v | None => Mapping [] end) (get_overrides_for_section c name) = Some v'
     /\ (parse v' = Some t \/ (get name (sections c) = None /\ parse v' = None /\ parse Null = Some t))
     /\ get name (sections c') = Some (if get name (sections c) then v' else unparse t))
  /\ overrides c' = overrides c
  /\ forall other, other <> name -> get other (sections c') = get other (sections c).
Proof. exact extract_ok. Qed.
Print Assumptions C31_extraction.
Theorem C31_only_this_section : forall c name o, In o (get_overrides_for_section c name) <-> In o (overrides c) /\ o_section o = name.
Proof. exact section_overrides. Qed.
Print Assumptions C31_only_this_section.

(** An argument section/key/../key:text is read as intended, and an argument is refused
    exactly if it does not contain exactly one colon. *)
Theorem C31_command_line : forall yaml section keys text v,
  without "/" section -> without ":" section -> Forall (without "/") keys -> Forall (without ":") keys -> without ":" text ->
  yaml text = Some v -> from_str yaml (joined section keys ++ String ":" text) = Parsed (Override section keys v).
Proof. exact from_str_ok. Qed.
Print Assumptions C31_command_line.
Theorem C31_command_line_error : forall yaml s, from_str yaml s = ParseError <-> occurrences ":" s <> 1.
Proof. exact from_str_error. Qed.
Print Assumptions C31_command_line_error.

(** An override of the whole section ends the list: what follows is ignored. *)
Theorem C31_whole_section : forall l1 o l2 v v1, o_keys o = [] -> (forall o', In o' l1 -> o_keys o' <> []) ->
  insert_overrides v l1 = Some v1 -> insert_overrides v (l1 ++ o :: l2) = Some (o_value o).
Proof. exact whole_section. Qed.
Print Assumptions C31_whole_section.

(** So it is not true that the last override of a path is in effect. *)
Theorem C31_last_override_refuted : exists v l v' o, insert_overrides v l = Some v' /\ last l (Override "" [] Null) = o
  /\ o_keys o = ["a"] /\ o_value o = Scalar "2" /\ found v' ["a"] (Scalar "1").
Proof.
  exists (Mapping []), [Override "s" [] (Mapping [("a", Scalar "1")]); Override "s" ["a"] (Scalar "2")].
  eexists. eexists. split; [reflexivity|]. split; [reflexivity|]. split; [reflexivity|]. split; [reflexivity|].
  econstructor; [left; reflexivity|constructor].
Qed.
Print Assumptions C31_last_override_refuted.

(** And a section which is present but empty makes any override of one of its values
    panic, although it could be created as for a missing section. *)
Theorem C31_empty_section_refuted : exists T parse unparse c, get "s" (sections c) = Some Null
  /\ extract_parameter_struct T parse unparse c "s" = None
  /\ exists t, extract_parameter_struct T parse unparse (Contents [] (overrides c)) "s" = Some t.
Proof.
  exists value, Some, (fun v => v), (Contents [("s", Null)] [Override "s" ["a"] (Scalar "1")]).
  split; [reflexivity|]. split; [reflexivity|]. eexists. reflexivity.
Qed.
Print Assumptions C31_empty_section_refuted.

Definition ex_value : value := Mapping [("a", Scalar "1"); ("b", Mapping [("c", Scalar "2"); ("d", Scalar "3")])].
Definition ex_overrides : list override :=
  [Override "s" ["b"; "c"] (Scalar "5"); Override "s" ["e"; "f"; "g"] (Scalar "6"); Override "s" ["b"; "c"] (Scalar "7")].
Example C31_example :
  insert_overrides ex_value ex_overrides
  = Some (Mapping [("a", Scalar "1"); ("b", Mapping [("c", Scalar "7"); ("d", Scalar "3")]); ("e", Mapping [("f", Mapping [("g", Scalar "6")])])])
  /\ (forall o, In o ex_overrides -> o_keys o <> [] /\ well_formed (o_value o)) /\ well_formed ex_value
  /\ apart ["e"; "f"; "g"] ["b"; "c"] /\ apart ["b"; "d"] ["b"; "c"].
Proof.
  split; [reflexivity|]. split.
  { intros o [ <- | [ <- | [ <- | [] ] ] ]; (split; [discriminate|constructor]). }
  split.
  { constructor.
    - repeat constructor; cbn; intuition congruence.
    - intros k v [ E | [ E | [] ] ]; injection E as <- <-; constructor.
      + repeat constructor; cbn; intuition congruence.
      + intros k v [ E | [ E | [] ] ]; injection E as <- <-; constructor. }
  split; split; intros [r C]; discriminate C.
Qed.
Example C31_example_line : from_str (fun s => Some (Scalar s)) "sweep/chemistry/rate:1.5" = Parsed (Override "sweep" ["chemistry"; "rate"] (Scalar "1.5"))
  /\ "sweep/chemistry/rate:1.5" = joined "sweep" ["chemistry"; "rate"] ++ String ":" "1.5".
Proof. split; reflexivity. Qed.
Example C31_example_extract : match extract_parameter_struct value Some (fun v => v)
    (Contents [("s", ex_value); ("t", Null)] (ex_overrides ++ [Override "t" [] (Scalar "9")])) "t" with
  | Some (Scalar "9", c) => get "s" (sections c) = Some ex_value /\ get "t" (sections c) = Some (Scalar "9")
  | _ => False end.
Proof. split; reflexivity. Qed.
Example C31_example_failure : set_sublevel_value_by_keys ex_value ["a"; "x"] Null = None.
Proof. reflexivity. Qed.
