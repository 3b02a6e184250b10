(** Model of the parameter overrides
    ([/repo/src/parameter_plugin/parameter_file_contents.rs],
    [/repo/src/command_line_options.rs]).

    A parameter value is null, a scalar or sequence (kept as its text), or a mapping from
    strings to values in insertion order. Keys which are not strings and tagged values
    are left out. Reading a value into a parameter struct and writing it back are
    arbitrary functions. [None] is a panic unless stated otherwise. *)
From Coq Require Import List String Ascii Bool Arith.
Import ListNotations.
Local Open Scope string_scope.

Inductive value : Type :=
| Null
| Scalar (text : string)
| Mapping (entries : list (string * value)).

(** [Override], parameter_file_contents.rs 9-14. *)
Record override : Type := Override { o_section : string; o_keys : list string; o_value : value }.

(** [Mapping::get_mut] and writing through the reference. *)
Fixpoint get {A : Type} (k : string) (m : list (string * A)) : option A :=
  match m with
  | [] => None
  | (k', v) :: m' => if String.eqb k k' then Some v else get k m'
  end.
Fixpoint put {A : Type} (k : string) (v : A) (m : list (string * A)) : list (string * A) :=
  match m with
  | [] => []
  | (k', v') :: m' => if String.eqb k k' then (k', v) :: m' else (k', v') :: put k v m'
  end.

(** [construct_sub_mapping], 86-100. *)
Fixpoint construct_sub_mapping (keys : list string) (v : value) : value :=
  match keys with
  | [] => v
  | k :: keys' => Mapping [(k, construct_sub_mapping keys' v)]
  end.

(** [set_sublevel_value_by_keys], 102-121. *)
Fixpoint set_sublevel_value_by_keys (v : value) (keys : list string) (target : value) : option value :=
  match keys with
  | [] => Some target
  | k :: keys' =>
      match v with
      | Mapping m =>
          match get k m with
          | Some sub => option_map (fun sub' => Mapping (put k sub' m)) (set_sublevel_value_by_keys sub keys' target)
          | None => Some (Mapping (m ++ [(k, construct_sub_mapping keys' target)])%list)
          end
      | _ => None
      end
  end.

(** [insert_overrides], 22-32. *)
Fixpoint insert_overrides (v : value) (l : list override) : option value :=
  match l with
  | [] => Some v
  | o :: l' =>
      match o_keys o with
      | [] => Some (o_value o)
      | keys => match set_sublevel_value_by_keys v keys (o_value o) with
                | Some v' => insert_overrides v' l'
                | None => None
                end
      end
  end.

(** [ParameterFileContents], 16-20. The order of the sections does not matter. *)
Record contents : Type := Contents { sections : list (string * value); overrides : list override }.

(** [get_overrides_for_section], 147-155. *)
Definition get_overrides_for_section (c : contents) (name : string) : list override :=
  filter (fun o => String.eqb (o_section o) name) (overrides c).

Section Extract.
  Variable T : Type.
  (** [serde_yaml::from_value] and [to_value]. *)
  Variable parse : value -> option T.
  Variable unparse : T -> value.

  (** [extract_from_default], 38-65. *)
  Definition extract_from_default (os : list override) : option T :=
    match insert_overrides (Mapping []) os with
    | None => None
    | Some v => match parse v with Some t => Some t | None => parse Null end
    end.

  (** [extract_parameter_struct], 165-181, with [extract_from_section], 67-81. *)
  Definition extract_parameter_struct (c : contents) (name : string) : option (T * contents) :=
    let os := get_overrides_for_section c name in
    match get name (sections c) with
    | Some v =>
        match insert_overrides v os with
        | None => None
        | Some v' => match parse v' with
                     | Some t => Some (t, Contents (put name v' (sections c)) (overrides c))
                     | None => None
                     end
        end
    | None =>
        match extract_from_default os with
        | None => None
        | Some t => Some (t, Contents (sections c ++ [(name, unparse t)])%list (overrides c))
        end
    end.
End Extract.

(** [str::split] with a character: [cur] is the part being read. *)
Fixpoint split_at (sep : ascii) (cur : string) (s : string) : list string :=
  match s with
  | EmptyString => [cur]
  | String c s' => if Ascii.eqb c sep then cur :: split_at sep EmptyString s' else split_at sep (cur ++ String c EmptyString) s'
  end.
Definition split (sep : ascii) (s : string) : list string := split_at sep EmptyString s.

Inductive parsed : Type := ParseError | ParsePanic | Parsed (o : override).

(** [Override::from_str], command_line_options.rs 26-45. [yaml] reads the text of the
    value. *)
Definition from_str (yaml : string -> option value) (s : string) : parsed :=
  match split ":" s with
  | [l; r] =>
      match split "/" l with
      | section :: keys =>
          match yaml r with
          | Some v => Parsed (Override section keys v)
          | None => ParsePanic
          end
      | [] => ParsePanic
      end
  | _ => ParseError
  end.
