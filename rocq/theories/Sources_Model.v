(** Model of the deposition of sources ([/repo/src/source_systems.rs]).

    Positions and rates are rationals. The nearest-neighbour search of the external
    k-d tree is an arbitrary function of the list of positions in the tree. [None] is a
    panic. *)
From Coq Require Import List Arith NArith QArith.
From Verif Require Import Decomp_Model Hilbert_Model.
Import ListNotations.

Notation pos := (Q * Q * Q)%type.
(** [Source], source_systems.rs 34-39. *)
Record source : Type := Source { s_pos : pos; s_rate : Q }.

Section Sources.
  (** [KdTree::nearest_one]: the index of the result. *)
  Variable nearest : list pos -> pos -> nat.

  (** [source_term += rate] for the particle with the given index. *)
  Fixpoint add_at (i : nat) (r : Q) (terms : list Q) {struct terms} : option (list Q) :=
    match terms, i with
    | [], _ => None
    | t :: terms', O => Some ((t + r)%Q :: terms')
    | t :: terms', S i' => option_map (cons t) (add_at i' r terms')
    end.

  (** The loop of [set_source_terms_system], 63-71, on one rank. [owner] is [into_key]
      followed by [get_owning_rank]. *)
  Fixpoint deposit (owner : pos -> nat) (rank : nat) (positions : list pos) (all : list source) (terms : list Q)
    : option (list Q) :=
    match all with
    | [] => Some terms
    | s :: all' =>
        if (owner (s_pos s) =? rank)%nat then
          match add_at (nearest positions (s_pos s)) (s_rate s) terms with
          | Some terms' => deposit owner rank positions all' terms'
          | None => None
          end
        else deposit owner rank positions all' terms
    end.

  (** [set_source_terms_system], 48-79, on all ranks: [sources] and [particles]
      (position and source term) are given per rank; the sources are gathered first. *)
  Definition set_source_terms (mn mx : pos) (cuts : list N) (sources : list (list source)) (particles : list (list (pos * Q)))
    : option (list (list Q)) :=
    let all := concat sources in
    let owner p := owning_rank cuts (point_key_3d bits_3d mn mx p) in
    opt_all (fun '(rank, ps) => deposit owner rank (map fst ps) all (map snd ps))
      (combine (seq 0 (length particles)) particles).
End Sources.
