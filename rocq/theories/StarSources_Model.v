(** Model of the sources read from the initial conditions
    ([/repo/src/arepo_postprocess/sources.rs]).

    Numbers are exact rationals.  [None] is a panic.  The conversion of
    units by [ArepoUnitReader] is left out.
    A data set that a file does not contain has no entries there
    ([get_num_entries], io/input/mod.rs 221-232). *)
From Coq Require Import List QArith.
From Verif Require Import FileDist_Model Bpass_Model Sources_Model.
Import ListNotations.

Section Stars.
  (** [formation_scale_factor_to_age], sources.rs 72-77: the cosmology's
      [time_difference_between_scalefactors] to the present scale
      factor; it panics without a cosmology. *)
  Variable age : Q -> option Q.
  Variable escape_fraction : Q.

  (** [new_bpass_source], sources.rs 57-70. *)
  Definition new_bpass_source (position : pos) (metallicity mass scale : Q)
      : option source :=
    match age scale with
    | None => None
    | Some a =>
        match bpass_lookup a metallicity mass with
        | None => None
        | Some rate => Some (Source position (rate * escape_fraction))
        end
    end.

  (** The chain of iterators, sources.rs 110-127: [zip] stops at the end
      of the shortest, then [filter] and [map]. *)
  Fixpoint zip_sources (ps : list pos) (zs scales masses : list Q)
      : option (list source) :=
    match ps, zs, scales, masses with
    | p :: ps, z :: zs, a :: scales, m :: masses =>
        if negb (Qle_bool a 0) then
          match new_bpass_source p z m a, zip_sources ps zs scales masses with
          | Some s, Some rest => Some (s :: rest)
          | _, _ => None
          end
        else zip_sources ps zs scales masses
    | _, _, _, _ => Some []
    end.

  (** [read_sources], sources.rs 79-128, with the reader of
      [Reader::split_between_ranks] (line 50) on one rank. *)
  Definition read_sources (fp : list (list pos)) (fz fa fm : list (list Q))
      (num_ranks rank : nat) : option (list source) :=
    match read_dataset fp num_ranks rank, read_dataset fz num_ranks rank,
          read_dataset fa num_ranks rank, read_dataset fm num_ranks rank with
    | Some ps, Some zs, Some scales, Some masses =>
        zip_sources ps zs scales masses
    | _, _, _, _ => None
    end.
End Stars.
