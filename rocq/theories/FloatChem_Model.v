(** Model of the time integration of the chemistry with the rounding of [f64] (chemistry/hydrogen_only/mod.rs 356-461). The
    changes of temperature and ionized fraction (304-310, 334-354) are arbitrary functions of temperature, fraction and
    timestep; their results may be infinite or NaN. [Chem_Model] is the same with exact numbers. A panic is [None]. *)
From Coq Require Import ZArith.
From Flocq Require Import Core.Core IEEE754.BinarySingleNaN.
From Verif Require Import Float_Model.

(** [f64::min]: the other number if one is NaN. *)
Definition min64 (x y : f64) : f64 :=
  match x, y with
  | B754_nan, _ => y
  | _, B754_nan => x
  | _, _ => if lt y x then y else x
  end.

(** [f64::clamp]: panics unless the bounds are ordered; NaN is kept. *)
Definition clamp64 (x lo hi : f64) : option f64 :=
  match cmp lo hi with
  | Some Lt | Some Eq => Some (if lt x lo then lo else if lt hi x then hi else x)
  | _ => None
  end.

(** [IONIZED_HYDROGEN_FRACTION_EPSILON], mod.rs 38, the literal [1e-10]; [1.0 - IONIZED_HYDROGEN_FRACTION_EPSILON], 363;
    [1.0 / f64::EPSILON], 453. *)
Definition fraction_epsilon : f64 := lit 0x1b7cdfd9d7bdbb (-86).
Definition largest_fraction : f64 := sub one fraction_epsilon.
Definition inv_epsilon : f64 := div one (lit 1 (-52)).

(** The changing part of [Solver], mod.rs 126-135. *)
Record gas : Type := Gas { temperature : f64; fraction : f64 }.

(** [update], mod.rs 444-461: the new value and the recommended timestep, or the criterion is violated. *)
Definition update64 (value change max_allowed timestep : f64) : option (f64 * f64) :=
  let relative_change := min64 (abs (div change value)) inv_epsilon in
  if lt max_allowed relative_change then None
  else Some (add value change, mul timestep (div max_allowed relative_change)).

(** [Timescale::min], timescale.rs 33-39, without the process. *)
Definition earlier (a b : f64) : f64 := if lt a b then a else b.

Section Solver.
  (** [temperature_change], [ionized_fraction_change]. *)
  Variables d_temperature d_fraction : gas -> f64 -> f64.
  (** [floor], mod.rs 134. *)
  Variable floor : option (f64 * f64).
  Variable safety : f64.

  Definition fraction_floor : f64 := match floor with Some (_, x) => x | None => fraction_epsilon end.

  (** [clamp], mod.rs 356-369. *)
  Definition clamp (s : gas) : option gas :=
    match clamp64 (fraction s) fraction_floor largest_fraction with
    | None => None
    | Some x =>
        Some (Gas (match floor with
                   | Some (t, _) => if lt (temperature s) t then t else temperature s
                   | None => temperature s
                   end) x)
    end.

  (** [try_timestep_update], mod.rs 371-392: the state, and a recommendation if the criterion is not violated. *)
  Definition try_update (s : gas) (h : f64) : option (gas * option f64) :=
    match update64 (temperature s) (d_temperature s h) safety h with
    | None => Some (s, None)
    | Some (t, rec_t) =>
        let s1 := Gas t (fraction s) in
        match update64 (fraction s1) (d_fraction s1 h) safety h with
        | None => Some (s1, None)
        | Some (x, rec_x) =>
            match clamp (Gas (temperature s1) x) with
            | None => None
            | Some s2 => Some (s2, Some (earlier rec_t rec_x))
            end
        end
    end.

  (** [perform_timestep_internal], mod.rs 394-424. [n] is [max_depth + 1 - depth]. The second component is [None] for
      [TimestepConvergenceFailed]. *)
  Fixpoint internal (n : nat) (h : f64) (s : gas) : option (gas * option f64) :=
    match clamp s with
    | None => None
    | Some s0 =>
        match n with
        | O => Some (s0, None)
        | S n' =>
            match try_update s0 h with
            | None => None
            | Some (s1, Some r) => Some (s1, Some r)
            | Some (s1, None) =>
                match internal n' (div h (lit 1 1)) s0 with
                | Some (s2, Some _) => internal n' (div h (lit 1 1)) s2
                | other => other
                end
            end
        end
    end.

  (** [perform_timestep], mod.rs 426-441, with [MAX_DEPTH], mod.rs 34. *)
  Definition perform_timestep (s : gas) (h : f64) : option (gas * f64) :=
    match internal 101 h s with
    | None => None
    | Some (s', Some r) => Some (s', r)
    | Some (s', None) => Some (s', div h (lit 10 0))
    end.
End Solver.

(** [update_abundances], mod.rs 90-121: the floor is the state before, if cooling is prevented. *)
Definition update_abundances (prevent_cooling : bool) (d_temperature d_fraction : gas -> f64 -> f64) (safety : f64) (s : gas) (h : f64) : option (gas * f64) :=
  perform_timestep d_temperature d_fraction (if prevent_cooling then Some (temperature s, fraction s) else None) safety s h.
