(** Model of the time integration of the hydrogen chemistry
    ([/repo/src/chemistry/hydrogen_only/mod.rs], [/repo/src/chemistry/timescale.rs]).

    Numbers are exact rationals together with infinities and the invalid value NaN, with
    the comparisons of f64; rounding, overflow and the sign of zero are left out. The
    physical rates ([temperature_change], mod.rs 304-310, and [ionized_fraction_change],
    334-354, with everything they use) are arbitrary functions of temperature, ionized
    fraction and timestep; density, volume, length, photon rate and scale factor are
    constant during an update. A panic is [None]. *)
From Coq Require Import List Arith ZArith QArith Qabs.
Import ListNotations.
Local Open Scope Q_scope.

Inductive num : Type := Fin (q : Q) | Inf (negative : bool) | NaN.

Definition Qlt_bool (a b : Q) : bool := negb (Qle_bool b a).

(** Comparison of f64: false if one of the operands is NaN. *)
Definition nlt (a b : num) : bool :=
  match a, b with
  | NaN, _ | _, NaN => false
  | Fin p, Fin q => Qlt_bool p q
  | Inf n, Inf m => n && negb m
  | Fin _, Inf m => negb m
  | Inf n, Fin _ => n
  end.
Definition nle (a b : num) : bool :=
  match a, b with
  | NaN, _ | _, NaN => false
  | _, _ => negb (nlt b a)
  end.
(** [f64::min]: the other operand if one is NaN. *)
Definition nmin (a b : num) : num :=
  match a, b with NaN, _ => b | _, NaN => a | _, _ => if nlt b a then b else a end.
Definition nabs (a : num) : num :=
  match a with Fin q => Fin (Qabs q) | Inf _ => Inf false | NaN => NaN end.
Definition nadd (a b : num) : num :=
  match a, b with
  | NaN, _ | _, NaN => NaN
  | Fin p, Fin q => Fin (p + q)
  | Inf n, Inf m => if Bool.eqb n m then Inf n else NaN
  | Inf n, Fin _ | Fin _, Inf n => Inf n
  end.
Definition neg_q (q : Q) : bool := Qlt_bool q 0.
Definition ndiv (a b : num) : num :=
  match a, b with
  | NaN, _ | _, NaN => NaN
  | Fin p, Fin q => if Qeq_bool q 0 then (if Qeq_bool p 0 then NaN else Inf (neg_q p)) else Fin (p / q)
  | Fin _, Inf _ => Fin 0
  | Inf n, Fin q => Inf (xorb n (neg_q q))
  | Inf _, Inf _ => NaN
  end.
Definition nmul (a b : num) : num :=
  match a, b with
  | NaN, _ | _, NaN => NaN
  | Fin p, Fin q => Fin (p * q)
  | Fin p, Inf n | Inf n, Fin p => if Qeq_bool p 0 then NaN else Inf (xorb n (neg_q p))
  | Inf n, Inf m => Inf (xorb n m)
  end.

(** [IONIZED_HYDROGEN_FRACTION_EPSILON], mod.rs 36, [f64::EPSILON]. *)
Definition eps : Q := 1 # 10000000000.
Definition inv_epsilon : num := Fin (4503599627370496 # 1).

(** [f64::clamp]: panics unless the bounds are ordered; NaN is kept. *)
Definition nclamp (x lo hi : num) : option num :=
  if nle lo hi then Some (if nlt x lo then lo else if nlt hi x then hi else x) else None.

(** The changing part of [Solver], mod.rs 126-135. *)
Record chem : Type := Chem { temp : num; frac : num }.

(** [temperature_change] and [ionized_fraction_change]. *)
Record physics : Type := Physics { d_temp : chem -> Q -> num; d_frac : chem -> Q -> num }.

(** [update], mod.rs 444-461: the new value and the recommended timestep, or the
    criterion is violated. *)
Definition update (value change : num) (max_allowed : Q) (timestep : Q) : option (num * num) :=
  let relative_change := nmin (nabs (ndiv change value)) inv_epsilon in
  if nlt (Fin max_allowed) relative_change then None
  else Some (nadd value change, nmul (Fin timestep) (ndiv (Fin max_allowed) relative_change)).

(** [Timescale::min], timescale.rs 33-39, without the process. *)
Definition tmin (a b : num) : num := if nlt a b then a else b.

Section Solver.
  Variable phys : physics.
  (** [floor], mod.rs 134. *)
  Variable floor : option (num * num).
  Variable safety : Q.

  (** [clamp], mod.rs 356-369. *)
  Definition clamp (s : chem) : option chem :=
    let lo := match floor with Some (_, x) => x | None => Fin eps end in
    match nclamp (frac s) lo (Fin (1 - eps)) with
    | None => None
    | Some x =>
        Some (Chem (match floor with
                    | Some (t, _) => if nlt (temp s) t then t else temp s
                    | None => temp s
                    end) x)
    end.

  (** [try_timestep_update], mod.rs 371-392: the state, and a recommendation if the
      criterion is not violated. *)
  Definition try_update (s : chem) (h : Q) : option (chem * option num) :=
    match update (temp s) (d_temp phys s h) safety h with
    | None => Some (s, None)
    | Some (t, rec_t) =>
        let s1 := Chem t (frac s) in
        match update (frac s1) (d_frac phys s1 h) safety h with
        | None => Some (s1, None)
        | Some (x, rec_x) =>
            match clamp (Chem (temp s1) x) with
            | None => None
            | Some s2 => Some (s2, Some (tmin rec_t rec_x))
            end
        end
    end.

  (** [perform_timestep_internal], mod.rs 394-424. [n] is [max_depth + 1 - depth]. The
      second component is [None] for [TimestepConvergenceFailed]. *)
  Fixpoint internal (n : nat) (h : Q) (s : chem) : option (chem * option num) :=
    match clamp s with
    | None => None
    | Some s0 =>
        match n with
        | O => Some (s0, None)
        | S n' =>
            match try_update s0 h with
            | None => None
            | Some (s1, Some r) => Some (s1, Some r)
            | Some (s1, None) =>
                let restored := Chem (temp s0) (frac s0) in
                match internal n' (h / 2) restored with
                | Some (s2, Some _) => internal n' (h / 2) s2
                | other => other
                end
            end
        end
    end.

  (** [perform_timestep], mod.rs 426-441, with [MAX_DEPTH], mod.rs 32. *)
  Definition perform_timestep (s : chem) (h : Q) : option (chem * num) :=
    match internal 101 h s with
    | None => None
    | Some (s', Some r) => Some (s', r)
    | Some (s', None) => Some (s', Fin (h / 10))
    end.
End Solver.

(** [update_abundances], mod.rs 90-119. *)
Definition update_abundances (prevent_cooling : bool) (safety : Q) (phys : physics) (h : Q) (s : chem)
  : option (chem * num) :=
  perform_timestep phys (if prevent_cooling then Some (temp s, frac s) else None) safety s h.

(** Any number of updates of a cell, with any rates and timesteps. The result lists the
    states after each update. *)
Fixpoint updates (prevent_cooling : bool) (safety : Q) (l : list (physics * Q)) (s : chem) : option (list chem) :=
  match l with
  | [] => Some []
  | (phys, h) :: l' =>
      match update_abundances prevent_cooling safety phys h s with
      | None => None
      | Some (s', _) => option_map (cons s') (updates prevent_cooling safety l' s')
      end
  end.

(** [get_outgoing_rate], mod.rs 72-88. [expf] stands for the exponential; the constants
    [PROTON_MASS] and [NUMBER_WEIGHTED_AVERAGE_CROSS_SECTION] are arguments. *)
Definition get_outgoing_rate (expf : Q -> Q) (proton_mass sigma threshold density fraction size incoming : Q) : Q :=
  let neutral := density / proton_mass * (1 - fraction) in
  if Qlt_bool incoming threshold then 0 else incoming * expf (- neutral * sigma * size).
