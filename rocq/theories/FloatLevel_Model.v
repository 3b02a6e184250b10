(** Model of the choice of the timestep level with the rounding of [f64] (src/sweep/timestep_level.rs). Times are numbers
    of type [f64] in one unit. *)
From Coq Require Import ZArith QArith Qround.
From Flocq Require Import Core.Core IEEE754.BinarySingleNaN.
From Verif Require Import Float_Model.
Local Open Scope Z_scope.

(** [x.ceil() as usize], timestep_level.rs 33: rounding up to an integer is exact; the conversion saturates and gives zero
    for NaN. *)
Definition largest_usize : Z := 2 ^ 64 - 1.
Definition ceil_as_usize (x : f64) : Z :=
  match x with
  | B754_nan => 0
  | B754_infinity s => if s then 0 else largest_usize
  | _ => match to_Q x with
         | Some q => Z.max 0 (Z.min largest_usize (Qceiling q))
         | None => 0
         end
  end.

Section Level.
  (** [f64::log2]: a function of the mathematical library, which need not be rounded correctly. *)
  Variable log2 : f64 -> f64.
  (** [from_max_timestep_and_desired_timestep], timestep_level.rs 27-36; [max_num_levels] is at least one. *)
  Definition level64 (max_num_levels : Z) (max_timestep desired_timestep : f64) : Z :=
    let ratio := div max_timestep desired_timestep in
    let level := ceil_as_usize (log2 ratio) in
    Z.max 0 (Z.min level (max_num_levels - 1)).
End Level.

(** [as_factor], timestep_level.rs 46-48: [powi] multiplies powers of one half, which is exact for the levels considered here. *)
Definition factor64 (level : Z) : f64 := lit 1 (- level).
(** [to_timestep], timestep_level.rs 42-44. *)
Definition timestep64 (level : Z) (max_timestep : f64) : f64 := mul max_timestep (factor64 level).
