(** Model of extents ([/repo/src/extent.rs], [/repo/src/domain/extent.rs]) and of
    the periodic simulation box ([/repo/src/simulation_box.rs]), in two and three
    dimensions. Lengths are exact rationals; units are dropped. *)
From Coq Require Import List QArith Qround.
Import ListNotations.
Local Open Scope Q_scope.

Record vec2 : Type := V2 { x2 : Q; y2 : Q }.
Record vec3 : Type := V3 { x3 : Q; y3 : Q; z3 : Q }.

(** [Extent], extent.rs 14-20; the field [center] is computed by [from_min_max]
    (extent.rs 23-26) and never changed, so it is a function here. *)
Record extent2 : Type := E2 { min2 : vec2; max2 : vec2 }.
Record extent3 : Type := E3 { min3 : vec3; max3 : vec3 }.
Definition center2 (e : extent2) : vec2 :=
  V2 ((x2 (min2 e) + x2 (max2 e)) / 2) ((y2 (min2 e) + y2 (max2 e)) / 2).
Definition center3 (e : extent3) : vec3 :=
  V3 ((x3 (min3 e) + x3 (max3 e)) / 2) ((y3 (min3 e) + y3 (max3 e)) / 2)
     ((z3 (min3 e) + z3 (max3 e)) / 2).
(** [side_lengths], extent.rs 40-42. *)
Definition sides2 (e : extent2) : vec2 :=
  V2 (x2 (max2 e) - x2 (min2 e)) (y2 (max2 e) - y2 (min2 e)).
Definition sides3 (e : extent3) : vec3 :=
  V3 (x3 (max3 e) - x3 (min3 e)) (y3 (max3 e) - y3 (min3 e)) (z3 (max3 e) - z3 (min3 e)).

Definition Qltb (a b : Q) : bool := negb (Qle_bool b a).

(** [contains], domain/extent.rs 231-236 and 304-311. *)
Definition contains2 (e : extent2) (p : vec2) : bool :=
  Qle_bool (x2 (min2 e)) (x2 p) && Qle_bool (x2 p) (x2 (max2 e))
  && Qle_bool (y2 (min2 e)) (y2 p) && Qle_bool (y2 p) (y2 (max2 e)).
Definition contains3 (e : extent3) (p : vec3) : bool :=
  Qle_bool (x3 (min3 e)) (x3 p) && Qle_bool (x3 p) (x3 (max3 e))
  && Qle_bool (y3 (min3 e)) (y3 p) && Qle_bool (y3 p) (y3 (max3 e))
  && Qle_bool (z3 (min3 e)) (z3 p) && Qle_bool (z3 p) (z3 (max3 e)).

(** [get_quadrant_index], domain/extent.rs 199-207 and 245-260. *)
Definition quadrant_index2 (e : extent2) (p : vec2) : nat :=
  match Qltb (x2 p) (x2 (center2 e)), Qltb (y2 p) (y2 (center2 e)) with
  | true, true => 0
  | false, true => 1
  | true, false => 2
  | false, false => 3
  end.
Definition quadrant_index3 (e : extent3) (p : vec3) : nat :=
  match Qltb (x3 p) (x3 (center3 e)), Qltb (y3 p) (y3 (center3 e)), Qltb (z3 p) (z3 (center3 e)) with
  | true, true, true => 0
  | false, true, true => 1
  | true, false, true => 2
  | false, false, true => 3
  | true, true, false => 4
  | false, true, false => 5
  | true, false, false => 6
  | false, false, false => 7
  end.

(** [get_quadrants], domain/extent.rs 208-224 and 261-289. *)
Definition quadrants2 (e : extent2) : list extent2 :=
  let mn := min2 e in let c := center2 e in let mx := max2 e in
  [ E2 (V2 (x2 mn) (y2 mn)) (V2 (x2 c) (y2 c));
    E2 (V2 (x2 c) (y2 mn)) (V2 (x2 mx) (y2 c));
    E2 (V2 (x2 mn) (y2 c)) (V2 (x2 c) (y2 mx));
    E2 (V2 (x2 c) (y2 c)) (V2 (x2 mx) (y2 mx)) ].
Definition quadrants3 (e : extent3) : list extent3 :=
  let mn := min3 e in let c := center3 e in let mx := max3 e in
  [ E3 (V3 (x3 mn) (y3 mn) (z3 mn)) (V3 (x3 c) (y3 c) (z3 c));
    E3 (V3 (x3 c) (y3 mn) (z3 mn)) (V3 (x3 mx) (y3 c) (z3 c));
    E3 (V3 (x3 mn) (y3 c) (z3 mn)) (V3 (x3 c) (y3 mx) (z3 c));
    E3 (V3 (x3 c) (y3 c) (z3 mn)) (V3 (x3 mx) (y3 mx) (z3 c));
    E3 (V3 (x3 mn) (y3 mn) (z3 c)) (V3 (x3 c) (y3 c) (z3 mx));
    E3 (V3 (x3 c) (y3 mn) (z3 c)) (V3 (x3 mx) (y3 c) (z3 mx));
    E3 (V3 (x3 mn) (y3 c) (z3 c)) (V3 (x3 c) (y3 mx) (z3 mx));
    E3 (V3 (x3 c) (y3 c) (z3 c)) (V3 (x3 mx) (y3 mx) (z3 mx)) ].

(** [f64::rem_euclid] of the standard library, in exact arithmetic, for a positive
    divisor. *)
Definition rem_euclid (a b : Q) : Q := a - b * inject_Z (Qfloor (a / b)).

(** [periodic_wrap_component], simulation_box.rs 59-61. *)
Definition wrap_component (v mn mx : Q) : Q := mn + rem_euclid (v - mn) (mx - mn).

(** [minimize_component], simulation_box.rs 63-71. *)
Definition minimize_component (v length : Q) : Q :=
  if Qltb (length / 2) v then v - length
  else if Qltb v (- length / 2) then v + length
  else v.

(** [periodic_wrap], simulation_box.rs 86-106. *)
Definition periodic_wrap2 (b : extent2) (p : vec2) : vec2 :=
  V2 (wrap_component (x2 p) (x2 (min2 b)) (x2 (max2 b)))
     (wrap_component (y2 p) (y2 (min2 b)) (y2 (max2 b))).
Definition periodic_wrap3 (b : extent3) (p : vec3) : vec3 :=
  V3 (wrap_component (x3 p) (x3 (min3 b)) (x3 (max3 b)))
     (wrap_component (y3 p) (y3 (min3 b)) (y3 (max3 b)))
     (wrap_component (z3 p) (z3 (min3 b)) (z3 (max3 b))).

(** [periodic_distance_vec], simulation_box.rs 108-127. *)
Definition periodic_distance_vec2 (b : extent2) (p q : vec2) : vec2 :=
  V2 (minimize_component (x2 p - x2 q) (x2 (sides2 b)))
     (minimize_component (y2 p - y2 q) (y2 (sides2 b))).
Definition periodic_distance_vec3 (b : extent3) (p q : vec3) : vec3 :=
  V3 (minimize_component (x3 p - x3 q) (x3 (sides3 b)))
     (minimize_component (y3 p - y3 q) (y3 (sides3 b)))
     (minimize_component (z3 p - z3 q) (z3 (sides3 b))).

(** The square of [length], hence of [periodic_distance] (simulation_box.rs
    129-131); the square root is only used in comparisons. *)
Definition length_sq2 (v : vec2) : Q := x2 v * x2 v + y2 v * y2 v.
Definition length_sq3 (v : vec3) : Q := x3 v * x3 v + y3 v * y3 v + z3 v * z3 v.

(** [WrapType], simulation_box.rs 164-185. *)
Inductive wrap_type : Set := NoWrap | Minus | Plus.
Definition iter_all : list wrap_type := [NoWrap; Minus; Plus].
Definition as_sign (w : wrap_type) : Q := match w with NoWrap => 0 | Minus => - (1) | Plus => 1 end.

(** [iter_periodic_images], simulation_box.rs 133-161, with [as_translation]
    (214-219, 248-254). *)
Definition images2 (b : extent2) (p : vec2) : list (wrap_type * wrap_type * vec2) :=
  map (fun '(wx, wy) =>
         (wx, wy, V2 (x2 p + x2 (sides2 b) * as_sign wx) (y2 p + y2 (sides2 b) * as_sign wy)))
      (flat_map (fun x => map (fun y => (x, y)) iter_all) iter_all).
Definition images3 (b : extent3) (p : vec3) : list (wrap_type * wrap_type * wrap_type * vec3) :=
  map (fun '(wx, wy, wz) =>
         (wx, wy, wz,
          V3 (x3 p + x3 (sides3 b) * as_sign wx) (y3 p + y3 (sides3 b) * as_sign wy)
             (z3 p + z3 (sides3 b) * as_sign wz)))
      (flat_map (fun '(x, y) => map (fun z => (x, y, z)) iter_all)
         (flat_map (fun x => map (fun y => (x, y)) iter_all) iter_all)).
