(** Models of geometric tests and coordinates as they are computed with [f64], that is with the rounding, overflow and
    special values of IEEE 754 (double precision, round to nearest, ties to even). The operations are those of the
    library Flocq. *)
From Coq Require Import ZArith QArith Bool List.
From Flocq Require Import Core.Core IEEE754.BinarySingleNaN.
From Verif Require Import Geometry_Model Hilbert_Model.
Import ListNotations.

Definition f64 : Type := binary_float 53 1024.
Definition gt0 : Prec_gt_0 53 := eq_refl.
Definition ltmax : Prec_lt_emax 53 1024 := eq_refl.
(** [+], [-], [*], [/] and [abs] of [f64]. *)
Definition add (x y : f64) : f64 := @Bplus 53 1024 gt0 ltmax mode_NE x y.
Definition sub (x y : f64) : f64 := @Bminus 53 1024 gt0 ltmax mode_NE x y.
Definition mul (x y : f64) : f64 := @Bmult 53 1024 gt0 ltmax mode_NE x y.
Definition div (x y : f64) : f64 := @Bdiv 53 1024 gt0 ltmax mode_NE x y.
Definition abs (x : f64) : f64 := Babs x.
(** [<] and [partial_cmp]. *)
Definition lt (x y : f64) : bool := Bltb x y.
Definition cmp (x y : f64) : option comparison := Bcompare x y.
(** The number closest to [m * 2 ^ e]; used for literals. *)
Definition lit (m e : Z) : f64 := @binary_normalize 53 1024 gt0 ltmax mode_NE m e false.
Definition zero : f64 := B754_zero false.
Definition one : f64 := lit 1 0.

(** [PrecisionFloat::from_f64] ([BigRational::from_f64]) is exact; [None] for infinities and NaN. *)
Definition to_Q (x : f64) : option Q :=
  match x with
  | B754_zero _ => Some 0%Q
  | B754_finite s m e _ => Some (inject_Z (cond_Zopp s (Zpos m)) * (2 # 1) ^ e)%Q
  | _ => None
  end.

(** The result of a computation with [f64]: [Imprecise] is [Err(PrecisionError)]. *)
Inductive answer (A : Type) : Type := Value (a : A) | Imprecise | Panics.
Arguments Value {A}. Arguments Imprecise {A}. Arguments Panics {A}.
Definition bind {A B} (a : answer A) (f : A -> answer B) : answer B :=
  match a with Value x => f x | Imprecise => Imprecise | Panics => Panics end.
(** [unwrap] of an option. *)
Definition unwrap {A} (o : option A) : answer A := match o with Some x => Value x | None => Panics end.

Record fpoint3 := F3 { fx : f64; fy : f64; fz : f64 }.
Record ftetrahedron := FT { ft1 : fpoint3; ft2 : fpoint3; ft3 : fpoint3; ft4 : fpoint3 }.
Definition fsub3 (a b : fpoint3) : fpoint3 := F3 (sub (fx a) (fx b)) (sub (fy a) (fy b)) (sub (fz a) (fz b)).
(** [DVec3::dot] and [DVec3::cross]. *)
Definition fdot3 (a b : fpoint3) : f64 := add (add (mul (fx a) (fx b)) (mul (fy a) (fy b))) (mul (fz a) (fz b)).
Definition fcross3 (a b : fpoint3) : fpoint3 :=
  F3 (sub (mul (fy a) (fz b)) (mul (fy b) (fz a))) (sub (mul (fz a) (fx b)) (mul (fz b) (fx a))) (sub (mul (fx a) (fy b)) (mul (fx b) (fy a))).

(** [PrecisionPoint3d::new], src/voronoi/math/precision_types.rs 61-69. *)
Definition lift_point (p : fpoint3) : answer point3 :=
  bind (unwrap (to_Q (fx p))) (fun x => bind (unwrap (to_Q (fy p))) (fun y => bind (unwrap (to_Q (fz p))) (fun z => Value (P3 x y z)))).
Definition lift_tetra (t : ftetrahedron) : answer tetrahedron :=
  bind (lift_point (ft1 t)) (fun a => bind (lift_point (ft2 t)) (fun b => bind (lift_point (ft3 t)) (fun c => bind (lift_point (ft4 t)) (fun d => Value (TT a b c d))))).

(** [Sign::of], src/voronoi/math/utils.rs 158-164, and [Sign::try_from_val], 166-176, with [PrecisionError::check] and
    [is_too_close_to_zero], precision_types.rs 19-26, 40-44. *)
Definition fsign (v : f64) : answer sign :=
  match cmp v zero with
  | Some Lt => Value Negative
  | Some Eq => Value Zero
  | Some Gt => Value Positive
  | None => Panics
  end.
Definition try_sign (v epsilon : f64) : answer sign := if lt (abs v) epsilon then Imprecise else fsign v.

(** ** src/voronoi/primitives/tetrahedron.rs *)
(** [TETRAHEDRON_POINTS_ON_SAME_SIDE_EPSILON] = 1e-15, precision_types.rs 31. *)
Definition same_side_epsilon : f64 := lit 0x1203af9ee75616 (-102).
(** [points_are_on_same_side_of_triangle], 369-389, for [Point3d]. *)
Definition same_side64 (p1 p2 pa pb pc : fpoint3) : answer bool :=
  let normal := fcross3 (fsub3 pb pa) (fsub3 pc pa) in
  bind (try_sign (fdot3 (fsub3 p1 pa) normal) same_side_epsilon) (fun s1 =>
  bind (try_sign (fdot3 (fsub3 p2 pa) normal) same_side_epsilon) (fun s2 =>
  unwrap (option_map is_positive (panic_if_zero (sign_mul s1 s2))))).
(** [&&] with [?] on both sides. *)
Definition both (a b : answer bool) : answer bool := match a with Value true => b | _ => a end.
(** [f64_contains], 90-109. *)
Definition f64_contains (t : ftetrahedron) (p : fpoint3) : answer bool :=
  both (same_side64 p (ft1 t) (ft2 t) (ft3 t) (ft4 t))
    (both (same_side64 p (ft2 t) (ft1 t) (ft3 t) (ft4 t))
      (both (same_side64 p (ft3 t) (ft1 t) (ft2 t) (ft4 t)) (same_side64 p (ft4 t) (ft1 t) (ft2 t) (ft3 t)))).
(** [unwrap_or_else] for the error. *)
Definition or_else {A} (a b : answer A) : answer A := match a with Imprecise => b | _ => a end.
(** [contains], 158-161, with [arbitrary_precision_contains], 111-136, whose exact arithmetic is that of [Geometry_Model.contains3]. *)
Definition contains64 (t : ftetrahedron) (p : fpoint3) : answer bool :=
  or_else (f64_contains t p) (bind (lift_tetra t) (fun t => bind (lift_point p) (fun p => unwrap (contains3 t p)))).

(** 1e-14, tetrahedron.rs 337. *)
Definition in_sphere_epsilon : f64 := lit 0x16849b86a12b9b (-99).
(** The value whose sign decides, and the limit of its size, in [circumcircle_contains_float], 271-338. The arguments are the
    differences of lines 273-287. *)
Definition in_sphere_value (ax ay az bx by_ bz cx cy cz dx dy dz : f64) : f64 :=
  let axby := mul ax by_ in let bxay := mul bx ay in let bxcy := mul bx cy in let cxby := mul cx by_ in
  let cxdy := mul cx dy in let dxcy := mul dx cy in let dxay := mul dx ay in let axdy := mul ax dy in
  let axcy := mul ax cy in let cxay := mul cx ay in let bxdy := mul bx dy in let dxby := mul dx by_ in
  let ab := sub axby bxay in let bc := sub bxcy cxby in let cd := sub cxdy dxcy in
  let da := sub dxay axdy in let ac := sub axcy cxay in let bd := sub bxdy dxby in
  let abc := add (sub (mul az bc) (mul bz ac)) (mul cz ab) in
  let bcd := add (sub (mul bz cd) (mul cz bd)) (mul dz bc) in
  let cda := add (add (mul cz da) (mul dz ac)) (mul az cd) in
  let dab := add (add (mul dz ab) (mul az bd)) (mul bz da) in
  let a2 := add (add (mul ax ax) (mul ay ay)) (mul az az) in
  let b2 := add (add (mul bx bx) (mul by_ by_)) (mul bz bz) in
  let c2 := add (add (mul cx cx) (mul cy cy)) (mul cz cz) in
  let d2 := add (add (mul dx dx) (mul dy dy)) (mul dz dz) in
  add (sub (mul c2 dab) (mul d2 abc)) (sub (mul a2 bcd) (mul b2 cda)).
Definition in_sphere_size (ax ay az bx by_ bz cx cy cz dx dy dz : f64) : f64 :=
  let axby := mul ax by_ in let bxay := mul bx ay in let bxcy := mul bx cy in let cxby := mul cx by_ in
  let cxdy := mul cx dy in let dxcy := mul dx cy in let dxay := mul dx ay in let axdy := mul ax dy in
  let axcy := mul ax cy in let cxay := mul cx ay in let bxdy := mul bx dy in let dxby := mul dx by_ in
  let a2 := add (add (mul ax ax) (mul ay ay)) (mul az az) in
  let b2 := add (add (mul bx bx) (mul by_ by_)) (mul bz bz) in
  let c2 := add (add (mul cx cx) (mul cy cy)) (mul cz cz) in
  let d2 := add (add (mul dx dx) (mul dy dy)) (mul dz dz) in
  let ab := add (abs axby) (abs bxay) in let bc := add (abs bxcy) (abs cxby) in let cd := add (abs cxdy) (abs dxcy) in
  let da := add (abs dxay) (abs axdy) in let ac := add (abs axcy) (abs cxay) in let bd := add (abs bxdy) (abs dxby) in
  let az := abs az in let bz := abs bz in let cz := abs cz in let dz := abs dz in
  let abc := add (add (mul az bc) (mul bz ac)) (mul cz ab) in
  let bcd := add (add (mul bz cd) (mul cz bd)) (mul dz bc) in
  let cda := add (add (mul cz da) (mul dz ac)) (mul az cd) in
  let dab := add (add (mul dz ab) (mul az bd)) (mul bz da) in
  add (add (mul c2 dab) (mul d2 abc)) (add (mul a2 bcd) (mul b2 cda)).
Definition with_differences {A} (f : f64 -> f64 -> f64 -> f64 -> f64 -> f64 -> f64 -> f64 -> f64 -> f64 -> f64 -> f64 -> A) (t : ftetrahedron) (p : fpoint3) : A :=
  let a := fsub3 (ft1 t) p in let b := fsub3 (ft2 t) p in let c := fsub3 (ft3 t) p in let d := fsub3 (ft4 t) p in
  f (fx a) (fy a) (fz a) (fx b) (fy b) (fz b) (fx c) (fy c) (fz c) (fx d) (fy d) (fz d).
Definition circumcircle_contains_float (t : ftetrahedron) (p : fpoint3) : answer bool :=
  let x := with_differences in_sphere_value t p in
  let size_limit := with_differences in_sphere_size t p in
  let error_bound := mul in_sphere_epsilon size_limit in
  bind (try_sign x error_bound) (fun s => Value (is_positive s)).

(** The matrix of the other branch, 203-211: the squares are added with [f64] before the entries are lifted ([lift_matrix],
    math/utils.rs 115-126); [powi(2)] is a multiplication. *)
Definition fnorm2 (p : fpoint3) : f64 := add (add (mul (fx p) (fx p)) (mul (fy p) (fy p))) (mul (fz p) (fz p)).
Definition lift_row (p : fpoint3) : answer row5 :=
  bind (lift_point p) (fun q => bind (unwrap (to_Q (fnorm2 p))) (fun n => Value (1%Q, (x3 q, (y3 q, z3 q, n))))).
Definition in_sphere_determinant (t : ftetrahedron) (p : fpoint3) : answer Q :=
  bind (lift_row (ft1 t)) (fun a => bind (lift_row (ft2 t)) (fun b => bind (lift_row (ft3 t)) (fun c => bind (lift_row (ft4 t)) (fun d => bind (lift_row p) (fun e =>
  Value (determinant5x5 a b c d e)))))).
Definition circumcircle_contains_lifted (t : ftetrahedron) (p : fpoint3) : answer bool :=
  bind (in_sphere_determinant t p) (fun v => unwrap (option_map is_negative (panic_if_zero (sign_of v)))).
(** [circumcircle_contains], 197-221. *)
Definition circumcircle_contains64 (t : ftetrahedron) (p : fpoint3) : answer bool :=
  or_else (circumcircle_contains_float t p) (circumcircle_contains_lifted t p).

(** ** src/dimension.rs *)
(** One coordinate of [remap_point], 56-59: the initial tetrahedron extends from [min] to [max]. *)
Definition remap64 (min max x : f64) : f64 := add one (mul (sub x min) (div one (sub max min))).
Definition remap_point64 (min max p : fpoint3) : fpoint3 :=
  F3 (remap64 (fx min) (fx max) (fx p)) (remap64 (fy min) (fy max) (fy p)) (remap64 (fz min) (fz max) (fz p)).

(** ** src/simulation_box.rs *)
(** [%]: the remainder of the division rounded towards zero; it is a number of the format, so nothing is rounded. *)
Definition rem (x y : f64) : f64 :=
  match x, y with
  | B754_finite sx mx ex _, B754_finite _ my ey _ =>
      let e := Z.min ex ey in
      @binary_normalize 53 1024 gt0 ltmax mode_NE (Z.rem (cond_Zopp sx (Zpos mx) * 2 ^ (ex - e)) (Zpos my * 2 ^ (ey - e))) e sx
  | B754_zero _, B754_finite _ _ _ _ | B754_zero _, B754_infinity _ | B754_finite _ _ _ _, B754_infinity _ => x
  | _, _ => B754_nan
  end.
(** [f64::rem_euclid] of the standard library. *)
Definition rem_euclid (x y : f64) : f64 := let r := rem x y in if lt r zero then add r (abs y) else r.
(** [periodic_wrap_component], 59-61. *)
Definition wrap64 (v min max : f64) : f64 := add min (rem_euclid (sub v min) (sub max min)).
(** [minimize_component], 63-71. *)
Definition minimize64 (v length : f64) : f64 :=
  let two := lit 2 0 in
  if lt (div length two) v then sub v length
  else if lt v (div (Bopp length) two) then add v length
  else v.

(** ** src/peano_hilbert.rs *)
(** [as u64] and [as u128]: truncated and limited to the range of the type. *)
Definition cast (largest : Z) (x : f64) : Z :=
  match x with
  | B754_nan => 0
  | B754_infinity s => if s then 0 else largest
  | _ => Z.max 0 (Z.min largest (Btrunc x))
  end.
(** 0.001. *)
Definition padding : f64 := lit 0x10624dd2f1a9fc (-62).
(** One coordinate of [from_point_and_min_max], 48-52 and 88-92 ... *)
Definition scaled64 (pos min max : f64) : f64 :=
  let min_padded := sub min (mul (sub max min) padding) in
  let max_padded := add max (mul (sub max min) padding) in
  div (sub pos min_padded) (sub max_padded min_padded).
(** ... and of [get_integer_position_2d] with [bits] = 32 and [largest] = 2 ^ 64 - 1, 32-37, and [get_integer_position_3d] with
    [bits] = 42 and [largest] = 2 ^ 128 - 1, 39-45. *)
Definition integer_position (bits largest : Z) (pos min max : f64) : Z := cast largest (mul (scaled64 pos min max) (lit (2 ^ bits) 0)).
(** [PeanoKey3d::from_point_and_min_max], 85-93, and [PeanoKey2d::from_point_and_min_max], 48-57. *)
Definition key_3d64 (pos min max : fpoint3) : N :=
  let i (c : fpoint3 -> f64) := Z.to_N (integer_position 42 (2 ^ 128 - 1) (c pos) (c min) (c max)) in key_3d 42 (i fx, i fy, i fz).
Definition key_2d64 (pos min max : f64 * f64) : N :=
  let i (c : f64 * f64 -> f64) := Z.to_N (integer_position 32 (2 ^ 64 - 1) (c pos) (c min) (c max)) in key_2d 32 (i fst, i snd).
