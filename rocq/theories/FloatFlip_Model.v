(** Models of the tests that solve linear equations with [f64], and of the tests in two dimensions: which flip is made, the
    containment in a triangle and the in-circle test. *)
From Coq Require Import ZArith QArith Bool List.
From Flocq Require Import Core.Core IEEE754.BinarySingleNaN.
From Verif Require Import Geometry_Model Float_Model.
Import ListNotations.

(** ** src/voronoi/math/utils.rs *)
Definition matrix64 : Type := list (list f64).
Definition get64 (a : matrix64) (i j : nat) : f64 := nth j (nth i a []) zero.
Definition build64 (m n : nat) (f : nat -> nat -> f64) : matrix64 := map (fun i => map (f i) (seq 0 n)) (seq 0 m).

(** [(h..M).max_by(..)], 28-30: the last one of the rows with the largest absolute value in column [k]; the [unwrap] of
    [partial_cmp] panics if one of the two numbers is NaN. *)
Definition larger64 (a : matrix64) (k : nat) (best : answer nat) (i : nat) : answer nat :=
  bind best (fun best =>
    match cmp (abs (get64 a best k)) (abs (get64 a i k)) with
    | Some Gt => Value best
    | Some _ => Value i
    | None => Panics
    end).
Definition pivot_row64 (a : matrix64) (m h k : nat) : answer nat := fold_left (larger64 a k) (seq (h + 1) (m - (h + 1))) (Value h).

(** [swap_rows], 49-59. *)
Definition swap_rows64 (m n : nat) (a : matrix64) (r1 r2 : nat) : matrix64 :=
  build64 m n (fun i j => get64 a (if (i =? r1)%nat then r2 else if (i =? r2)%nat then r1 else i) j).

(** The elimination of column [k] below row [h], 35-41. *)
Definition eliminate64 (m n : nat) (a : matrix64) (h k : nat) : matrix64 :=
  build64 m n (fun i j =>
    if (i <=? h)%nat then get64 a i j
    else if (j <? k)%nat then get64 a i j
    else if (j =? k)%nat then zero
    else sub (get64 a i j) (mul (get64 a h j) (div (get64 a i k) (get64 a h k)))).

Definition is_zero (x : f64) : bool := match cmp x zero with Some Eq => true | _ => false end.

(** The loop of [solve_system_of_equations], 27-45. *)
Fixpoint eliminate_all64 (fuel m n : nat) (a : matrix64) (h k : nat) : answer matrix64 :=
  match fuel with
  | O => Value a
  | S fuel' =>
      if ((h <? m) && (k <? n))%nat%bool then
        bind (pivot_row64 a m h k) (fun i_max =>
        if is_zero (get64 a i_max k) then eliminate_all64 fuel' m n a h (k + 1)
        else eliminate_all64 fuel' m n (eliminate64 m n (swap_rows64 m n a h i_max) h k) (h + 1) (k + 1))
      else Value a
  end.

(** [backward_substitution], 61-71, for the rows below [i] with the results [xs] of the others. *)
Fixpoint backward64 (m : nat) (a : matrix64) (i : nat) (xs : list f64) : list f64 :=
  match i with
  | O => xs
  | S i' =>
      let v := fold_left (fun acc j => sub acc (mul (get64 a i' j) (nth (j - (i' + 1)) xs zero))) (seq (i' + 1) (m - (i' + 1))) (get64 a i' m) in
      backward64 m a i' (div v (get64 a i' i') :: xs)
  end.

(** [solve_system_of_equations], 23-47, for [f64]. The fuel suffices as [k] grows with every step. *)
Definition solve64 (m : nat) (a : matrix64) : answer (list f64) :=
  bind (eliminate_all64 (m + 1) m (m + 1) a 0 0) (fun a => Value (backward64 m a m [])).

(** ** src/voronoi/primitives/triangle.rs, three dimensions *)
Record ftriangle3 := FT3 { ft31 : fpoint3; ft32 : fpoint3; ft33 : fpoint3 }.
(** [TRIANGLE_INTERSECTION_TYPE_EPSILON] and [TRIANGLE_CONTAINS_EPSILON] are 1e-15, precision_types.rs 29-30. *)
Definition triangle_epsilon : f64 := lit 0x1203af9ee75616 (-102).

(** One step of [map] in [get_intersection_type], 312-324. *)
Definition nonzero_sign64 (x : f64) : answer sign := bind (try_sign x triangle_epsilon) (fun s => unwrap (panic_if_zero s)).
(** [get_intersection_type], 307-343, for [f64]: [collect] stops at the first error. *)
Definition intersection_type64 (r s : f64) : answer intersection_type :=
  bind (nonzero_sign64 r) (fun a => bind (nonzero_sign64 s) (fun b => bind (nonzero_sign64 (sub one (add r s))) (fun c =>
  match map snd (filter (fun se => is_negative (fst se)) (combine [a; b; c] [Two; Three; One])) with
  | [] => Value Inside
  | [e] => Value (OutsideOneEdge e)
  | [e; e'] => Value (OutsideTwoEdges e e')
  | _ => Panics
  end))).
(** [generic_get_line_intersection_type], 284-305, for [Point3d]. *)
Definition line_type64 (t : ftriangle3) (q1 q2 : fpoint3) : answer intersection_type :=
  let a := fsub3 (ft32 t) (ft31 t) in
  let b := fsub3 (ft33 t) (ft31 t) in
  let k := fsub3 q2 q1 in
  let c := fsub3 q1 (ft31 t) in
  bind (solve64 3 [[fx a; fx b; Bopp (fx k); fx c]; [fy a; fy b; Bopp (fy k); fy c]; [fz a; fz b; Bopp (fz k); fz c]]) (fun x =>
  match x with
  | [r; s; _] => intersection_type64 r s
  | _ => Panics
  end).
(** [get_line_intersection_type], 347-363. The other branch is that of [Geometry_Model]. *)
Definition line64 (t : ftriangle3) (q1 q2 : fpoint3) : answer intersection_type :=
  or_else (line_type64 t q1 q2)
    (bind (lift_point (ft31 t)) (fun p1 => bind (lift_point (ft32 t)) (fun p2 => bind (lift_point (ft33 t)) (fun p3 =>
     bind (lift_point q1) (fun q1 => bind (lift_point q2) (fun q2 => unwrap (get_line_intersection_type (T3 p1 p2 p3) q1 q2))))))).

(** ** src/voronoi/primitives/triangle.rs, two dimensions *)
Record fpoint2 := F2 { gx : f64; gy : f64 }.
Record ftriangle2 := FT2 { ft21 : fpoint2; ft22 : fpoint2; ft23 : fpoint2 }.
Definition fsub2 (a b : fpoint2) : fpoint2 := F2 (sub (gx a) (gx b)) (sub (gy a) (gy b)).
(** [PrecisionPoint2d::new], src/voronoi/math/precision_types.rs 77-83. *)
Definition lift_point2 (p : fpoint2) : answer point2 := bind (unwrap (to_Q (gx p))) (fun x => bind (unwrap (to_Q (gy p))) (fun y => Value (P2 x y))).

(** [signs().any(..)], 167-173: an imprecise value does not count. *)
Fixpoint any_negative64 (l : list f64) : answer bool :=
  match l with
  | [] => Value false
  | x :: l => match try_sign x triangle_epsilon with
              | Value Negative => Value true
              | Panics => Panics
              | _ => any_negative64 l
              end
  end.
(** The loop of lines 177-179. *)
Fixpoint all_positive64 (l : list f64) : answer bool :=
  match l with
  | [] => Value true
  | x :: l => bind (nonzero_sign64 x) (fun _ => all_positive64 l)
  end.
(** [generic_contains], 163-182, with [transform_point_to_canonical_coordinates], 152-161, for [Point2d]. *)
Definition f64_contains2 (t : ftriangle2) (p : fpoint2) : answer bool :=
  let a := fsub2 (ft22 t) (ft21 t) in
  let b := fsub2 (ft23 t) (ft21 t) in
  let c := fsub2 p (ft21 t) in
  bind (solve64 2 [[gx a; gx b; gx c]; [gy a; gy b; gy c]]) (fun x =>
  match x with
  | [r; s] =>
      let values := [r; s; sub one (add r s)] in
      bind (any_negative64 values) (fun outside => if outside then Value false else all_positive64 values)
  | _ => Panics
  end).
(** [contains], 226-229, with [arbitrary_precision_contains], 187-194. *)
Definition contains2_64 (t : ftriangle2) (p : fpoint2) : answer bool :=
  or_else (f64_contains2 t p)
    (bind (lift_point2 (ft21 t)) (fun p1 => bind (lift_point2 (ft22 t)) (fun p2 => bind (lift_point2 (ft23 t)) (fun p3 =>
     bind (lift_point2 p) (fun p => unwrap (contains2 (T2 p1 p2 p3) p)))))).

(** [determinant3x3], src/voronoi/math/utils.rs 280-291, for [f64]. *)
Definition frow3 : Type := f64 * f64 * f64.
Definition determinant3x3_64 (r0 r1 r2 : frow3) : f64 :=
  let '(a00, a01, a02) := r0 in
  let '(a10, a11, a12) := r1 in
  let '(a20, a21, a22) := r2 in
  sub (sub (sub (add (add (mul (mul a00 a11) a22) (mul (mul a01 a12) a20)) (mul (mul a02 a10) a21)) (mul (mul a02 a11) a20)) (mul (mul a01 a10) a22)) (mul (mul a00 a12) a21).
(** [compare_result_against_entries], utils.rs 193-204, with [DETERMINANT_3X3_EPSILON] = 1e-15: [false] is the error. *)
Definition entries (r : frow3) : list f64 := let '(a, b, c) := r in [a; b; c].
Definition compare_entries64 (val : f64) (rows : list frow3) : bool :=
  forallb (fun entry => negb (lt (abs (div val entry)) triangle_epsilon)) (flat_map entries rows).
Definition lift_row3 (r : frow3) : answer row3 :=
  let '(a, b, c) := r in bind (unwrap (to_Q a)) (fun a => bind (unwrap (to_Q b)) (fun b => bind (unwrap (to_Q c)) (fun c => Value (a, b, c)))).
(** [determinant3x3_sign], utils.rs 226-255. *)
Definition determinant_sign64 (r0 r1 r2 : frow3) : answer sign :=
  let val := determinant3x3_64 r0 r1 r2 in
  if compare_entries64 val [r0; r1; r2] then fsign val
  else bind (lift_row3 r0) (fun r0 => bind (lift_row3 r1) (fun r1 => bind (lift_row3 r2) (fun r2 => Value (sign_of (determinant3x3 r0 r1 r2))))).
(** A row of the matrix of [circumcircle_contains], triangle.rs 252-258; [powi(2)] is a multiplication. *)
Definition circle_row (p a : fpoint2) : frow3 :=
  let x := sub (gx p) (gx a) in let y := sub (gy p) (gy a) in (x, y, add (mul x x) (mul y y)).
(** [circumcircle_contains], 245-261. *)
Definition in_circle64 (t : ftriangle2) (d : fpoint2) : answer bool :=
  let a := ft21 t in
  bind (determinant_sign64 (circle_row (ft22 t) a) (circle_row (ft23 t) a) (circle_row d a)) (fun s =>
  unwrap (option_map is_negative (panic_if_zero s))).
