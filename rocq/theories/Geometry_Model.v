(** Model of the geometric computations of the grid construction
    ([/repo/src/voronoi/math/utils.rs], [primitives/triangle.rs],
    [primitives/tetrahedron.rs]) with rational numbers. This is what the arbitrary
    precision branches compute ([PrecisionFloat] is [num::BigRational]). The branches in
    [f64] are modelled with their thresholds but without rounding, except where noted.
    [None] is a panic unless stated otherwise. *)
From Coq Require Import List Arith QArith Qabs.
Import ListNotations.
From Verif Require Import LinSolve_Model.
Local Open Scope Q_scope.

Record point2 := P2 { x2 : Q; y2 : Q }.
Record point3 := P3 { x3 : Q; y3 : Q; z3 : Q }.
Definition sub2 (a b : point2) : point2 := P2 (x2 a - x2 b) (y2 a - y2 b).
Definition add3 (a b : point3) : point3 := P3 (x3 a + x3 b) (y3 a + y3 b) (z3 a + z3 b).
Definition sub3 (a b : point3) : point3 := P3 (x3 a - x3 b) (y3 a - y3 b) (z3 a - z3 b).
Definition scale3 (c : Q) (a : point3) : point3 := P3 (c * x3 a) (c * y3 a) (c * z3 a).
Definition dot3 (a b : point3) : Q := x3 a * x3 b + y3 a * y3 b + z3 a * z3 b.
(** [Cross3d], math/traits.rs and precision_types.rs. *)
Definition cross3 (a b : point3) : point3 :=
  P3 (y3 a * z3 b - y3 b * z3 a) (z3 a * x3 b - z3 b * x3 a) (x3 a * y3 b - x3 b * y3 a).

Record triangle2 := T2 { t2p1 : point2; t2p2 : point2; t2p3 : point2 }.
Record triangle3 := T3 { t3p1 : point3; t3p2 : point3; t3p3 : point3 }.
Record tetrahedron := TT { ttp1 : point3; ttp2 : point3; ttp3 : point3; ttp4 : point3 }.

(** ** math/utils.rs *)

(** [Sign], 129-191. *)
Inductive sign := Positive | Negative | Zero.
Definition sign_of (v : Q) : sign :=
  match v ?= 0 with Lt => Negative | Eq => Zero | Gt => Positive end.
Definition sign_mul (a b : sign) : sign :=
  match a with
  | Positive => match b with Positive => Positive | Negative => Negative | Zero => Zero end
  | Negative => match b with Positive => Negative | Negative => Positive | Zero => Zero end
  | Zero => Zero
  end.
Definition is_positive (s : sign) : bool := match s with Positive => true | _ => false end.
Definition is_negative (s : sign) : bool := match s with Negative => true | _ => false end.
Definition panic_if_zero (s : sign) : option sign := match s with Zero => None | _ => Some s end.

(** [PrecisionError::check] for [f64] (precision_types.rs 19-26, 41-45): [false] is the
    error. *)
Definition check (v epsilon : Q) : bool := Qle_bool epsilon (Qabs v).

(** [determinant3x3], 280-291; the rows are tuples. *)
Definition row3 : Type := Q * Q * Q.
Definition determinant3x3 (r0 r1 r2 : row3) : Q :=
  let '(a00, a01, a02) := r0 in
  let '(a10, a11, a12) := r1 in
  let '(a20, a21, a22) := r2 in
  a00 * a11 * a22 + a01 * a12 * a20 + a02 * a10 * a21
  - a02 * a11 * a20 - a01 * a10 * a22 - a00 * a12 * a21.

(** [determinant4x4], 293-301. *)
Definition row4 : Type := Q * row3.
Definition determinant4x4 (r0 r1 r2 r3 : row4) : Q :=
  fst r0 * determinant3x3 (snd r1) (snd r2) (snd r3)
  - fst r1 * determinant3x3 (snd r0) (snd r2) (snd r3)
  + fst r2 * determinant3x3 (snd r0) (snd r1) (snd r3)
  - fst r3 * determinant3x3 (snd r0) (snd r1) (snd r2).

(** [determinant5x5], 303-312. *)
Definition row5 : Type := Q * row4.
Definition determinant5x5 (r0 r1 r2 r3 r4 : row5) : Q :=
  fst r0 * determinant4x4 (snd r1) (snd r2) (snd r3) (snd r4)
  - fst r1 * determinant4x4 (snd r0) (snd r2) (snd r3) (snd r4)
  + fst r2 * determinant4x4 (snd r0) (snd r1) (snd r3) (snd r4)
  - fst r3 * determinant4x4 (snd r0) (snd r1) (snd r2) (snd r4)
  + fst r4 * determinant4x4 (snd r0) (snd r1) (snd r2) (snd r3).

(** [solve_3x4_system_of_equations_error], 73-107, without rounding; here [None] is the
    error [PrecisionError]. [gauss_epsilon] is [GAUSS_3X4_EPSILON] (16). The rows are
    [(a, b, c, d)] and are carried around instead of their indices; a division by zero
    gives zero here and NaN in the code, and in both cases the last check fails. *)
Definition gauss_epsilon : Q := 1 # 100000000.
Definition eq4 : Type := Q * Q * Q * Q.
Definition add_row (r1 r2 : eq4) (factor : Q) : eq4 :=
  let '(a1, b1, c1, d1) := r1 in
  let '(a2, b2, c2, d2) := r2 in
  (a1 + factor * a2, b1 + factor * b2, c1 + factor * c2, d1 + factor * d2).
Definition e0 (r : eq4) : Q := fst (fst (fst r)).
Definition e1 (r : eq4) : Q := snd (fst (fst r)).
Definition e2 (r : eq4) : Q := snd (fst r).
Definition e3 (r : eq4) : Q := snd r.
Definition gtb (a b : Q) : bool := negb (Qle_bool a b).

Definition solve_3x4 (m0 m1 m2 : eq4) : option point3 :=
  let '(mx, my, mz) := if gtb (Qabs (e0 m1)) (Qabs (e0 m0)) then (m1, m0, m2) else (m0, m1, m2) in
  let '(mx, my, mz) := if gtb (Qabs (e0 m2)) (Qabs (e0 mx)) then (m2, m0, m1) else (mx, my, mz) in
  let my := add_row my mx (- e0 my / e0 mx) in
  let mz := add_row mz mx (- e0 mz / e0 mx) in
  let '(my, mz) := if gtb (Qabs (e1 mz)) (Qabs (e1 my)) then (mz, my) else (my, mz) in
  if check (e1 my) gauss_epsilon then
    let mz := add_row mz my (- e1 mz / e1 my) in
    if (check (e2 mz) gauss_epsilon && check (e1 my) gauss_epsilon && check (e0 mx) gauss_epsilon)%bool then
      let v3 := e3 mz / e2 mz in
      let v2 := (e3 my - v3 * e2 my) / e1 my in
      let v1 := (e3 mx - v3 * e2 mx - v2 * e1 mx) / e0 mx in
      Some (P3 v1 v2 v3)
    else None
  else None.

(** ** primitives/triangle.rs, two dimensions *)

(** [transform_point_to_canonical_coordinates] and [generic_contains], 152-187, for
    [PrecisionPoint2d]: [try_from_val] never fails there. *)
Definition contains2 (t : triangle2) (p : point2) : option bool :=
  let a := sub2 (t2p2 t) (t2p1 t) in
  let b := sub2 (t2p3 t) (t2p1 t) in
  let c := sub2 p (t2p1 t) in
  match solve_system_of_equations 2 [[x2 a; x2 b; x2 c]; [y2 a; y2 b; y2 c]] with
  | Some [r; s] =>
      let signs := map sign_of [r; s; 1 - (r + s)] in
      if existsb is_negative signs then Some false
      else if existsb (fun s => match s with Zero => true | _ => false end) signs then None
      else Some true
  | _ => None
  end.

(** [all_encompassing], 207-220. *)
Definition all_encompassing2 (min max : point2) : triangle2 :=
  let alpha := 1 in
  let pa := P2 (x2 min - (x2 max - x2 min) * alpha) (y2 min - (y2 max - y2 min) * alpha) in
  let pb := P2 (x2 min) (y2 max + (y2 max - y2 min) * (1 + alpha)) in
  let pc := P2 (x2 max + (x2 max - x2 min) * (1 + alpha)) (y2 min) in
  T2 pb pa pc.

(** [circumcircle_contains], 245-261. *)
Definition circumcircle_contains2 (t : triangle2) (d : point2) : option bool :=
  let a := t2p1 t in let b := t2p2 t in let c := t2p3 t in
  let s := sign_of (determinant3x3
    (x2 b - x2 a, y2 b - y2 a, (x2 b - x2 a) ^ 2 + (y2 b - y2 a) ^ 2)
    (x2 c - x2 a, y2 c - y2 a, (x2 c - x2 a) ^ 2 + (y2 c - y2 a) ^ 2)
    (x2 d - x2 a, y2 d - y2 a, (x2 d - x2 a) ^ 2 + (y2 d - y2 a) ^ 2)) in
  option_map is_negative (panic_if_zero s).

(** [get_center_of_circumcircle], 263-280. *)
Definition circumcenter2 (t : triangle2) : point2 :=
  let a := t2p1 t in let b := t2p2 t in let c := t2p3 t in
  let d := 2 * (x2 a * (y2 b - y2 c) + x2 b * (y2 c - y2 a) + x2 c * (y2 a - y2 b)) in
  P2 (1 / d * ((x2 a ^ 2 + y2 a ^ 2) * (y2 b - y2 c) + (x2 b ^ 2 + y2 b ^ 2) * (y2 c - y2 a)
               + (x2 c ^ 2 + y2 c ^ 2) * (y2 a - y2 b)))
     (1 / d * ((x2 a ^ 2 + y2 a ^ 2) * (x2 c - x2 b) + (x2 b ^ 2 + y2 b ^ 2) * (x2 a - x2 c)
               + (x2 c ^ 2 + y2 c ^ 2) * (x2 b - x2 a))).

(** ** primitives/triangle.rs, three dimensions *)

Inductive edge_id := One | Two | Three.
Inductive intersection_type :=
| Inside
| OutsideOneEdge (e : edge_id)
| OutsideTwoEdges (e1 e2 : edge_id).

(** [get_intersection_type], 307-343. *)
Definition get_intersection_type (r s : Q) : option intersection_type :=
  let signs := map sign_of [r; s; 1 - (r + s)] in
  if existsb (fun s => match s with Zero => true | _ => false end) signs then None
  else match map snd (filter (fun se => is_negative (fst se)) (combine signs [Two; Three; One])) with
       | [] => Some Inside
       | [e] => Some (OutsideOneEdge e)
       | [e; e'] => Some (OutsideTwoEdges e e')
       | _ => None
       end.

(** [generic_get_line_intersection_type], 284-305, for [PrecisionPoint3d]. *)
Definition get_line_intersection_type (t : triangle3) (q1 q2 : point3) : option intersection_type :=
  let a := sub3 (t3p2 t) (t3p1 t) in
  let b := sub3 (t3p3 t) (t3p1 t) in
  let k := sub3 q2 q1 in
  let c := sub3 q1 (t3p1 t) in
  match solve_system_of_equations 3
          [[x3 a; x3 b; - x3 k; x3 c]; [y3 a; y3 b; - y3 k; y3 c]; [z3 a; z3 b; - z3 k; z3 c]] with
  | Some [r; s; _] => get_intersection_type r s
  | _ => None
  end.

(** [closest_point], 361-413. *)
Definition closest_point (t : triangle3) (p : point3) : point3 :=
  let a := t3p1 t in let b := t3p2 t in let c := t3p3 t in
  let ab := sub3 b a in let ac := sub3 c a in let ap := sub3 p a in
  let d1 := dot3 ab ap in let d2 := dot3 ac ap in
  if (Qle_bool d1 0 && Qle_bool d2 0)%bool then a else
  let bp := sub3 p b in
  let d3 := dot3 ab bp in let d4 := dot3 ac bp in
  if (Qle_bool 0 d3 && Qle_bool d4 d3)%bool then b else
  let cp := sub3 p c in
  let d5 := dot3 ab cp in let d6 := dot3 ac cp in
  if (Qle_bool 0 d6 && Qle_bool d5 d6)%bool then c else
  let vc := d1 * d4 - d3 * d2 in
  if (Qle_bool vc 0 && Qle_bool 0 d1 && Qle_bool d3 0)%bool then
    add3 a (scale3 (d1 / (d1 - d3)) ab) else
  let vb := d5 * d2 - d1 * d6 in
  if (Qle_bool vb 0 && Qle_bool 0 d2 && Qle_bool d6 0)%bool then
    add3 a (scale3 (d2 / (d2 - d6)) ac) else
  let va := d3 * d6 - d5 * d4 in
  if (Qle_bool va 0 && Qle_bool 0 (d4 - d3) && Qle_bool 0 (d5 - d6))%bool then
    add3 b (scale3 ((d4 - d3) / ((d4 - d3) + (d5 - d6))) (sub3 c b)) else
  let denom := 1 / (va + vb + vc) in
  let v := vb * denom in
  let w := vc * denom in
  add3 (add3 a (scale3 v ab)) (scale3 w ac).

(** ** primitives/tetrahedron.rs *)

(** [points_are_on_same_side_of_triangle], 369-389, for [PrecisionPoint3d]. *)
Definition same_side (p1 p2 pa pb pc : point3) : option bool :=
  let normal := cross3 (sub3 pb pa) (sub3 pc pa) in
  let s1 := sign_of (dot3 (sub3 p1 pa) normal) in
  let s2 := sign_of (dot3 (sub3 p2 pa) normal) in
  option_map is_positive (panic_if_zero (sign_mul s1 s2)).

Definition and_then (a b : option bool) : option bool :=
  match a with Some true => b | _ => a end.

(** [arbitrary_precision_contains], 112-136. *)
Definition contains3 (t : tetrahedron) (p : point3) : option bool :=
  let p1 := ttp1 t in let p2 := ttp2 t in let p3 := ttp3 t in let p4 := ttp4 t in
  and_then (same_side p p1 p2 p3 p4)
    (and_then (same_side p p2 p1 p3 p4)
      (and_then (same_side p p3 p1 p2 p4) (same_side p p4 p1 p2 p3))).

(** [all_encompassing], 142-152. *)
Definition all_encompassing3 (min max : point3) : tetrahedron :=
  let alpha := 1 # 100 in
  let dir := sub3 max min in
  let projected := add3 max (scale3 ((21 # 10) + alpha) dir) in
  let p1 := sub3 min (scale3 alpha dir) in
  let p2 := P3 (x3 projected) (y3 min) (z3 min) in
  let p3 := P3 (x3 min) (y3 projected) (z3 min) in
  let p4 := P3 (x3 min) (y3 min) (z3 projected) in
  TT p1 p2 p3 p4.

Definition norm2 (p : point3) : Q := x3 p ^ 2 + y3 p ^ 2 + z3 p ^ 2.

(** [circumcircle_contains], 197-221, the branch with arbitrary precision. *)
Definition circumcircle_contains3_exact (t : tetrahedron) (e : point3) : option bool :=
  let row p : row5 := (1, (x3 p, (y3 p, z3 p, norm2 p))) in
  let s := sign_of (determinant5x5 (row (ttp1 t)) (row (ttp2 t)) (row (ttp3 t)) (row (ttp4 t)) (row e)) in
  option_map is_negative (panic_if_zero s).

(** [circumcircle_contains_float], 271-338, without rounding; here [None] is the error
    [PrecisionError]. *)
Definition circumcircle_contains3_float (t : tetrahedron) (point : point3) : option bool :=
  let ax := x3 (ttp1 t) - x3 point in let ay := y3 (ttp1 t) - y3 point in let az := z3 (ttp1 t) - z3 point in
  let bx := x3 (ttp2 t) - x3 point in let by_ := y3 (ttp2 t) - y3 point in let bz := z3 (ttp2 t) - z3 point in
  let cx := x3 (ttp3 t) - x3 point in let cy := y3 (ttp3 t) - y3 point in let cz := z3 (ttp3 t) - z3 point in
  let dx := x3 (ttp4 t) - x3 point in let dy := y3 (ttp4 t) - y3 point in let dz := z3 (ttp4 t) - z3 point in
  let axby := ax * by_ in let bxay := bx * ay in let bxcy := bx * cy in let cxby := cx * by_ in
  let cxdy := cx * dy in let dxcy := dx * cy in let dxay := dx * ay in let axdy := ax * dy in
  let axcy := ax * cy in let cxay := cx * ay in let bxdy := bx * dy in let dxby := dx * by_ in
  let ab := axby - bxay in let bc := bxcy - cxby in let cd := cxdy - dxcy in
  let da := dxay - axdy in let ac := axcy - cxay in let bd := bxdy - dxby in
  let abc := az * bc - bz * ac + cz * ab in
  let bcd := bz * cd - cz * bd + dz * bc in
  let cda := cz * da + dz * ac + az * cd in
  let dab := dz * ab + az * bd + bz * da in
  let a2 := ax * ax + ay * ay + az * az in
  let b2 := bx * bx + by_ * by_ + bz * bz in
  let c2 := cx * cx + cy * cy + cz * cz in
  let d2 := dx * dx + dy * dy + dz * dz in
  let x := (c2 * dab - d2 * abc) + (a2 * bcd - b2 * cda) in
  let ab := Qabs axby + Qabs bxay in let bc := Qabs bxcy + Qabs cxby in let cd := Qabs cxdy + Qabs dxcy in
  let da := Qabs dxay + Qabs axdy in let ac := Qabs axcy + Qabs cxay in let bd := Qabs bxdy + Qabs dxby in
  let az := Qabs az in let bz := Qabs bz in let cz := Qabs cz in let dz := Qabs dz in
  let abc := az * bc + bz * ac + cz * ab in
  let bcd := bz * cd + cz * bd + dz * bc in
  let cda := cz * da + dz * ac + az * cd in
  let dab := dz * ab + az * bd + bz * da in
  let size_limit := (c2 * dab + d2 * abc) + (a2 * bcd + b2 * cda) in
  let error_bound := (1 # 100000000000000) * size_limit in
  if check x error_bound then Some (is_positive (sign_of x)) else None.

(** [circumcircle_contains], 197-221. *)
Definition circumcircle_contains3 (t : tetrahedron) (e : point3) : option bool :=
  match circumcircle_contains3_float t e with
  | Some b => Some b
  | None => circumcircle_contains3_exact t e
  end.

(** [get_center_of_circumcircle], 223-266, the branch with arbitrary precision. *)
Definition circumcenter3_exact (t : tetrahedron) : point3 :=
  let p1 := ttp1 t in let p2 := ttp2 t in let p3 := ttp3 t in let p4 := ttp4 t in
  let v1 := norm2 p1 in let v2 := norm2 p2 in let v3 := norm2 p3 in let v4 := norm2 p4 in
  let dx := determinant4x4 (v1, (y3 p1, z3 p1, 1)) (v2, (y3 p2, z3 p2, 1)) (v3, (y3 p3, z3 p3, 1)) (v4, (y3 p4, z3 p4, 1)) in
  let dy := - determinant4x4 (v1, (x3 p1, z3 p1, 1)) (v2, (x3 p2, z3 p2, 1)) (v3, (x3 p3, z3 p3, 1)) (v4, (x3 p4, z3 p4, 1)) in
  let dz := determinant4x4 (v1, (x3 p1, y3 p1, 1)) (v2, (x3 p2, y3 p2, 1)) (v3, (x3 p3, y3 p3, 1)) (v4, (x3 p4, y3 p4, 1)) in
  let a := determinant4x4 (x3 p1, (y3 p1, z3 p1, 1)) (x3 p2, (y3 p2, z3 p2, 1)) (x3 p3, (y3 p3, z3 p3, 1)) (x3 p4, (y3 p4, z3 p4, 1)) in
  let factor := 1 / (2 * a) in
  P3 (dx * factor) (dy * factor) (dz * factor).

(** [get_center_of_circumcircle_float], 341-366, without rounding. *)
Definition circumcenter3_float (t : tetrahedron) : option point3 :=
  let q0 := ttp1 t in
  let row q : eq4 :=
    let v := sub3 q q0 in
    (x3 v, y3 v, z3 v, (1 # 2) * (x3 v * x3 v + y3 v * y3 v + z3 v * z3 v)) in
  match solve_3x4 (row (ttp2 t)) (row (ttp3 t)) (row (ttp4 t)) with
  | Some x => Some (add3 x q0)
  | None => None
  end.

Definition circumcenter3 (t : tetrahedron) : point3 :=
  match circumcenter3_float t with Some x => x | None => circumcenter3_exact t end.

(** [distance_to_point], 162-195, with squared distances: the code takes square roots
    ([DVec3::distance]) before the minima, which does not change their order. *)
Definition qmin (a b : Q) : Q := if Qle_bool a b then a else b.
Definition length2 (p : point3) : Q := dot3 p p.
Definition triangle_distance2 (t : triangle3) (p : point3) : Q := length2 (sub3 (closest_point t p) p).
Definition tetra_distance2 (t : tetrahedron) (p : point3) : option Q :=
  match contains3 t p with
  | None => None
  | Some true => Some 0
  | Some false =>
      let a1 := triangle_distance2 (T3 (ttp1 t) (ttp2 t) (ttp3 t)) p in
      let a2 := triangle_distance2 (T3 (ttp2 t) (ttp3 t) (ttp4 t)) p in
      let a3 := triangle_distance2 (T3 (ttp3 t) (ttp4 t) (ttp1 t)) p in
      let a4 := triangle_distance2 (T3 (ttp4 t) (ttp1 t) (ttp2 t)) p in
      Some (qmin (qmin (qmin a1 a2) a3) a4)
  end.
