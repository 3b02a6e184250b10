(** The incremental construction of the Delaunay triangulation: the arena of
    triangles/tetrahedra and faces, splitting, flipping, the stack of flip
    checks and point location.

    A tetra is the list of its corners zipped with the face opposite to each
    corner, which is the view [faces_and_points] (dimension.rs 36-38) that the
    generic code uses; it has three entries in 2D and four in 3D.  Points are
    represented by their index only: the coordinates of a point never change
    once it is inserted, so the geometric predicates are functions of indices
    and enter as parameters ([None] is a panic of the predicate). *)
From Coq Require Import List Arith Lia Bool.
From Verif Require Import Geometry_Model.
Import ListNotations.

(* src/voronoi/delaunay/face_info.rs 5-17 *)
Record connection := Conn { conn_tetra : nat; conn_point : nat }.
Record face_info := FaceInfo { face : nat; opposing : option connection; flipped : bool }.

(* src/voronoi/primitives/triangle.rs 80-87 (TriangleWithFaces),
   tetrahedron.rs 31-41 (Tetrahedron): the fields p1.. f1.. in order. *)
Notation tetra := (list (nat * face_info)).

(* src/voronoi/indexed_arena.rs 10-60: a generational arena never returns an
   index twice, so an index is a number that grows with every insertion.  The
   iteration order (by slot in the code) is insertion order here. *)
Notation arena A := (list (nat * A)).
Definition arena_get {A} (a : arena A) (i : nat) : option A :=
  option_map snd (find (fun e => fst e =? i) a).
Definition arena_contains {A} (a : arena A) (i : nat) : bool :=
  existsb (fun e => fst e =? i) a.
Definition arena_remove {A} (a : arena A) (i : nat) : arena A :=
  filter (fun e => negb (fst e =? i)) a.
Definition arena_set {A} (a : arena A) (i : nat) (v : A) : arena A :=
  map (fun e => if fst e =? i then (fst e, v) else e) a.

(* src/voronoi/delaunay/mod.rs 99-107; the kinds of the points are not modelled. *)
Record triangulation := Triangulation {
  tetras : arena tetra; next_tetra : nat;
  faces : arena (list nat); next_face : nat;
  num_points : nat;
  last_insertion : option nat }.

Definition bind {A B} (a : option A) (f : A -> option B) : option B :=
  match a with Some x => f x | None => None end.
Notation "'do' x <- a ; b" := (bind a (fun x => b)) (at level 200, x pattern, a at level 100, b at level 200).
Definition guard (b : bool) : option unit := if b then Some tt else None.

(* dimension.rs 25-81 *)
Definition points_of (t : tetra) : list nat := map fst t.
Definition find_face (t : tetra) (f : nat) : option face_info :=
  find (fun fi => face fi =? f) (map snd t).
Definition find_face_opposite (t : tetra) (p : nat) : option face_info :=
  option_map snd (find (fun e => fst e =? p) t).
Definition find_point_opposite (t : tetra) (f : nat) : option nat :=
  option_map fst (find (fun e => face (snd e) =? f) t).

(* IndexedArena::insert (indexed_arena.rs 33-35) on the two arenas *)
Definition push_tetra (s : triangulation) (t : tetra) : triangulation :=
  Triangulation (tetras s ++ [(next_tetra s, t)]) (S (next_tetra s)) (faces s) (next_face s)
                (num_points s) (last_insertion s).
Definition push_face (s : triangulation) (f : list nat) : triangulation :=
  Triangulation (tetras s) (next_tetra s) (faces s ++ [(next_face s, f)]) (S (next_face s))
                (num_points s) (last_insertion s).
Definition with_tetras (s : triangulation) (a : arena tetra) : triangulation :=
  Triangulation a (next_tetra s) (faces s) (next_face s) (num_points s) (last_insertion s).
Definition with_faces (s : triangulation) (a : arena (list nat)) : triangulation :=
  Triangulation (tetras s) (next_tetra s) a (next_face s) (num_points s) (last_insertion s).
(* IndexedArena::remove followed by unwrap *)
Definition remove_tetra (s : triangulation) (i : nat) : option (tetra * triangulation) :=
  do t <- arena_get (tetras s) i; Some (t, with_tetras s (arena_remove (tetras s) i)).
Definition remove_face (s : triangulation) (i : nat) : option (list nat * triangulation) :=
  do f <- arena_get (faces s) i; Some (f, with_faces s (arena_remove (faces s) i)).

(* find_face_mut(face).opposing = value: the first entry with that face;
   dimension.rs 44-46.  [None] is the panic of unwrap. *)
Fixpoint set_in (t : tetra) (f : nat) (c : connection) : option tetra :=
  match t with
  | [] => None
  | (p, fi) :: r =>
      if face fi =? f then Some ((p, FaceInfo (face fi) (Some c) (flipped fi)) :: r)
      else do r' <- set_in r f c; Some ((p, fi) :: r')
  end.
(* mod.rs 242-250 set_opposing_in_new_tetra, and the same assignment written out elsewhere *)
Definition set_opposing (s : triangulation) (i f : nat) (c : connection) : option triangulation :=
  do t <- arena_get (tetras s) i;
  do t' <- set_in t f c;
  Some (with_tetras s (arena_set (tetras s) i t')).

(* mod.rs 252-269 *)
Fixpoint update_connections (s : triangulation) (i : nat) (t : tetra) : option triangulation :=
  match t with
  | [] => Some s
  | (p, fi) :: r =>
      match opposing fi with
      | None => update_connections s i r
      | Some o => do s' <- set_opposing s (conn_tetra o) (face fi) (Conn i p);
                  update_connections s' i r
      end
  end.

(* mod.rs 232-240, with the debug assertion *)
Definition debug_faces (s : triangulation) (t : tetra) : bool :=
  forallb (fun e => match arena_get (faces s) (face (snd e)) with
                    | Some ps => forallb (fun pp => negb (pp =? fst e)) ps
                    | None => false
                    end) t.
Definition insert_tetra (s : triangulation) (t : tetra) : option (nat * triangulation) :=
  do _ <- guard (debug_faces s t);
  let i := next_tetra s in
  do s' <- update_connections (push_tetra s t) i t;
  Some (i, s').

Definition new_face (f : nat) (fl : bool) : face_info := FaceInfo f None fl.

(** ** Two dimensions *)
(* impl_2d.rs 43-73 *)
Definition insert_split_tetra2 (s : triangulation) (p_a p_b p f_a : nat) (f_a_flipped : bool)
    (f_b : nat) (f_b_flipped : bool) (old_face : face_info) : option (nat * triangulation) :=
  insert_tetra s [(p_a, new_face f_a f_a_flipped); (p_b, new_face f_b f_b_flipped); (p, old_face)].

(* impl_2d.rs 77-128 *)
Definition split2 (s : triangulation) (old point : nat) : option (list nat * triangulation) :=
  do (t, s) <- remove_tetra s old;
  match t with
  | [(q1, g1); (q2, g2); (q3, g3)] =>
      let f1 := next_face s in let s := push_face s [point; q1] in
      let f2 := next_face s in let s := push_face s [point; q2] in
      let f3 := next_face s in let s := push_face s [point; q3] in
      do (t1, s) <- insert_split_tetra2 s q2 q3 point f3 true f2 false g1;
      do (t2, s) <- insert_split_tetra2 s q3 q1 point f1 true f3 false g2;
      do (t3, s) <- insert_split_tetra2 s q1 q2 point f2 true f1 false g3;
      do s <- set_opposing s t1 f3 (Conn t2 q1);
      do s <- set_opposing s t1 f2 (Conn t3 q1);
      do s <- set_opposing s t2 f3 (Conn t1 q2);
      do s <- set_opposing s t2 f1 (Conn t3 q2);
      do s <- set_opposing s t3 f1 (Conn t2 q3);
      do s <- set_opposing s t3 f2 (Conn t1 q3);
      Some ([t1; t2; t3], s)
  | _ => None
  end.

(* impl_2d.rs 130-191 *)
Definition flip2 (s : triangulation) (ct cf : nat) : option (list nat * triangulation) :=
  do (old, s) <- remove_tetra s ct;
  do (old_face, s) <- remove_face s cf;
  do fc <- find_face old cf;
  do opp <- opposing fc;
  do (opp_old, s) <- remove_tetra s (conn_tetra opp);
  let opp_point := conn_point opp in
  do check_point <- find_point_opposite old cf;
  match old_face with
  | [fp1; fp2] =>
      let p1 := if flipped fc then fp2 else fp1 in
      let p2 := if flipped fc then fp1 else fp2 in
      let nf := next_face s in
      let s := push_face s [check_point; opp_point] in
      do f1_a <- find_face_opposite opp_old p2;
      do f1_b <- find_face_opposite old p2;
      do f2_a <- find_face_opposite opp_old p1;
      do f2_b <- find_face_opposite old p1;
      do (t1, s) <- insert_tetra s [(check_point, f1_a); (p1, new_face nf true); (opp_point, f1_b)];
      do (t2, s) <- insert_tetra s [(p2, new_face nf false); (check_point, f2_a); (opp_point, f2_b)];
      do s <- set_opposing s t1 nf (Conn t2 p2);
      do s <- set_opposing s t2 nf (Conn t1 p1);
      Some ([t1; t2], s)
  | _ => None
  end.

Definition empty_triangulation : triangulation := Triangulation [] 0 [] 0 0 None.

(* mod.rs 156-168 with impl_2d.rs 193-223 *)
Definition all_encompassing_2d : option triangulation :=
  let s := Triangulation [] 0 [] 0 3 None in
  let fa := next_face s in let s := push_face s [1; 2] in
  let fb := next_face s in let s := push_face s [2; 0] in
  let fc := next_face s in let s := push_face s [0; 1] in
  do (_, s) <- insert_tetra s [(0, new_face fa false); (1, new_face fb false); (2, new_face fc false)];
  Some s.

(** ** Three dimensions *)
(* impl_3d.rs 46-85 *)
Definition insert_split_tetra3 (s : triangulation) (p_a p_b p_c p f_a : nat) (f_a_split : bool)
    (f_b : nat) (f_b_split : bool) (f_c : nat) (f_c_split : bool) (old_face : face_info)
  : option (nat * triangulation) :=
  insert_tetra s [(p_a, new_face f_a f_a_split); (p_b, new_face f_b f_b_split);
                  (p_c, new_face f_c f_c_split); (p, old_face)].

(* impl_3d.rs 241-342 *)
Definition split3 (s : triangulation) (old point : nat) : option (list nat * triangulation) :=
  do (t, s) <- remove_tetra s old;
  match t with
  | [(q1, g1); (q2, g2); (q3, g3); (q4, g4)] =>
      let f12 := next_face s in let s := push_face s [point; q1; q2] in
      let f13 := next_face s in let s := push_face s [point; q1; q3] in
      let f14 := next_face s in let s := push_face s [point; q1; q4] in
      let f23 := next_face s in let s := push_face s [point; q2; q3] in
      let f24 := next_face s in let s := push_face s [point; q2; q4] in
      let f34 := next_face s in let s := push_face s [point; q3; q4] in
      do (t1, s) <- insert_split_tetra3 s q3 q2 q4 point f24 true f34 false f23 false g1;
      do (t2, s) <- insert_split_tetra3 s q1 q3 q4 point f34 true f14 false f13 true g2;
      do (t3, s) <- insert_split_tetra3 s q2 q1 q4 point f14 true f24 false f12 false g3;
      do (t4, s) <- insert_split_tetra3 s q1 q2 q3 point f23 true f13 false f12 true g4;
      do s <- set_opposing s t1 f34 (Conn t2 q1);
      do s <- set_opposing s t1 f24 (Conn t3 q1);
      do s <- set_opposing s t1 f23 (Conn t4 q1);
      do s <- set_opposing s t2 f34 (Conn t1 q2);
      do s <- set_opposing s t2 f14 (Conn t3 q2);
      do s <- set_opposing s t2 f13 (Conn t4 q2);
      do s <- set_opposing s t3 f24 (Conn t1 q3);
      do s <- set_opposing s t3 f14 (Conn t2 q3);
      do s <- set_opposing s t3 f12 (Conn t4 q3);
      do s <- set_opposing s t4 f23 (Conn t1 q4);
      do s <- set_opposing s t4 f13 (Conn t2 q4);
      do s <- set_opposing s t4 f12 (Conn t3 q4);
      Some ([t1; t2; t3; t4], s)
  | _ => None
  end.

(* impl_3d.rs 110-140: the closure make_tetra *)
Definition make_tetra23 (s : triangulation) (ta tb : tetra) (fl : bool) (p1 p2 pa pb fa fb other : nat)
  : option (nat * triangulation) :=
  do f1 <- find_face_opposite ta other;
  do f2 <- find_face_opposite tb other;
  let '(p1, p2, f1, f2) := if negb fl then (p2, p1, f2, f1) else (p1, p2, f1, f2) in
  insert_tetra s [(p1, f2); (p2, f1); (pa, new_face fb fl); (pb, new_face fa (negb fl))].

(* impl_3d.rs 87-171 *)
Definition two_to_three_flip (s : triangulation) (ta_index tb_index p1 p2 shared : nat)
  : option (list nat * triangulation) :=
  do (ta, s) <- remove_tetra s ta_index;
  do (tb, s) <- remove_tetra s tb_index;
  do fi <- find_face ta shared;
  let fl := flipped fi in
  do (sf, s) <- remove_face s shared;
  match sf with
  | [a; b; c] =>
      let f1 := next_face s in let s := push_face s [p1; p2; a] in
      let f2 := next_face s in let s := push_face s [p1; p2; b] in
      let f3 := next_face s in let s := push_face s [p1; p2; c] in
      do (t1, s) <- make_tetra23 s ta tb fl p1 p2 b c f2 f3 a;
      do (t2, s) <- make_tetra23 s ta tb fl p1 p2 c a f3 f1 b;
      do (t3, s) <- make_tetra23 s ta tb fl p1 p2 a b f1 f2 c;
      do s <- set_opposing s t1 f2 (Conn t3 a);
      do s <- set_opposing s t1 f3 (Conn t2 a);
      do s <- set_opposing s t2 f3 (Conn t1 b);
      do s <- set_opposing s t2 f1 (Conn t3 b);
      do s <- set_opposing s t3 f1 (Conn t2 c);
      do s <- set_opposing s t3 f2 (Conn t1 c);
      Some ([t1; t2; t3], s)
  | _ => None
  end.

(* impl_3d.rs 199-228: the closure make_new_tetra *)
Definition make_tetra32 (s : triangulation) (t1 t2 t3 : tetra) (p1 p2 p3 nf contained opposite : nat)
    (fl : bool) : option (nat * triangulation) :=
  do f1 <- find_face_opposite t1 opposite;
  do f2 <- find_face_opposite t2 opposite;
  do f3 <- find_face_opposite t3 opposite;
  let '(p1, p2, f1, f2) := if fl then (p2, p1, f2, f1) else (p1, p2, f1, f2) in
  insert_tetra s [(p1, f1); (p2, f2); (p3, f3); (contained, new_face nf fl)].

(* impl_3d.rs 173-237, with the debug assertions.  faces.remove without unwrap:
   removing an index that is not there does nothing. *)
Definition drop_face (s : triangulation) (f : nat) : triangulation :=
  with_faces s (arena_remove (faces s) f).
Definition three_to_two_flip (s : triangulation) (i1 i2 i3 p1 p2 p3 e1 e2 : nat)
  : option (list nat * triangulation) :=
  do (t1, s) <- remove_tetra s i1;
  do (t2, s) <- remove_tetra s i2;
  do (t3, s) <- remove_tetra s i3;
  do x1 <- find_face_opposite t3 p2;
  do x2 <- find_face_opposite t1 p3;
  do x3 <- find_face_opposite t2 p1;
  do y1 <- find_face_opposite t2 p3;
  do _ <- guard (face y1 =? face x1);
  let s := drop_face s (face x1) in
  let s := drop_face s (face x2) in
  let s := drop_face s (face x3) in
  let nf := next_face s in
  let s := push_face s [p1; p2; p3] in
  do (ta, s) <- make_tetra32 s t1 t2 t3 p1 p2 p3 nf e1 e2 (negb (flipped x3));
  do (tb, s) <- make_tetra32 s t1 t2 t3 p1 p2 p3 nf e2 e1 (flipped x3);
  do s <- set_opposing s ta nf (Conn tb e2);
  do s <- set_opposing s tb nf (Conn ta e1);
  Some ([ta; tb], s).

(* primitives/triangle.rs 60-77 *)
Definition get_point_opposite (a b c : nat) (e : edge_id) : nat :=
  match e with One => a | Two => b | Three => c end.
Definition get_points_of (a b c : nat) (e : edge_id) : nat * nat :=
  match e with One => (b, c) | Two => (c, a) | Three => (a, b) end.

Section Flip3.
  (* get_line_intersection_type on the remapped face and points *)
  Variable crossing : list nat -> nat -> nat -> option intersection_type.

  (* impl_3d.rs 344-400 *)
  Definition flip3 (s : triangulation) (ct cf : nat) : option (list nat * triangulation) :=
    do t1 <- arena_get (tetras s) ct;
    do sf <- arena_get (faces s) cf;
    do fi <- find_face t1 cf;
    do opp <- opposing fi;
    do t2 <- arena_get (tetras s) (conn_tetra opp);
    do p1 <- find_point_opposite t1 cf;
    do p2 <- find_point_opposite t2 cf;
    do kind <- crossing sf p1 p2;
    match sf with
    | [a; b; c] =>
        match kind with
        | Inside => two_to_three_flip s ct (conn_tetra opp) p1 p2 cf
        | OutsideOneEdge e =>
            let o := get_point_opposite a b c e in
            let '(e1, e2) := get_points_of a b c e in
            do g1 <- find_face_opposite t1 o;
            do c1 <- opposing g1;
            do g2 <- find_face_opposite t2 o;
            do c2 <- opposing g2;
            if conn_tetra c2 =? conn_tetra c1
            then three_to_two_flip s ct (conn_tetra opp) (conn_tetra c1) p2 p1 o e1 e2
            else Some ([], s)
        | OutsideTwoEdges _ _ => Some ([], s)
        end
    | _ => None
    end.
End Flip3.

(* mod.rs 156-168 with impl_3d.rs 402-461 *)
Definition all_encompassing_3d : option triangulation :=
  let s := Triangulation [] 0 [] 0 4 None in
  let fa := next_face s in let s := push_face s [2; 1; 3] in
  let fb := next_face s in let s := push_face s [2; 3; 0] in
  let fc := next_face s in let s := push_face s [0; 3; 1] in
  let fd := next_face s in let s := push_face s [0; 1; 2] in
  do (_, s) <- insert_tetra s [(0, new_face fa false); (1, new_face fb false);
                               (2, new_face fc false); (3, new_face fd false)];
  Some s.

(** ** Insertion of a point, in any dimension *)
Section Insert.
  Variable split : triangulation -> nat -> nat -> option (list nat * triangulation).
  Variable flip : triangulation -> nat -> nat -> option (list nat * triangulation).
  (* circumcircle_contains and contains of the (remapped) corners *)
  Variable in_circle : list nat -> nat -> option bool.
  Variable inside : list nat -> nat -> option bool.
  (* Which entry of the heap is popped next: the entry with the least
     heuristic distance, ties in any order; any choice is allowed here. *)
  Variable pop : nat -> list nat -> nat.

  (* mod.rs 311-327 *)
  Definition face_is_invalid (s : triangulation) (ct cf : nat) : option bool :=
    match arena_get (tetras s) ct with
    | Some t =>
        do fi <- find_face t cf;
        match opposing fi with
        | Some opp => in_circle (points_of t) (conn_point opp)
        | None => Some false
        end
    | None => Some false
    end.

  (* mod.rs 304-309 *)
  Definition flip_check (s : triangulation) (ct cf : nat) : option (list nat * triangulation) :=
    do b <- face_is_invalid s ct cf;
    if (b : bool) then flip s ct cf else Some ([], s).

  Definition set_last (s : triangulation) (i : nat) : triangulation :=
    Triangulation (tetras s) (next_tetra s) (faces s) (next_face s) (num_points s) (Some i).

  (* mod.rs 282-302: [todo] is the part of the stack from current_index on,
     [done] the part before it; the loop of the code has no bound, here it
     has [fuel] rounds. *)
  Fixpoint perform_flip_checks (fuel : nat) (s : triangulation) (point : nat) (done todo : list nat)
    : option (list nat * triangulation) :=
    match todo with
    | [] => Some (done, s)
    | i :: rest =>
        match fuel with
        | O => None
        | S fuel' =>
            match arena_get (tetras s) i with
            | None => perform_flip_checks fuel' s point (done ++ [i]) rest
            | Some t =>
                do fi <- find_face_opposite t point;
                do (new, s') <- flip_check s i (face fi);
                perform_flip_checks fuel' (set_last s' i) point (done ++ [i]) (rest ++ new)
            end
        end
    end.

  Fixpoint take_nth (n : nat) (l : list nat) : option (nat * list nat) :=
    match l with
    | [] => None
    | x :: r => match n with
                | O => Some (x, r)
                | S n' => do (y, r') <- take_nth n' r; Some (y, x :: r')
                end
    end.

  (* point_location.rs 68-86: the neighbours that are pushed *)
  Fixpoint push_neighbours (s : triangulation) (t : tetra) (checked to_check : list nat)
    : option (list nat * list nat) :=
    match t with
    | [] => Some (checked, to_check)
    | (_, fi) :: r =>
        match opposing fi with
        | None => push_neighbours s r checked to_check
        | Some o =>
            if existsb (Nat.eqb (conn_tetra o)) checked
            then push_neighbours s r checked to_check
            else do _ <- arena_get (tetras s) (conn_tetra o);
                 push_neighbours s r (conn_tetra o :: checked) (conn_tetra o :: to_check)
        end
    end.

  (* point_location.rs 47-87; the outer option is a panic *)
  Fixpoint find_breadth_first (fuel : nat) (s : triangulation) (point : nat) (checked to_check : list nat)
    : option (option nat) :=
    match to_check with
    | [] => Some None
    | _ :: _ =>
        match fuel with
        | O => None
        | S fuel' =>
            do (i, rest) <- take_nth (pop point to_check mod length to_check) to_check;
            do t <- arena_get (tetras s) i;
            do b <- inside (points_of t) point;
            if (b : bool) then Some (Some i)
            else do (checked', to_check') <- push_neighbours s t checked rest;
                 find_breadth_first fuel' s point checked' to_check'
        end
    end.

  Fixpoint find_linear (l : arena tetra) (point : nat) : option (option nat) :=
    match l with
    | [] => Some None
    | (i, t) :: r => do b <- inside (points_of t) point;
                     if (b : bool) then Some (Some i) else find_linear r point
    end.

  (* point_location.rs 89-102 *)
  Definition find_containing_tetra (s : triangulation) (point : nat) : option (option nat) :=
    match last_insertion s with
    | Some i => find_breadth_first (length (tetras s)) s point [i] [i]
    | None => find_linear (tetras s) point
    end.

  Definition push_point (s : triangulation) : triangulation :=
    Triangulation (tetras s) (next_tetra s) (faces s) (next_face s) (S (num_points s)) (last_insertion s).

  (* mod.rs 271-280; the number of rounds of the loop is shown to suffice *)
  Definition insert (s : triangulation) : option (nat * list nat * triangulation) :=
    let p := num_points s in
    let s := push_point s in
    do found <- find_containing_tetra s p;
    do t <- found;
    do (new, s) <- split s t p;
    do (new, s) <- perform_flip_checks (length new + 3 * length (tetras s)) s p [] new;
    Some (p, new, s).

  Fixpoint insert_many (n : nat) (s : triangulation) : option triangulation :=
    match n with
    | O => Some s
    | S n' => do (_, s) <- insert s; insert_many n' s
    end.
End Insert.
