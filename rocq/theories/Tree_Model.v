(** Model of the quadtree/octree, [/repo/src/quadtree/mod.rs], and of its
    iterators, [/repo/src/quadtree/radius_search.rs]. *)
From Coq Require Import List Arith QArith Qabs.
Import ListNotations.
From Verif Require Import Box_Model.

(** [QuadTreeConfig], quadtree/config.rs 5-18. *)
Record config : Type := { max_depth : nat; max_per_leaf : nat }.

Section Tree.
(** Extents and leaf data; [pos] is included in the leaf data. *)
Variables E L : Type.
(** [get_quadrants] and [get_quadrant_index]. *)
Variable quadrants : E -> list E.
Variable quadrant_index : E -> L -> nat.

(** [Node] and [QuadTree], quadtree/mod.rs 28-58. The data of a node is the
    [NodeData] of domain/quadtree.rs 17-31: the number of updates. *)
Inductive tree : Type :=
| Leaf (e : E) (data : nat) (particles : list L)
| Node (e : E) (data : nat) (children : list tree).

Definition extent_of (t : tree) : E := match t with Leaf e _ _ => e | Node e _ _ => e end.
Definition data_of (t : tree) : nat := match t with Leaf _ d _ => d | Node _ d _ => d end.

(** [make_empty_leaf_from_extent], quadtree/mod.rs 100-106. *)
Definition empty_leaf (e : E) : tree := Leaf e 0 [].

(** [self.data.update_with(&leaf_data)]. *)
Definition update_data (t : tree) : tree :=
  match t with Leaf e d l => Leaf e (S d) l | Node e d c => Node e (S d) c end.

(** Replace child [i] by the result of [f]; an index out of range panics. *)
Fixpoint update_child (f : tree -> option tree) (i : nat) (l : list tree) : option (list tree) :=
  match l, i with
  | [], _ => None
  | t :: r, O => match f t with Some t' => Some (t' :: r) | None => None end
  | t :: r, S i' => match update_child f i' r with Some r' => Some (t :: r') | None => None end
  end.

Fixpoint fold_option {A B : Type} (f : A -> B -> option A) (l : list B) (a : A) : option A :=
  match l with
  | [] => Some a
  | b :: r => match f a b with Some a' => fold_option f r a' | None => None end
  end.

(** [insert], quadtree/mod.rs 75-88, with [subdivide] (90-98) and the
    [insert_new] (70-73) of the children. [fuel] bounds the recursion depth;
    [None] means that it ran out or that a child index was out of range.
    [subdivide] is only called on a leaf and then inserts its particles into the
    new inner node, which is the second branch of [insert]. *)
Section Insert.
Variable cfg : config.
Fixpoint insert (fuel depth : nat) (t : tree) (p : L) : option tree :=
  match fuel with
  | O => None
  | S fuel' =>
      let insert_child (e : E) (children : list tree) (q : L) : option (list tree) :=
        update_child (fun c => insert fuel' (S depth) (update_data c) q) (quadrant_index e q) children in
      match t with
      | Leaf e d l =>
          if (depth <? max_depth cfg) && (max_per_leaf cfg <? length l) then
            match fold_option (insert_child e) l (map empty_leaf (quadrants e)) with
            | Some children =>
                match insert_child e children p with
                | Some children' => Some (Node e d children')
                | None => None
                end
            | None => None
            end
          else Some (Leaf e d (l ++ [p]))
      | Node e d children =>
          match insert_child e children p with
          | Some children' => Some (Node e d children')
          | None => None
          end
      end
  end.

(** [insert_new], quadtree/mod.rs 70-73. *)
Definition insert_new (fuel depth : nat) (t : tree) (p : L) : option tree :=
  insert fuel depth (update_data t) p.

(** [QuadTree::new], quadtree/mod.rs 61-68. *)
Definition build (fuel : nat) (particles : list L) (e : E) : option tree :=
  fold_option (insert_new fuel 0) particles (empty_leaf e).
End Insert.

(** * Iteration *)
(** [SearchCriterion], radius_search.rs 172-175. *)
Variable visit : tree -> bool.
Variable include : L -> bool.
(** [TWO_TO_NUM_DIMENSIONS]. *)
Variable num_children : nat.

(** [StackItem], radius_search.rs 64-68; the stack has its last element first. *)
Local Notation item := (tree * nat * bool)%type.
Local Notation state := (list item * nat)%type.

(** [get_stack_item_for_new_tree], radius_search.rs 98-109. *)
Definition new_item (t : tree) (pos : nat) : item := (t, pos, visit t).
(** [TreeIter::new], radius_search.rs 87-96. *)
Definition iter_start (t : tree) : state := ([new_item t 0], 0%nat).

Inductive outcome : Type :=
| Finished                    (* [None] *)
| Yield (l : L) (s : state)   (* [return Some(l)] *)
| Continue (s : state)
| Panicked.

(** The part of [goto_next_node] (radius_search.rs 132-143) after the check of the
    current node: leave it and go to the next child of the parent, or up. *)
Definition leave_node (pos : nat) (rest : list item) (leaf_pos : nat) : outcome :=
  match rest with
  | [] => Finished
  | (parent, _, _) :: _ =>
      if (S pos <? num_children)%nat then
        match parent with
        | Node _ _ children =>
            match nth_error children (S pos) with
            | Some c => Continue (new_item c (S pos) :: rest, leaf_pos)
            | None => Panicked
            end
        | Leaf _ _ _ => Panicked
        end
      else Continue (rest, leaf_pos)
  end.

(** [goto_next_node], radius_search.rs 115-144. *)
Definition goto_next_node (stack : list item) (leaf_pos : nat) : outcome :=
  match stack with
  | [] => Finished
  | (t, pos, v) :: rest =>
      match v, t with
      | true, Node _ _ children =>
          match nth_error children 0 with
          | Some c => Continue (new_item c 0 :: (t, pos, false) :: rest, leaf_pos)
          | None => Panicked
          end
      | _, _ => leave_node pos rest leaf_pos
      end
  end.

(** One round of the loop in [next], radius_search.rs 156-169. *)
Definition iter_step (s : state) : outcome :=
  let '(stack, leaf_pos) := s in
  match stack with
  | (Leaf _ _ particles, _, true) :: _ =>
      match nth_error particles leaf_pos with
      | Some l => if include l then Yield l (stack, S leaf_pos) else Continue (stack, S leaf_pos)
      | None => goto_next_node stack 0
      end
  | _ => goto_next_node stack leaf_pos
  end.

(** All items of the iterator: successive calls of [next] continue the loop where
    the last call left it. [None]: the fuel ran out or the code panics. *)
Fixpoint iterate (fuel : nat) (s : state) : option (list L) :=
  match fuel with
  | O => None
  | S fuel' =>
      match iter_step s with
      | Finished => Some []
      | Yield l s' => match iterate fuel' s' with Some r => Some (l :: r) | None => None end
      | Continue s' => iterate fuel' s'
      | Panicked => None
      end
  end.
End Tree.

Arguments Leaf {E L}.
Arguments Node {E L}.

(** * The criteria *)
(** [EntireTree], radius_search.rs 177-187. *)
Definition visit_all {E L : Type} (_ : tree E L) : bool := true.
Definition include_all {L : Type} (_ : L) : bool := true.

Definition Qabs_le (v s : Q) : bool := Qle_bool (Qabs v) s.

(** [relative_bounding_box_overlap] and [bounding_boxes_overlap_periodic],
    radius_search.rs 10-35. *)
Definition overlap3 (b : extent3) (pos1 size1 pos2 size2 : vec3) : bool :=
  let d := periodic_distance_vec3 b pos1 pos2 in
  Qabs_le (x3 d) (x3 size1 + x3 size2) && Qabs_le (y3 d) (y3 size1 + y3 size2)
  && Qabs_le (z3 d) (z3 size1 + z3 size2).
Definition overlap2 (b : extent2) (pos1 size1 pos2 size2 : vec2) : bool :=
  let d := periodic_distance_vec2 b pos1 pos2 in
  Qabs_le (x2 d) (x2 size1 + x2 size2) && Qabs_le (y2 d) (y2 size1 + y2 size2).

(** [within_radius_periodic], radius_search.rs 37-44: a length is below the radius
    if the radius is positive and the squares compare. *)
Definition within3 (b : extent3) (pos1 pos2 : vec3) (radius : Q) : bool :=
  Qltb 0 radius && Qltb (length_sq3 (periodic_distance_vec3 b pos1 pos2)) (radius * radius).
Definition within2 (b : extent2) (pos1 pos2 : vec2) (radius : Q) : bool :=
  Qltb 0 radius && Qltb (length_sq2 (periodic_distance_vec2 b pos1 pos2)) (radius * radius).

(** [PeriodicRadiusSearch], radius_search.rs 189-220, and
    [iter_particles_in_radius], 47-55. Leaf data is an identifier and a position
    ([LeafData], domain/quadtree.rs 10-14). *)
Definition search3 (b : extent3) (pos : vec3) (radius : Q) (fuel : nat)
    (t : tree extent3 (nat * vec3)) : option (list (nat * vec3)) :=
  let visit := fun t => overlap3 b (center3 (extent_of _ _ t)) (sides3 (extent_of _ _ t))
                                 pos (V3 radius radius radius) in
  let include := fun p : nat * vec3 => within3 b pos (snd p) radius in
  iterate extent3 (nat * vec3) visit include 8 fuel (iter_start _ _ visit t).
Definition search2 (b : extent2) (pos : vec2) (radius : Q) (fuel : nat)
    (t : tree extent2 (nat * vec2)) : option (list (nat * vec2)) :=
  let visit := fun t => overlap2 b (center2 (extent_of _ _ t)) (sides2 (extent_of _ _ t))
                                 pos (V2 radius radius) in
  let include := fun p : nat * vec2 => within2 b pos (snd p) radius in
  iterate extent2 (nat * vec2) visit include 4 fuel (iter_start _ _ visit t).

(** The trees of the code: leaf data with a position. *)
Definition build3 (cfg : config) (fuel : nat) (particles : list (nat * vec3)) (e : extent3) :=
  build extent3 (nat * vec3) quadrants3 (fun e p => quadrant_index3 e (snd p)) cfg fuel particles e.
Definition build2 (cfg : config) (fuel : nat) (particles : list (nat * vec2)) (e : extent2) :=
  build extent2 (nat * vec2) quadrants2 (fun e p => quadrant_index2 e (snd p)) cfg fuel particles e.
Definition iter_all_particles {E : Type} {L : Type} (num_children fuel : nat) (t : tree E L) : option (list L) :=
  iterate E L visit_all include_all num_children fuel (iter_start E L visit_all t).
