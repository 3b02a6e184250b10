(** What the id lookup and the cells read from a file must be. *)
From Coq Require Import List Arith ZArith QArith.
From Verif Require Import ReadGrid_Model.
Import ListNotations.

(** Some rank stores [p] under [id]. *)
Definition stored (tables : list (list (nat * pid))) (id : nat) (p : pid) : Prop :=
  exists y, In (id, p) (nth y tables []).

(** The particle a neighbour stands for. *)
Definition nb_id (t : ptype) : option pid :=
  match t with Local p => Some p | Remote p => Some p | Boundary => None end.

Definition pid_eqb (p q : pid) : bool := (fst p =? fst q)%nat && (snd p =? snd q)%nat.

(** The faces of a cell towards one particle, and towards the boundary. *)
Definition towards (p : pid) (cell : list (face * ptype)) : list face :=
  map fst (filter (fun nb => match nb_id (snd nb) with Some q => pid_eqb q p | None => false end) cell).
Definition boundary_faces (cell : list (face * ptype)) : list face :=
  map fst (filter (fun nb => match nb_id (snd nb) with Some _ => false | None => true end) cell).

(** The same face seen from the other side. *)
Definition flip (f : face) : face :=
  let '(a, (x, y, z)) := f in (a, ((- x)%Q, (- y)%Q, (- z)%Q)).

(** The connections of the file that join [u] and [v] directly, as seen from [u]: the
    normal of the file points from the second to the first cell. *)
Definition joining (conns : list connection) (u v : nat) : list face :=
  flat_map (fun c =>
    if (periodic1 c || periodic2 c)%bool then []
    else if ((id1 c =? u) && (id2 c =? v))%nat then [flip (area c, normal c)]
    else if ((id1 c =? v) && (id2 c =? u))%nat then [(area c, normal c)]
    else []) conns.

(** The connections that end at [u] with a periodic image on the other side. *)
Definition ending (conns : list connection) (u : nat) : list face :=
  flat_map (fun c =>
    (if ((id1 c =? u)%nat && negb (periodic1 c) && periodic2 c)%bool then [flip (area c, normal c)] else [])
    ++ (if ((id2 c =? u)%nat && negb (periodic2 c) && periodic1 c)%bool then [(area c, normal c)] else [])) conns.

(** A connection of the file has two known ends, at most one of them periodic. *)
Definition bit (z : Z) (i : Z) : bool := Z.testbit z i.
Definition accepted (z : Z) : bool :=
  (negb (z =? -1)%Z && negb (bit z 1) && negb (bit z 3) && negb (bit z 0 && bit z 2))%bool.

(** The input of the construction: every rank has its own particles, unique ids and
    particle ids occur once, and the ends of all connections are known. With periodic
    boundaries allowed there is no periodic connection. *)
Record input_ok (n : nat) (allow_periodic : bool) (particles : list (list (pid * nat))) (file : list entry) : Prop := {
  in_ranks : length particles = n;
  in_own : forall x p u, In (p, u) (nth x particles []) -> fst p = x;
  in_unique : NoDup (map snd (concat particles));
  in_pids : NoDup (map fst (concat particles));
  in_known : forall c, In c (read_connections file) ->
    In (id1 c) (map snd (concat particles)) /\ In (id2 c) (map snd (concat particles));
  in_periodic : allow_periodic = true -> forall c, In c (read_connections file) ->
    periodic1 c = false /\ periodic2 c = false }.

(** The cell of the particle with index [i] on rank [x]. *)
Definition cell_of (r : list (list (list (face * ptype)) * list pid)) (x i : nat) : list (face * ptype) :=
  nth i (fst (nth x r ([], []))) [].
Definition haloes_of (r : list (list (list (face * ptype)) * list pid)) (x : nat) : list pid :=
  snd (nth x r ([], [])).
