(** Models of the encodings used on the wire. *)
From Coq Require Import List Arith ZArith.
Import ListNotations.

(** [CommunicatedOption<T>], /repo/src/communication/communicated_option.rs 8-12:
    a flag and possibly uninitialized memory; uninitialized memory is an arbitrary
    value [junk] of the type. *)
Definition comm_option (T : Type) : Type := bool * T.

(** [From<Option<T>> for CommunicatedOption<T>], communicated_option.rs 32-45. *)
Definition encode_option {T} (junk : T) (o : option T) : comm_option T :=
  match o with Some x => (true, x) | None => (false, junk) end.

(** [From<CommunicatedOption<T>> for Option<T>], communicated_option.rs 47-55. *)
Definition decode_option {T} (c : comm_option T) : option T :=
  if fst c then Some (snd c) else None.

(** [Clone], communicated_option.rs 14-30. *)
Definition clone_option {T} (junk : T) (c : comm_option T) : comm_option T :=
  if fst c then (fst c, snd c) else (fst c, junk).

(** [WrapType], /repo/src/simulation_box.rs 165-171. *)
Inductive wrap_type := NoWrap | Minus | Plus.

(** [From<WrapType> for isize],
    /repo/src/voronoi/constructor/parallel/mpi_types.rs 167-176. *)
Definition wrap_to_isize (w : wrap_type) : Z :=
  match w with NoWrap => 0 | Minus => -1 | Plus => 1 end%Z.

(** [From<isize> for WrapType], mpi_types.rs 178-187; [None] is the panic. *)
Definition wrap_from_isize (z : Z) : option wrap_type :=
  match z with
  | (-1)%Z => Some Minus
  | 0%Z => Some NoWrap
  | 1%Z => Some Plus
  | _ => None
  end.

(** Two- and three-dimensional tags, mpi_types.rs 136-165. *)
Definition wrap2_to (w : wrap_type * wrap_type) : Z * Z :=
  (wrap_to_isize (fst w), wrap_to_isize (snd w)).
Definition wrap2_from (z : Z * Z) : option (wrap_type * wrap_type) :=
  match wrap_from_isize (fst z), wrap_from_isize (snd z) with
  | Some a, Some b => Some (a, b)
  | _, _ => None
  end.
Definition wrap3_to (w : wrap_type * wrap_type * wrap_type) : Z * Z * Z :=
  (wrap_to_isize (fst (fst w)), wrap_to_isize (snd (fst w)), wrap_to_isize (snd w)).
Definition wrap3_from (z : Z * Z * Z) : option (wrap_type * wrap_type * wrap_type) :=
  match wrap_from_isize (fst (fst z)), wrap_from_isize (snd (fst z)), wrap_from_isize (snd z) with
  | Some a, Some b, Some c => Some (a, b, c)
  | _, _, _ => None
  end.

(** [SearchResult<D>] and its wire type, mpi_types.rs 76-134: coordinates, the
    particle id and the tag. Coordinates and the id are copied unchanged; their
    types are abstract. *)
Definition result2_to {F I} (r : (F * F) * I * (wrap_type * wrap_type)) : F * F * I * (Z * Z) :=
  let '(p, i, w) := r in (fst p, snd p, i, wrap2_to w).
Definition result2_from {F I} (e : F * F * I * (Z * Z))
  : option ((F * F) * I * (wrap_type * wrap_type)) :=
  let '(x, y, i, z) := e in
  match wrap2_from z with Some w => Some ((x, y), i, w) | None => None end.
Definition result3_to {F I} (r : (F * F * F) * I * (wrap_type * wrap_type * wrap_type))
  : F * F * F * I * (Z * Z * Z) :=
  let '(p, i, w) := r in (fst (fst p), snd (fst p), snd p, i, wrap3_to w).
Definition result3_from {F I} (e : F * F * F * I * (Z * Z * Z))
  : option ((F * F * F) * I * (wrap_type * wrap_type * wrap_type)) :=
  let '(x, y, z, i, t) := e in
  match wrap3_from t with Some w => Some ((x, y, z), i, w) | None => None end.

(** [NodeIndex], /repo/src/quadtree/node_index.rs 3-8. *)
Inductive node_index := ThisNode | Child (num : nat).

(** [From<NodeIndex> for u8] 29-36 and [From<u8> for NodeIndex] 19-27; [m] is
    [TWO_TO_NUM_DIMENSIONS] (quadtree/mod.rs 16), 4 or 8. *)
Definition node_to_u8 (m : nat) (i : node_index) : nat :=
  match i with ThisNode => m | Child num => num end.
Definition node_from_u8 (m : nat) (v : nat) : node_index :=
  if v =? m then ThisNode else Child v.

(** The displacement table: [counts.iter().scan(0, ..)],
    /repo/src/communication/mpi_world.rs 240-247. Counts ([i32]) are [nat]. *)
Fixpoint displacements_from (acc : nat) (counts : list nat) : list nat :=
  match counts with
  | [] => []
  | c :: cs => acc :: displacements_from (acc + c) cs
  end.
Definition displacements (counts : list nat) : list nat := displacements_from 0 counts.

(** Writing [data] at offset [off] of a buffer, as the gather does for each rank. *)
Definition write_at {T} (buf : list T) (off : nat) (data : list T) : list T :=
  firstn off buf ++ data ++ skipn (off + length data) buf.

(** [all_gather_varcount], mpi_world.rs 236-259: an uninitialized buffer of the
    total size ([junk]) is filled; the library writes the ranks' contributions in
    any [order]. *)
Definition gather_varcount {T} (junk : list T) (sends : list (list T)) (order : list nat)
  : list T :=
  fold_left (fun buf r => write_at buf (nth r (displacements (map (@length T) sends)) 0)
                                   (nth r sends [])) order junk.
