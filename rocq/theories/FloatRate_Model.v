(** Model of the rates of one cell in one direction with the rounding of [f64]: [solve_task] and [handle_local_neighbour] of
    the sweep, [get_outgoing_rate] of the chemistry. Rates are numbers of type [f64] in one unit. *)
From Coq Require Import List Arith.
From Flocq Require Import Core.Core IEEE754.BinarySingleNaN.
From Verif Require Import Float_Model.
Import ListNotations.

(** [Photons::make_positive], chemistry/mod.rs 61-65. *)
Definition make_positive (r : f64) : f64 := if lt r zero then zero else r.

(** [Site::get_rate], sweep/site.rs 53-56, with the source of the cell already divided by the number of directions. *)
Definition rate_of_site (incoming source periodic : f64) : f64 := add (add incoming source) periodic.

(** [HydrogenOnly::get_outgoing_rate], chemistry/hydrogen_only/mod.rs 72-88; [fraction] is the value of [exp]. *)
Definition outgoing (threshold fraction incoming : f64) : f64 :=
  if lt incoming threshold then zero else mul incoming fraction.

(** [total_effective_area] and the share of each downwind face, sweep/mod.rs 451-461, given the effective areas of the
    downwind faces. *)
Definition shares (areas : list f64) : list f64 :=
  let total := fold_left add areas zero in map (fun a => div a total) areas.

(** One cell and the cells upwind of it: [outgoing_total_rate] of each of these and [incoming_total_rate] of the cell. *)
Record link : Type := Link { outs : list f64; incoming : f64 }.

Fixpoint replace (j : nat) (x : f64) (l : list f64) : list f64 :=
  match l, j with
  | [], _ => []
  | _ :: r, O => x :: r
  | y :: r, S k => y :: replace k x r
  end.

(** What happens to the cell: the task of an upwind cell is solved, or its own task is solved. *)
Inductive event : Type :=
  | Upwind (j : nat) (rate : f64)
  | Own.

(** [solve_task], sweep/mod.rs 423-461, with [handle_local_neighbour] 487-496; [get_outgoing_rate] 412-421. The weight is the
    share of the face. The sending to another rank does not change the numbers. *)
Definition step (weights : list f64) (s : link) (e : event) : link :=
  match e with
  | Upwind j rate =>
      let correction := sub rate (nth j (outs s) zero) in
      Link (replace j rate (outs s)) (add (incoming s) (mul correction (nth j weights zero)))
  | Own => Link (outs s) (make_positive (incoming s))
  end.

(** [Site::new], sweep/site.rs 26-43: all rates are zero. *)
Definition start (weights : list f64) : link := Link (map (fun _ => zero) weights) zero.
Definition run (weights : list f64) (events : list event) : link := fold_left (step weights) events (start weights).
