(** Small grids used as examples and counterexamples. *)
From Coq Require Import List Arith Bool QArith Qcanon.
From Verif Require Import Sweep_Model.
Import ListNotations.
Local Open Scope nat_scope.

Definition q (n : Z) : Qc := Q2Qc (inject_Z n).
Definition half : Qc := Q2Qc (1 # 2).

(** Direction 0 points to the right, direction 1 to the left. *)
Definition right (n : nb) : face := mkFace 1%Qc (fun d => if d =? 0 then 1%Qc else q (-1)) n.
Definition left (n : nb) : face := mkFace 1%Qc (fun d => if d =? 0 then q (-1) else 1%Qc) n.

Definition zero2 : pid -> nat -> Qc := fun _ _ => 0%Qc.
Definition one1 : pid -> list Qc := fun _ => [1%Qc].

(** Half of the radiation gets through, times the state; the state remembers the
    number of updates. *)
Definition ex_resp (c : pid) (x : list Qc) (r : Qc) : Qc := (half * hd 0 x * r)%Qc.
Definition ex_chemup (c : pid) (x : list Qc) (r : Qc) : list Qc := [(hd 0 x + 1)%Qc].

(** Three cells in a row, the middle one on another rank and on a coarser level. *)
Definition row (levels : pid -> nat) (sw : list nat) (b : nat) : config :=
  let A := (0, 0) in let B := (1, 0) in let C := (0, 1) in
  mkConfig 2 [A; B; C]
    (fun c => if pid_eqb c A then [left Boundary; right (Remote B)]
              else if pid_eqb c B then [left (Remote A); right (Remote C)]
              else [left (Remote B); right Boundary])
    2 b (fun _ => 1%Qc) levels (fun _ p => Some (levels p)) sw ex_resp ex_chemup.
Definition row_levels (c : pid) : nat := if pid_eqb c (1, 0) then 0 else 1.
(** The same on one rank. *)
Definition row1 (levels : pid -> nat) (sw : list nat) (b : nat) : config :=
  let A := (0, 0) in let B := (0, 2) in let C := (0, 1) in
  mkConfig 1 [C; A; B]
    (fun c => if pid_eqb c A then [left Boundary; right (Local B)]
              else if pid_eqb c B then [left (Local A); right (Local C)]
              else [left (Local B); right Boundary])
    2 b (fun _ => 1%Qc) levels (fun _ p => None) sw ex_resp ex_chemup.
Definition row_map (c : pid) : pid := if pid_eqb c (1, 0) then (0, 2) else c.
Definition row1_levels (c : pid) : nat := if pid_eqb c (0, 2) then 0 else 1.

Definition row_order (cur d : nat) (c : pid) : nat :=
  let i := if pid_eqb c (0, 0) then 0 else if pid_eqb c (0, 1) then 2 else 1 in
  if d =? 0 then i else 2 - i.

Definition row_round : list op :=
  [Run 0 0; Run 1 0; Deliver 0 1; Deliver 1 0; Complete 0 1 false; Complete 1 0 false].

(** [B] gets radiation from [C], and from [A] across the periodic boundary; all are on
    different ranks. *)
Definition fork : config :=
  let A := (0, 0) in let B := (1, 0) in let C := (2, 0) in
  mkConfig 3 [A; B; C]
    (fun c => if pid_eqb c A then [right (RemotePeriodic B)]
              else if pid_eqb c B then [left (RemotePeriodic A); left (Remote C)]
              else [right (Remote B)])
    1 10 (fun c => if pid_eqb c B then 0%Qc else 1%Qc) (fun _ => 0) (fun _ _ => Some 0) [0] ex_resp ex_chemup.
Definition fork_order (cur d : nat) (c : pid) : nat := if pid_eqb c (1, 0) then 1 else 0.

Definition runs (r n : nat) : list op := repeat (Run r 0) n.
(** Rank 1 hears from [A] first, or from [C] first. *)
Definition fork_schedule (first second : nat) : list op :=
  runs first 4 ++ [Deliver first 1; Complete first 1 true] ++ runs 1 12 ++
  runs second 4 ++ [Deliver second 1; Complete second 1 true] ++ runs 1 20 ++ runs first 20 ++ runs second 20.

(** Rank 0 does not depend on rank 1, so that it can run ahead. *)
Definition oneway : config :=
  let A := (0, 0) in let B := (1, 0) in
  mkConfig 2 [A; B]
    (fun c => if pid_eqb c A then [right (Remote B)] else [left (Remote A)])
    1 10 (fun _ => 1%Qc) (fun _ => 0) (fun _ _ => Some 0) [0; 0] ex_resp ex_chemup.

(** A cell with two downwind faces of different areas. *)
Definition split : config :=
  let A := (0, 0) in let B := (0, 1) in
  mkConfig 1 [A; B]
    (fun c => if pid_eqb c A then [right Boundary; mkFace (q 3) (fun _ => 1%Qc) (Local B)]
              else [mkFace (q 3) (fun _ => q (-1)) (Local A)])
    1 10 (fun _ => 1%Qc) (fun _ => 0) (fun _ _ => None) [0] ex_resp ex_chemup.

(** Two cells downwind of each other in the same direction. *)
Definition ring : config :=
  let A := (0, 0) in let B := (1, 0) in
  mkConfig 2 [A; B]
    (fun c => if pid_eqb c A then [right (Remote B); left (Remote B)] else [left (Remote A); right (Remote A)])
    1 10 (fun _ => 1%Qc) (fun _ => 0) (fun _ _ => Some 0) [0] ex_resp ex_chemup.
