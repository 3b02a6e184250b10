(** What is assumed of the grid, and what a sweep is supposed to compute; stated
    without reference to counters, queues, messages or schedules. *)
From Coq Require Import List Arith Bool QArith Qcanon.
From Verif Require Import Sweep_Model.
Import ListNotations.
Local Open Scope nat_scope.

Section Spec.
  Variable G : config.

  (** A face towards [p] which creates a dependency. *)
  Definition face_to (p : pid) (f : face) : bool :=
    match f_nb f with Local q | Remote q => pid_eqb q p | _ => false end.
  (** A face towards [p] on another rank across the periodic boundary. *)
  Definition face_toP (p : pid) (f : face) : bool :=
    match f_nb f with RemotePeriodic q => pid_eqb q p | _ => false end.

  (** The grid is consistent: cells are distinct and belong to existing ranks,
      neighbours are cells and are classified as local or remote according to
      their rank, the level of every remote neighbour is known to the rank, and
      each face of a cell towards a neighbour is matched by one of the
      neighbour's which sees the cell from the other side. *)
  Record consistent : Prop := {
    c_nodup : NoDup (cells G);
    c_rank : forall c, In c (cells G) -> rank_of c < nranks G;
    c_local : forall c f p, In c (cells G) -> In f (faces G c) ->
        (f_nb f = Local p \/ f_nb f = LocalPeriodic p) ->
        In p (cells G) /\ rank_of p = rank_of c;
    c_remote : forall c f p, In c (cells G) -> In f (faces G c) ->
        (f_nb f = Remote p \/ f_nb f = RemotePeriodic p) ->
        In p (cells G) /\ rank_of p <> rank_of c /\ halo G (rank_of c) p = Some (lev G p);
    c_sym : forall c p d, In c (cells G) -> In p (cells G) -> d < ndirs G ->
        countb (fun f => upwind f d && face_to p f) (faces G c) =
        countb (fun f => downwind f d && face_to c f) (faces G p);
    c_symP : forall c p d, In c (cells G) -> In p (cells G) -> d < ndirs G ->
        countb (fun f => upwind f d && face_toP p f) (faces G c) =
        countb (fun f => downwind f d && face_toP c f) (faces G p)
  }.

  (** In the sweep at level [cur] no cell is (transitively) downwind of itself. *)
  Definition acyclic_at (cur : nat) : Prop :=
    exists ord : nat -> pid -> nat,
      forall c p f d, In c (cells G) -> In f (faces G c) -> d < ndirs G ->
        downwind f d = true -> face_to p f = true ->
        cur <= lev G c -> cur <= lev G p -> ord d c < ord d p.

  Definition acyclic : Prop := forall cur, In cur (sweeps G) -> acyclic_at cur.

  (** No face leads across a periodic boundary. *)
  Definition non_periodic : Prop :=
    forall c f, In c (cells G) -> In f (faces G c) ->
      match f_nb f with LocalPeriodic _ | RemotePeriodic _ => False | _ => True end.

  (** The cell is swept in sweep number [e]. *)
  Definition active_in (e : nat) (c : pid) : Prop :=
    exists cur, nth_error (sweeps G) e = Some cur /\ cur <= lev G c.

  (** ** What the sweeps compute.

      [I e], [O e], [X e]: incoming rates, outgoing rates and chemical states
      before sweep number [e]. A cell receives, from each neighbour swept, the
      change of the neighbour's outgoing rate, in proportion to the effective
      area of the face; but a cell which is not swept receives nothing from
      other ranks. *)
  Definition share (j : pid) (f : face) (d : nat) : Qc :=
    (f_area f * f_dot f d /
     Qcsum (map (fun f' => f_area f' * f_dot f' d)%Qc (filter (fun f' => downwind f' d) (faces G j))))%Qc.

  Definition reaches (cur : nat) (c : pid) (f : face) : bool :=
    match f_nb f with
    | Local q => pid_eqb q c
    | Remote q => pid_eqb q c && (cur <=? lev G c)
    | _ => false
    end.

  Definition received (cur : nat) (O O' : pid -> nat -> Qc) (c : pid) (d : nat) : Qc :=
    Qcsum (map (fun j =>
      if cur <=? lev G j then
        Qcsum (map (fun f => if downwind f d && reaches cur c f
                             then ((O' j d - O j d) * share j f d)%Qc else 0%Qc) (faces G j))
      else 0%Qc) (cells G)).

  Definition Qcmax0 (x : Qc) : Qc := if Qclt_le_dec x 0%Qc then 0%Qc else x.

  Definition rate_of (I P : pid -> nat -> Qc) (c : pid) (d : nat) : Qc :=
    (I c d + source G c / Qc_of_nat (ndirs G) + P c d)%Qc.

  Record solution (P : pid -> nat -> Qc) (I O : nat -> pid -> nat -> Qc)
    (X : nat -> pid -> list Qc) : Prop := {
    sol_in : forall e cur c d, nth_error (sweeps G) e = Some cur -> In c (cells G) -> d < ndirs G ->
        I (S e) c d = if cur <=? lev G c then Qcmax0 (I e c d + received cur (O e) (O (S e)) c d)%Qc
                      else (I e c d + received cur (O e) (O (S e)) c d)%Qc;
    sol_out : forall e cur c d, nth_error (sweeps G) e = Some cur -> In c (cells G) -> d < ndirs G ->
        O (S e) c d = if cur <=? lev G c then resp G c (X e c) (rate_of (I (S e)) P c d)
                      else O e c d;
    sol_chem : forall e cur c, nth_error (sweeps G) e = Some cur -> In c (cells G) ->
        X (S e) c = if cur <=? lev G c
                    then chemup G c (X e c) (Qcsum (map (rate_of (I (S e)) P c) (seq 0 (ndirs G))))
                    else X e c
  }.
End Spec.
