(** Model of the distributed sweep: src/sweep/mod.rs, src/sweep/communicator.rs,
    src/sweep/site.rs, src/sweep/count_by_dir.rs, src/sweep/task.rs,
    src/sweep/grid/cell.rs.

    All ranks execute a common list of sweeps (one per iteration of the loop in
    [run_sweeps]); they are not synchronised between sweeps. Rates are exact
    rationals in canonical form ([Qc]) instead of f64. The chemistry is an
    arbitrary pair of functions on an arbitrary vector of numbers per cell. A
    panic is [None]. Fields marked "ghost" do not exist in the code; no other field
    depends on them. *)
From Coq Require Import List Arith Bool QArith Qcanon.
Import ListNotations.
Local Open Scope nat_scope.

(** src/particle.rs [ParticleId]: rank and index. *)
Definition pid := (nat * nat)%type.
Definition rank_of (p : pid) : nat := fst p.
Definition pid_eqb (p q : pid) : bool := (fst p =? fst q) && (snd p =? snd q).

(** src/sweep/grid/cell.rs:17-24 [ParticleType]. The separate field [rank] of a
    remote neighbour always equals the rank of its id (asserted at lines 50 and 61),
    so it is left out; the wrap type of periodic neighbours is not used by the
    sweep. *)
Inductive nb := Local (p : pid) | Remote (p : pid) | Boundary
              | LocalPeriodic (p : pid) | RemotePeriodic (p : pid).

(** src/sweep/grid/cell.rs [Face]: area, and for each direction index the dot
    product of the normal with the direction; together with the neighbour. *)
Record face := mkFace { f_area : Qc; f_dot : nat -> Qc; f_nb : nb }.

Definition Qc_ltb (a b : Qc) : bool := if Qclt_le_dec a b then true else false.

(** src/sweep/grid/cell.rs:126-132 [points_upwind], [points_downwind]; the
    dependency's [is_negative], [is_positive] are read as [< 0], [> 0]. *)
Definition upwind (f : face) (d : nat) : bool := Qc_ltb (f_dot f d) 0%Qc.
Definition downwind (f : face) (d : nat) : bool := Qc_ltb 0%Qc (f_dot f d).

(** src/sweep/task.rs:17-23 [RateData]. *)
Record msg := mkMsg {
  m_id : pid; m_dir : nat; m_rate : Qc; m_periodic : bool;
  m_ep : nat (* ghost: number of the sweep it was created in *)
}.

(** The static situation: number of ranks, all cells of all ranks, their faces,
    number of directions, batch size [num_tasks_to_solve_before_send_receive],
    source rate, level of each cell (own and as known to other ranks), the
    levels of the sweeps to perform (src/sweep/mod.rs:261-266), and the chemistry:
    outgoing rate of a cell in a chemical state for an incoming rate
    ([get_outgoing_rate], used at src/sweep/mod.rs:420), and the state after an
    update with a rate ([update_abundances] and the bookkeeping around it,
    src/sweep/mod.rs:549-573; levels and hence time steps are fixed during a run
    of sweeps). *)
Record config := mkConfig {
  nranks : nat;
  cells : list pid;
  faces : pid -> list face;
  ndirs : nat;
  batch : nat;
  source : pid -> Qc;
  lev : pid -> nat;
  halo : nat -> pid -> option nat;
  sweeps : list nat;
  resp : pid -> list Qc -> Qc -> Qc;
  chemup : pid -> list Qc -> Qc -> list Qc
}.

(** State of an outstanding send request as seen by [MPI_Test]. *)
Inductive reqst := RNone | RPending | RDone.

(** Program counter within [solve]: loop head, receiving from the remaining
    ranks, solving after [n] tasks, sending; finished with all sweeps. *)
Inductive pcs := PHead | PRecv (l : list nat) | PSolve (n : nat) | PSend | PFinished.

(** The part of [Sweep] (src/sweep/mod.rs:171-191) which changes during sweeps,
    of one rank. Maps keyed by cell and direction are total functions; only own
    cells are accessed (checked by [own]). *)
Record rstate := mkR {
  inc : pid -> nat -> Qc;       (* incoming_total_rate *)
  out : pid -> nat -> Qc;       (* outgoing_total_rate *)
  per : pid -> nat -> Qc;       (* periodic_source *)
  chem : pid -> list Qc;        (* species and timescale of the sites *)
  miss : pid -> nat -> nat;     (* num_missing_upwind *)
  queue : list (pid * nat);     (* to_solve *)
  cnt : nat -> nat;             (* to_solve_count *)
  torecv : nat -> nat;          (* to_receive_count *)
  tosend : nat -> list msg;     (* to_send *)
  buf : nat -> list msg;        (* communicator.send_buffers *)
  req : nat -> reqst;           (* communicator.requests *)
  ep : nat;                     (* number of the current sweep *)
  pc : pcs;
  log : list (nat * pid * nat)  (* ghost: solved (sweep, cell, direction) *)
}.

Record state := mkS {
  rs : nat -> rstate;
  net : nat -> nat -> list (list msg);   (* batches on their way, oldest first *)
  mail : nat -> nat -> list (list msg)   (* batches which [try_receive_vec] sees *)
}.

Definition upd {A} (f : nat -> A) (k : nat) (v : A) : nat -> A :=
  fun x => if x =? k then v else f x.
Definition upd2 {A} (f : nat -> nat -> A) (k l : nat) (v : A) : nat -> nat -> A :=
  fun x y => if (x =? k) && (y =? l) then v else f x y.
Definition updc {A} (f : pid -> nat -> A) (c : pid) (d : nat) (v : A) : pid -> nat -> A :=
  fun x y => if pid_eqb x c && (y =? d) then v else f x y.

Definition countb {A} (p : A -> bool) (l : list A) : nat := length (filter p l).
Definition Qcsum (l : list Qc) : Qc := fold_right Qcplus 0%Qc l.

Section WithConfig.
  Variable G : config.

  Definition own (r : nat) (p : pid) : bool :=
    (rank_of p =? r) && existsb (pid_eqb p) (cells G).

  Definition others (r : nat) : list nat := filter (fun s => negb (s =? r)) (seq 0 (nranks G)).

  Definition own_cells (r : nat) : list pid := filter (fun c => rank_of c =? r) (cells G).

  (** src/sweep/mod.rs:400-406 [get_level]; a missing halo level panics. *)
  Definition get_level (r : nat) (p : pid) : option nat :=
    if rank_of p =? r then (if own r p then Some (lev G p) else None) else halo G r p.

  (** src/sweep/mod.rs:408-410 [is_active]. *)
  Definition nb_active (r cur : nat) (p : pid) : option bool :=
    option_map (fun l => cur <=? l) (get_level r p).

  (** Cells of a rank active at a level, src/sweep/active_list.rs:55-66; the
      order of the enumeration does not matter here. *)
  Definition active_cells (r cur : nat) : list pid :=
    filter (fun c => cur <=? lev G c) (own_cells r).

  Definition nb_id (n : nb) : option pid :=
    match n with
    | Local p | Remote p | LocalPeriodic p | RemotePeriodic p => Some p
    | Boundary => None
    end.

  (** src/sweep/mod.rs:361-369: the face counts as an active dependency. [None]
      is a panic (unknown level). *)
  Definition dep_active (r cur d : nat) (f : face) : option bool :=
    if upwind f d then
      match nb_id (f_nb f) with
      | None => Some false
      | Some p => nb_active r cur p
      end
    else Some false.

  Definition dep (r cur d : nat) (f : face) : bool :=
    match dep_active r cur d f with Some b => b | None => false end.

  Definition is_remote_rank (r : nat) (s : nat) : bool := negb (s =? r) && (s <? nranks G).

  (** Whether [init_counts] panics on this face: unknown level of an upwind
      neighbour, or a remote neighbour with a rank which has no counter. *)
  Definition init_face_ok (r cur d : nat) (f : face) : bool :=
    match dep_active r cur d f with
    | None => false
    | Some false => true
    | Some true =>
        match f_nb f with
        | Remote p | RemotePeriodic p => is_remote_rank r (rank_of p)
        | _ => true
        end
    end.

  (** src/sweep/mod.rs:370-384, counts for one cell and direction. *)
  Definition missing_init (r cur : nat) (c : pid) (d : nat) : nat :=
    countb (fun f => dep r cur d f &&
              match f_nb f with Local _ | Remote _ => true | _ => false end) (faces G c).

  (** src/sweep/mod.rs:374-383, messages expected from rank [s]. *)
  Definition torecv_cell (r cur s : nat) (c : pid) (d : nat) : nat :=
    countb (fun f => dep r cur d f &&
              match f_nb f with
              | Remote p | RemotePeriodic p => rank_of p =? s
              | _ => false
              end) (faces G c).
  Definition torecv_init (r cur s : nat) : nat :=
    list_sum (map (fun c => list_sum (map (torecv_cell r cur s c) (seq 0 (ndirs G))))
                (active_cells r cur)).

  (** src/sweep/mod.rs:346-386 [init_counts] and 388-398 [get_initial_tasks], at
      the start of the sweep number [e]; when there is no such sweep the rank is
      finished. Only active cells' counters are overwritten. *)
  Definition start_sweep (r e : nat) (s : rstate) : option rstate :=
    match nth_error (sweeps G) e with
    | None =>
        Some (mkR (inc s) (out s) (per s) (chem s) (miss s) (queue s) (cnt s) (torecv s) (tosend s)
                (buf s) (req s) e PFinished (log s))
    | Some cur =>
        let act := active_cells r cur in
        if forallb (fun c => forallb (fun d => forallb (init_face_ok r cur d) (faces G c))
                               (seq 0 (ndirs G))) act
        then
          let miss' := fun c d => if existsb (pid_eqb c) act then missing_init r cur c d
                                  else miss s c d in
          Some (mkR (inc s) (out s) (per s) (chem s) miss'
                  (flat_map (fun d => map (fun c => (c, d))
                                        (filter (fun c => miss' c d =? 0) act))
                     (seq 0 (ndirs G)))
                  (fun d => if d <? ndirs G then length act else 0)
                  (fun x => if is_remote_rank r x then torecv_init r cur x else 0)
                  (tosend s) (buf s) (req s) e PHead (log s))
        else None
    end.

  Definition set_inc (s : rstate) (v : pid -> nat -> Qc) : rstate :=
    mkR v (out s) (per s) (chem s) (miss s) (queue s) (cnt s) (torecv s) (tosend s) (buf s) (req s)
      (ep s) (pc s) (log s).
  Definition set_out (s : rstate) (v : pid -> nat -> Qc) : rstate :=
    mkR (inc s) v (per s) (chem s) (miss s) (queue s) (cnt s) (torecv s) (tosend s) (buf s) (req s)
      (ep s) (pc s) (log s).
  Definition set_per (s : rstate) (v : pid -> nat -> Qc) : rstate :=
    mkR (inc s) (out s) v (chem s) (miss s) (queue s) (cnt s) (torecv s) (tosend s) (buf s) (req s)
      (ep s) (pc s) (log s).
  Definition set_chem (s : rstate) (v : pid -> list Qc) : rstate :=
    mkR (inc s) (out s) (per s) v (miss s) (queue s) (cnt s) (torecv s) (tosend s) (buf s) (req s)
      (ep s) (pc s) (log s).
  Definition set_miss (s : rstate) (v : pid -> nat -> nat) : rstate :=
    mkR (inc s) (out s) (per s) (chem s) v (queue s) (cnt s) (torecv s) (tosend s) (buf s) (req s)
      (ep s) (pc s) (log s).
  Definition set_queue (s : rstate) (v : list (pid * nat)) : rstate :=
    mkR (inc s) (out s) (per s) (chem s) (miss s) v (cnt s) (torecv s) (tosend s) (buf s) (req s)
      (ep s) (pc s) (log s).
  Definition set_cnt (s : rstate) (v : nat -> nat) : rstate :=
    mkR (inc s) (out s) (per s) (chem s) (miss s) (queue s) v (torecv s) (tosend s) (buf s) (req s)
      (ep s) (pc s) (log s).
  Definition set_torecv (s : rstate) (v : nat -> nat) : rstate :=
    mkR (inc s) (out s) (per s) (chem s) (miss s) (queue s) (cnt s) v (tosend s) (buf s) (req s)
      (ep s) (pc s) (log s).
  Definition set_tosend (s : rstate) (v : nat -> list msg) : rstate :=
    mkR (inc s) (out s) (per s) (chem s) (miss s) (queue s) (cnt s) (torecv s) v (buf s) (req s)
      (ep s) (pc s) (log s).
  Definition set_comm (s : rstate) (t : nat -> list msg) (b : nat -> list msg)
    (q : nat -> reqst) : rstate :=
    mkR (inc s) (out s) (per s) (chem s) (miss s) (queue s) (cnt s) (torecv s) t b q
      (ep s) (pc s) (log s).
  Definition set_pc (s : rstate) (v : pcs) : rstate :=
    mkR (inc s) (out s) (per s) (chem s) (miss s) (queue s) (cnt s) (torecv s) (tosend s) (buf s) (req s)
      (ep s) v (log s).
  Definition set_log (s : rstate) (v : list (nat * pid * nat)) : rstate :=
    mkR (inc s) (out s) (per s) (chem s) (miss s) (queue s) (cnt s) (torecv s) (tosend s) (buf s) (req s)
      (ep s) (pc s) v.

  (** src/sweep/mod.rs:487-503 [handle_local_neighbour]; [reduce] underflows at
      zero (src/sweep/count_by_dir.rs:18-21). *)
  Definition handle_local_neighbour (r cur : nat) (rate : Qc) (d : nat) (p : pid) (s : rstate)
    : option rstate :=
    if own r p then
      let s1 := set_inc s (updc (inc s) p d (inc s p d + rate)%Qc) in
      if cur <=? lev G p then
        match miss s1 p d with
        | 0 => None
        | S m =>
            let s2 := set_miss s1 (updc (miss s1) p d m) in
            Some (if m =? 0 then set_queue s2 ((p, d) :: queue s2) else s2)
        end
      else Some s1
    else None.

  (** src/sweep/mod.rs:505-513 [handle_local_periodic_neighbour]. *)
  Definition handle_local_periodic (r : nat) (rate : Qc) (d : nat) (p : pid) (s : rstate)
    : option rstate :=
    if own r p then Some (set_per s (updc (per s) p d (per s p d + rate)%Qc)) else None.

  (** src/sweep/mod.rs:515-547 [handle_remote_neighbour] and
      [handle_remote_periodic_neighbour]. *)
  Definition handle_remote (r cur : nat) (periodic : bool) (rate : Qc) (d : nat) (p : pid)
    (s : rstate) : option rstate :=
    match nb_active r cur p with
    | None => None
    | Some false => Some s
    | Some true =>
        if is_remote_rank r (rank_of p) then
          Some (set_tosend s (upd (tosend s) (rank_of p)
                  (tosend s (rank_of p) ++ [mkMsg p d rate periodic (ep s)])))
        else None
    end.

  (** src/sweep/mod.rs:453-456 and 459: effective area of a face, and the total over the
      downwind faces. *)
  Definition eff_area (f : face) (d : nat) : Qc := (f_area f * f_dot f d)%Qc.
  Definition total_eff_area (fs : list face) (d : nat) : Qc :=
    Qcsum (map (fun f => eff_area f d) (filter (fun f => downwind f d) fs)).

  (** src/sweep/mod.rs:457-484: one iteration of the loop over the faces. *)
  Definition face_step (r cur : nat) (d : nat) (corr total : Qc) (f : face) (s : rstate)
    : option rstate :=
    if downwind f d then
      let rate := (corr * (eff_area f d / total))%Qc in
      match f_nb f with
      | Local p => handle_local_neighbour r cur rate d p s
      | Remote p => handle_remote r cur false rate d p s
      | Boundary => Some s
      | LocalPeriodic p => handle_local_periodic r rate d p s
      | RemotePeriodic p => handle_remote r cur true rate d p s
      end
    else Some s.

  Fixpoint faces_loop (r cur d : nat) (corr total : Qc) (fs : list face) (s : rstate)
    : option rstate :=
    match fs with
    | [] => Some s
    | f :: fs =>
        match face_step r cur d corr total f s with
        | None => None
        | Some s' => faces_loop r cur d corr total fs s'
        end
    end.

  (** src/chemistry/mod.rs:61-65 [make_positive]. *)
  Definition make_positive (x : Qc) : Qc := if Qclt_le_dec x 0%Qc then 0%Qc else x.

  Definition Qc_of_nat (n : nat) : Qc := Q2Qc (inject_Z (Z.of_nat n)).

  (** src/sweep/site.rs:53-56 [get_rate]. *)
  Definition get_rate (s : rstate) (c : pid) (d : nat) : Qc :=
    (inc s c d + source G c / Qc_of_nat (ndirs G) + per s c d)%Qc.

  (** src/sweep/mod.rs:412-485 [get_outgoing_rate] and [solve_task]. *)
  Definition solve_task (r cur : nat) (c : pid) (d : nat) (s : rstate) : option rstate :=
    if own r c then
      let s1 := set_inc s (updc (inc s) c d (make_positive (inc s c d))) in
      let o := resp G c (chem s1 c) (get_rate s1 c d) in
      let corr := (o - out s1 c d)%Qc in
      let s2 := set_out s1 (updc (out s1) c d o) in
      match cnt s2 d with
      | 0 => None
      | S k =>
          let s3 := set_cnt s2 (upd (cnt s2) d k) in
          let s4 := set_log s3 ((ep s3, c, d) :: log s3) in
          faces_loop r cur d corr (total_eff_area (faces G c) d) (faces G c) s4
      end
    else None.

  (** src/sweep/mod.rs:328-340 [receive_messages_from_rank], the loop over one
      batch. *)
  Fixpoint recv_loop (r cur : nat) (b : list msg) (s : rstate) : option rstate :=
    match b with
    | [] => Some s
    | m :: b =>
        match (if m_periodic m
               then handle_local_periodic r (m_rate m) (m_dir m) (m_id m) s
               else handle_local_neighbour r cur (m_rate m) (m_dir m) (m_id m) s) with
        | None => None
        | Some s' => recv_loop r cur b s'
        end
    end.

  Definition receive_batch (r cur src : nat) (b : list msg) (s : rstate) : option rstate :=
    if length b <=? torecv s src then
      recv_loop r cur b (set_torecv s (upd (torecv s) src (torecv s src - length b)))
    else None.

  (** src/sweep/mod.rs:292-299, the loop condition. *)
  Definition total_cnt (s : rstate) : nat := list_sum (map (cnt s) (seq 0 (ndirs G))).
  Definition total_buf (r : nat) (s : rstate) : nat :=
    list_sum (map (fun x => length (buf s x)) (others r)).
  Definition total_torecv (r : nat) (s : rstate) : nat := list_sum (map (torecv s) (others r)).
  Definition loop_cond (r : nat) (s : rstate) : bool :=
    (0 <? total_cnt s) || (0 <? total_buf r s) || (0 <? total_torecv r s).

  (** src/sweep/communicator.rs:47-57 and 59-77 for one destination:
      [update_pending_requests] followed by the send. Result: new [to_send],
      buffer, request and the batch handed to MPI. *)
  Definition is_pending (q : reqst) : bool := match q with RPending => true | _ => false end.
  Definition send_one (t b : list msg) (q : reqst) : list msg * list msg * reqst * list (list msg) :=
    let (q1, b1) := if is_pending q then (RPending, b) else (RNone, []) in
    match t with
    | [] => (t, b1, q1, [])
    | _ => if is_pending q1 then (t, b1, q1, []) else ([], b1 ++ t, RPending, [b1 ++ t])
    end.

  (** src/sweep/communicator.rs:59-77 [try_send_all]. *)
  Definition try_send_all (r : nat) (s : rstate) : rstate :=
    let res x := send_one (tosend s x) (buf s x) (req s x) in
    set_comm s
      (fun x => if is_remote_rank r x then fst (fst (fst (res x))) else tosend s x)
      (fun x => if is_remote_rank r x then snd (fst (fst (res x))) else buf s x)
      (fun x => if is_remote_rank r x then snd (fst (res x)) else req s x).
  Definition sent_batches (r : nat) (s : rstate) (x : nat) : list (list msg) :=
    if is_remote_rank r x then snd (send_one (tosend s x) (buf s x) (req s x)) else [].

  (** src/sweep/mod.rs:549-574 [update_chemistry] of the sweep that just ended. *)
  Definition update_chemistry (r : nat) (s : rstate) : rstate :=
    match nth_error (sweeps G) (ep s) with
    | None => s
    | Some cur =>
        set_chem s (fun c =>
          if own r c && (cur <=? lev G c)
          then chemup G c (chem s c) (Qcsum (map (get_rate s c) (seq 0 (ndirs G))))
          else chem s c)
    end.

  Definition set_rs (S : state) (r : nat) (s : rstate) : state := mkS (upd (rs S) r s) (net S) (mail S).

  (** One step of rank [r]. [k] chooses the task: the code takes the largest in
      direction order from a binary heap (src/sweep/task.rs:25-35), with ties
      broken by the heap's layout; here any queued task may be taken. *)
  Definition remove_nth {A} (k : nat) (l : list A) : list A := firstn k l ++ skipn (S k) l.

  Definition run_rank (r k : nat) (S : state) : option state :=
    let s := rs S r in
    match pc s with
    | PFinished => Some S
    | PHead =>
        if loop_cond r s then
          Some (set_rs S r (set_pc s (match queue s with [] => PRecv (others r) | _ => PSolve 0 end)))
        else option_map (set_rs S r) (start_sweep r (Datatypes.S (ep s)) (update_chemistry r s))
    | PRecv [] => Some (set_rs S r (set_pc s (PSolve 0)))
    | PRecv (x :: l) =>
        if 0 <? torecv s x then
          match mail S x r, nth_error (sweeps G) (ep s) with
          | b :: rest, Some cur =>
              match receive_batch r cur x b s with
              | None => None
              | Some s' => Some (mkS (upd (rs S) r (set_pc s' (PRecv l))) (net S)
                                   (upd2 (mail S) x r rest))
              end
          | _, _ => Some (set_rs S r (set_pc s (PRecv l)))
          end
        else Some (set_rs S r (set_pc s (PRecv l)))
    | PSolve n =>
        match queue s with
        | [] => Some (set_rs S r (set_pc s PSend))
        | q =>
            let i := k mod length q in
            match nth_error q i, nth_error (sweeps G) (ep s) with
            | Some (c, d), Some cur =>
                match solve_task r cur c d (set_queue s (remove_nth i q)) with
                | None => None
                | Some s' =>
                    Some (set_rs S r (set_pc s' (if batch G <? Datatypes.S n then PSend
                                                 else PSolve (Datatypes.S n))))
                end
            | _, _ => None
            end
        end
    | PSend =>
        Some (mkS (upd (rs S) r (set_pc (try_send_all r s) PHead))
                (fun x y => if x =? r then net S x y ++ sent_batches r s y else net S x y)
                (mail S))
    end.

  (** Steps of the system: a rank runs; the network makes a batch visible; a send
      request completes. A request may complete early ([eager]) or only after
      the receiver has taken the batch (at most one batch per pair is
      outstanding, so then no batch is on its way). *)
  Inductive op := Run (r k : nat) | Deliver (x y : nat) | Complete (x y : nat) (eager : bool).

  Definition step (S : state) (o : op) : option state :=
    match o with
    | Run r k => if r <? nranks G then run_rank r k S else Some S
    | Deliver x y =>
        match net S x y with
        | [] => Some S
        | b :: rest => Some (mkS (rs S) (upd2 (net S) x y rest) (upd2 (mail S) x y (mail S x y ++ [b])))
        end
    | Complete x y eager =>
        match req (rs S x) y with
        | RPending =>
            if eager || (match net S x y, mail S x y with [], [] => true | _, _ => false end)
            then Some (set_rs S x (set_comm (rs S x) (tosend (rs S x)) (buf (rs S x))
                                     (upd (req (rs S x)) y RDone)))
            else Some S
        | _ => Some S
        end
    end.

  Fixpoint exec (S : state) (ops : list op) : option state :=
    match ops with
    | [] => Some S
    | o :: ops => match step S o with None => None | Some S' => exec S' ops end
    end.

  (** The start of the first sweep: empty queues and no messages; the rates and
      chemistry are those left by earlier runs. *)
  Definition blank (i o p : pid -> nat -> Qc) (x : pid -> list Qc) : rstate :=
    mkR i o p x (fun _ _ => 0) [] (fun _ => 0) (fun _ => 0) (fun _ => []) (fun _ => [])
      (fun _ => RNone) 0 PHead [].

  Definition init (i o p : pid -> nat -> Qc) (x : pid -> list Qc) : option state :=
    if forallb (fun r => match start_sweep r 0 (blank i o p x) with Some _ => true | None => false end)
         (seq 0 (nranks G))
    then Some (mkS (fun r => match start_sweep r 0 (blank i o p x) with
                             | Some s => s | None => blank i o p x end)
                 (fun _ _ => []) (fun _ _ => []))
    else None.

  Definition finished (S : state) : Prop := forall r, r < nranks G -> pc (rs S r) = PFinished.
End WithConfig.
