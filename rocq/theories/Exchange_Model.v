(** Model of the all-to-all exchange,
    [/repo/src/communication/exchange_communicator.rs], as a system of ranks that
    run the code step by step, with one FIFO channel per ordered pair of ranks.

    Every rank performs the same number of exchanges on one communicator (one
    tag). The data that rank [x] hands to its [e]-th exchange is [data e x]. *)
From Coq Require Import List Arith Bool.
Import ListNotations.
From Verif Require Import DataByRank_Model.

Section Exchange.
Context {A : Type}.
(** Number of ranks, number of exchanges, data handed to each exchange. *)
Variable n_ranks : nat.
Variable n_exch : nat.
Variable data : nat -> nat -> dbr (list A).

(** [other_ranks], sized_communicator.rs 7-11. *)
Definition others (x : nat) : list nat :=
  filter (fun y => negb (y =? x)) (seq 0 n_ranks).

(** Where a rank is in the code.
    - [PPost todo]: in the loop of [exchange_all] 72-79, [todo] still to send;
    - [PEmpty todo]: in the loop of [empty_send_to_others] 62-66;
    - [PBlock y todo]: inside the blocking send to [y] at line 58, reached from
      line 64;
    - [PRecv todo got]: in the receive loop 99-103;
    - [PWait got]: leaving the scope of [exchange_all] (line 81): the wait guards
      of all immediate sends are dropped;
    - [PDone]: all exchanges done. *)
Inductive phase :=
| PPost (todo : list (nat * list A))
| PEmpty (todo : list nat)
| PBlock (y : nat) (todo : list nat)
| PRecv (todo : list nat) (got : dbr (list A))
| PWait (got : dbr (list A))
| PDone
| PPanic.

(** [pend x] is [pending_data] of rank [x] (line 14). [chan x y] holds the
    messages posted by [x] and not yet taken by [y]. [sent]/[taken]/[completed]
    count the messages posted, received, and whose send operation has completed
    (MPI library state). [res x] are the values returned by the finished
    exchanges of [x]. *)
Record state := mkState {
  ph : nat -> phase;
  ex : nat -> nat;
  pend : nat -> dbr bool;
  res : nat -> list (dbr (list A));
  chan : nat -> nat -> list (list A);
  sent : nat -> nat -> nat;
  taken : nat -> nat -> nat;
  completed : nat -> nat -> nat }.

Definition upd {B} (f : nat -> B) (k : nat) (v : B) : nat -> B :=
  fun q => if q =? k then v else f q.
Definition upd2 {B} (f : nat -> nat -> B) (k l : nat) (v : B) : nat -> nat -> B :=
  fun p q => if (p =? k) && (q =? l) then v else f p q.

(** Start of the [e]-th exchange, exchange_communicator.rs 69-72. *)
Definition start (x e : nat) : phase :=
  if e <? n_exch then PPost (diter (data e x)) else PDone.

(** [new], exchange_communicator.rs 19-27: nothing is pending. *)
Definition init : state :=
  mkState (fun x => start x 0) (fun _ => 0)
          (fun x => dfrom_closure false n_ranks (Some x))
          (fun _ => []) (fun _ _ => []) (fun _ _ => 0) (fun _ _ => 0) (fun _ _ => 0).

Definition set_phase (s : state) (x : nat) (p : phase) : state :=
  mkState (upd (ph s) x p) (ex s) (pend s) (res s) (chan s) (sent s) (taken s) (completed s).

(** Posting a message from [x] to [y]. *)
Definition post (s : state) (x y : nat) (m : list A) (pd : dbr bool) (p : phase) : state :=
  mkState (upd (ph s) x p) (ex s) (upd (pend s) x pd) (res s)
          (upd2 (chan s) x y (chan s x y ++ [m]))
          (upd2 (sent s) x y (S (sent s x y))) (taken s) (completed s).

Definition all_completed (s : state) (x : nat) : bool :=
  forallb (fun y => completed s x y =? sent s x y) (seq 0 n_ranks).

(** One step of rank [x]; a blocked rank does not change the state. *)
Definition run_rank (s : state) (x : nat) : state :=
  match ph s x with
  | PPost ((y, items) :: todo) =>
      (* lines 73-78: assert not pending, mark pending, immediate send *)
      match dindex (pend s x) y with
      | Some false =>
          match dmodify (pend s x) y (fun _ => true) with
          | Some pd => post s x y items pd (PPost todo)
          | None => set_phase s x PPanic
          end
      | _ => set_phase s x PPanic
      end
  | PPost [] => set_phase s x (PEmpty (others x))
  | PEmpty (y :: todo) =>
      (* lines 63-64 and 56-58 *)
      match dindex (pend s x) y with
      | Some false =>
          match dmodify (pend s x) y (fun _ => true) with
          | Some pd => post s x y [] pd (PBlock y todo)
          | None => set_phase s x PPanic
          end
      | Some true => set_phase s x (PEmpty todo)
      | None => set_phase s x PPanic
      end
  | PEmpty [] =>
      (* lines 95-98 *)
      if forallb (fun y => match dindex (pend s x) y with Some b => b | None => false end)
                 (others x)
      then set_phase s x (PRecv (others x) (dfrom_closure [] n_ranks (Some x)))
      else set_phase s x PPanic
  | PBlock y todo =>
      if completed s x y =? sent s x y then set_phase s x (PEmpty todo) else s
  | PRecv (y :: todo) got =>
      (* lines 100-102: blocking receive, insert, clear pending *)
      match chan s y x with
      | [] => s
      | m :: c =>
          match dinsert got y m, dmodify (pend s x) y (fun _ => false) with
          | Some got', Some pd =>
              mkState (upd (ph s) x (PRecv todo got')) (ex s) (upd (pend s) x pd) (res s)
                      (upd2 (chan s) y x c) (sent s)
                      (upd2 (taken s) y x (S (taken s y x))) (completed s)
          | _, _ => set_phase s x PPanic
          end
      end
  | PRecv [] got => set_phase s x (PWait got)
  | PWait got =>
      if all_completed s x then
        mkState (upd (ph s) x (start x (S (ex s x)))) (upd (ex s) x (S (ex s x))) (pend s)
                (upd (res s) x (res s x ++ [got])) (chan s) (sent s) (taken s) (completed s)
      else s
  | PDone => s
  | PPanic => s
  end.

(** What may happen: a rank runs; the library completes the sends from [x] to [y]
    early by buffering them; the library notices that messages were received. *)
Inductive op := Run (x : nat) | Buffer (x y : nat) | Notice (x y : nat).

Definition step (s : state) (o : op) : state :=
  match o with
  | Run x => if x <? n_ranks then run_rank s x else s
  | Buffer x y =>
      if completed s x y <? sent s x y then
        mkState (ph s) (ex s) (pend s) (res s) (chan s) (sent s) (taken s)
                (upd2 (completed s) x y (sent s x y))
      else s
  | Notice x y =>
      if completed s x y <? taken s x y then
        mkState (ph s) (ex s) (pend s) (res s) (chan s) (sent s) (taken s)
                (upd2 (completed s) x y (taken s x y))
      else s
  end.

Definition reach (l : list op) : state := fold_left step l init.

End Exchange.
Arguments op : clear implicits.
