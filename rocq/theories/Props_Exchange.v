(** Properties C20 and C21: the all-to-all exchange and the per-rank container. *)
From Coq Require Import List Arith Lia Sorted.
Import ListNotations.
From Verif Require Import DataByRank_Model DataByRank_Spec DataByRank_Proofs.
From Verif Require Import Fair Exchange_Model Exchange_Spec Exchange_Proofs.

(** C20. For every number of ranks and consecutive exchanges and all data naming
    other ranks only, in every interleaving of the ranks and the message library:
    no rank panics and the value returned by the [e]-th exchange of rank [x] is
    exactly what the other ranks addressed to it in their [e]-th exchange. If
    sends complete eventually (the library buffers them), all exchanges end. *)
Theorem C20_exchange_delivers_exactly :
  forall (A : Type) n R (data : nat -> nat -> dbr (list A)),
  (forall e x, e < R -> x < n -> names_others n x (data e x)) ->
  (forall l x e got, x < n -> nth_error (res (reach n R data l) x) e = Some got ->
     delivered n (data e) x got)
  /\ (forall l x, x < n -> ph (reach n R data l) x <> PPanic)
  /\ (forall sched,
        fair (fun o => match o with
                       | Run x => x < n
                       | Buffer x y => x < n /\ y < n
                       | Notice _ _ => False
                       end) sched ->
        exists k, finished n R (Fair.exec (step n R data) (init n R data) sched k)).
Proof.
  intros A n R data H. split; [|split].
  - exact (exchange_exact n R data H).
  - exact (exchange_no_panic n R data H).
  - exact (exchange_terminates n R data H).
Qed.
Print Assumptions C20_exchange_delivers_exactly.

(** If every rank provides data for every other rank, all exchanges end even when
    no send completes before its message is received. *)
Theorem C20_terminates_without_buffering :
  forall (A : Type) n R (data : nat -> nat -> dbr (list A)),
  (forall e x, e < R -> x < n -> names_others n x (data e x)) ->
  (forall e x, e < R -> x < n -> names_all_others n x (data e x)) ->
  forall sched,
  fair (fun o => match o with
                 | Run x => x < n
                 | Notice x y => x < n /\ y < n
                 | Buffer _ _ => False
                 end) sched ->
  exists k, finished n R (Fair.exec (step n R data) (init n R data) sched k).
Proof. intros A n R data H H' sched. exact (exchange_terminates_unbuffered n R data H sched H'). Qed.
Print Assumptions C20_terminates_without_buffering.

(** Three ranks, two exchanges, one of them with missing entries. *)
Definition ex_data (e x : nat) : dbr (list nat) :=
  match e, x with
  | 0, 0 => [None; Some [1; 2]; Some []]
  | 0, 1 => [Some [3]; None; Some [4]]
  | 0, 2 => []
  | _, 0 => [None; None; Some [7]]
  | _, 1 => [Some [8; 9]]
  | _, _ => [Some []; Some [5]; None]
  end.
Definition ex_sched : list op :=
  concat (repeat ([Run 2; Run 0; Run 0; Run 1] ++
    flat_map (fun x => map (Buffer x) [0; 1; 2]) [0; 1; 2]) 60).
Example C20_hypothesis_example :
  forall e x, e < 2 -> x < 3 -> names_others 3 x (ex_data e x).
Proof.
  intros e x He Hx y l. destruct e as [|[|e]]; [| |lia];
    (destruct x as [|[|[|x]]]; [| | |lia]);
    (destruct y as [|[|[|[|y]]]]; cbn; intro E; try discriminate; split; lia).
Qed.
Example C20_example :
  map (res (reach 3 2 ex_data ex_sched)) [0; 1; 2]
  = [[[None; Some [3]; Some []]; [None; Some [8; 9]; Some []]];
     [[Some [1; 2]; None; Some []]; [Some []; None; Some [5]]];
     [[Some []; Some [4]; None]; [Some [7]; Some []; None]]].
Proof. vm_compute. reflexivity. Qed.

(** Without buffering and without data, two ranks block in their first empty
    send for ever: the condition of [C20_terminates_without_buffering] cannot be
    dropped. *)
Theorem C20_missing_entries_can_block :
  exists (data : nat -> nat -> dbr (list nat)) l,
  (forall e x, e < 1 -> x < 2 -> names_others 2 x (data e x))
  /\ forall l', Forall (fun o => match o with Buffer _ _ => False | _ => True end) l' ->
       ~ finished 2 1 (reach 2 1 data (l ++ l')).
Proof.
  exists (fun _ _ => []), [Run 0; Run 1; Run 0; Run 1]. split.
  - intros e x _ _ [|y] l E; discriminate.
  - intros l' Hl'. exact (rendezvous_stuck l' Hl').
Qed.
Print Assumptions C20_missing_entries_can_block.

(** C21. Whatever operations a client performs on an empty container or on one
    built by [from_size_and_rank]-like constructors, its answers are those of a
    map from ranks (see DataByRank_Spec). *)
Theorem C21_behaves_like_a_map :
  forall (A : Type) (ops : list (DataByRank_Spec.op A)),
  accepted (fun _ => None) 0 ops (run dempty ops)
  /\ forall x size this,
     accepted (fun q => if q <? size then
                 match this with Some t => if q =? t then None else Some x | None => Some x end
               else None) size ops (run (dfrom_closure x size this) ops).
Proof.
  intros A ops. split; [apply run_empty|]. intros x size this. apply run_from_closure.
Qed.
Print Assumptions C21_behaves_like_a_map.

(** The size is the number of stored elements of all ranks. *)
Theorem C21_size :
  forall (B : Type) (v : dbr (list B)), dsize v = length (concat (map snd (diter v))).
Proof. exact @dsize_spec. Qed.
Print Assumptions C21_size.

Example C21_example :
  run dempty [OpInsert 2 7; OpInsert 0 5; OpInsert 2 8; OpGet 2; OpGet 1; OpIter; OpRemove 0;
              OpIter; OpModify 2 S; OpDrain; OpIter; OpGet 0]
  = [Done; Done; Done; Value (Some 8); Value None; Items [(0, 5); (2, 8)]; Value (Some 5);
     Items [(2, 8)]; Done; Items [(2, 9)]; Items []; Panic].
Proof. vm_compute. reflexivity. Qed.
(** The specification is not trivial: it rejects a wrong answer. *)
Example C21_specification_rejects :
  ~ accepted (fun _ => None) 0 [OpInsert 0 5; OpGet 0] [Done; Value (Some 6)].
Proof.
  intro H. inversion H as [| |? ? ? ? ? ? m1 b1 _ H1 H2]; subst.
  inversion H1 as [? ? ? Hm| | | | | | | | | | | |]; subst.
  inversion H2 as [| |? ? ? ? ? ? m2 b2 _ H3 _]; subst.
  inversion H3 as [|? ? E| | | | | | | | | | |]. rewrite Hm in *. discriminate.
Qed.
