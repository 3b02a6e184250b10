(** Model of src/io/file_distribution.rs and of the chunking helpers in
    src/io/input/mod.rs and src/communication/exchange_communicator.rs.

    [usize] is [nat] (no wrap-around at 2^64); a panic is [None]. *)
From Coq Require Import List Arith Bool.
Import ListNotations.

(** Checked [usize] subtraction: panics (debug build) on underflow. *)
Definition usub (a b : nat) : option nat :=
  if b <=? a then Some (a - b) else None.

(** src/io/file_distribution.rs:5-9 [Position]. *)
Record position := mkPos { file_index : nat; pos : nat }.

(** src/io/file_distribution.rs:11-16 [Region]. *)
Record region := mkRegion { r_file : nat; r_start : nat; r_end : nat }.

(** src/io/file_distribution.rs:18-22 [Region::size]. *)
Definition region_size (r : region) : option nat := usub (r_end r) (r_start r).

(** src/io/file_distribution.rs:46-62, the [while] loop and the final push.
    [sp] is [start.pos], [e] is [end]. [start.file_index] is incremented in the
    loop but never read afterwards, so it is left out. [regions] is built in
    order. The fuel bounds the number of iterations; every iteration advances
    [end.file_index], so with fuel [S (length files)] the index runs out of
    range (a panic) before the fuel does. *)
Fixpoint regions_loop (fuel : nat) (files : list nat) (sp : nat) (e : position)
  : option (list region * position) :=
  match fuel with
  | 0 => None
  | S fuel' =>
      match nth_error files (file_index e) with
      | None => None                               (* index out of range *)
      | Some n =>
          if n <? pos e then
            match usub (pos e) n with
            | None => None
            | Some ep =>
                match regions_loop fuel' files 0 (mkPos (S (file_index e)) ep) with
                | None => None
                | Some (rs, e') => Some (mkRegion (file_index e) sp n :: rs, e')
                end
            end
          else Some ([mkRegion (file_index e) sp (pos e)], e)
      end
  end.

(** src/io/file_distribution.rs:29-63 [get_regions_from]. *)
Definition get_regions_from (files : list nat) (start : position) (num : nat)
  : option (list region * position) :=
  if num =? 0 then Some ([], start)
  else
    match nth_error files (file_index start) with
    | None => None
    | Some n =>
        let start := if pos start =? n then mkPos (S (file_index start)) 0 else start in
        regions_loop (S (length files)) files (pos start)
          (mkPos (file_index start) (pos start + num))
    end.

(** src/io/file_distribution.rs:77-80, [filter(|region| region.size() > 0)]. *)
Fixpoint filter_nonempty (rs : list region) : option (list region) :=
  match rs with
  | [] => Some []
  | r :: rs =>
      match region_size r, filter_nonempty rs with
      | Some n, Some rs' => Some (if 0 <? n then r :: rs' else rs')
      | _, _ => None
      end
  end.

(** src/io/file_distribution.rs:74-82, the loop over ranks. *)
Fixpoint rank_loop (files : list nat) (start : position) (per_rank : list nat)
  : option (list (list region)) :=
  match per_rank with
  | [] => Some []
  | num :: rest =>
      match get_regions_from files start num with
      | None => None
      | Some (rs, e) =>
          match filter_nonempty rs, rank_loop files e rest with
          | Some rs', Some asg => Some (rs' :: asg)
          | _, _ => None
          end
      end
  end.

(** src/io/file_distribution.rs:65-84 [get_rank_assignment]. *)
Definition get_rank_assignment (files per_rank : list nat) : option (list (list region)) :=
  rank_loop files (mkPos 0 0) per_rank.

(** src/io/file_distribution.rs:86-95 [get_input_rank_assignment]; zero ranks
    would panic (division by zero). *)
Definition get_input_rank_assignment (files : list nat) (num_ranks : nat)
  : option (list (list region)) :=
  match num_ranks with
  | 0 => None
  | S n1 =>
      let total := list_sum files in
      let each := total / num_ranks in
      match usub total (each * n1) with
      | None => None
      | Some last => get_rank_assignment files (repeat each n1 ++ [last])
      end
  end.

(** src/io/file_distribution.rs:97-103 [get_rank_input_assignment_for_rank];
    [remove] panics when the rank is out of range. *)
Definition get_rank_input_assignment_for_rank (files : list nat) (num_ranks rank : nat)
  : option (list region) :=
  match get_input_rank_assignment files num_ranks with
  | None => None
  | Some asg => nth_error asg rank
  end.

(** src/io/file_distribution.rs:109-113, the sizes of the output files. *)
Definition output_file_sizes (per_rank : list nat) (num_files : nat) : option (list nat) :=
  match num_files with
  | 0 => None                                    (* 0 - 1 underflows *)
  | S n1 =>
      let total := list_sum per_rank in
      let each := total / num_files in
      match usub total (list_sum (repeat each n1)) with
      | None => None
      | Some last => Some (repeat each n1 ++ [last])
      end
  end.

(** src/io/file_distribution.rs:105-115 [get_output_rank_assignment]. *)
Definition get_output_rank_assignment (per_rank : list nat) (num_files : nat)
  : option (list (list region)) :=
  match output_file_sizes per_rank num_files with
  | None => None
  | Some files => get_rank_assignment files per_rank
  end.

(** src/io/file_distribution.rs:117-123 [get_rank_output_assignment_for_rank]. *)
Definition get_rank_output_assignment_for_rank (per_rank : list nat) (num_files rank : nat)
  : option (list region) :=
  match get_output_rank_assignment per_rank num_files with
  | None => None
  | Some asg => nth_error asg rank
  end.

(** ** Writing a data set *)

Section Storage.
  Context {A : Type}.

  (** The data set of one output file: its index and its slots; a slot which has
      not been written is [None]. *)
  Definition dataset := (nat * list (option A))%type.

  (** src/io/output/mod.rs:167-193 [create_file_system] together with
      265-282 [create_dataset_in_files], run on the main rank only: one data
      set per region of the assignment for a single rank holding everything;
      the assert on [region.start] is a panic. *)
  Fixpoint create_datasets (rs : list region) : option (list dataset) :=
    match rs with
    | [] => Some []
    | r :: rs =>
        if r_start r =? 0 then
          match usub (r_end r) (r_start r), create_datasets rs with
          | Some n, Some ds => Some ((r_file r, repeat None n) :: ds)
          | _, _ => None
          end
        else None
    end.

  Definition create_files (total num_files : nat) : option (list dataset) :=
    match get_rank_output_assignment_for_rank [total] num_files 0 with
    | None => None
    | Some rs => create_datasets rs
    end.

  (** HDF5 [write_slice] of [vals] to [start..end]: fails (panic) if the range
      does not fit the data set or has another length than the values. *)
  Definition write_slice (slots : list (option A)) (s e : nat) (vals : list A)
    : option (list (option A)) :=
    if (s <=? e) && (e <=? length slots) && (length vals =? e - s)
    then Some (firstn s slots ++ map Some vals ++ skipn e slots)
    else None.

  (** Opening a file by index and writing one slice to its data set; a missing
      file is a panic ("Failed to open output file"). *)
  Fixpoint write_to_file (ds : list dataset) (r : region) (vals : list A)
    : option (list dataset) :=
    match ds with
    | [] => None
    | (i, slots) :: ds' =>
        if i =? r_file r then
          match write_slice slots (r_start r) (r_end r) vals with
          | None => None
          | Some slots' => Some ((i, slots') :: ds')
          end
        else
          match write_to_file ds' r vals with
          | None => None
          | Some ds'' => Some ((i, slots) :: ds'')
          end
    end.

  (** src/io/output/mod.rs:298-315 [write_dataset_to_files] for one rank.
      Slicing [data[data_start..data_end]] panics when out of range; the final
      assert requires that all data was written. *)
  Fixpoint write_regions (ds : list dataset) (rs : list region) (data : list A)
    : option (list dataset) :=
    match rs with
    | [] => match data with [] => Some ds | _ => None end
    | r :: rs =>
        match region_size r with
        | None => None
        | Some n =>
            if n <=? length data then
              match write_to_file ds r (firstn n data) with
              | None => None
              | Some ds' => write_regions ds' rs (skipn n data)
              end
            else None
        end
    end.

  (** All ranks write one after the other (see Barrier_Model.v for why). *)
  Fixpoint write_ranks (ds : list dataset) (asg : list (list region)) (data : list (list A))
    : option (list dataset) :=
    match asg, data with
    | [], [] => Some ds
    | rs :: asg, d :: data =>
        match write_regions ds rs d with
        | None => None
        | Some ds' => write_ranks ds' asg data
        end
    | _, _ => None
    end.

  (** A complete snapshot output of one data set: creation by the main rank from
      the total count (src/io/output/mod.rs:177-184), assignment from the
      gathered counts (116-138), then the writes. *)
  Definition write_snapshot (data : list (list A)) (num_files : nat) : option (list dataset) :=
    match create_files (list_sum (map (@length A) data)) num_files,
          get_output_rank_assignment (map (@length A) data) num_files with
    | Some ds, Some asg => write_ranks ds asg data
    | _, _ => None
    end.
End Storage.

(** ** Reading *)

(** src/io/input/mod.rs:368-383 [get_chunk_sizes]; a zero chunk size panics. *)
Definition get_chunk_sizes (r : region) (chunk_size : nat) : option (list (nat * nat)) :=
  match region_size r with
  | None => None
  | Some n =>
      if chunk_size =? 0 then None
      else
        let num_chunks := n / chunk_size + (if 0 <? n mod chunk_size then 1 else 0) in
        Some (map (fun i => (r_start r + i * chunk_size,
                             Nat.min (r_start r + (i + 1) * chunk_size) (r_end r)))
                (seq 0 num_chunks))
  end.

Section Reading.
  Context {A : Type}.

  (** HDF5 [read_slice]: fails outside the data set. *)
  Definition read_slice (slots : list A) (range : nat * nat) : option (list A) :=
    let (s, e) := range in
    if (s <=? e) && (e <=? length slots) then Some (firstn (e - s) (skipn s slots)) else None.

  Fixpoint read_slices (slots : list A) (ranges : list (nat * nat)) : option (list A) :=
    match ranges with
    | [] => Some []
    | g :: gs =>
        match read_slice slots g, read_slices slots gs with
        | Some a, Some b => Some (a ++ b)
        | _, _ => None
        end
    end.

  (** src/io/input/mod.rs:267-281 [read_region_chunked] with 400-412
      [ChunkIter::next]; unit conversion is left out (its factor is 1 for all
      data written by this code). *)
  Definition read_region_chunked (files : list (list A)) (chunk_size : nat) (r : region)
    : option (list A) :=
    match nth_error files (r_file r), get_chunk_sizes r chunk_size with
    | Some slots, Some ranges => read_slices slots ranges
    | _, _ => None
    end.

  Fixpoint read_regions (files : list (list A)) (size : region -> option nat) (rs : list region)
    : option (list A) :=
    match rs with
    | [] => Some []
    | r :: rs =>
        match size r with
        | None => None
        | Some c =>
            match read_region_chunked files c r, read_regions files size rs with
            | Some a, Some b => Some (a ++ b)
            | _, _ => None
            end
        end
    end.

  (** src/io/input/mod.rs:231-240 [Reader::read_dataset] on one rank (chunk size
      = region size) and 245-257 [read_dataset_chunked]. *)
  Definition read_dataset (files : list (list A)) (num_ranks rank : nat) : option (list A) :=
    match get_rank_input_assignment_for_rank (map (@length A) files) num_ranks rank with
    | None => None
    | Some rs => read_regions files region_size rs
    end.

  Definition read_dataset_chunked (files : list (list A)) (num_ranks rank chunk_size : nat)
    : option (list A) :=
    match get_rank_input_assignment_for_rank (map (@length A) files) num_ranks rank with
    | None => None
    | Some rs => read_regions files (fun _ => Some chunk_size) rs
    end.
End Reading.

(** ** Rounds of a collective exchange *)

(** src/communication/exchange_communicator.rs:123-125 [div_ceil]. *)
Definition div_ceil (x y : nat) : nat := x / y + (if 0 <? x mod y then 1 else 0).

(** Rust's [slice::chunks]: consecutive pieces of [size] elements, the last may
    be shorter. Fuel = length of the list. *)
Fixpoint chunks_fuel {A} (fuel size : nat) (l : list A) : list (list A) :=
  match fuel with
  | 0 => []
  | S fuel' =>
      match l with
      | [] => []
      | _ => firstn size l :: chunks_fuel fuel' size (skipn size l)
      end
  end.
Definition chunks {A} (size : nat) (l : list A) : list (list A) :=
  chunks_fuel (length l) size l.

(** src/communication/exchange_communicator.rs:117-121 [global_num_chunks]; the
    collective maximum is over all ranks' contributions. *)
Definition global_num_chunks (lengths : list nat) (chunk_size : nat) : nat :=
  fold_right Nat.max 0 (map (fun n => div_ceil n chunk_size) lengths).

(** src/communication/exchange_communicator.rs:108-115
    [divide_into_chunks_with_same_num_globally] on one rank. *)
Definition divide_into_chunks {A} (num_chunks chunk_size : nat) (items : list A) : list (list A) :=
  map (fun i => nth i (chunks chunk_size items) []) (seq 0 num_chunks).
