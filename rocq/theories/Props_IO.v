(** Properties C01, C02 and C03: distribution of snapshot entries. *)
From Coq Require Import List Arith Lia.
Import ListNotations.
From Verif Require Import FileDist_Model FileDist_Spec FileDist_Proofs.

(** C01. Reading: the regions of rank 0, 1, ..., n-1 are exactly all slots of
    all files in order; the assignment never panics; sizes are balanced. *)
Theorem C01_input_regions_partition :
  forall files num_ranks, 1 <= num_ranks ->
  exists asg, get_input_rank_assignment files num_ranks = Some asg
    /\ length asg = num_ranks
    /\ concat (map rank_slots asg) = all_slots files
    /\ (forall r rs, nth_error asg r = Some rs -> Forall (region_ok files) rs)
    /\ (forall r rs, nth_error asg r = Some rs ->
          length (rank_slots rs) =
            if S r <? num_ranks then list_sum files / num_ranks
            else list_sum files - list_sum files / num_ranks * (num_ranks - 1)).
Proof. exact input_assignment_partition. Qed.
Print Assumptions C01_input_regions_partition.

(** Non-vacuity: empty files at both ends and in the middle, three ranks. *)
Example C01_example :
  get_input_rank_assignment [0; 4; 0; 0; 3; 0] 3
  = Some [[mkRegion 1 0 2]; [mkRegion 1 2 4]; [mkRegion 4 0 3]].
Proof. reflexivity. Qed.
Example C01_example_no_files : get_input_rank_assignment [] 2 = Some [[]; []].
Proof. reflexivity. Qed.

(** C01. The data the ranks obtain, chunked or not, is the concatenation of the
    files' data. *)
Theorem C01_read_all_entries_once :
  forall (A : Type) (files : list (list A)) num_ranks chunk_size,
  1 <= num_ranks -> 1 <= chunk_size ->
  exists outs, length outs = num_ranks
    /\ concat outs = concat files
    /\ forall rank, rank < num_ranks -> exists out, nth_error outs rank = Some out
         /\ read_dataset files num_ranks rank = Some out
         /\ read_dataset_chunked files num_ranks rank chunk_size = Some out.
Proof. exact @read_partition. Qed.
Print Assumptions C01_read_all_entries_once.

Example C01_read_example :
  map (fun r => read_dataset_chunked [[10;11;12]; []; [20;21;22;23;24]] 3 r 2) [0;1;2]
  = [Some [10;11]; Some [12;20]; Some [21;22;23;24]].
Proof. reflexivity. Qed.

(** C02. Writing: rank r gets exactly as many slots as it has entries, all slots
    of all files are assigned once, in rank order; files have size total/n, the
    last takes the rest. *)
Theorem C02_output_regions_partition :
  forall per_rank num_files, 1 <= num_files ->
  exists files asg, output_file_sizes per_rank num_files = Some files
    /\ get_output_rank_assignment per_rank num_files = Some asg
    /\ length files = num_files
    /\ (forall i n, nth_error files i = Some n ->
          n = if S i <? num_files then list_sum per_rank / num_files
              else list_sum per_rank - list_sum per_rank / num_files * (num_files - 1))
    /\ concat (map rank_slots asg) = all_slots files
    /\ map (fun rs => length (rank_slots rs)) asg = per_rank
    /\ Forall (Forall (region_ok files)) asg.
Proof. exact output_assignment_partition. Qed.
Print Assumptions C02_output_regions_partition.

Example C02_example :
  get_output_rank_assignment [3; 0; 4; 2] 2
  = Some [[mkRegion 0 0 3]; []; [mkRegion 0 3 4; mkRegion 1 0 3]; [mkRegion 1 3 5]].
Proof. reflexivity. Qed.

(** C02. Creating the files from the total count, then letting every rank write
    its regions, never fails and fills every slot of every created file, in rank
    order. [vals ds] lists the slots of all created files. *)
Theorem C02_snapshot_complete :
  forall (A : Type) (data : list (list A)) num_files, 1 <= num_files ->
  exists ds files, write_snapshot data num_files = Some ds
    /\ output_file_sizes (map (@length A) data) num_files = Some files
    /\ addrs ds = all_slots files
    /\ vals ds = map Some (concat data).
Proof. exact @write_snapshot_spec. Qed.
Print Assumptions C02_snapshot_complete.

(** C01 and C02 together: what was written by any number of ranks is read back
    by any number of ranks, in the same order. *)
Theorem C02_snapshot_round_trip :
  forall (A : Type) (data : list (list A)) num_files num_ranks,
  1 <= num_files -> 1 <= num_ranks ->
  exists ds files outs,
    write_snapshot data num_files = Some ds
    /\ map snd ds = map (map Some) files
    /\ length outs = num_ranks
    /\ (forall r, r < num_ranks -> read_dataset files num_ranks r = nth_error outs r)
    /\ concat outs = concat data.
Proof. exact @snapshot_round_trip. Qed.
Print Assumptions C02_snapshot_round_trip.

Example C02_write_example :
  write_snapshot [[1;2;3]; []; [4;5;6;7]] 3
  = Some [(0, [Some 1; Some 2]); (1, [Some 3; Some 4]); (2, [Some 5; Some 6; Some 7])].
Proof. reflexivity. Qed.

(** C03. Chunks of a region are consecutive, non-empty, bounded and cover it. *)
Theorem C03_chunks_cover_region :
  forall r c, r_start r <= r_end r -> 1 <= c ->
  exists ranges, get_chunk_sizes r c = Some ranges
    /\ flat_map (fun g => seq (fst g) (snd g - fst g)) ranges
       = seq (r_start r) (r_end r - r_start r)
    /\ Forall (fun g => fst g < snd g /\ snd g - fst g <= c /\ snd g <= r_end r) ranges
    /\ length ranges = div_ceil (r_end r - r_start r) c.
Proof. exact get_chunk_sizes_concat. Qed.
Print Assumptions C03_chunks_cover_region.

Example C03_chunk_example :
  get_chunk_sizes (mkRegion 0 30 42) 5 = Some [(30, 35); (35, 40); (40, 42)].
Proof. reflexivity. Qed.

(** C03. All ranks perform the same number of rounds and each rank's rounds
    concatenate to its items. *)
Theorem C03_rounds_agree_and_cover :
  forall (A : Type) (items_per_rank : list (list A)) c, 1 <= c ->
  let k := global_num_chunks (map (@length A) items_per_rank) c in
  forall items, In items items_per_rank ->
    length (divide_into_chunks k c items) = k
    /\ concat (divide_into_chunks k c items) = items
    /\ Forall (fun ch => length ch <= c) (divide_into_chunks k c items).
Proof. exact @divide_rounds. Qed.
Print Assumptions C03_rounds_agree_and_cover.

Example C03_rounds_example :
  map (divide_into_chunks (global_num_chunks [5; 0; 2] 2) 2) [[1;2;3;4;5]; []; [6;7]]
  = [[[1;2];[3;4];[5]]; [[];[];[]]; [[6;7];[];[]]].
Proof. reflexivity. Qed.
