(** Model of src/sweep/timestep_level.rs and src/sweep/timestep_state.rs and of
    the parts of src/sweep/mod.rs which decide when a cell is updated.

    Times are exact rationals instead of f64; a panic is [None]. *)
From Coq Require Import List Arith NArith ZArith QArith Qround Bool.
Import ListNotations.
Local Open Scope nat_scope.

(** ** Levels (src/sweep/timestep_level.rs) *)

(** The quotient max/desired as seen by floating point: the desired timestep may
    be zero (quotient infinite) or infinite/NaN. *)
Inductive ratio := RFin (q : Q) | RInf | RNaN.

(** src/sweep/timestep_level.rs:33-34 [ratio.log2().ceil().value() as usize]. The
    cast saturates: negative and NaN become 0, infinity becomes the largest
    [usize], here given as [None]. In exact arithmetic ceil(log2 q) is the least
    integer k with q <= 2^k, for q <= 1 it is not positive. *)
Definition raw_level (r : ratio) : option nat :=
  match r with
  | RFin q => Some (Z.to_nat (Z.log2_up (Qceiling q)))
  | RInf => None
  | RNaN => Some 0
  end.

(** src/sweep/timestep_level.rs:27-36 [from_max_timestep_and_desired_timestep];
    [max_num_levels - 1] underflows for zero levels, excluded by the callers. *)
Definition level_from_ratio (max_num_levels : nat) (r : ratio) : nat :=
  match raw_level r with
  | Some l => Nat.min l (max_num_levels - 1)
  | None => max_num_levels - 1
  end.

(** src/sweep/timestep_level.rs:38-40 [is_active]. *)
Definition is_active (level current : nat) : bool := current <=? level.

(** src/sweep/timestep_level.rs:46-48 [as_factor]: (1/2)^level. *)
Definition as_factor (level : nat) : Q := / inject_Z (2 ^ Z.of_nat level).

(** src/sweep/timestep_level.rs:42-44 [to_timestep]. *)
Definition to_timestep (level : nat) (max_timestep : Q) : Q := max_timestep * as_factor level.

(** ** TimestepState (src/sweep/timestep_state.rs) *)

Record ts := mkTs {
  max_timestep : Q;
  num_levels : nat;
  lowest : nat;          (* current_lowest_allowed *)
  first_done : bool;     (* first_update_at_highest_level_done *)
}.

(** src/sweep/timestep_state.rs:13-20 [new]; zero levels panic. *)
Definition ts_new (max : Q) (n : nat) : option ts :=
  match n with
  | 0 => None
  | S n1 => Some (mkTs max n n1 false)
  end.

(** src/sweep/timestep_state.rs:82-90 [find_index_of_lowest_set_bit_in_int] on u32. *)
Fixpoint find_bit (fuel bit : nat) (i : N) : option nat :=
  match fuel with
  | 0 => None
  | S fuel' =>
      if N.ltb 0 (N.land i (N.shiftl 1 (N.of_nat bit))) then Some bit
      else find_bit fuel' (S bit) i
  end.
Definition lowest_set_bit (i : N) : option nat := find_bit 32 0 i.

(** src/sweep/timestep_state.rs:66-68 [num_allowed_levels]. *)
Definition num_allowed (t : ts) : nat := num_levels t - lowest t.

(** src/sweep/timestep_state.rs:70-75 [lowest_active_from_iteration]; the assert
    on the number of levels and the u32 subtraction are panics. *)
Definition lowest_active_from_iteration (t : ts) (i num : nat) : option nat :=
  if num_levels t <? 32 then
    let first_bit := match lowest_set_bit (N.of_nat i) with Some b => b | None => num - 1 end in
    if first_bit <=? num - 1 then Some (num - 1 - first_bit) else None
  else None.

Fixpoint sequence {A} (l : list (option A)) : option (list A) :=
  match l with
  | [] => Some []
  | Some a :: l => match sequence l with Some r => Some (a :: r) | None => None end
  | None :: _ => None
  end.

(** src/sweep/timestep_state.rs:22-27 [iter_levels_in_sweep_order]. *)
Definition iter_levels_in_sweep_order (t : ts) : option (list nat) :=
  match num_allowed t with
  | 0 => None                                  (* num - 1 underflows *)
  | S n1 =>
      sequence (map (fun i => option_map (fun k => lowest t + k)
                                (lowest_active_from_iteration t i (S n1)))
                    (seq 0 (2 ^ n1)))
  end.

(** src/sweep/timestep_state.rs:37-48 [advance_allowed_levels]. *)
Definition advance_allowed_levels (t : ts) : ts :=
  let low := if first_done t && (0 <? lowest t) then lowest t - 1 else lowest t in
  mkTs (max_timestep t) (num_levels t) low true.

(** src/sweep/timestep_state.rs:50-52 [timestep_at_level]. *)
Definition timestep_at_level (t : ts) (level : nat) : Q := to_timestep level (max_timestep t).

(** max/desired as computed in floating point. A zero desired timestep gives an
    infinite quotient; negative times do not occur. *)
Definition time_ratio (max desired : Q) : ratio :=
  if Qeq_bool desired 0 then RInf else RFin (max / desired).

(** src/sweep/timestep_state.rs:54-64 [get_desired_level_from_desired_timestep]. *)
Definition desired_level_of_ratio (t : ts) (r : ratio) : nat :=
  let level := level_from_ratio (num_levels t) r in
  if level <? lowest t then lowest t else level.
Definition get_desired_level (t : ts) (desired : Q) : nat :=
  desired_level_of_ratio t (time_ratio (max_timestep t) desired).

(** src/sweep/timestep_state.rs:77-79 [current_max_timestep]. *)
Definition current_max_timestep (t : ts) : Q := max_timestep t * as_factor (lowest t).

(** ** One run of sweeps (src/sweep/mod.rs) *)

(** src/sweep/mod.rs:234-245: number of cells, on all ranks, active at a level.
    [levels] lists the level of every cell of the simulation. *)
Definition count_cells_global (levels : list nat) (level : nat) : nat :=
  length (filter (fun l => is_active l level) levels).

(** src/sweep/mod.rs:258-267: the levels for which a sweep is performed. *)
Definition performed_sweeps (t : ts) (levels : list nat) : option (list nat) :=
  option_map (filter (fun s => 0 <? count_cells_global levels s)) (iter_levels_in_sweep_order t).

(** src/sweep/mod.rs:549-553 [update_chemistry]: in a sweep at level [s] every
    active cell is advanced by the timestep of its own level; the list of
    timesteps applied to a cell of level [l] during the performed sweeps. *)
Definition applied_timesteps (t : ts) (l : nat) (sweeps : list nat) : list Q :=
  map (fun _ => timestep_at_level t l) (filter (is_active l) sweeps).

(** src/sweep/mod.rs:258-272 [run_sweeps] and 576-589 [update_timestep_levels]:
    one run. The oracle [desire] gives the quotient max/desired for each cell
    after the run (it is computed by the chemistry). Result: elapsed time, new
    state, new levels. *)
Definition run_sweeps (t : ts) (levels : list nat) (desire : nat -> ratio)
  : option (Q * ts * list nat) :=
  match performed_sweeps t levels with
  | None => None
  | Some _ =>
      let elapsed := current_max_timestep t in
      let t' := advance_allowed_levels t in
      let levels' := map (fun i => desired_level_of_ratio t' (desire i)) (seq 0 (length levels)) in
      Some (elapsed, t', levels')
  end.

(** A simulation: the initial levels are the finest (src/sweep/mod.rs:194-232
    [new], [initial_level]); one oracle per run. The list of elapsed times is in
    run order. *)
Fixpoint simulate (t : ts) (levels : list nat) (desires : list (nat -> ratio))
  : option (list Q * ts * list nat) :=
  match desires with
  | [] => Some ([], t, levels)
  | d :: ds =>
      match run_sweeps t levels d with
      | None => None
      | Some (e, t', levels') =>
          match simulate t' levels' ds with
          | None => None
          | Some (es, t'', levels'') => Some (e :: es, t'', levels'')
          end
      end
  end.

Definition simulation (max : Q) (n num_cells : nat) (desires : list (nat -> ratio))
  : option (list Q * ts * list nat) :=
  match ts_new max n with
  | None => None
  | Some t => simulate t (repeat (n - 1) num_cells) desires
  end.

(** ** Active lists (src/sweep/active_list.rs) *)

Record active_list (T : Type) := mkAl {
  al_items : list T;
  al_levels : list nat;
  al_max : nat;
  al_valid : bool;
  al_bins : list (list nat);
  al_rank : nat;
}.
Arguments mkAl {T}. Arguments al_items {T}. Arguments al_levels {T}. Arguments al_max {T}.
Arguments al_valid {T}. Arguments al_bins {T}. Arguments al_rank {T}.

Fixpoint list_update {A} (i : nat) (f : A -> A) (l : list A) : option (list A) :=
  match l, i with
  | [], _ => None
  | x :: l, 0 => Some (f x :: l)
  | x :: l, S i => option_map (cons x) (list_update i f l)
  end.

(** src/sweep/active_list.rs:148-150, the loop pushing indices to the bins. *)
Fixpoint fill_bins (i : nat) (levels : list nat) (bins : list (list nat)) : option (list (list nat)) :=
  match levels with
  | [] => Some bins
  | l :: ls =>
      match list_update l (fun b => b ++ [i]) bins with
      | None => None
      | Some bins' => fill_bins (S i) ls bins'
      end
  end.

(** src/sweep/active_list.rs:143-153 [update_bins]. *)
Definition update_bins {T} (a : active_list T) : option (active_list T) :=
  match fill_bins 0 (al_levels a) (repeat [] (al_max a)) with
  | None => None
  | Some bins => Some (mkAl (al_items a) (al_levels a) (al_max a) true bins (al_rank a))
  end.

(** src/sweep/active_list.rs:26-34: removing the items 0..n of the map in order.
    The map is an association list with distinct keys. *)
Definition al_lookup {T} (m : list ((nat * nat) * T)) (id : nat * nat) : option T :=
  option_map snd (find (fun e => (fst (fst e) =? fst id) && (snd (fst e) =? snd id)) m).

(** src/sweep/active_list.rs:16-46 [new]. With distinct keys, removing as many
    items as the map has entries leaves it empty, so the last assert holds. *)
Definition al_new {T} (m : list ((nat * nat) * T)) (max_num_levels initial : nat)
  : option (active_list T) :=
  match m with
  | [] => None
  | ((rank, _), _) :: _ =>
      if forallb (fun e => fst (fst e) =? rank) m then
        match sequence (map (fun i => al_lookup m (rank, i)) (seq 0 (length m))) with
        | None => None
        | Some items =>
            update_bins (mkAl items (repeat initial (length m)) max_num_levels false [] rank)
        end
      else None
  end.

(** src/sweep/active_list.rs:137-141 [set_level]. *)
Definition set_level {T} (a : active_list T) (i level : nat) : option (active_list T) :=
  match list_update i (fun _ => level) (al_levels a) with
  | None => None
  | Some ls => Some (mkAl (al_items a) ls (al_max a) false (al_bins a) (al_rank a))
  end.

(** src/sweep/active_list.rs:105-120 [get_mut]: changing an item in place. *)
Definition set_item {T} (a : active_list T) (i : nat) (f : T -> T) : option (active_list T) :=
  match list_update i f (al_items a) with
  | None => None
  | Some items => Some (mkAl items (al_levels a) (al_max a) (al_valid a) (al_bins a) (al_rank a))
  end.

(** src/sweep/active_list.rs:55-66 [enumerate_active]; slicing past the end of
    [bins] or [level > max] panics. *)
Definition enumerate_active {T} (a : active_list T) (level : nat) : option (list ((nat * nat) * T)) :=
  if al_valid a && (level <=? al_max a) && (al_max a <=? length (al_bins a)) then
    sequence (map (fun i => option_map (fun t => ((al_rank a, i), t)) (nth_error (al_items a) i))
                (concat (skipn level (firstn (al_max a) (al_bins a)))))
  else None.

Inductive al_op (T : Type) :=
| OpSetLevel (i level : nat)
| OpSetItem (i : nat) (f : T -> T)
| OpUpdateBins.
Arguments OpSetLevel {T}. Arguments OpSetItem {T}. Arguments OpUpdateBins {T}.

Definition al_step {T} (a : active_list T) (o : al_op T) : option (active_list T) :=
  match o with
  | OpSetLevel i l => set_level a i l
  | OpSetItem i f => set_item a i f
  | OpUpdateBins => update_bins a
  end.

Fixpoint al_run {T} (a : active_list T) (ops : list (al_op T)) : option (active_list T) :=
  match ops with
  | [] => Some a
  | o :: ops => match al_step a o with None => None | Some a' => al_run a' ops end
  end.
