(** Model of the domain decomposition, [/repo/src/domain/decomposition.rs] and
    [/repo/src/domain/key.rs]. Keys are the integers inside [PeanoKey2d] and
    [PeanoKey3d]; a panic is [None]. *)
From Coq Require Import List Arith NArith.
Import ListNotations.
Local Open Scope N_scope.

(** [Key::middle], key.rs 30-32 and 44-46. *)
Definition middle (a b : N) : N := a / 2 + b / 2.

(** [Key::next], key.rs 34-36 and 48-50; [kmax] is the largest value of the
    integer type. *)
Definition next (kmax k : N) : N := if k =? kmax then k else k + 1.

(** [slice::binary_search] of the standard library (the implementation up to Rust
    1.81): left/right bounds and the middle element. [inl i] is [Ok(i)], [inr i]
    is [Err(i)]. The slice is not assumed to be sorted. *)
Fixpoint bs_loop (fuel : nat) (l : list N) (key : N) (left right : nat) : nat + nat :=
  match fuel with
  | O => inr left
  | S fuel' =>
      if (left <? right)%nat then
        let mid := (left + (right - left) / 2)%nat in
        match N.compare (nth mid l 0) key with
        | Lt => bs_loop fuel' l key (mid + 1)%nat right
        | Gt => bs_loop fuel' l key left mid
        | Eq => inl mid
        end
      else inr left
  end.
Definition slice_binary_search (l : list N) (key : N) : nat + nat :=
  bs_loop (S (length l)) l key 0 (length l).

(** [unwrap_or_else(|e| e)] and [.map(|x| x + 1).unwrap_or_else(|e| e)]. *)
Definition index_or_insert (r : nat + nat) : nat := match r with inl i => i | inr i => i end.
Definition after_or_insert (r : nat + nat) : nat := match r with inl i => S i | inr i => i end.

(** [KeyCounter::load_in_range], decomposition.rs 236-244, on sorted keys; the
    subtraction of unsigned integers panics when it is negative. *)
Definition key_load (keys : list N) (start end_ : N) : option N :=
  let s := index_or_insert (slice_binary_search keys start) in
  let e := after_or_insert (slice_binary_search keys end_) in
  if (e <? s)%nat then None else Some (N.of_nat (e - s)).

(** [min_key]/[max_key], decomposition.rs 246-252: panic without keys. *)
Definition list_min (l : list N) : option N :=
  match l with [] => None | x :: t => Some (fold_left N.min t x) end.
Definition list_max (l : list N) : option N :=
  match l with [] => None | x :: t => Some (fold_left N.max t x) end.

(** [opt_all f l]: all results, or a panic if one of them panics. *)
Fixpoint opt_all {A B} (f : A -> option B) (l : list A) : option (list B) :=
  match l with
  | [] => Some []
  | x :: t =>
      match f x, opt_all f t with Some y, Some r => Some (y :: r) | _, _ => None end
  end.

(** [ParallelCounter], decomposition.rs 255-293: the local counters of all ranks,
    with a sum, minimum and maximum over ranks. *)
Definition par_load (keys : list (list N)) (start end_ : N) : option N :=
  match opt_all (fun k => key_load k start end_) keys with
  | Some ls => Some (fold_right N.add 0 ls)
  | None => None
  end.
Definition par_min (keys : list (list N)) : option N :=
  match opt_all list_min keys with Some l => list_min l | None => None end.
Definition par_max (keys : list (list N)) : option N :=
  match opt_all list_max keys with Some l => list_max l | None => None end.

(** [get_search_result], decomposition.rs 187-193; [maxd] is [K::MAX_DEPTH]. *)
Definition get_search_result (maxd : nat) (target load : N) (depth : nat) : comparison :=
  if (depth =? maxd)%nat then Eq else N.compare load target.

(** [binary_search], decomposition.rs 48-61, for a given load function; [fuel]
    bounds the number of recursive calls. [inl] is the result, [inr true] a panic
    of the load function, [inr false] lack of fuel. *)
Fixpoint cut_search (fuel : nat) (maxd : nat) (load : N -> option N) (target : N)
    (start end_ : N) (depth : nat) : N + bool :=
  let pos := middle start end_ in
  match load pos with
  | None => inr true
  | Some l =>
      match get_search_result maxd target l depth with
      | Eq => inl pos
      | Lt => match fuel with
              | O => inr false
              | S fuel' => cut_search fuel' maxd load target pos end_ (S depth)
              end
      | Gt => match fuel with
              | O => inr false
              | S fuel' => cut_search fuel' maxd load target start pos (S depth)
              end
      end
  end.

Section Decompose.
Variable kmax : N.   (* largest key *)
Variable maxd : nat. (* MAX_DEPTH *)
Variable keys : list (list N). (* sorted keys of every rank *)

(** [find_cut_for_next_segment], decomposition.rs 178-185. *)
Definition find_cut (target maxkey start : N) : option N :=
  match cut_search maxd maxd (fun cut => par_load keys start cut) target start maxkey 0 with
  | inl c => Some c
  | inr _ => None
  end.

(** The loop of [find_segments], decomposition.rs 164-168, for [m] iterations. *)
Fixpoint segments_loop (m : nat) (target maxkey start : N) : option (list (N * N)) :=
  match m with
  | O => Some [(start, next kmax maxkey)]
  | S m' =>
      match find_cut target maxkey start with
      | None => None
      | Some c =>
          match segments_loop m' target maxkey c with
          | Some segs => Some ((start, c) :: segs)
          | None => None
          end
      end
  end.

(** [Decomposition::new], decomposition.rs 72-91, with [total_load] 41-45,
    [find_segments] 161-174 and [get_loads] 195-200: the cuts and the loads.
    [0..num_segments - 1] panics without ranks. *)
Definition decompose (num_ranks : nat) : option (list N * list N) :=
  match num_ranks with
  | O => None
  | S m =>
      match par_min keys, par_max keys with
      | Some lo, Some hi =>
          match par_load keys lo (next kmax hi) with
          | None => None
          | Some total =>
              match segments_loop m (total / N.of_nat num_ranks) hi lo with
              | None => None
              | Some segs =>
                  match opt_all (fun s => par_load keys (fst s) (snd s)) segs with
                  | None => None
                  | Some loads => Some (map snd segs, loads)
                  end
              end
          end
      | _, _ => None
      end
  end.
End Decompose.

(** [get_owning_rank], decomposition.rs 93-98. *)
Definition owning_rank (cuts : list N) (key : N) : nat :=
  after_or_insert (slice_binary_search cuts key).

(** [MAX_DEPTH] and the key width of [PeanoKey2d]/[PeanoKey3d],
    key.rs 27-29, 40-42 and peano_hilbert.rs 7-14: 32 and 42 bits per dimension. *)
Definition max_depth_2d : nat := 32.
Definition max_depth_3d : nat := 42.
Definition kmax_2d : N := 2 ^ 64 - 1.
Definition kmax_3d : N := 2 ^ 128 - 1.
