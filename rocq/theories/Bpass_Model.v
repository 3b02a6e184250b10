(** Model of [/repo/src/arepo_postprocess/bpass.rs]. [None] is an index out of range. *)
From Coq Require Import List Arith ZArith QArith Qminmax.
Import ListNotations.
From Verif Require Import Bpass_Table.
Local Open Scope Q_scope.

(** [linear_interpolate], bpass.rs 7-9. *)
Definition linear_interpolate (x1 x2 y1 y2 x : Q) : Q := y1 + (x - x1) / (x2 - x1) * (y2 - y1).

(** [slice::binary_search_by_key] of the standard library (the implementation up to Rust
    1.81), as in [Decomp_Model], for rational keys. *)
Fixpoint bs_loop (fuel : nat) (l : list Q) (key : Q) (left right : nat) : nat + nat :=
  match fuel with
  | O => inr left
  | S fuel' =>
      if (left <? right)%nat then
        let mid := (left + (right - left) / 2)%nat in
        match Qcompare (nth mid l 0) key with
        | Lt => bs_loop fuel' l key (mid + 1)%nat right
        | Gt => bs_loop fuel' l key left mid
        | Eq => inl mid
        end
      else inr left
  end.

(** The closure [get_index], 12-16. *)
Definition get_index (bins : list Q) (value : Q) : nat :=
  match bs_loop (S (length bins)) bins value 0 (length bins) with
  | inl i => (i + 1)%nat
  | inr i => i
  end.

(** [f64::clamp], which panics if the bounds are in the wrong order. *)
Definition clamp (x lo hi : Q) : option Q :=
  if Qle_bool lo hi then
    Some (if Qle_bool lo x then (if Qle_bool x hi then x else hi) else lo)
  else None.

(** [safety], 20. *)
Definition safety : Q := 100001 # 100000.

(** Clamping to a little less than the range of the bins, 21-28. *)
Definition clamp_to_bins (bins : list Q) (x : Q) : option Q :=
  match nth_error bins 0, nth_error bins (length bins - 1) with
  | Some lo, Some hi => clamp x (lo * safety) (hi / safety)
  | _, _ => None
  end.

(** [bins[index - 1]] etc.; [index - 1] underflows for 0. *)
Definition before {A} (l : list A) (index : nat) : option A :=
  match index with O => None | S i => nth_error l i end.

(** [bpass_lookup], 11-56, for tables of any size; the result is the rate per solar
    mass, which 55 multiplies by the mass. *)
Definition lookup_in (ages metallicities : list Q) (tab : list (list Q)) (age metallicity : Q) : option Q :=
  match clamp_to_bins ages age, clamp_to_bins metallicities metallicity with
  | Some age, Some metallicity =>
      let m := get_index metallicities metallicity in
      let a := get_index ages age in
      match before ages a, nth_error ages a, before tab a, nth_error tab a,
            before metallicities m, nth_error metallicities m with
      | Some a1, Some a2, Some row1, Some row2, Some m1, Some m2 =>
          match before row1 m, before row2 m, nth_error row1 m, nth_error row2 m with
          | Some t11, Some t21, Some t12, Some t22 =>
              let l1 := linear_interpolate a1 a2 t11 t21 age in
              let l2 := linear_interpolate a1 a2 t12 t22 age in
              Some (linear_interpolate m1 m2 l1 l2 metallicity)
          | _, _, _, _ => None
          end
      | _, _, _, _, _, _ => None
      end
  | _, _ => None
  end.

Definition bpass_lookup (age metallicity mass : Q) : option Q :=
  option_map (fun r => r * mass) (lookup_in age_bins metallicity_bins table age metallicity).
