(** Model of the space-filling-curve keys, [/repo/src/peano_hilbert.rs].
    Integers ([u64], [u128]) are [N]; no operation overflows when the coordinates
    are below [2^bits]. The number of bits per dimension is a parameter. *)
From Coq Require Import List NArith ZArith QArith Qround.
Import ListNotations.

Local Open Scope N_scope.

(** Number of bits per dimension, peano_hilbert.rs 7 and 13. *)
Definition bits_2d : nat := 32.
Definition bits_3d : nat := 42.

Section TwoD.
Variable bits : nat.

(** [NUM_SUBDIVISIONS_2D], peano_hilbert.rs 8. *)
Definition subdivisions : N := 2 ^ N.of_nat bits.

(** [rot], peano_hilbert.rs 73-81. *)
Definition rot (n x y rx ry : N) : N * N :=
  if ry =? 0 then
    let '(x', y') := if rx =? 1 then ((n - 1) - x, (n - 1) - y) else (x, y) in
    (y', x')
  else (x, y).

(** [(x & s > 0) as u64]. *)
Definition bit_at (x s : N) : N := if 0 <? N.land x s then 1 else 0.

(** The loop of [from_integer_pos], peano_hilbert.rs 61-70, while [s > 0]. *)
Fixpoint loop_2d (fuel : nat) (s x y d : N) : N :=
  match fuel with
  | O => d
  | S fuel' =>
      if 0 <? s then
        let rx := bit_at x s in
        let ry := bit_at y s in
        let d' := d + s * s * N.lxor (3 * rx) ry in
        let '(x', y') := rot subdivisions x y rx ry in
        loop_2d fuel' (s / 2) x' y' d'
      else d
  end.

(** [PeanoKey2d::from_integer_pos], peano_hilbert.rs 60-71. *)
Definition key_2d (p : N * N) : N := loop_2d (S bits) (subdivisions / 2) (fst p) (snd p) 0.
End TwoD.

(** [ROTATION_TABLE], peano_hilbert.rs 117-166. *)
Definition rotation_table : list (list nat) :=
  [
   [36; 28; 25; 27; 10; 10; 25; 27];
   [29; 11; 24; 24; 37; 11; 26; 26];
   [8; 8; 25; 27; 30; 38; 25; 27];
   [9; 39; 24; 24; 9; 31; 26; 26];
   [40; 24; 44; 32; 40; 6; 44; 6];
   [25; 7; 33; 7; 41; 41; 45; 45];
   [4; 42; 4; 46; 26; 42; 34; 46];
   [43; 43; 47; 47; 5; 27; 5; 35];
   [33; 35; 36; 28; 33; 35; 2; 2];
   [32; 32; 29; 3; 34; 34; 37; 3];
   [33; 35; 0; 0; 33; 35; 30; 38];
   [32; 32; 1; 39; 34; 34; 1; 31];
   [24; 42; 32; 46; 14; 42; 14; 46];
   [43; 43; 47; 47; 25; 15; 33; 15];
   [40; 12; 44; 12; 40; 26; 44; 34];
   [13; 27; 13; 35; 41; 41; 45; 45];
   [28; 41; 28; 22; 38; 43; 38; 22];
   [42; 40; 23; 23; 29; 39; 29; 39];
   [41; 36; 20; 36; 43; 30; 20; 30];
   [37; 31; 37; 31; 42; 40; 21; 21];
   [28; 18; 28; 45; 38; 18; 38; 47];
   [19; 19; 46; 44; 29; 39; 29; 39];
   [16; 36; 45; 36; 16; 30; 47; 30];
   [37; 31; 37; 31; 17; 17; 46; 44];
   [12; 4; 1; 3; 34; 34; 1; 3];
   [5; 35; 0; 0; 13; 35; 2; 2];
   [32; 32; 1; 3; 6; 14; 1; 3];
   [33; 15; 0; 0; 33; 7; 2; 2];
   [16; 0; 20; 8; 16; 30; 20; 30];
   [1; 31; 9; 31; 17; 17; 21; 21];
   [28; 18; 28; 22; 2; 18; 10; 22];
   [19; 19; 23; 23; 29; 3; 29; 11];
   [9; 11; 12; 4; 9; 11; 26; 26];
   [8; 8; 5; 27; 10; 10; 13; 27];
   [9; 11; 24; 24; 9; 11; 6; 14];
   [8; 8; 25; 15; 10; 10; 25; 7];
   [0; 18; 8; 22; 38; 18; 38; 22];
   [19; 19; 23; 23; 1; 39; 9; 39];
   [16; 36; 20; 36; 16; 2; 20; 10];
   [37; 3; 37; 11; 17; 17; 21; 21];
   [4; 17; 4; 46; 14; 19; 14; 46];
   [18; 16; 47; 47; 5; 15; 5; 15];
   [17; 12; 44; 12; 19; 6; 44; 6];
   [13; 7; 13; 7; 18; 16; 45; 45];
   [4; 42; 4; 21; 14; 42; 14; 23];
   [43; 43; 22; 20; 5; 15; 5; 15];
   [40; 12; 21; 12; 40; 6; 23; 6];
   [13; 7; 13; 7; 41; 41; 22; 20]]%nat.

(** [SUBPIX_TABLE], peano_hilbert.rs 168-217. *)
Definition subpix_table : list (list nat) :=
  [
   [0; 7; 1; 6; 3; 4; 2; 5];
   [7; 4; 6; 5; 0; 3; 1; 2];
   [4; 3; 5; 2; 7; 0; 6; 1];
   [3; 0; 2; 1; 4; 7; 5; 6];
   [1; 0; 6; 7; 2; 3; 5; 4];
   [0; 3; 7; 4; 1; 2; 6; 5];
   [3; 2; 4; 5; 0; 1; 7; 6];
   [2; 1; 5; 6; 3; 0; 4; 7];
   [6; 1; 7; 0; 5; 2; 4; 3];
   [1; 2; 0; 3; 6; 5; 7; 4];
   [2; 5; 3; 4; 1; 6; 0; 7];
   [5; 6; 4; 7; 2; 1; 3; 0];
   [7; 6; 0; 1; 4; 5; 3; 2];
   [6; 5; 1; 2; 7; 4; 0; 3];
   [5; 4; 2; 3; 6; 7; 1; 0];
   [4; 7; 3; 0; 5; 6; 2; 1];
   [6; 7; 5; 4; 1; 0; 2; 3];
   [7; 0; 4; 3; 6; 1; 5; 2];
   [0; 1; 3; 2; 7; 6; 4; 5];
   [1; 6; 2; 5; 0; 7; 3; 4];
   [2; 3; 1; 0; 5; 4; 6; 7];
   [3; 4; 0; 7; 2; 5; 1; 6];
   [4; 5; 7; 6; 3; 2; 0; 1];
   [5; 2; 6; 1; 4; 3; 7; 0];
   [7; 0; 6; 1; 4; 3; 5; 2];
   [0; 3; 1; 2; 7; 4; 6; 5];
   [3; 4; 2; 5; 0; 7; 1; 6];
   [4; 7; 5; 6; 3; 0; 2; 1];
   [6; 7; 1; 0; 5; 4; 2; 3];
   [7; 4; 0; 3; 6; 5; 1; 2];
   [4; 5; 3; 2; 7; 6; 0; 1];
   [5; 6; 2; 1; 4; 7; 3; 0];
   [1; 6; 0; 7; 2; 5; 3; 4];
   [6; 5; 7; 4; 1; 2; 0; 3];
   [5; 2; 4; 3; 6; 1; 7; 0];
   [2; 1; 3; 0; 5; 6; 4; 7];
   [0; 1; 7; 6; 3; 2; 4; 5];
   [1; 2; 6; 5; 0; 3; 7; 4];
   [2; 3; 5; 4; 1; 0; 6; 7];
   [3; 0; 4; 7; 2; 1; 5; 6];
   [1; 0; 2; 3; 6; 7; 5; 4];
   [0; 7; 3; 4; 1; 6; 2; 5];
   [7; 6; 4; 5; 0; 1; 3; 2];
   [6; 1; 5; 2; 7; 0; 4; 3];
   [5; 4; 6; 7; 2; 3; 1; 0];
   [4; 3; 7; 0; 5; 2; 6; 1];
   [3; 2; 0; 1; 4; 5; 7; 6];
   [2; 5; 1; 6; 3; 4; 0; 7]]%nat.

(** The loop of the three-dimensional [from_integer_pos], peano_hilbert.rs
    97-112, while [mask > 0]. Table indices are in range (48 rotations, 8 pixels). *)
Fixpoint loop_3d (fuel : nat) (mask x y z key : N) (rotation : nat) : N :=
  match fuel with
  | O => key
  | S fuel' =>
      if 0 <? mask then
        let xmask := if N.land x mask =? 0 then 0 else 4 in
        let ymask := if N.land y mask =? 0 then 0 else 2 in
        let zmask := if N.land z mask =? 0 then 0 else 1 in
        let pix := N.to_nat (N.lor (N.lor xmask ymask) zmask) in
        let key' := N.lor (N.shiftl key 3)
                          (N.of_nat (nth pix (nth rotation subpix_table []) 0%nat)) in
        let rotation' := nth pix (nth rotation rotation_table []) 0%nat in
        loop_3d fuel' (N.shiftr mask 1) x y z key' rotation'
      else key
  end.

(** [PeanoKey3d::from_integer_pos], peano_hilbert.rs 96-113. *)
Definition key_3d (bits : nat) (p : N * N * N) : N :=
  loop_3d (S bits) (N.shiftl 1 (N.of_nat bits - 1)) (fst (fst p)) (snd (fst p)) (snd p) 0 0.

(** One coordinate of [from_point_and_min_max] and [get_integer_position_*],
    peano_hilbert.rs 32-45, 48-52, 86-90: pad the extent, scale to [0, 1] and
    truncate. Exact rational arithmetic; [0.001] is exactly 1/1000. Values are
    non-negative, so the cast to an integer rounds down. *)
Definition padded_min (mn mx : Q) : Q := (mn - (mx - mn) * (1 # 1000))%Q.
Definition padded_max (mn mx : Q) : Q := (mx + (mx - mn) * (1 # 1000))%Q.
Definition scaled (mn mx p : Q) : Q :=
  ((p - padded_min mn mx) / (padded_max mn mx - padded_min mn mx))%Q.
Definition integer_coord (bits : nat) (mn mx p : Q) : N :=
  Z.to_N (Qfloor (scaled mn mx p * inject_Z (2 ^ Z.of_nat bits))%Q).

(** [into_key] in two and three dimensions. *)
Definition point_key_2d (bits : nat) (mn mx p : Q * Q) : N :=
  key_2d bits (integer_coord bits (fst mn) (fst mx) (fst p),
               integer_coord bits (snd mn) (snd mx) (snd p)).
Definition point_key_3d (bits : nat) (mn mx p : Q * Q * Q) : N :=
  key_3d bits (integer_coord bits (fst (fst mn)) (fst (fst mx)) (fst (fst p)),
               integer_coord bits (snd (fst mn)) (snd (fst mx)) (snd (fst p)),
               integer_coord bits (snd mn) (snd mx) (snd p)).
