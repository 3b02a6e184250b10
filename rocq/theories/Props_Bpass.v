(** Property C47: interpolation in the table of stellar spectra. *)
From Coq Require Import List Arith QArith.
Import ListNotations.
From Verif Require Import Bpass_Table Bpass_Model Bpass_Spec Bpass_Proofs.
Local Open Scope Q_scope.

(** C47. For every age and metallicity the lookup uses indices inside of the tables: the
    two, moved to the nearest end of the tabulated range if they are outside of it, are
    enclosed by two neighbouring bins each, and the rate lies between the smallest and
    the largest of the four entries there; it is their bilinear interpolation. *)
Theorem C47_lookup : forall age metallicity mass, exists age' metallicity' i j v,
  limited age_bins safety age age' /\ limited metallicity_bins safety metallicity metallicity'
  /\ enclosed age_bins i age' /\ enclosed metallicity_bins j metallicity'
  /\ bpass_lookup age metallicity mass = Some (v * mass)
  /\ between4 (entry table i j) (entry table (S i) j) (entry table i (S j)) (entry table (S i) (S j)) v
  /\ exists u w, 0 <= u /\ u <= 1 /\ 0 <= w /\ w <= 1
     /\ age' == (1 - u) * nth i age_bins 0 + u * nth (S i) age_bins 0
     /\ metallicity' == (1 - w) * nth j metallicity_bins 0 + w * nth (S j) metallicity_bins 0
     /\ v == (1 - u) * (1 - w) * entry table i j + u * (1 - w) * entry table (S i) j
             + (1 - u) * w * entry table i (S j) + u * w * entry table (S i) (S j).
Proof. exact bpass_spec. Qed.
Print Assumptions C47_lookup.

(** In particular the rate of a star with a mass is positive. *)
Theorem C47_positive : forall age metallicity mass, 0 < mass ->
  exists r, bpass_lookup age metallicity mass = Some r /\ 0 < r.
Proof. exact bpass_positive. Qed.
Print Assumptions C47_positive.

(** The same holds for any table of the right size over increasing positive bins. *)
Theorem C47_any_table : forall ages metallicities tab, good_bins ages -> good_bins metallicities ->
  table_size (length ages) (length metallicities) tab ->
  forall age metallicity, exists age' metallicity' i j v,
  limited ages safety age age' /\ limited metallicities safety metallicity metallicity'
  /\ enclosed ages i age' /\ enclosed metallicities j metallicity'
  /\ lookup_in ages metallicities tab age metallicity = Some v
  /\ between4 (entry tab i j) (entry tab (S i) j) (entry tab i (S j)) (entry tab (S i) (S j)) v
  /\ exists u w, 0 <= u /\ u <= 1 /\ 0 <= w /\ w <= 1
     /\ age' == (1 - u) * nth i ages 0 + u * nth (S i) ages 0
     /\ metallicity' == (1 - w) * nth j metallicities 0 + w * nth (S j) metallicities 0
     /\ v == (1 - u) * (1 - w) * entry tab i j + u * (1 - w) * entry tab (S i) j
             + (1 - u) * w * entry tab i (S j) + u * w * entry tab (S i) (S j).
Proof. exact lookup_spec. Qed.
Print Assumptions C47_any_table.

(** The tables of the code are such a case, and the middle of a square of bins gives the
    mean of its corners; the second lookup is the one at 890 of the tests in the
    repository, to about five digits. *)
Example C47_example :
  good_bins age_bins /\ good_bins metallicity_bins
  /\ table_size (length age_bins) (length metallicity_bins) table
  /\ option_map Qred (bpass_lookup ((nth 3 age_bins 0 + nth 4 age_bins 0) / 2) (5 # 1000) 4)
     = Some (Qred (entry table 3 5 + entry table 4 5 + entry table 3 6 + entry table 4 6))
  /\ match bpass_lookup (e 1 6) (35 # 1000) 1 with
     | Some r => negb (Qle_bool (e 337998 41) r) && negb (Qle_bool r (e 337996 41))
     | None => false
     end = true.
Proof.
  split; [exact age_bins_good|]. split; [exact metallicity_bins_good|]. split; [exact table_good|].
  split; vm_compute; reflexivity.
Qed.
