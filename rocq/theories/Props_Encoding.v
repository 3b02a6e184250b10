(** Property C46: wire encodings. *)
From Coq Require Import List Arith ZArith Lia Permutation.
Import ListNotations.
From Verif Require Import Encoding_Model Encoding_Proofs.

(** C46. Optional values, periodic image tags, search results and node indices
    survive encoding and decoding, whatever is in uninitialized memory; only valid
    codes are decoded. *)
Theorem C46_option_round_trip :
  forall (T : Type) (junk junk' : T) (o : option T),
  decode_option (encode_option junk o) = o
  /\ decode_option (clone_option junk' (encode_option junk o)) = o.
Proof. exact @option_round_trip. Qed.
Print Assumptions C46_option_round_trip.

Theorem C46_wrap_round_trip :
  (forall w, wrap_from_isize (wrap_to_isize w) = Some w)
  /\ (forall z w, wrap_from_isize z = Some w <-> z = wrap_to_isize w)
  /\ (forall w, wrap2_from (wrap2_to w) = Some w)
  /\ (forall w, wrap3_from (wrap3_to w) = Some w)
  /\ (forall F I (r : (F * F) * I * (wrap_type * wrap_type)),
        result2_from (result2_to r) = Some r)
  /\ (forall F I (r : (F * F * F) * I * (wrap_type * wrap_type * wrap_type)),
        result3_from (result3_to r) = Some r).
Proof.
  exact (conj wrap_round_trip (conj wrap_decode (conj wrap2_round_trip (conj wrap3_round_trip
    (conj (@result2_round_trip) (@result3_round_trip)))))).
Qed.
Print Assumptions C46_wrap_round_trip.

Theorem C46_node_index_round_trip :
  forall m,
  (forall i, match i with Child k => k < m | ThisNode => True end ->
     node_from_u8 m (node_to_u8 m i) = i)
  /\ (forall v, node_to_u8 m (node_from_u8 m v) = v).
Proof. intro m. exact (conj (node_round_trip m) (node_codes m)). Qed.
Print Assumptions C46_node_index_round_trip.
Example C46_codes_example :
  map (node_from_u8 4) [0; 3; 4] = [Child 0; Child 3; ThisNode]
  /\ wrap3_to (Minus, Plus, NoWrap) = (-1, 1, 0)%Z /\ wrap_from_isize 2 = None.
Proof. vm_compute. repeat split. Qed.

(** The displacement table: slots of different ranks do not overlap, lie inside
    the buffer and cover it; hence the gathered buffer is the concatenation of
    the contributions whatever it held before and in whatever order they are
    written. *)
Theorem C46_displacements :
  forall counts,
  (forall r q, r < q -> q < length counts ->
     nth r (displacements counts) 0 + nth r counts 0 <= nth q (displacements counts) 0)
  /\ (forall r, r < length counts ->
        nth r (displacements counts) 0 + nth r counts 0 <= list_sum counts)
  /\ (forall i, i < list_sum counts -> exists r, r < length counts
        /\ nth r (displacements counts) 0 <= i < nth r (displacements counts) 0 + nth r counts 0).
Proof. intro cs. exact (conj (slots_disjoint cs) (conj (slots_inside cs) (slots_cover cs))). Qed.
Print Assumptions C46_displacements.

Theorem C46_gather_is_concatenation :
  forall (T : Type) (junk : list T) sends order,
  length junk = list_sum (map (@length T) sends) ->
  Permutation order (seq 0 (length sends)) ->
  gather_varcount junk sends order = concat sends.
Proof. exact @gather_concat. Qed.
Print Assumptions C46_gather_is_concatenation.
Example C46_gather_example :
  displacements [2; 0; 3; 1] = [0; 2; 2; 5]
  /\ gather_varcount [9; 9; 9; 9; 9; 9] [[1; 2]; []; [3; 4; 5]; [6]] [2; 3; 0; 1]
     = [1; 2; 3; 4; 5; 6].
Proof. vm_compute. split; reflexivity. Qed.
