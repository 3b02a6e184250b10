(** Round trips and the displacement table. *)
From Coq Require Import List Arith Bool ZArith Lia Permutation.
Import ListNotations.
From Verif Require Import Encoding_Model.

Lemma option_round_trip {T} (junk junk' : T) (o : option T) :
  decode_option (encode_option junk o) = o
  /\ decode_option (clone_option junk' (encode_option junk o)) = o.
Proof. destruct o; split; reflexivity. Qed.

Lemma wrap_round_trip w : wrap_from_isize (wrap_to_isize w) = Some w.
Proof. destruct w; reflexivity. Qed.

Lemma wrap_decode z w : wrap_from_isize z = Some w <-> z = wrap_to_isize w.
Proof.
  split; [|intros ->; apply wrap_round_trip].
  destruct z as [|[p|p|]|[p|p|]]; cbn; intro H; try discriminate; injection H as <-; reflexivity.
Qed.

Lemma wrap2_round_trip w : wrap2_from (wrap2_to w) = Some w.
Proof. destruct w as [[] []]; reflexivity. Qed.
Lemma wrap3_round_trip w : wrap3_from (wrap3_to w) = Some w.
Proof. destruct w as [[[] []] []]; reflexivity. Qed.

Lemma result2_round_trip {F I} (r : (F * F) * I * (wrap_type * wrap_type)) :
  result2_from (result2_to r) = Some r.
Proof. destruct r as [[[x y] i] w]. cbn. now rewrite wrap2_round_trip. Qed.
Lemma result3_round_trip {F I} (r : (F * F * F) * I * (wrap_type * wrap_type * wrap_type)) :
  result3_from (result3_to r) = Some r.
Proof. destruct r as [[[[x y] z] i] w]. cbn. now rewrite wrap3_round_trip. Qed.

Lemma node_round_trip m i : match i with Child k => k < m | ThisNode => True end ->
  node_from_u8 m (node_to_u8 m i) = i.
Proof.
  destruct i as [|k]; cbn; unfold node_from_u8; intro H.
  - now rewrite Nat.eqb_refl.
  - destruct (Nat.eqb_spec k m); [lia|reflexivity].
Qed.

Lemma node_codes m v : node_to_u8 m (node_from_u8 m v) = v.
Proof. unfold node_from_u8. now destruct (Nat.eqb_spec v m). Qed.

Lemma displacements_length acc cs : length (displacements_from acc cs) = length cs.
Proof. revert acc; induction cs; intro acc; cbn; auto. Qed.

Lemma displacements_nth cs : forall acc r, r < length cs ->
  nth r (displacements_from acc cs) 0 = acc + list_sum (firstn r cs).
Proof.
  induction cs as [|c cs IH]; intros acc r Hr; cbn in Hr; [lia|].
  destruct r as [|r]; cbn [displacements_from nth firstn list_sum fold_right]; [lia|].
  rewrite IH by lia. unfold list_sum. cbn. lia.
Qed.

Lemma firstn_S_sum cs : forall r, r < length cs ->
  list_sum (firstn (S r) cs) = list_sum (firstn r cs) + nth r cs 0.
Proof.
  induction cs as [|c cs IH]; intros r Hr; cbn in Hr; [lia|].
  destruct r as [|r]; [cbn; lia|].
  change (firstn (S (S r)) (c :: cs)) with (c :: firstn (S r) cs).
  change (firstn (S r) (c :: cs)) with (c :: firstn r cs).
  cbn [list_sum fold_right nth]. unfold list_sum in IH. rewrite IH by lia. cbn; lia.
Qed.

Lemma firstn_sum_mono cs a b : a <= b -> list_sum (firstn a cs) <= list_sum (firstn b cs).
Proof.
  revert a b; induction cs as [|c cs IH]; intros a b H; [now rewrite !firstn_nil|].
  destruct a, b; cbn; try lia. unfold list_sum in IH. specialize (IH a b). lia.
Qed.

Lemma firstn_sum_total cs a : list_sum (firstn a cs) <= list_sum cs.
Proof.
  rewrite <- (firstn_all cs) at 2.
  destruct (Nat.le_gt_cases a (length cs)); [now apply firstn_sum_mono|].
  rewrite !firstn_all2 by lia. lia.
Qed.

(** The slots are disjoint and in rank order, and cover the buffer. *)
Lemma slots_disjoint cs r q : r < q -> q < length cs ->
  nth r (displacements cs) 0 + nth r cs 0 <= nth q (displacements cs) 0.
Proof.
  intros Hrq Hq. unfold displacements. rewrite !displacements_nth by lia.
  pose proof (firstn_S_sum cs r ltac:(lia)). pose proof (firstn_sum_mono cs (S r) q ltac:(lia)).
  lia.
Qed.

Lemma slots_inside cs r : r < length cs ->
  nth r (displacements cs) 0 + nth r cs 0 <= list_sum cs.
Proof.
  intros Hr. unfold displacements. rewrite !displacements_nth by lia.
  pose proof (firstn_S_sum cs r Hr). pose proof (firstn_sum_total cs (S r)). lia.
Qed.

Lemma slots_cover cs i : i < list_sum cs -> exists r, r < length cs
  /\ nth r (displacements cs) 0 <= i < nth r (displacements cs) 0 + nth r cs 0.
Proof.
  intro Hi.
  assert (H : forall k, k <= length cs -> i < list_sum (firstn k cs) ->
    exists r, r < length cs /\ list_sum (firstn r cs) <= i < list_sum (firstn r cs) + nth r cs 0).
  { induction k as [|k IH]; intros Hk Hlt; [cbn in Hlt; lia|].
    destruct (Nat.lt_ge_cases i (list_sum (firstn k cs))) as [H|H]; [apply IH; lia|].
    exists k. rewrite firstn_S_sum in Hlt by lia. lia. }
  destruct (H (length cs) (le_n _)) as (r & Hr & Hb); [now rewrite firstn_all|].
  exists r. split; [exact Hr|]. unfold displacements. rewrite displacements_nth by lia. exact Hb.
Qed.

(** The gather itself. *)
Section Gather.
Context {T : Type}.
Implicit Types (buf : list T) (sends : list (list T)).

Lemma write_at_length buf off data : off + length data <= length buf ->
  length (write_at buf off data) = length buf.
Proof.
  intro H. unfold write_at. rewrite !app_length, firstn_length, skipn_length. lia.
Qed.

Lemma nth_firstn_ (l : list T) a i d : i < a -> nth i (firstn a l) d = nth i l d.
Proof.
  revert a i; induction l as [|x l IH]; intros a i H; [now rewrite firstn_nil|].
  destruct a; [lia|]. destruct i; cbn; [reflexivity|]. apply IH. lia.
Qed.
Lemma nth_skipn_ (l : list T) a i d : nth i (skipn a l) d = nth (a + i) l d.
Proof.
  revert a; induction l as [|x l IH]; intros a; [destruct a, i; reflexivity|].
  destruct a; cbn; [reflexivity|apply IH].
Qed.

Lemma write_at_nth buf off data i d : off + length data <= length buf ->
  nth i (write_at buf off data) d =
    if (off <=? i) && (i <? off + length data) then nth (i - off) data d else nth i buf d.
Proof.
  intro H. unfold write_at. assert (Hf : length (firstn off buf) = off) by (rewrite firstn_length; lia).
  destruct (Nat.leb_spec off i); cbn [andb].
  - rewrite app_nth2 by lia. rewrite Hf. destruct (Nat.ltb_spec i (off + length data)).
    + now rewrite app_nth1 by lia.
    + rewrite app_nth2 by lia. rewrite nth_skipn_. f_equal. lia.
  - rewrite app_nth1 by lia. apply nth_firstn_. lia.
Qed.

Lemma length_concat_ sends : length (concat sends) = list_sum (map (@length T) sends).
Proof. induction sends as [|s l IH]; cbn; [reflexivity|]. now rewrite app_length, IH. Qed.

Lemma concat_nth sends : forall r i d, r < length sends -> i < length (nth r sends []) ->
  nth (list_sum (firstn r (map (@length T) sends)) + i) (concat sends) d = nth i (nth r sends []) d.
Proof.
  induction sends as [|s l IH]; intros r i d Hr Hi; cbn in Hr; [lia|].
  destruct r as [|r]; cbn [map firstn nth concat] in *.
  - cbn. now rewrite app_nth1.
  - cbn [list_sum fold_right]. rewrite app_nth2 by lia.
    replace (length s + fold_right Nat.add 0 (firstn r (map (@length T) l)) + i - length s)
      with (list_sum (firstn r (map (@length T) l)) + i) by (unfold list_sum; lia).
    apply IH; [lia|exact Hi].
Qed.

Lemma map_nth_length sends r : nth r (map (@length T) sends) 0 = length (nth r sends []).
Proof. now rewrite <- (map_nth (@length T)). Qed.

(** After writing the ranks of [done] in any order, slots of these ranks hold
    their data. *)
Lemma gather_prefix junk sends order d :
  length junk = list_sum (map (@length T) sends) ->
  (forall r, In r order -> r < length sends) ->
  let out := gather_varcount junk sends order in
  length out = length junk
  /\ forall r i, In r order -> i < length (nth r sends []) ->
       nth (nth r (displacements (map (@length T) sends)) 0 + i) out d = nth i (nth r sends []) d.
Proof.
  intros Hj Ho. cbv zeta. unfold gather_varcount.
  set (cs := map (@length T) sends) in *.
  assert (Hcl : length cs = length sends) by apply map_length.
  rewrite <- (rev_involutive order) in *. set (ro := rev order) in *. clearbody ro.
  induction ro as [|q ro IH].
  - cbn. split; [reflexivity|]. intros r i [].
  - cbn [rev] in *. rewrite fold_left_app. cbn [fold_left].
    destruct IH as [IHl IHn]; [intros r Hr; apply Ho, in_app_iff; now left|].
    set (buf := fold_left _ (rev ro) junk) in *.
    assert (Hq : q < length sends) by (apply Ho, in_app_iff; right; now left).
    assert (Hin : nth q (displacements cs) 0 + length (nth q sends []) <= length buf).
    { rewrite IHl, Hj. rewrite <- map_nth_length. apply slots_inside. lia. }
    split; [now rewrite write_at_length|].
    intros r i Hr Hi. rewrite write_at_nth by assumption.
    destruct (Nat.eq_dec r q) as [->|Hne].
    + destruct (Nat.leb_spec (nth q (displacements cs) 0) (nth q (displacements cs) 0 + i)); [|lia].
      destruct (Nat.ltb_spec (nth q (displacements cs) 0 + i)
                  (nth q (displacements cs) 0 + length (nth q sends []))); [|lia].
      cbn [andb]. f_equal. lia.
    + assert (Hr' : In r (rev ro)) by (apply in_app_iff in Hr; destruct Hr as [?|[?|[]]]; congruence).
      assert (Hrl : r < length sends) by (apply Ho, in_app_iff; now left).
      assert (Hout : (nth q (displacements cs) 0 <=? nth r (displacements cs) 0 + i)
                && (nth r (displacements cs) 0 + i <? nth q (displacements cs) 0 + length (nth q sends []))
                = false).
      { rewrite <- map_nth_length in Hi |- *. fold cs in Hi |- *.
        destruct (Nat.lt_trichotomy r q) as [H|[H|H]]; [|contradiction|].
        - pose proof (slots_disjoint cs r q H ltac:(lia)).
          destruct (Nat.leb_spec (nth q (displacements cs) 0) (nth r (displacements cs) 0 + i)); [lia|reflexivity].
        - pose proof (slots_disjoint cs q r H ltac:(lia)).
          destruct (Nat.ltb_spec (nth r (displacements cs) 0 + i)
                      (nth q (displacements cs) 0 + nth q cs 0)); [lia|].
          apply Bool.andb_false_r. }
      rewrite Hout. now apply IHn.
Qed.

Lemma gather_concat junk sends order :
  length junk = list_sum (map (@length T) sends) ->
  Permutation order (seq 0 (length sends)) ->
  gather_varcount junk sends order = concat sends.
Proof.
  intros Hj Hp.
  assert (Ho : forall r, In r order <-> r < length sends).
  { intro r. rewrite (Permutation_in' eq_refl Hp). rewrite in_seq. lia. }
  destruct junk as [|d jk].
  - 
    assert (Hlen : length (gather_varcount [] sends order) = 0).
    { destruct sends as [|s l].
      - cbn in Hp. apply Permutation_sym, Permutation_nil in Hp. now subst.
      - destruct (concat (s :: l)) as [|d ?] eqn:E.
        + unfold gather_varcount. assert (Hall : forall r, nth r (s :: l) [] = []).
          { intro r. assert (Hlc := length_concat_ (s :: l)). rewrite E in Hlc. cbn [length] in Hlc.
            destruct (Nat.lt_ge_cases r (length (s :: l))) as [Hr|Hr]; [|now apply nth_overflow].
            pose proof (slots_inside (map (@length T) (s :: l)) r ltac:(now rewrite map_length)) as Hs.
            rewrite map_nth_length in Hs. destruct (nth r (s :: l) []); [reflexivity|cbn in Hs, Hlc |- *; lia]. }
          clear - Hall. induction order as [|q o IH]; [reflexivity|]. cbn [fold_left].
          rewrite Hall. unfold write_at at 2. rewrite firstn_nil, skipn_nil. exact IH.
        + exfalso. assert (Hlc := length_concat_ (s :: l)). rewrite E, <- Hj in Hlc. discriminate. }
    destruct (gather_varcount [] sends order); [|discriminate].
    assert (Hlc := length_concat_ sends). rewrite <- Hj in Hlc.
    destruct (concat sends); [reflexivity|discriminate].
  - destruct (gather_prefix (d :: jk) sends order d Hj) as [Hl Hn]; [intros r Hr; now apply Ho|].
    apply (nth_ext _ _ d d).
    + now rewrite Hl, Hj, length_concat_.
    + intros i Hi. rewrite Hl, Hj in Hi.
      destruct (slots_cover _ i Hi) as (r & Hr & Hb). rewrite map_length in Hr.
      rewrite map_nth_length in Hb.
      set (o := nth r (displacements (map (@length T) sends)) 0) in *.
      replace i with (o + (i - o)) by lia. unfold o at 1. rewrite Hn; [|now apply Ho|lia].
      unfold o. unfold displacements. rewrite !displacements_nth by (now rewrite map_length).
      rewrite Nat.add_0_l. rewrite concat_nth; [reflexivity|exact Hr|].
      unfold o, displacements in Hb. rewrite displacements_nth in Hb by (now rewrite map_length). lia.
Qed.
End Gather.
