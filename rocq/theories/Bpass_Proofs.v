(** Proofs about the interpolation in a table. *)
From Coq Require Import List Arith Lia ZArith QArith Qfield Lqa Bool.
Import ListNotations.
From Verif Require Import Bpass_Table Bpass_Model Bpass_Spec.
Local Open Scope Q_scope.

(** ** The search *)

Lemma bs_spec bins x : increasing bins -> forall fuel l r,
  (l <= r)%nat -> (r <= length bins)%nat -> (r - l < fuel)%nat ->
  (forall j, (j < l)%nat -> nth j bins 0 < x) ->
  (forall j, (r <= j)%nat -> (j < length bins)%nat -> x < nth j bins 0) ->
  match bs_loop fuel bins x l r with
  | inl i => (i < length bins)%nat /\ nth i bins 0 == x
  | inr i => (i <= length bins)%nat /\ (forall j, (j < i)%nat -> nth j bins 0 < x)
      /\ (forall j, (i <= j)%nat -> (j < length bins)%nat -> x < nth j bins 0)
  end.
Proof.
  intro Hinc. induction fuel as [|fuel IH]; intros l r H1 H2 Hf HL HR; [lia|].
  cbn [bs_loop]. destruct (Nat.ltb_spec l r) as [Hlr|Hlr].
  - set (mid := (l + (r - l) / 2)%nat).
    assert (Hm : (l <= mid < r)%nat).
    { unfold mid. assert ((r - l) / 2 < r - l)%nat by (apply Nat.div_lt; lia). lia. }
    destruct (Qcompare_spec (nth mid bins 0) x) as [E|E|E].
    + split; [lia|exact E].
    + apply IH; try lia; [|exact HR].
      intros j Hj. destruct (Nat.eq_dec j mid) as [->|Hne]; [exact E|].
      eapply Qlt_trans; [apply (Hinc j mid); lia|exact E].
    + apply IH; try lia; [exact HL|].
      intros j Hj Hj2. destruct (Nat.eq_dec j mid) as [->|Hne]; [exact E|].
      eapply Qlt_trans; [exact E|]. apply (Hinc mid j); lia.
  - replace r with l in * by lia. auto.
Qed.

Lemma get_index_spec bins x : increasing bins -> (1 <= length bins)%nat ->
  nth 0 bins 0 <= x -> x < nth (length bins - 1) bins 0 ->
  exists i, get_index bins x = S i /\ enclosed bins i x.
Proof.
  intros Hinc Hlen H0 H1. unfold get_index.
  assert (B := bs_spec bins x Hinc (S (length bins)) 0 (length bins) ltac:(lia) ltac:(lia) ltac:(lia)
              ltac:(intros; lia) ltac:(intros; lia)).
  destruct (bs_loop (S (length bins)) bins x 0 (length bins)) as [i|i].
  - destruct B as [B1 B2]. exists i. split; [lia|].
    assert (Hi : (i < length bins - 1)%nat).
    { destruct (Nat.eq_dec i (length bins - 1)) as [->|]; [|lia]. exfalso. rewrite B2 in H1. exact (Qlt_irrefl _ H1). }
    split; [lia|]. split; [rewrite B2; apply Qle_refl|]. rewrite <- B2. apply Hinc; lia.
  - destruct B as (B1 & B2 & B3). destruct i as [|i].
    + exfalso. specialize (B3 0%nat ltac:(lia) ltac:(lia)). lra.
    + exists i. split; [reflexivity|].
      assert (Hi : (S i < length bins)%nat).
      { destruct (le_lt_dec (length bins) (S i)); [|lia]. exfalso. specialize (B2 (length bins - 1)%nat ltac:(lia)). lra. }
      split; [exact Hi|]. split; [apply Qlt_le_weak; apply B2; lia|]. apply B3; [lia|exact Hi].
Qed.

(** ** Clamping *)

Lemma clamp_spec x lo hi : lo <= hi -> exists y, clamp x lo hi = Some y /\ lo <= y /\ y <= hi
  /\ (x < lo -> y == lo) /\ (hi < x -> y == hi) /\ (lo <= x -> x <= hi -> y == x).
Proof.
  intro H. unfold clamp. assert (E : Qle_bool lo hi = true) by (apply Qle_bool_iff; exact H). rewrite E.
  destruct (Qle_bool lo x) eqn:E1.
  - apply Qle_bool_iff in E1. destruct (Qle_bool x hi) eqn:E2.
    + apply Qle_bool_iff in E2. exists x. repeat split; auto; intros; lra.
    + assert (hi < x) by (apply Qnot_le_lt; intro F; apply Qle_bool_iff in F; congruence).
      exists hi. repeat split; auto; intros; lra.
  - assert (x < lo) by (apply Qnot_le_lt; intro F; apply Qle_bool_iff in F; congruence).
    exists lo. repeat split; auto; intros; lra.
Qed.

(** The bins are positive and the range is wide enough for the narrowing. *)
Definition good_bins (bins : list Q) : Prop :=
  increasing bins /\ (1 <= length bins)%nat /\ 0 < nth 0 bins 0
  /\ nth 0 bins 0 * safety <= nth (length bins - 1) bins 0 / safety.

Lemma clamp_to_bins_spec bins x : good_bins bins ->
  exists y, clamp_to_bins bins x = Some y /\ limited bins safety x y
    /\ nth 0 bins 0 <= y /\ y < nth (length bins - 1) bins 0.
Proof.
  intros (Hinc & Hlen & Hpos & Hw). unfold clamp_to_bins.
  rewrite (nth_error_nth' bins 0) by lia. rewrite (nth_error_nth' bins 0) by lia.
  destruct (clamp_spec x _ _ Hw) as (y & E & A & B & C & D & F). exists y. split; [exact E|].
  split; [exact (conj C (conj D F))|].
  set (lo := nth 0 bins 0) in *. set (hi := nth (length bins - 1) bins 0) in *.
  assert (Hs : 1 < safety) by reflexivity.
  assert (Hlo : lo < lo * safety).
  { setoid_replace (lo * safety) with (lo + lo * (1 # 100000)) by (unfold safety; ring). lra. }
  assert (Hlo' : lo < hi / safety) by lra.
  assert (Hhi0 : 0 < hi / safety) by lra.
  assert (Hhi : hi / safety < hi).
  { setoid_replace hi with (hi / safety * safety) at 2 by (field; discriminate).
    setoid_replace (hi / safety * safety) with (hi / safety + hi / safety * (1 # 100000)) by (unfold safety; ring).
    assert (0 < hi / safety * (1 # 100000)) by (apply Qmult_lt_0_compat; [exact Hhi0|reflexivity]).
    generalize dependent (hi / safety). intros. lra. }
  split; [lra|]. eapply Qle_lt_trans; [exact B|exact Hhi].
Qed.

(** ** Interpolation *)

Lemma ratio_unit x1 x2 x : x1 < x2 -> x1 <= x -> x <= x2 ->
  0 <= (x - x1) / (x2 - x1) /\ (x - x1) / (x2 - x1) <= 1.
Proof.
  intros H1 H2 H3. split.
  - apply Qle_shift_div_l; lra.
  - apply Qle_shift_div_r; lra.
Qed.

Lemma interpolate_between x1 x2 y1 y2 x : x1 < x2 -> x1 <= x -> x <= x2 ->
  (y1 <= linear_interpolate x1 x2 y1 y2 x \/ y2 <= linear_interpolate x1 x2 y1 y2 x)
  /\ (linear_interpolate x1 x2 y1 y2 x <= y1 \/ linear_interpolate x1 x2 y1 y2 x <= y2).
Proof.
  intros H1 H2 H3. destruct (ratio_unit x1 x2 x H1 H2 H3) as [U1 U2]. unfold linear_interpolate.
  generalize dependent ((x - x1) / (x2 - x1)). intros u U1 U2.
  destruct (Qlt_le_dec y1 y2) as [L|L].
  - split; [left|right]; nra.
  - split; [right|left]; nra.
Qed.

Lemma between4_trans a b c d l1 l2 v :
  (a <= l1 \/ b <= l1) /\ (l1 <= a \/ l1 <= b) -> (c <= l2 \/ d <= l2) /\ (l2 <= c \/ l2 <= d) ->
  (l1 <= v \/ l2 <= v) /\ (v <= l1 \/ v <= l2) -> between4 a b c d v.
Proof.
  intros [A1 A2] [B1 B2] [C1 C2]. split.
  - destruct C1 as [C|C]; [destruct A1 as [A|A]|destruct B1 as [A|A]].
    + left. lra.
    + right. left. lra.
    + right. right. left. lra.
    + right. right. right. lra.
  - destruct C2 as [C|C]; [destruct A2 as [A|A]|destruct B2 as [A|A]].
    + left. lra.
    + right. left. lra.
    + right. right. left. lra.
    + right. right. right. lra.
Qed.

(** ** The lookup *)

Section Lookup.
  Variables (ages metallicities : list Q) (tab : list (list Q)).
  Hypothesis Ha : good_bins ages.
  Hypothesis Hm : good_bins metallicities.
  Hypothesis Ht : table_size (length ages) (length metallicities) tab.

  Lemma row_ok i : (i < length ages)%nat -> nth_error tab i = Some (nth i tab [])
    /\ length (nth i tab []) = length metallicities.
  Proof.
    destruct Ht as [H1 H2]. intro Hi. split; [apply nth_error_nth'; lia|]. apply H2. apply nth_In. lia.
  Qed.

  Lemma lookup_value age metallicity : exists age' metallicity' i j,
    limited ages safety age age' /\ limited metallicities safety metallicity metallicity'
    /\ enclosed ages i age' /\ enclosed metallicities j metallicity'
    /\ let l1 := linear_interpolate (nth i ages 0) (nth (S i) ages 0) (entry tab i j) (entry tab (S i) j) age' in
       let l2 := linear_interpolate (nth i ages 0) (nth (S i) ages 0) (entry tab i (S j)) (entry tab (S i) (S j)) age' in
       lookup_in ages metallicities tab age metallicity
       = Some (linear_interpolate (nth j metallicities 0) (nth (S j) metallicities 0) l1 l2 metallicity').
  Proof.
    unfold lookup_in.
    destruct (clamp_to_bins_spec ages age Ha) as (age' & E1 & L1 & A1 & A2). rewrite E1.
    destruct (clamp_to_bins_spec metallicities metallicity Hm) as (met' & E2 & L2 & B1 & B2). rewrite E2.
    destruct (get_index_spec ages age') as (i & Ei & Ni); [apply Ha|apply Ha|exact A1|exact A2|].
    destruct (get_index_spec metallicities met') as (j & Ej & Nj); [apply Hm|apply Hm|exact B1|exact B2|].
    exists age', met', i, j. split; [exact L1|]. split; [exact L2|]. split; [exact Ni|]. split; [exact Nj|].
    rewrite Ei, Ej. cbn [before]. destruct Ni as [Ni _], Nj as [Nj _].
    rewrite (nth_error_nth' ages 0) by lia. rewrite (nth_error_nth' ages 0) by lia.
    rewrite (nth_error_nth' metallicities 0) by lia. rewrite (nth_error_nth' metallicities 0) by lia.
    destruct (row_ok i ltac:(lia)) as [R1 S1]. destruct (row_ok (S i) ltac:(lia)) as [R2 S2]. rewrite R1, R2.
    rewrite (nth_error_nth' (nth i tab []) 0) by lia. rewrite (nth_error_nth' (nth (S i) tab []) 0) by lia.
    rewrite (nth_error_nth' (nth i tab []) 0) by lia. rewrite (nth_error_nth' (nth (S i) tab []) 0) by lia.
    reflexivity.
  Qed.

  Lemma enclosed_strict bins i x : increasing bins -> enclosed bins i x -> nth i bins 0 < nth (S i) bins 0 /\ nth i bins 0 <= x /\ x <= nth (S i) bins 0.
  Proof. intros Hi (A & B & C). split; [apply Hi; lia|]. split; [exact B|]. apply Qlt_le_weak. exact C. Qed.

  Theorem lookup_spec age metallicity : exists age' metallicity' i j v,
    limited ages safety age age' /\ limited metallicities safety metallicity metallicity'
    /\ enclosed ages i age' /\ enclosed metallicities j metallicity'
    /\ lookup_in ages metallicities tab age metallicity = Some v
    /\ between4 (entry tab i j) (entry tab (S i) j) (entry tab i (S j)) (entry tab (S i) (S j)) v
    /\ exists u w, 0 <= u /\ u <= 1 /\ 0 <= w /\ w <= 1
       /\ age' == (1 - u) * nth i ages 0 + u * nth (S i) ages 0
       /\ metallicity' == (1 - w) * nth j metallicities 0 + w * nth (S j) metallicities 0
       /\ v == (1 - u) * (1 - w) * entry tab i j + u * (1 - w) * entry tab (S i) j
               + (1 - u) * w * entry tab i (S j) + u * w * entry tab (S i) (S j).
  Proof.
    destruct (lookup_value age metallicity) as (age' & met' & i & j & L1 & L2 & N1 & N2 & E). cbv zeta in E.
    destruct (enclosed_strict ages i age' (proj1 Ha) N1) as (P1 & P2 & P3).
    destruct (enclosed_strict metallicities j met' (proj1 Hm) N2) as (Q1 & Q2 & Q3).
    eexists age', met', i, j, _. split; [exact L1|]. split; [exact L2|]. split; [exact N1|]. split; [exact N2|].
    split; [exact E|]. split.
    - eapply between4_trans; apply interpolate_between; assumption.
    - destruct (ratio_unit _ _ _ P1 P2 P3) as [U1 U2]. destruct (ratio_unit _ _ _ Q1 Q2 Q3) as [W1 W2].
      exists ((age' - nth i ages 0) / (nth (S i) ages 0 - nth i ages 0)),
             ((met' - nth j metallicities 0) / (nth (S j) metallicities 0 - nth j metallicities 0)).
      repeat (split; [assumption|]). split; [field; lra|]. split; [field; lra|].
      unfold linear_interpolate. ring.
  Qed.
End Lookup.

(** ** The tables of the code *)

Definition increasing_b (bins : list Q) : bool :=
  forallb (fun i => forallb (fun j => negb (i <? j)%nat || negb (Qle_bool (nth j bins 0) (nth i bins 0)))
                            (seq 0 (length bins))) (seq 0 (length bins)).

Lemma increasing_b_sound bins : increasing_b bins = true -> increasing bins.
Proof.
  intros H i j Hij Hj. unfold increasing_b in H. rewrite forallb_forall in H.
  specialize (H i ltac:(apply in_seq; lia)). rewrite forallb_forall in H. specialize (H j ltac:(apply in_seq; lia)).
  apply orb_true_iff in H as [H|H]; apply negb_true_iff in H.
  - apply Nat.ltb_ge in H. lia.
  - apply Qnot_le_lt. intro F. apply Qle_bool_iff in F. congruence.
Qed.

Lemma age_bins_good : good_bins age_bins.
Proof.
  split; [apply increasing_b_sound; vm_compute; reflexivity|]. split; [cbn; lia|]. split; [vm_compute; reflexivity|].
  apply Qle_bool_iff. vm_compute. reflexivity.
Qed.

Lemma metallicity_bins_good : good_bins metallicity_bins.
Proof.
  split; [apply increasing_b_sound; vm_compute; reflexivity|]. split; [cbn; lia|]. split; [vm_compute; reflexivity|].
  apply Qle_bool_iff. vm_compute. reflexivity.
Qed.

Lemma table_good : table_size (length age_bins) (length metallicity_bins) table.
Proof.
  split; [reflexivity|].
  assert (H : forallb (fun row => (length row =? length metallicity_bins)%nat) table = true) by (vm_compute; reflexivity).
  intros row Hr. rewrite forallb_forall in H. apply Nat.eqb_eq. apply H. exact Hr.
Qed.

(** All entries are positive. *)
Lemma table_pos : forall i j, (i < length age_bins)%nat -> (j < length metallicity_bins)%nat -> 0 < entry table i j.
Proof.
  assert (H : forallb (fun i => forallb (fun j => negb (Qle_bool (entry table i j) 0)) (seq 0 (length metallicity_bins))) (seq 0 (length age_bins)) = true).
  { vm_compute. reflexivity. }
  intros i j Hi Hj. rewrite forallb_forall in H. specialize (H i ltac:(apply in_seq; lia)).
  rewrite forallb_forall in H. specialize (H j ltac:(apply in_seq; lia)). apply negb_true_iff in H.
  apply Qnot_le_lt. intro F. apply Qle_bool_iff in F. congruence.
Qed.

Theorem bpass_spec age metallicity mass : exists age' metallicity' i j v,
  limited age_bins safety age age' /\ limited metallicity_bins safety metallicity metallicity'
  /\ enclosed age_bins i age' /\ enclosed metallicity_bins j metallicity'
  /\ bpass_lookup age metallicity mass = Some (v * mass)
  /\ between4 (entry table i j) (entry table (S i) j) (entry table i (S j)) (entry table (S i) (S j)) v
  /\ exists u w, 0 <= u /\ u <= 1 /\ 0 <= w /\ w <= 1
     /\ age' == (1 - u) * nth i age_bins 0 + u * nth (S i) age_bins 0
     /\ metallicity' == (1 - w) * nth j metallicity_bins 0 + w * nth (S j) metallicity_bins 0
     /\ v == (1 - u) * (1 - w) * entry table i j + u * (1 - w) * entry table (S i) j
             + (1 - u) * w * entry table i (S j) + u * w * entry table (S i) (S j).
Proof.
  destruct (lookup_spec age_bins metallicity_bins table age_bins_good metallicity_bins_good table_good age metallicity)
    as (age' & met' & i & j & v & A & B & C & D & E & F).
  exists age', met', i, j, v. split; [exact A|]. split; [exact B|]. split; [exact C|]. split; [exact D|].
  split; [|exact F]. unfold bpass_lookup. rewrite E. reflexivity.
Qed.

Theorem bpass_positive age metallicity mass : 0 < mass ->
  exists r, bpass_lookup age metallicity mass = Some r /\ 0 < r.
Proof.
  intro Hmass. destruct (bpass_spec age metallicity mass) as (age' & met' & i & j & v & _ & _ & (C & _) & (D & _) & E & [F _] & _).
  exists (v * mass). split; [exact E|]. apply Qmult_lt_0_compat; [|exact Hmass].
  assert (P1 := table_pos i j ltac:(lia) ltac:(lia)). assert (P2 := table_pos (S i) j C ltac:(lia)).
  assert (P3 := table_pos i (S j) ltac:(lia) D). assert (P4 := table_pos (S i) (S j) C D).
  destruct F as [F|[F|[F|F]]].
  - exact (Qlt_le_trans _ _ _ P1 F).
  - exact (Qlt_le_trans _ _ _ P2 F).
  - exact (Qlt_le_trans _ _ _ P3 F).
  - exact (Qlt_le_trans _ _ _ P4 F).
Qed.
