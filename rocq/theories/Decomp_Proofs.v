(** Proofs about the domain decomposition. *)
From Coq Require Import List Arith NArith ZArith Lia Sorted Bool ZifyN ZifyBool ZifyNat Zify.
Import ListNotations.
From Verif Require Import Decomp_Model Decomp_Spec.
Local Open Scope N_scope.
Ltac Zify.zify_post_hook ::= Z.div_mod_to_equations.

(** ** Binary search in a slice *)

Lemma bs_bounds fuel l key : forall left right, (left <= right)%nat ->
  match bs_loop fuel l key left right with
  | inl i => (left <= i < right)%nat
  | inr i => (left <= i <= right)%nat
  end.
Proof.
  induction fuel as [|fuel IH]; intros left right H; cbn [bs_loop]; [lia|].
  destruct (Nat.ltb_spec left right) as [Hlt|Hge]; [|lia].
  assert (Hm : (left <= left + (right - left) / 2 < right)%nat).
  { pose proof (Nat.div_lt (right - left) 2). lia. }
  set (mid := (left + (right - left) / 2)%nat) in *. clearbody mid.
  destruct (N.compare (nth mid l 0) key); [lia| |].
  - specialize (IH (mid + 1)%nat right ltac:(lia)).
    destruct (bs_loop fuel l key (mid + 1) right); lia.
  - specialize (IH left mid ltac:(lia)). destruct (bs_loop fuel l key left mid); lia.
Qed.

Lemma bs_bounds_idx fuel l key left right : (left <= right)%nat ->
  (left <= index_or_insert (bs_loop fuel l key left right)
   /\ index_or_insert (bs_loop fuel l key left right)
        <= after_or_insert (bs_loop fuel l key left right)
   /\ after_or_insert (bs_loop fuel l key left right) <= right)%nat.
Proof.
  intro H. pose proof (bs_bounds fuel l key left right H) as Hb.
  destruct (bs_loop fuel l key left right); cbn; lia.
Qed.

(** The search is monotone in the key whatever the slice contains. *)
Lemma bs_mono fuel l a b : a < b -> forall left right, (left <= right)%nat ->
  (after_or_insert (bs_loop fuel l a left right)
   <= index_or_insert (bs_loop fuel l b left right))%nat.
Proof.
  intro Hab. induction fuel as [|fuel IH]; intros left right H; cbn [bs_loop]; [cbn; lia|].
  destruct (Nat.ltb_spec left right) as [Hlt|Hge]; [|cbn; lia].
  assert (Hm : (left <= left + (right - left) / 2 < right)%nat).
  { pose proof (Nat.div_lt (right - left) 2). lia. }
  set (mid := (left + (right - left) / 2)%nat) in *. clearbody mid.
  pose proof (bs_bounds_idx fuel l a left mid ltac:(lia)) as Ba.
  pose proof (bs_bounds_idx fuel l b (mid + 1) right ltac:(lia)) as Bb.
  destruct (N.compare_spec (nth mid l 0) a), (N.compare_spec (nth mid l 0) b);
    try lia; cbn [after_or_insert index_or_insert]; try lia; apply IH; lia.
Qed.

Lemma search_mono l a b : a < b ->
  (after_or_insert (slice_binary_search l a) <= index_or_insert (slice_binary_search l b))%nat.
Proof. intro H. apply bs_mono; [exact H|lia]. Qed.

Lemma search_idx_le l a :
  (index_or_insert (slice_binary_search l a) <= after_or_insert (slice_binary_search l a)
   /\ after_or_insert (slice_binary_search l a) <= length l)%nat.
Proof.
  pose proof (bs_bounds_idx (S (length l)) l a 0 (length l) ltac:(lia)).
  unfold slice_binary_search. lia.
Qed.

Lemma owner_mono cuts a b : a <= b -> (owning_rank cuts a <= owning_rank cuts b)%nat.
Proof.
  intro H. unfold owning_rank. destruct (N.eq_dec a b) as [->|Hn]; [lia|].
  pose proof (search_mono cuts a b ltac:(lia)). pose proof (search_idx_le cuts b). lia.
Qed.

(** Below the last element the search does not run off the end. *)
Lemma bs_below_last fuel l key : key < last l 0 ->
  forall left right, (left < right)%nat -> (right <= length l)%nat ->
  (after_or_insert (bs_loop fuel l key left right) < length l)%nat.
Proof.
  intro Hk.
  assert (Hlast : forall m, S m = length l -> nth m l 0 = last l 0).
  { clear. induction l as [|x l IH]; [discriminate|]. intros m Hm. injection Hm as Hm.
    destruct l as [|y l]; cbn in Hm; subst; [reflexivity|].
    change (nth (length l) (y :: l) 0 = last (y :: l) 0). apply IH. reflexivity. }
  induction fuel as [|fuel IH]; intros left right Hlr Hr; cbn [bs_loop]; [cbn; lia|].
  destruct (Nat.ltb_spec left right) as [Hlt|Hge]; [|lia].
  assert (Hm : (left <= left + (right - left) / 2 < right)%nat).
  { pose proof (Nat.div_lt (right - left) 2). lia. }
  set (mid := (left + (right - left) / 2)%nat) in *. clearbody mid.
  destruct (N.compare_spec (nth mid l 0) key) as [E|E|E].
  - cbn. destruct (Nat.eq_dec (S mid) (length l)) as [Em|]; [|lia].
    rewrite (Hlast mid Em) in E. lia.
  - destruct (Nat.eq_dec (S mid) (length l)) as [Em|Hne].
    + rewrite (Hlast mid Em) in E. lia.
    + destruct (Nat.eq_dec (mid + 1) right) as [Er|].
      * pose proof (bs_bounds_idx fuel l key (mid + 1) right ltac:(lia)). lia.
      * apply IH; lia.
  - pose proof (bs_bounds_idx fuel l key left mid ltac:(lia)). lia.
Qed.

Lemma owner_below_last cuts k : k < last cuts 0 -> (owning_rank cuts k < length cuts)%nat.
Proof.
  intro H. unfold owning_rank. destruct cuts as [|c cs]; [cbn in H; lia|].
  apply bs_below_last; [exact H|cbn; lia|lia].
Qed.

(** Correctness on sorted slices without duplicates. *)
Lemma sorted_nth l : StronglySorted N.lt l -> forall i j, (i < j)%nat -> (j < length l)%nat ->
  nth i l 0 < nth j l 0.
Proof.
  induction 1 as [|x l Hs IH Hf]; intros i j Hij Hj; cbn in Hj; [lia|].
  destruct j as [|j]; [lia|]. destruct i as [|i]; cbn.
  - rewrite Forall_forall in Hf. apply Hf, nth_In. lia.
  - apply IH; lia.
Qed.

Lemma bs_sorted fuel l key : StronglySorted N.lt l ->
  forall left right, (left <= right)%nat -> (right <= length l)%nat -> (right - left < fuel)%nat ->
  (forall i, (i < left)%nat -> nth i l 0 < key) ->
  (forall i, (right <= i < length l)%nat -> key < nth i l 0) ->
  match bs_loop fuel l key left right with
  | inl i => (i < length l)%nat /\ nth i l 0 = key
  | inr i => (i <= length l)%nat /\ (forall j, (j < i)%nat -> nth j l 0 < key)
             /\ (forall j, (i <= j < length l)%nat -> key < nth j l 0)
  end.
Proof.
  intro Hs. induction fuel as [|fuel IH]; intros left right Hlr Hr Hf Hl Hg; [lia|].
  cbn [bs_loop]. destruct (Nat.ltb_spec left right) as [Hlt|Hge].
  2:{ split; [lia|]. split; [exact Hl|]. intros j Hj. apply Hg. lia. }
  assert (Hm : (left <= left + (right - left) / 2 < right)%nat).
  { pose proof (Nat.div_lt (right - left) 2). lia. }
  set (mid := (left + (right - left) / 2)%nat) in *. clearbody mid.
  destruct (N.compare_spec (nth mid l 0) key) as [E|E|E].
  - split; [lia|exact E].
  - apply IH; try lia; [|exact Hg]. intros i Hi.
    destruct (Nat.eq_dec i mid) as [->|]; [exact E|].
    pose proof (sorted_nth l Hs i mid ltac:(lia) ltac:(lia)). lia.
  - apply IH; try lia; [exact Hl|]. intros i Hi.
    destruct (Nat.eq_dec i mid) as [->|]; [exact E|].
    pose proof (sorted_nth l Hs mid i ltac:(lia) ltac:(lia)). lia.
Qed.

Lemma filter_prefix (l : list N) p m :
  (m <= length l)%nat ->
  (forall i, (i < m)%nat -> p (nth i l 0) = true) ->
  (forall i, (m <= i < length l)%nat -> p (nth i l 0) = false) ->
  length (filter p l) = m.
Proof.
  revert m. induction l as [|x l IH]; intros m Hm Ht Hf; cbn in *; [lia|].
  destruct m as [|m].
  - rewrite (Hf 0%nat ltac:(lia)). apply IH; try lia.
    intros i Hi. apply (Hf (S i)). lia.
  - rewrite (Ht 0%nat ltac:(lia)). cbn. f_equal. apply IH; try lia.
    + intros i Hi. apply (Ht (S i)). lia.
    + intros i Hi. apply (Hf (S i)). lia.
Qed.

Definition count_lt (l : list N) (k : N) : nat := length (filter (fun c => c <? k) l).

Lemma search_sorted l key : StronglySorted N.lt l ->
  index_or_insert (slice_binary_search l key) = count_lt l key
  /\ after_or_insert (slice_binary_search l key) = count_le l key.
Proof.
  intro Hs. unfold slice_binary_search.
  pose proof (bs_sorted (S (length l)) l key Hs 0 (length l) ltac:(lia) ltac:(lia) ltac:(lia)
                ltac:(lia) ltac:(lia)) as H.
  destruct (bs_loop (S (length l)) l key 0 (length l)) as [i|i]; cbn.
  - destruct H as [Hi E]. split; symmetry.
    + apply filter_prefix; [lia| |].
      * intros j Hj. pose proof (sorted_nth l Hs j i Hj Hi). lia.
      * intros j Hj. destruct (Nat.eq_dec j i) as [->|]; [lia|].
        pose proof (sorted_nth l Hs i j ltac:(lia) ltac:(lia)). lia.
    + apply filter_prefix; [lia| |].
      * intros j Hj. destruct (Nat.eq_dec j i) as [->|]; [lia|].
        pose proof (sorted_nth l Hs j i ltac:(lia) Hi). lia.
      * intros j Hj. pose proof (sorted_nth l Hs i j ltac:(lia) ltac:(lia)). lia.
  - destruct H as (Hi & H1 & H2). split; symmetry; (apply filter_prefix; [lia| |]).
    + intros j Hj. specialize (H1 j Hj). lia.
    + intros j Hj. specialize (H2 j Hj). lia.
    + intros j Hj. specialize (H1 j Hj). lia.
    + intros j Hj. specialize (H2 j Hj). lia.
Qed.

(** ** The cut search *)

Lemma middle_bounds a b : N.min a b - 1 <= middle a b /\ middle a b <= N.max a b.
Proof. unfold middle. lia. Qed.

(** [fuel] recursive calls suffice when they reach the maximal depth. *)
Lemma cut_search_fuel fuel maxd (load : N -> option N) target :
  (forall k, load k <> None) -> forall start end_ depth,
  (fuel + depth = maxd)%nat ->
  exists c, cut_search fuel maxd load target start end_ depth = inl c.
Proof.
  intro Hl. induction fuel as [|fuel IH]; intros start end_ depth Hd; cbn [cut_search];
    destruct (load (middle start end_)) as [l|] eqn:E; try (now apply Hl in E);
    unfold get_search_result.
  - assert (Eq : (depth =? maxd)%nat = true) by (apply Nat.eqb_eq; lia). rewrite Eq.
    now exists (middle start end_).
  - destruct (depth =? maxd)%nat eqn:Ed; [now exists (middle start end_)|].
    destruct (l ?= target); [now exists (middle start end_)| |]; apply IH; lia.
Qed.

(** Distance covered by a bracket; the bracket may be inverted by one key. *)
Definition width (a b : N) : N := b - a.

Lemma width_halves a b : width (middle a b) b <= width a b / 2 + 1
  /\ width a (middle a b) <= width a b / 2.
Proof. unfold width, middle. lia. Qed.

Lemma div_pow w d : w / 2 ^ N.of_nat (S d) = w / 2 / 2 ^ N.of_nat d.
Proof.
  rewrite Nat2N.inj_succ, N.pow_succ_r by lia.
  rewrite N.div_div by (try lia; apply N.pow_nonzero; lia). reflexivity.
Qed.

Lemma div_pow_step w w' d : w' <= w / 2 + 1 ->
  w' / 2 ^ N.of_nat d + 2 <= w / 2 ^ N.of_nat (S d) + 3.
Proof.
  intro H. rewrite div_pow. set (p := 2 ^ N.of_nat d).
  assert (Hp : 1 <= p) by (unfold p; pose proof (N.pow_nonzero 2 (N.of_nat d)); lia).
  assert (w' / p <= (w / 2 + p) / p) by (apply N.div_le_mono; lia).
  replace (w / 2 + p) with (w / 2 + 1 * p) in H0 by lia.
  rewrite N.div_add in H0 by lia. lia.
Qed.

(** Remaining width after [d] more halvings: [(w - 2) / 2^d + 2] rounded up. *)
Definition remaining (w : N) (d : nat) : N := w / 2 ^ N.of_nat d + 2.

Lemma cut_search_bracket fuel maxd (load : N -> N) target start0 end0 :
  forall start end_ depth c bound,
  (fuel + depth = maxd)%nat ->
  (start = start0 \/ load start < target) -> (end_ = end0 \/ target < load end_) ->
  (end_ + 1 >= start) ->
  width start end_ <= bound * 2 ^ N.of_nat fuel + 2 ->
  cut_search fuel maxd (fun k => Some (load k)) target start end_ depth = inl c ->
  load c = target \/
  exists lo hi, (lo = start0 \/ load lo < target) /\ (hi = end0 \/ target < load hi)
    /\ lo <= c + 1 /\ c <= N.max lo hi /\ lo <= hi + 1 /\ hi - lo <= bound + 2.
Proof.
  induction fuel as [|fuel IH]; intros start end_ depth c bound Hd Hlo Hhi Hord Hw E;
    cbn [cut_search] in E; unfold get_search_result in E.
  - assert (Ed : (depth =? maxd)%nat = true) by (apply Nat.eqb_eq; lia). rewrite Ed in E.
    injection E as <-. right. exists start, end_.
    pose proof (middle_bounds start end_). cbn in Hw. unfold width in Hw.
    repeat split; auto; unfold middle in *; lia.
  - destruct (depth =? maxd)%nat eqn:Ed; [apply Nat.eqb_eq in Ed; lia|].
    destruct (width_halves start end_) as [W1 W2].
    rewrite Nat2N.inj_succ, N.pow_succ_r in Hw by lia.
    assert (Hh : width start end_ / 2 + 1 <= bound * 2 ^ N.of_nat fuel + 2).
    { set (p := bound * 2 ^ N.of_nat fuel).
      replace (bound * (2 * 2 ^ N.of_nat fuel)) with (2 * p) in Hw by (unfold p; lia).
      clear - Hw. lia. }
    destruct (N.compare_spec (load (middle start end_)) target) as [H|H|H].
    + injection E as <-. now left.
    + apply (IH (middle start end_) end_ (S depth) c bound); auto; try lia.
      unfold middle. lia.
    + apply (IH start (middle start end_) (S depth) c bound); auto; try lia.
      unfold middle. lia.
Qed.

(** The cut is within [(end - start) / 2^maxd + 4] keys of the first key reaching
    the target. *)
Lemma cut_near_jump maxd (load : N -> N) target start end_ c j :
  monotone load -> start <= end_ ->
  load start < target -> target < load end_ ->
  first_reaching load target j ->
  cut_search maxd maxd (fun k => Some (load k)) target start end_ 0 = inl c ->
  load c = target \/
  (j <= c + ((end_ - start) / 2 ^ N.of_nat maxd + 4)
   /\ c <= j + ((end_ - start) / 2 ^ N.of_nat maxd + 4)).
Proof.
  intros Hm Hse Hs He [Hj1 Hj2] E.
  set (bound := (end_ - start) / 2 ^ N.of_nat maxd + 1).
  assert (Hp : 2 ^ N.of_nat maxd <> 0) by (apply N.pow_nonzero; lia).
  destruct (cut_search_bracket maxd maxd load target start end_ start end_ 0 c bound) as [H|H];
    auto; try lia.
  - unfold width, bound. pose proof (N.div_mod (end_ - start) (2 ^ N.of_nat maxd) Hp).
    pose proof (N.mod_lt (end_ - start) (2 ^ N.of_nat maxd) Hp).
    set (q := (end_ - start) / 2 ^ N.of_nat maxd) in *.
    set (p := 2 ^ N.of_nat maxd) in *. nia.
  - right. destruct H as (lo & hi & Hlo & Hhi & H1 & H2 & H3 & H4).
    assert (Llo : load lo < target) by (destruct Hlo as [->|]; assumption).
    assert (Lhi : target < load hi) by (destruct Hhi as [->|]; assumption).
    assert (Hlj : lo < j).
    { destruct (N.lt_ge_cases lo j) as [|Hge]; [assumption|].
      pose proof (Hm j lo Hge). lia. }
    assert (Hjh : j <= hi).
    { destruct (N.le_gt_cases j hi) as [|Hgt]; [assumption|].
      specialize (Hj2 hi Hgt). lia. }
    fold bound. unfold bound in *. lia.
Qed.

(** ** Owning ranks *)

Lemma segments_length kmax maxd keys m : forall target maxkey start segs,
  segments_loop kmax maxd keys m target maxkey start = Some segs ->
  length segs = S m /\ last (map snd segs) 0 = next kmax maxkey.
Proof.
  induction m as [|m IH]; intros target maxkey start segs E; cbn [segments_loop] in E.
  - injection E as <-. split; reflexivity.
  - destruct (find_cut maxd keys target maxkey start) as [c|]; [|discriminate].
    destruct (segments_loop kmax maxd keys m target maxkey c) as [s|] eqn:Es; [|discriminate].
    injection E as <-. destruct (IH _ _ _ _ Es) as [Hl Hla]. split; [cbn; lia|].
    cbn [map]. destruct s as [|s0 s]; [discriminate|]. exact Hla.
Qed.

Lemma decompose_owner kmax maxd keys n cuts loads hi :
  par_max keys = Some hi -> hi <> kmax ->
  decompose kmax maxd keys n = Some (cuts, loads) ->
  length cuts = n /\ interval_ownership (owning_rank cuts) n hi.
Proof.
  intros Hhi Hk E. unfold decompose in E. destruct n as [|m]; [discriminate|].
  destruct (par_min keys) as [lo|]; [|discriminate]. rewrite Hhi in E.
  destruct (par_load keys lo (next kmax hi)) as [total|]; [|discriminate].
  destruct (segments_loop kmax maxd keys m (total / N.of_nat (S m)) hi lo) as [segs|] eqn:Es;
    [|discriminate].
  destruct (opt_all _ segs) as [ls|]; [|discriminate]. injection E as <- <-.
  destruct (segments_length _ _ _ _ _ _ _ _ Es) as [Hl Hla].
  assert (Hcl : length (map snd segs) = S m) by now rewrite map_length.
  split; [exact Hcl|]. split; [|split].
  - intros k Hkh. rewrite <- Hcl. apply owner_below_last. rewrite Hla. unfold next.
    destruct (N.eqb_spec hi kmax); [contradiction|lia].
  - intros a b Hab. now apply owner_mono.
  - intros a b c Hab Hbc Eac. pose proof (owner_mono (map snd segs) a b Hab).
    pose proof (owner_mono (map snd segs) b c Hbc). lia.
Qed.

(** With increasing cuts, rank [r] owns the keys from cut [r-1] up to, not
    including, cut [r]. *)
Lemma owner_sorted cuts k : StronglySorted N.lt cuts -> owning_rank cuts k = count_le cuts k.
Proof. intro H. exact (proj2 (search_sorted cuts k H)). Qed.

(** ** Success of the decomposition *)

Lemma opt_all_some {A B} (f : A -> option B) l : (forall x, In x l -> f x <> None) ->
  exists r, opt_all f l = Some r /\ length r = length l.
Proof.
  induction l as [|x l IH]; intro H; [now exists []|]. cbn.
  destruct (f x) as [y|] eqn:E; [|exfalso; apply (H x); [now left|exact E]].
  destruct IH as (r & -> & Hl); [intros z Hz; apply H; now right|].
  exists (y :: r). cbn. auto.
Qed.

Lemma opt_all_in {A B} (f : A -> option B) l r : opt_all f l = Some r ->
  forall y, In y r -> exists x, In x l /\ f x = Some y.
Proof.
  revert r. induction l as [|x l IH]; intros r E y Hy; cbn in E.
  - injection E as <-. destruct Hy.
  - destruct (f x) as [z|] eqn:Ef; [|discriminate].
    destruct (opt_all f l) as [r'|]; [|discriminate]. injection E as <-.
    destruct Hy as [->|Hy]; [exists x; split; [now left|exact Ef]|].
    destruct (IH r' eq_refl y Hy) as (x' & Hx & Ex). exists x'. split; [now right|exact Ex].
Qed.

Lemma key_load_some keys start end_ : StronglySorted N.lt keys -> start <= end_ + 1 ->
  key_load keys start end_ <> None.
Proof.
  intros Hs H. unfold key_load. rewrite (proj1 (search_sorted keys start Hs)),
    (proj2 (search_sorted keys end_ Hs)).
  assert (Hle : (count_lt keys start <= count_le keys end_)%nat).
  { unfold count_lt, count_le. clear Hs. induction keys as [|k keys IH]; [cbn; lia|].
    cbn. destruct (N.ltb_spec k start), (N.leb_spec k end_); cbn; lia. }
  destruct (Nat.ltb_spec (count_le keys end_) (count_lt keys start)); [lia|discriminate].
Qed.

(** On keys without duplicates the load is the number of keys in the closed
    range. *)
Lemma key_load_count keys start end_ l : StronglySorted N.lt keys -> start <= end_ + 1 ->
  key_load keys start end_ = Some l ->
  l = N.of_nat (length (filter (fun k => (start <=? k) && (k <=? end_)) keys)).
Proof.
  intros Hs H. unfold key_load. rewrite (proj1 (search_sorted keys start Hs)),
    (proj2 (search_sorted keys end_ Hs)).
  destruct (Nat.ltb_spec (count_le keys end_) (count_lt keys start)); [discriminate|].
  intro E. injection E as <-. f_equal. clear H0.
  unfold count_lt, count_le. clear Hs.
  assert (Hx : (length (filter (fun c => (c <=? end_)%N) keys)
    = length (filter (fun c => (c <? start)%N) keys)
      + length (filter (fun k => ((start <=? k) && (k <=? end_))%N) keys))%nat).
  { induction keys as [|k keys IH]; [reflexivity|].
    cbn [filter]. destruct (N.ltb_spec k start), (N.leb_spec k end_), (N.leb_spec start k);
      cbn [andb length]; lia. }
  lia.
Qed.

Lemma par_load_some keys start end_ :
  Forall (StronglySorted N.lt) keys -> start <= end_ + 1 -> par_load keys start end_ <> None.
Proof.
  intros Hs H. unfold par_load. rewrite Forall_forall in Hs.
  destruct (opt_all_some (fun k => key_load k start end_) keys) as (r & -> & _); [|discriminate].
  intros k Hk. apply key_load_some; auto.
Qed.

Lemma cut_search_total fuel maxd (load : N -> option N) target b hi :
  (forall k, 2 * b <= k -> k <= hi -> load k <> None) ->
  forall start end_ depth, (fuel + depth = maxd)%nat ->
  2 * b <= start <= hi -> 2 * b <= end_ <= hi ->
  exists c, cut_search fuel maxd load target start end_ depth = inl c /\ 2 * b <= c <= hi.
Proof.
  intros Hl. induction fuel as [|fuel IH]; intros start end_ depth Hd Hst Hen;
    cbn [cut_search];
    assert (Hm : 2 * b <= middle start end_ <= hi) by (unfold middle; lia);
    destruct (load (middle start end_)) as [l|] eqn:E;
      try (exfalso; apply (Hl (middle start end_)); [lia|lia|exact E]);
      unfold get_search_result.
  - assert (Eq : (depth =? maxd)%nat = true) by (apply Nat.eqb_eq; lia). rewrite Eq.
    now exists (middle start end_).
  - destruct (depth =? maxd)%nat eqn:Ed; [now exists (middle start end_)|].
    destruct (l ?= target); [now exists (middle start end_)| |]; apply IH; lia.
Qed.

Lemma find_cut_some maxd keys target maxkey start :
  Forall (StronglySorted N.lt) keys -> start <= maxkey ->
  exists c, find_cut maxd keys target maxkey start = Some c /\ start <= c + 1 /\ c <= maxkey.
Proof.
  intros Hs Hle. unfold find_cut.
  destruct (cut_search_total maxd maxd (fun cut => par_load keys start cut) target
              (start / 2) maxkey) with (start := start) (end_ := maxkey) (depth := 0%nat)
    as (c & E & Hc); try lia.
  - intros k H1 H2. apply par_load_some; [exact Hs|lia].
  - rewrite E. exists c. split; [reflexivity|]. lia.
Qed.

Lemma segments_some kmax maxd keys m : Forall (StronglySorted N.lt) keys ->
  forall target maxkey start, start <= maxkey ->
  exists segs, segments_loop kmax maxd keys m target maxkey start = Some segs
    /\ forall s, In s segs -> fst s <= snd s + 1.
Proof.
  intros Hs. induction m as [|m IH]; intros target maxkey start Hle; cbn [segments_loop].
  - eexists. split; [reflexivity|]. intros s [<-|[]]. cbn. unfold next.
    destruct (maxkey =? kmax); lia.
  - destruct (find_cut_some maxd keys target maxkey start Hs Hle) as (c & -> & H1 & H2).
    destruct (IH target maxkey c H2) as (segs & -> & Hseg).
    eexists. split; [reflexivity|]. intros s [<-|Hin]; [exact H1|now apply Hseg].
Qed.

Lemma list_min_some l : l <> [] -> exists x, list_min l = Some x /\ In x l
  /\ forall y, In y l -> x <= y.
Proof.
  destruct l as [|a l]; [congruence|]. intros _. cbn. eexists. split; [reflexivity|].
  revert a. induction l as [|b l IH]; intro a; cbn.
  - split; [now left|]. intros y [->|[]]. lia.
  - destruct (IH (N.min a b)) as [H1 H2]. split.
    + destruct H1 as [H1|H1]; [|right; now right].
      destruct (N.min_spec a b) as [[_ E]|[_ E]]; rewrite E in H1 |- *;
        [left|right; left]; exact H1.
    + intros y Hy. assert (Hab : fold_left N.min l (N.min a b) <= N.min a b)
        by (apply H2; now left).
      destruct Hy as [->|[->|Hy]]; [lia|lia|]. apply H2. now right.
Qed.

Lemma list_max_some l : l <> [] -> exists x, list_max l = Some x /\ In x l
  /\ forall y, In y l -> y <= x.
Proof.
  destruct l as [|a l]; [congruence|]. intros _. cbn. eexists. split; [reflexivity|].
  revert a. induction l as [|b l IH]; intro a; cbn.
  - split; [now left|]. intros y [->|[]]. lia.
  - destruct (IH (N.max a b)) as [H1 H2]. split.
    + destruct H1 as [H1|H1]; [|right; now right].
      destruct (N.max_spec a b) as [[_ E]|[_ E]]; rewrite E in H1 |- *;
        [right; left|left]; exact H1.
    + intros y Hy. assert (Hab : N.max a b <= fold_left N.max l (N.max a b))
        by (apply H2; now left).
      destruct Hy as [->|[->|Hy]]; [lia|lia|]. apply H2. now right.
Qed.

Lemma opt_all_exists {A B} (f : A -> option B) l r x : opt_all f l = Some r -> In x l ->
  exists y, f x = Some y /\ In y r.
Proof.
  revert r. induction l as [|a l IH]; intros r E Hx; [destruct Hx|]. cbn in E.
  destruct (f a) as [z|] eqn:Ef; [|discriminate].
  destruct (opt_all f l) as [r'|]; [|discriminate]. injection E as <-.
  destruct Hx as [->|Hx]; [exists z; split; [exact Ef|now left]|].
  destruct (IH r' eq_refl Hx) as (y & Ey & Hy). exists y. split; [exact Ey|now right].
Qed.

Lemma par_min_max keys : keys <> [] -> Forall (fun l => l <> []) keys ->
  exists lo hi, par_min keys = Some lo /\ par_max keys = Some hi /\ lo <= hi
    /\ (forall l k, In l keys -> In k l -> lo <= k <= hi)
    /\ (exists l, In l keys /\ In lo l) /\ (exists l, In l keys /\ In hi l).
Proof.
  intros Hk Hne. rewrite Forall_forall in Hne. unfold par_min, par_max.
  destruct (opt_all_some list_min keys) as (mins & Em & Lm).
  { intros l Hl. destruct (list_min_some l (Hne l Hl)) as (x & -> & _). discriminate. }
  destruct (opt_all_some list_max keys) as (maxs & Ex & Lx).
  { intros l Hl. destruct (list_max_some l (Hne l Hl)) as (x & -> & _). discriminate. }
  rewrite Em, Ex.
  assert (Hm : mins <> []) by (intros ->; destruct keys; [congruence|discriminate]).
  assert (Hx : maxs <> []) by (intros ->; destruct keys; [congruence|discriminate]).
  destruct (list_min_some mins Hm) as (lo & El & Hlo & Hlo').
  destruct (list_max_some maxs Hx) as (hi & Eh & Hhi & Hhi').
  exists lo, hi.
  assert (Hb : forall l k, In l keys -> In k l -> lo <= k <= hi).
  { intros l k Hl Hkl. split.
    - destruct (opt_all_exists _ _ _ l Em Hl) as (y & Ey & Hy).
      destruct (list_min_some l (Hne l Hl)) as (y' & Ey' & _ & Hmin).
      rewrite Ey in Ey'. injection Ey' as <-. specialize (Hlo' y Hy). specialize (Hmin k Hkl). lia.
    - destruct (opt_all_exists _ _ _ l Ex Hl) as (y & Ey & Hy).
      destruct (list_max_some l (Hne l Hl)) as (y' & Ey' & _ & Hmax).
      rewrite Ey in Ey'. injection Ey' as <-. specialize (Hhi' y Hy). specialize (Hmax k Hkl). lia. }
  assert (Hlol : exists l, In l keys /\ In lo l).
  { destruct (opt_all_in _ _ _ Em lo Hlo) as (l & Hl & E). exists l. split; [exact Hl|].
    destruct (list_min_some l (Hne l Hl)) as (y' & Ey' & Hy & _). congruence. }
  assert (Hhil : exists l, In l keys /\ In hi l).
  { destruct (opt_all_in _ _ _ Ex hi Hhi) as (l & Hl & E). exists l. split; [exact Hl|].
    destruct (list_max_some l (Hne l Hl)) as (y' & Ey' & Hy & _). congruence. }
  repeat split; auto; try (intros; now apply (Hb l k)).
  destruct Hlol as (l & Hl & Hin). now apply (Hb l lo).
Qed.

Lemma decompose_some kmax maxd keys n : (1 <= n)%nat -> keys <> [] ->
  Forall (fun l => l <> []) keys -> Forall (StronglySorted N.lt) keys ->
  exists cuts loads, decompose kmax maxd keys n = Some (cuts, loads) /\ length loads = n.
Proof.
  intros Hn Hk Hne Hs. unfold decompose. destruct n as [|m]; [lia|].
  destruct (par_min_max keys Hk Hne) as (lo & hi & -> & -> & Hle & _).
  assert (Hnx : lo <= next kmax hi + 1) by (unfold next; destruct (hi =? kmax); lia).
  destruct (par_load keys lo (next kmax hi)) as [total|] eqn:Et;
    [|exfalso; now apply (par_load_some keys lo (next kmax hi) Hs Hnx)].
  destruct (segments_some kmax maxd keys m Hs (total / N.of_nat (S m)) hi lo Hle)
    as (segs & Esg & Hseg). rewrite Esg.
  destruct (opt_all_some (fun s => par_load keys (fst s) (snd s)) segs) as (ls & -> & Hl).
  { intros s Hin. apply par_load_some; auto. }
  exists (map snd segs), ls. split; [reflexivity|].
  rewrite Hl. exact (proj1 (segments_length _ _ _ _ _ _ _ _ Esg)).
Qed.

Lemma par_max_bounds keys hi : par_max keys = Some hi ->
  In hi (concat keys) /\ forall k, In k (concat keys) -> k <= hi.
Proof.
  unfold par_max. destruct (opt_all list_max keys) as [maxs|] eqn:Ex; [|discriminate]. intro Eh.
  assert (Hx : maxs <> []) by (intros ->; discriminate).
  destruct (list_max_some maxs Hx) as (hi' & Eh' & Hhi & Hhi').
  rewrite Eh in Eh'. injection Eh' as <-. split.
  - destruct (opt_all_in _ _ _ Ex hi Hhi) as (l & Hl & E).
    destruct l as [|a l]; [discriminate|].
    destruct (list_max_some (a :: l)) as (y & Ey & Hy & _); [discriminate|].
    rewrite E in Ey. injection Ey as <-. apply in_concat. eauto.
  - intros k Hk. apply in_concat in Hk. destruct Hk as (l & Hl & Hk).
    destruct (opt_all_exists _ _ _ l Ex Hl) as (y & Ey & Hy).
    destruct l as [|a l]; [destruct Hk|].
    destruct (list_max_some (a :: l)) as (y' & Ey' & _ & Hmax); [discriminate|].
    rewrite Ey in Ey'. injection Ey' as <-. specialize (Hmax k Hk). specialize (Hhi' y Hy). lia.
Qed.

Lemma decompose_owner' kmax maxd keys n cuts loads :
  (forall k, In k (concat keys) -> k < kmax) ->
  decompose kmax maxd keys n = Some (cuts, loads) ->
  length cuts = n /\ forall hi, In hi (concat keys) -> interval_ownership (owning_rank cuts) n hi.
Proof.
  intros Hk E. assert (Hm : exists hi, par_max keys = Some hi).
  { unfold decompose in E. destruct n; [discriminate|]. destruct (par_min keys); [|discriminate].
    destruct (par_max keys) as [hi|]; [now exists hi|discriminate]. }
  destruct Hm as [m Em]. destruct (par_max_bounds keys m Em) as [Hin Hmax].
  assert (Hne : m <> kmax) by (specialize (Hk m Hin); lia).
  destruct (decompose_owner kmax maxd keys n cuts loads m Em Hne E) as [Hl (H1 & H2 & H3)].
  split; [exact Hl|]. intros hi Hhi. split; [|split; assumption].
  intros k Hkh. apply H1. specialize (Hmax hi Hhi). lia.
Qed.

(** The search stays within the range it was given, up to one key. *)
Lemma cut_search_range fuel maxd (load : N -> option N) target c : forall start end_ depth,
  start <= end_ ->
  cut_search fuel maxd load target start end_ depth = inl c -> start <= c + 1 /\ c <= end_.
Proof.
  intros start end_ depth H.
  assert (G : forall fuel start' end_' depth, 2 * (start / 2) <= start' <= end_ ->
    2 * (start / 2) <= end_' <= end_ ->
    cut_search fuel maxd load target start' end_' depth = inl c ->
    2 * (start / 2) <= c <= end_).
  { clear depth fuel H. induction fuel as [|fuel IH]; intros s' e' depth Hs He E; cbn [cut_search] in E;
      assert (Hm : 2 * (start / 2) <= middle s' e' <= end_) by (unfold middle; lia);
      destruct (load (middle s' e')) as [l|]; try discriminate;
      destruct (get_search_result maxd target l depth); try discriminate;
      try (injection E as <-; exact Hm).
    - eapply IH; [exact Hm|exact He|exact E].
    - eapply IH; [exact Hs|exact Hm|exact E]. }
  intro E. specialize (G fuel start end_ depth ltac:(lia) ltac:(lia) E). lia.
Qed.
