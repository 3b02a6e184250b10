(** Proofs about the solver of linear equations. *)
From Coq Require Import List Arith Lia QArith Qabs Qfield Lqa Bool.
Import ListNotations.
From Verif Require Import LinSolve_Model LinSolve_Spec.
Local Open Scope Q_scope.

(** ** Sums *)

Lemma sum_ext n f g : (forall j, (j < n)%nat -> f j == g j) -> sum n f == sum n g.
Proof. induction n as [|n IH]; intro H; cbn [sum]; [reflexivity|]. rewrite IH by (intros; apply H; lia). rewrite (H n) by lia. reflexivity. Qed.

Lemma sum_zero n f : (forall j, (j < n)%nat -> f j == 0) -> sum n f == 0.
Proof. induction n as [|n IH]; intro H; cbn [sum]; [reflexivity|]. rewrite IH by (intros; apply H; lia). rewrite (H n) by lia. reflexivity. Qed.

Lemma sum_lin n c f g : sum n (fun j => f j - c * g j) == sum n f - c * sum n g.
Proof. induction n as [|n IH]; cbn [sum]; [ring|]. rewrite IH. ring. Qed.

(** A term taken out of a sum. *)
Lemma sum_split n f i : (i < n)%nat -> (forall j, (j < i)%nat -> f j == 0) ->
  sum n f == f i + sum n (fun j => if (i <? j)%nat then f j else 0).
Proof.
  induction n as [|n IH]; intros Hi H0; [lia|]. cbn [sum].
  destruct (Nat.eq_dec i n) as [->|Hne].
  - rewrite (sum_zero n f) by exact H0. rewrite (sum_zero n (fun j => if (n <? j)%nat then f j else 0)).
    + destruct (Nat.ltb_spec n n); [lia|]. ring.
    + intros j Hj. cbv beta. destruct (Nat.ltb_spec n j); [lia|reflexivity].
  - rewrite IH by (auto; lia). destruct (Nat.ltb_spec i n); [ring|lia].
Qed.

(** ** Matrices *)

Lemma get_build m n f i j : (i < m)%nat -> (j < n)%nat -> get (build m n f) i j = f i j.
Proof.
  intros Hi Hj. unfold get, build.
  rewrite (nth_indep _ [] (map (f 0%nat) (seq 0 n))) by (rewrite map_length, seq_length; exact Hi).
  rewrite (map_nth (fun i => map (f i) (seq 0 n))), seq_nth by exact Hi.
  rewrite (nth_indep _ 0 (f (0 + i)%nat 0%nat)) by (rewrite map_length, seq_length; exact Hj).
  rewrite map_nth, seq_nth by exact Hj. reflexivity.
Qed.

(** Equation [i] of a matrix with [m + 1] columns. *)
Definition row_holds (m : nat) (a : matrix) (x : nat -> Q) (i : nat) : Prop :=
  sum m (fun j => get a i j * x j) == get a i m.
Definition holds (m : nat) (a : matrix) (x : nat -> Q) : Prop := forall i, (i < m)%nat -> row_holds m a x i.
(** The same with right hand side zero. *)
Definition row_holds0 (m : nat) (a : matrix) (x : nat -> Q) (i : nat) : Prop :=
  sum m (fun j => get a i j * x j) == 0.
Definition holds0 (m : nat) (a : matrix) (x : nat -> Q) : Prop := forall i, (i < m)%nat -> row_holds0 m a x i.

Lemma pivot_row_range a m h k : (h < m)%nat -> (h <= pivot_row a m h k < m)%nat.
Proof.
  intro H. unfold pivot_row.
  assert (G : forall l b, (h <= b < m)%nat -> (forall i, In i l -> (h <= i < m)%nat) ->
            (h <= fold_left (fun best i => if Qle_bool (Qabs (get a best k)) (Qabs (get a i k)) then i else best) l b < m)%nat).
  { induction l as [|i l IH]; intros b Hb Hl; [exact Hb|]. cbn [fold_left]. apply IH.
    - destruct (Qle_bool _ _); [apply Hl; now left|exact Hb].
    - intros i' Hi'. apply Hl. now right. }
  apply G; [lia|]. intros i Hi. apply in_seq in Hi. lia.
Qed.

(** If the pivot is zero, so is the rest of the column. *)
Lemma pivot_row_zero a m h k : get a (pivot_row a m h k) k == 0 ->
  forall i, (h <= i < m)%nat -> get a i k == 0.
Proof.
  unfold pivot_row. intros H i Hi.
  assert (G : forall l b,
    get a (fold_left (fun best i => if Qle_bool (Qabs (get a best k)) (Qabs (get a i k)) then i else best) l b) k == 0 ->
    forall i, In i (b :: l) -> get a i k == 0).
  { assert (Z : forall q, Qabs q <= 0 -> q == 0).
    { intros q Hq. apply Qabs_Qle_condition in Hq. lra. }
    induction l as [|i' l IH]; intros b Hf i0 [<-|Hi0]; cbn [fold_left] in Hf; [exact Hf|destruct Hi0| |].
    - destruct (Qle_bool (Qabs (get a b k)) (Qabs (get a i' k))) eqn:E.
      + apply Qle_bool_iff in E. apply Z. eapply Qle_trans; [exact E|].
        rewrite (IH i' Hf i' (or_introl eq_refl)). discriminate.
      + exact (IH b Hf b (or_introl eq_refl)).
    - destruct (Qle_bool (Qabs (get a b k)) (Qabs (get a i' k))) eqn:E.
      + exact (IH i' Hf i0 Hi0).
      + destruct Hi0 as [<-|Hi0].
        * assert (Hb := IH b Hf b (or_introl eq_refl)). apply Z.
          assert (L : Qabs (get a i' k) < Qabs (get a b k)).
          { apply Qnot_le_lt. intro F. apply Qle_bool_iff in F. congruence. }
          rewrite Hb in L. apply Qlt_le_weak. exact L.
        * exact (IH b Hf i0 (or_intror Hi0)). }
  apply (G _ _ H). destruct (Nat.eq_dec i h) as [->|Hne]; [now left|]. right. apply in_seq. lia.
Qed.

(** ** The elimination *)

(** Zero below the staircase: rows before [h] are done, the others start at column [k]. *)
Definition echelon (m : nat) (a : matrix) (h k : nat) : Prop :=
  (forall i j, (i < h)%nat -> (j < i)%nat -> get a i j == 0)
  /\ (forall i j, (h <= i < m)%nat -> (j < k)%nat -> get a i j == 0).

Definition swap (r1 r2 i : nat) : nat := if (i =? r1)%nat then r2 else if (i =? r2)%nat then r1 else i.

Lemma swap_range m r1 r2 i : (r1 < m)%nat -> (r2 < m)%nat -> (i < m)%nat -> (swap r1 r2 i < m)%nat.
Proof. unfold swap. intros. destruct (i =? r1)%nat; [lia|]. destruct (i =? r2)%nat; lia. Qed.

Lemma swap_invol r1 r2 i : swap r1 r2 (swap r1 r2 i) = i.
Proof.
  unfold swap. destruct (Nat.eqb_spec i r1) as [->|H1].
  - destruct (Nat.eqb_spec r2 r1) as [->|H2]; [reflexivity|]. rewrite Nat.eqb_refl. reflexivity.
  - destruct (Nat.eqb_spec i r2) as [->|H2].
    + rewrite Nat.eqb_refl. reflexivity.
    + destruct (Nat.eqb_spec i r1); [contradiction|]. destruct (Nat.eqb_spec i r2); [contradiction|reflexivity].
Qed.

Lemma get_swap m a r1 r2 i j : (i < m)%nat -> (j < m + 1)%nat ->
  get (swap_rows m (m + 1) a r1 r2) i j = get a (swap r1 r2 i) j.
Proof. intros. unfold swap_rows. rewrite get_build by assumption. reflexivity. Qed.

Lemma holds_swap m a r1 r2 x : (r1 < m)%nat -> (r2 < m)%nat ->
  (holds m (swap_rows m (m + 1) a r1 r2) x <-> holds m a x)
  /\ (holds0 m (swap_rows m (m + 1) a r1 r2) x <-> holds0 m a x).
Proof.
  intros H1 H2.
  assert (E : forall i, (i < m)%nat -> sum m (fun j => get (swap_rows m (m + 1) a r1 r2) i j * x j) == sum m (fun j => get a (swap r1 r2 i) j * x j)).
  { intros i Hi. apply sum_ext. intros j Hj. rewrite get_swap by lia. reflexivity. }
  split; (split; intros H i Hi).
  - specialize (H (swap r1 r2 i) (swap_range m r1 r2 i H1 H2 Hi)). unfold row_holds in *.
    rewrite E in H by (apply swap_range; assumption). rewrite get_swap in H by (try apply swap_range; try assumption; lia).
    rewrite swap_invol in H. exact H.
  - unfold row_holds. rewrite E by exact Hi. rewrite get_swap by lia. apply H. apply swap_range; assumption.
  - specialize (H (swap r1 r2 i) (swap_range m r1 r2 i H1 H2 Hi)). unfold row_holds0 in *.
    rewrite E in H by (apply swap_range; assumption). rewrite swap_invol in H. exact H.
  - unfold row_holds0. rewrite E by exact Hi. apply H. apply swap_range; assumption.
Qed.

Lemma echelon_swap m a h k r : echelon m a h k -> (h <= k)%nat -> (k <= m)%nat -> (h <= r < m)%nat ->
  echelon m (swap_rows m (m + 1) a h r) h k.
Proof.
  intros [E1 E2] Hhk Hk Hr. split; intros i j Hi Hj; rewrite get_swap by lia.
  - assert (E : swap h r i = i) by (unfold swap; destruct (Nat.eqb_spec i h); [lia|]; destruct (Nat.eqb_spec i r); [lia|reflexivity]).
    rewrite E. apply E1; assumption.
  - apply E2; [|exact Hj]. unfold swap. destruct (Nat.eqb_spec i h); [lia|]. destruct (Nat.eqb_spec i r); lia.
Qed.

(** What the elimination does to an entry, given the staircase. *)
Lemma get_eliminate m a h k i j : echelon m a h k -> (h < m)%nat -> (k <= m)%nat -> ~ get a h k == 0 ->
  (i < m)%nat -> (j < m + 1)%nat ->
  get (eliminate m (m + 1) a h k) i j
  == get a i j - (if (h <? i)%nat then get a i k / get a h k else 0) * get a h j.
Proof.
  intros [E1 E2] Hh Hk Hp Hi Hj. unfold eliminate. rewrite get_build by assumption.
  destruct (Nat.leb_spec i h) as [H|H]; destruct (Nat.ltb_spec h i) as [H'|H']; try lia; [ring|].
  destruct (Nat.ltb_spec j k) as [Hjk|Hjk].
  - rewrite (E2 h j) by lia. ring.
  - destruct (Nat.eqb_spec j k) as [->|Hne]; [field; exact Hp|ring].
Qed.

Lemma holds_eliminate m a h k x : echelon m a h k -> (h < m)%nat -> (k <= m)%nat -> ~ get a h k == 0 ->
  (holds m (eliminate m (m + 1) a h k) x <-> holds m a x)
  /\ (holds0 m (eliminate m (m + 1) a h k) x <-> holds0 m a x).
Proof.
  intros HE Hh Hk Hp.
  set (f := fun i => if (h <? i)%nat then get a i k / get a h k else 0).
  assert (E : forall i, (i < m)%nat ->
     sum m (fun j => get (eliminate m (m + 1) a h k) i j * x j)
     == sum m (fun j => get a i j * x j) - f i * sum m (fun j => get a h j * x j)).
  { intros i Hi. rewrite <- sum_lin. apply sum_ext. intros j Hj.
    rewrite (get_eliminate m a h k i j) by (assumption || lia). unfold f. ring. }
  assert (Er : forall i, (i < m)%nat -> get (eliminate m (m + 1) a h k) i m == get a i m - f i * get a h m).
  { intros i Hi. apply (get_eliminate m a h k i m); assumption || lia. }
  assert (F0 : f h == 0) by (unfold f; destruct (Nat.ltb_spec h h); [lia|reflexivity]).
  split; (split; intros H i Hi).
  - assert (H1 := H i Hi). assert (H2 := H h Hh). unfold row_holds in *. rewrite E, Er in H1, H2 by assumption.
    rewrite F0 in H2. setoid_replace (sum m (fun j => get a i j * x j)) with
      ((sum m (fun j => get a i j * x j) - f i * sum m (fun j => get a h j * x j)) + f i * (sum m (fun j => get a h j * x j) - 0 * sum m (fun j => get a h j * x j))) by ring.
    rewrite H1, H2. ring.
  - assert (H1 := H i Hi). assert (H2 := H h Hh). unfold row_holds in *. rewrite E, Er by assumption. rewrite H1, H2. reflexivity.
  - assert (H1 := H i Hi). assert (H2 := H h Hh). unfold row_holds0 in *. rewrite E in H1, H2 by assumption.
    rewrite F0 in H2. setoid_replace (sum m (fun j => get a i j * x j)) with
      ((sum m (fun j => get a i j * x j) - f i * sum m (fun j => get a h j * x j)) + f i * (sum m (fun j => get a h j * x j) - 0 * sum m (fun j => get a h j * x j))) by ring.
    rewrite H1, H2. ring.
  - assert (H1 := H i Hi). assert (H2 := H h Hh). unfold row_holds0 in *. rewrite E by assumption. rewrite H1, H2. ring.
Qed.

Lemma echelon_eliminate m a h k : echelon m a h k -> (h < m)%nat -> (h <= k)%nat -> (k <= m)%nat -> ~ get a h k == 0 ->
  echelon m (eliminate m (m + 1) a h k) (h + 1) (k + 1).
Proof.
  intros HE Hh Hhk Hk Hp. assert (HE' := HE). destruct HE' as [E1 E2]. split; intros i j Hi Hj.
  - rewrite (get_eliminate m a h k) by (assumption || lia). destruct (Nat.ltb_spec h i); [lia|].
    destruct (Nat.eq_dec i h) as [->|Hne].
    + rewrite (E2 h j) by lia. ring.
    + rewrite (E1 i j) by lia. ring.
  - rewrite (get_eliminate m a h k) by (assumption || lia). destruct (Nat.ltb_spec h i); [|lia].
    destruct (Nat.eq_dec j k) as [->|Hne]; [field; exact Hp|]. rewrite (E2 i j), (E2 h j) by lia. ring.
Qed.

(** Rows up to [h] keep their entries. *)
Lemma eliminate_keeps m a h k i j : (i <= h)%nat -> (i < m)%nat -> (j < m + 1)%nat ->
  get (eliminate m (m + 1) a h k) i j = get a i j.
Proof. intros. unfold eliminate. rewrite get_build by assumption. destruct (Nat.leb_spec i h); [reflexivity|lia]. Qed.

(** ** Triangular systems *)

Definition triangular (m : nat) (a : matrix) : Prop :=
  forall i j, (i < m)%nat -> (j < i)%nat -> get a i j == 0.

Lemma eliminate_all_spec m fuel : forall a h k, (m + 1 - k <= fuel)%nat -> (h <= k)%nat -> (k <= m + 1)%nat -> (h <= m)%nat ->
  echelon m a h k ->
  triangular m (eliminate_all fuel m (m + 1) a h k)
  /\ forall x, (holds m (eliminate_all fuel m (m + 1) a h k) x <-> holds m a x)
     /\ (holds0 m (eliminate_all fuel m (m + 1) a h k) x <-> holds0 m a x).
Proof.
  assert (Done : forall a h k, (h <= k)%nat -> echelon m a h k -> (m <= h)%nat \/ (m + 1 <= k)%nat -> triangular m a).
  { intros a h k Hhk [E1 E2] [H|H] i j Hi Hj; [apply E1; lia|]. destruct (le_lt_dec h i); [apply E2; lia|apply E1; lia]. }
  induction fuel as [|fuel IH]; intros a h k Hf Hhk Hk Hh HE; cbn [eliminate_all].
  - split; [apply (Done a h k); auto; lia|]. intro x. tauto.
  - destruct (Nat.ltb_spec h m) as [H1|H1]; destruct (Nat.ltb_spec k (m + 1)) as [H2|H2]; cbn [andb];
      try (split; [apply (Done a h k); auto; lia|]; intro x; tauto).
    assert (Hr := pivot_row_range a m h k H1). set (r := pivot_row a m h k) in *.
    destruct (Qeq_bool (get a r k) 0) eqn:E.
    + apply Qeq_bool_iff in E. apply IH; try lia. destruct HE as [E1 E2]. split; [exact E1|].
      intros i j Hi Hj. destruct (Nat.eq_dec j k) as [->|Hne].
      * apply (pivot_row_zero a m h k); assumption.
      * apply E2; lia.
    + assert (Hp : ~ get a r k == 0) by (intro F; apply Qeq_bool_iff in F; congruence).
      set (b := swap_rows m (m + 1) a h r) in *.
      assert (Eb : echelon m b h k) by (apply echelon_swap; assumption || lia).
      assert (Hpb : ~ get b h k == 0).
      { unfold b. rewrite get_swap by lia. unfold swap. rewrite Nat.eqb_refl. exact Hp. }
      destruct (IH (eliminate m (m + 1) b h k) (h + 1)%nat (k + 1)%nat) as [T S]; try lia.
      { apply echelon_eliminate; assumption || lia. }
      split; [exact T|]. intro x. destruct (S x) as [S1 S2].
      destruct (holds_eliminate m b h k x Eb H1 ltac:(lia) Hpb) as [A1 A2].
      destruct (holds_swap m a h r x H1 ltac:(lia)) as [B1 B2]. fold b in B1, B2.
      rewrite S1, A1, B1. rewrite S2, A2, B2. tauto.
Qed.

(** ** Backward substitution *)

Lemma fold_sub_seq (f : nat -> Q) : forall n s acc,
  fold_left (fun acc j => acc - f j) (seq s n) acc == acc - sum n (fun j => f (s + j)%nat).
Proof.
  induction n as [|n IH]; intros s acc; [cbn; ring|].
  rewrite seq_S. rewrite fold_left_app. cbn [fold_left]. rewrite IH. cbn [sum]. ring.
Qed.

Lemma sum_shift n s (f : nat -> Q) : (forall j, (j < s)%nat -> f j == 0) ->
  sum (s + n) f == sum n (fun j => f (s + j)%nat).
Proof.
  intro H. induction n as [|n IH].
  - rewrite Nat.add_0_r. cbn [sum]. apply sum_zero. exact H.
  - rewrite Nat.add_succ_r. cbn [sum]. rewrite IH. reflexivity.
Qed.

(** The values of the rows from [i] on are right whatever comes before them. *)
Definition tail_ok (m : nat) (a : matrix) (i : nat) (xs : list Q) : Prop :=
  length xs = (m - i)%nat /\
  forall x, (forall j, (i <= j < m)%nat -> x j == nth (j - i) xs 0) -> forall r, (i <= r < m)%nat -> row_holds m a x r.

Lemma backward_step m a i xs : triangular m a -> (i < m)%nat -> tail_ok m a (S i) xs -> ~ get a i i == 0 ->
  tail_ok m a i
    (fold_left (fun acc j => acc - get a i j * nth (j - (i + 1)) xs 0) (seq (i + 1) (m - (i + 1))) (get a i m) / get a i i :: xs).
Proof.
  intros HT Hi [HL HX] Hp. split; [cbn [length]; lia|].
  intros x Hx r Hr. destruct (Nat.eq_dec r i) as [->|Hne].
  - unfold row_holds.
    assert (E1 : x i == fold_left (fun acc j => acc - get a i j * nth (j - (i + 1)) xs 0) (seq (i + 1) (m - (i + 1))) (get a i m) / get a i i).
    { rewrite (Hx i) by lia. rewrite Nat.sub_diag. reflexivity. }
    rewrite (fold_sub_seq (fun j => get a i j * nth (j - (i + 1)) xs 0)) in E1.
    rewrite (sum_split m _ i Hi).
    2:{ intros j Hj. rewrite (HT i j) by lia. ring. }
    assert (E2 : sum m (fun j => if (i <? j)%nat then get a i j * x j else 0)
                 == sum (m - (i + 1)) (fun j => get a i (i + 1 + j)%nat * nth (i + 1 + j - (i + 1)) xs 0)).
    { replace m with ((i + 1) + (m - (i + 1)))%nat at 1 by lia. rewrite sum_shift.
      - apply sum_ext. intros j Hj. destruct (Nat.ltb_spec i (i + 1 + j)); [|lia].
        rewrite (Hx (i + 1 + j)%nat) by lia. replace (i + 1 + j - i)%nat with (S j) by lia.
        replace (i + 1 + j - (i + 1))%nat with j by lia. reflexivity.
      - intros j Hj. destruct (Nat.ltb_spec i j); [lia|reflexivity]. }
    rewrite E2, E1. field. exact Hp.
  - apply HX; [|lia]. intros j Hj. rewrite (Hx j) by lia. replace (j - i)%nat with (S (j - S i)) by lia. reflexivity.
Qed.

Lemma backward_sound m a : triangular m a -> forall i xs ys, (i <= m)%nat -> tail_ok m a i xs ->
  backward m a i xs = Some ys ->
  tail_ok m a 0 ys /\ forall j, (j < i)%nat -> ~ get a j j == 0.
Proof.
  intro HT. induction i as [|i IH]; intros xs ys Hi Hok H; cbn [backward] in H.
  - injection H as <-. split; [exact Hok|]. intros; lia.
  - destruct (Qeq_bool (get a i i) 0) eqn:E; [discriminate H|].
    assert (Hp : ~ get a i i == 0) by (intro F; apply Qeq_bool_iff in F; congruence).
    destruct (IH _ _ ltac:(lia) (backward_step m a i xs HT ltac:(lia) Hok Hp) H) as [A B].
    split; [exact A|]. intros j Hj. destruct (Nat.eq_dec j i) as [->|Hne]; [exact Hp|]. apply B. lia.
Qed.

Lemma backward_some m a : (forall j, (j < m)%nat -> ~ get a j j == 0) -> forall i xs, (i <= m)%nat ->
  exists ys, backward m a i xs = Some ys.
Proof.
  intro H. induction i as [|i IH]; intros xs Hi; cbn [backward]; [eauto|].
  destruct (Qeq_bool (get a i i) 0) eqn:E; [|apply IH; lia].
  apply Qeq_bool_iff in E. exfalso. exact (H i ltac:(lia) E).
Qed.

Lemma tail_nil m a : tail_ok m a m [].
Proof. split; [cbn; lia|]. intros; lia. Qed.

(** A triangular matrix with a zero on the diagonal is singular. *)
Lemma triangular_zero m a d : triangular m a -> (d < m)%nat -> get a d d == 0 ->
  (forall j, (j < d)%nat -> ~ get a j j == 0) ->
  exists x, holds0 m a x /\ ~ x d == 0.
Proof.
  intros HT Hd Hz Hnz.
  (* columns up to d, with a one at d *)
  assert (G : forall i, (i <= d)%nat -> exists x : nat -> Q, x d == 1 /\ (forall j, (d < j)%nat -> x j == 0)
             /\ forall r, (i <= r < m)%nat -> row_holds0 m a x r).
  { intro i. remember (d - i)%nat as k eqn:Ek. revert i Ek. induction k as [|k IH]; intros i Ek Hi.
    - assert (i = d) by lia. subst i. exists (fun j => if (j =? d)%nat then 1 else 0).
      split; [rewrite Nat.eqb_refl; reflexivity|]. split; [intros j Hj; destruct (Nat.eqb_spec j d); [lia|reflexivity]|].
      intros r Hr. apply sum_zero. intros j Hj. destruct (Nat.eqb_spec j d) as [->|]; [|ring].
      destruct (Nat.eq_dec r d) as [->|]; [rewrite Hz; ring|]. rewrite (HT r d) by lia. ring.
    - destruct (IH (S i) ltac:(lia) ltac:(lia)) as (x & X1 & X2 & X3).
      assert (Hp := Hnz i ltac:(lia)).
      set (s := sum m (fun j => if (i <? j)%nat then get a i j * x j else 0)).
      exists (fun j => if (j =? i)%nat then - s / get a i i else x j).
      split; [destruct (Nat.eqb_spec d i); [lia|exact X1]|].
      split; [intros j Hj; destruct (Nat.eqb_spec j i); [lia|apply X2; exact Hj]|].
      intros r Hr. unfold row_holds0. destruct (Nat.eq_dec r i) as [->|Hne].
      + rewrite (sum_split m _ i ltac:(lia)).
        2:{ intros j Hj. rewrite (HT i j) by lia. ring. }
        rewrite Nat.eqb_refl.
        assert (E : sum m (fun j => if (i <? j)%nat then get a i j * (if (j =? i)%nat then - s / get a i i else x j) else 0) == s).
        { apply sum_ext. intros j Hj. destruct (Nat.ltb_spec i j); [|reflexivity]. destruct (Nat.eqb_spec j i); [lia|reflexivity]. }
        rewrite E. field. exact Hp.
      + eapply Qeq_trans; [|exact (X3 r ltac:(lia))]. apply sum_ext. intros j Hj. destruct (Nat.eqb_spec j i) as [->|]; [|reflexivity].
        rewrite (HT r i) by lia. ring. }
  destruct (G 0%nat ltac:(lia)) as (x & X1 & X2 & X3). exists x. split; [intros i Hi; apply X3; lia|].
  rewrite X1. discriminate.
Qed.

Lemma triangular_nonsingular m a : triangular m a -> (forall x, holds0 m a x -> forall j, (j < m)%nat -> x j == 0) ->
  forall j, (j < m)%nat -> ~ get a j j == 0.
Proof.
  intros HT HN j. induction j as [j IH] using lt_wf_ind. intros Hj Hz.
  destruct (triangular_zero m a j HT Hj Hz) as (x & X1 & X2).
  - intros j' Hj'. apply IH; lia.
  - apply X2. apply HN; assumption.
Qed.

(** ** The theorems *)

Definition fn (xs : list Q) (j : nat) : Q := nth j xs 0.

Lemma solves_holds m a x : solves m a x <-> holds m a x.
Proof. unfold solves, holds, row_holds, get. tauto. Qed.
Lemma nonsingular_holds0 m a : nonsingular m a <-> forall x, holds0 m a x -> forall j, (j < m)%nat -> x j == 0.
Proof. unfold nonsingular, holds0, row_holds0, get. tauto. Qed.

Lemma echelon0 m a : echelon m a 0 0.
Proof. split; intros; lia. Qed.

Theorem solver_sound m a xs : solve_system_of_equations m a = Some xs ->
  length xs = m /\ solves m a (fn xs) /\ nonsingular m a.
Proof.
  unfold solve_system_of_equations, backward_substitution. intro H.
  destruct (eliminate_all_spec m (m + 1) a 0 0 ltac:(lia) ltac:(lia) ltac:(lia) ltac:(lia) (echelon0 m a)) as [T S].
  set (b := eliminate_all (m + 1) m (m + 1) a 0 0) in *.
  destruct (backward_sound m b T m [] xs (le_n m) (tail_nil m b) H) as [[HL HX] HN].
  split; [lia|]. split.
  - apply solves_holds. apply (S (fn xs)). intros i Hi. apply HX; [|lia]. intros j Hj. unfold fn. rewrite Nat.sub_0_r. reflexivity.
  - apply nonsingular_holds0. intros x Hx. apply (S x) in Hx. clear - T HN Hx.
    (* from the last one on, all are zero *)
    assert (G : forall k j, (m - k <= j < m)%nat -> x j == 0).
    { induction k as [|k IH]; intros j Hj; [lia|].
      destruct (le_lt_dec (m - k) j) as [L|L]; [apply IH; lia|].
      assert (R := Hx j ltac:(lia)). unfold row_holds0 in R. rewrite (sum_split m _ j ltac:(lia)) in R.
      2:{ intros j' Hj'. rewrite (T j j') by lia. ring. }
      rewrite (sum_zero m) in R.
      2:{ intros j' Hj'. destruct (Nat.ltb_spec j j'); [|reflexivity]. rewrite (IH j') by lia. ring. }
      assert (P := HN j ltac:(lia)). assert (R' : get b j j * x j == 0) by (rewrite <- R; ring).
      apply Qmult_integral in R' as [F|F]; [contradiction|exact F]. }
    intros j Hj. apply (G m). lia.
Qed.

Theorem solver_complete m a : nonsingular m a -> exists xs, solve_system_of_equations m a = Some xs.
Proof.
  intro HN. unfold solve_system_of_equations, backward_substitution.
  destruct (eliminate_all_spec m (m + 1) a 0 0 ltac:(lia) ltac:(lia) ltac:(lia) ltac:(lia) (echelon0 m a)) as [T S].
  set (b := eliminate_all (m + 1) m (m + 1) a 0 0) in *.
  apply backward_some; [|lia]. apply (triangular_nonsingular m b T).
  intros x Hx. apply (nonsingular_holds0 m a); [exact HN|]. apply (S x). exact Hx.
Qed.

Theorem solver_unique m a xs y : solve_system_of_equations m a = Some xs -> solves m a y ->
  forall j, (j < m)%nat -> y j == nth j xs 0.
Proof.
  intros H Hy. destruct (solver_sound m a xs H) as (_ & S & N). intros j Hj.
  assert (Z : y j - fn xs j == 0).
  { apply (N (fun j => y j - fn xs j)); [|exact Hj]. intros i Hi.
    specialize (S i Hi). specialize (Hy i Hi).
    setoid_replace (sum m (fun j0 => nth j0 (nth i a []) 0 * (y j0 - fn xs j0)))
      with (sum m (fun j0 => nth j0 (nth i a []) 0 * y j0 - 1 * (nth j0 (nth i a []) 0 * fn xs j0))).
    2:{ apply sum_ext. intros. ring. }
    rewrite (sum_lin m 1). rewrite S, Hy. ring. }
  unfold fn in Z. lra.
Qed.
