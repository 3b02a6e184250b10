(** Proofs about the rotation of directions. *)
From Coq Require Import List Arith Lia Reals Lra QArith Lqa.
From Verif Require Import Rotation_Model Rotation_Spec.
Import ListNotations.

Section Matrix.
  Local Open Scope R_scope.

  Lemma rotation_dot_gen : forall x y z c s ax ay az bx by0 bz,
    c * c + s * s = 1 -> x * x + y * y + z * z = 1 ->
    let r0 a b d := a * (c + x * x * (1 - c)) + b * (x * y * (1 - c) - z * s) + d * (x * z * (1 - c) + y * s) in
    let r1 a b d := a * (y * x * (1 - c) + z * s) + b * (c + y * y * (1 - c)) + d * (y * z * (1 - c) - x * s) in
    let r2 a b d := a * (z * x * (1 - c) - y * s) + b * (z * y * (1 - c) + x * s) + d * (c + z * z * (1 - c)) in
    r0 ax ay az * r0 bx by0 bz + r1 ax ay az * r1 bx by0 bz + r2 ax ay az * r2 bx by0 bz
    = ax * bx + ay * by0 + az * bz.
  Proof.
    intros x y z c s ax ay az bx by0 bz Hc Hu. cbv zeta.
    assert (Hs : s * s = 1 - c * c) by Lra.lra. assert (Hz : z * z = 1 - x * x - y * y) by Lra.lra.
    ring_simplify. 
    replace (s ^ 2) with (1 - c ^ 2) by (cbn; Lra.lra).
    replace (z ^ 4) with ((1 - x * x - y * y) * (1 - x * x - y * y)) by (rewrite <- Hz; ring).
    replace (z ^ 3) with ((1 - x * x - y * y) * z) by (rewrite <- Hz; ring).
    replace (z ^ 2) with (1 - x * x - y * y) by (rewrite <- Hz; ring).
    ring.
  Qed.
End Matrix.

Section Matrix2.
  Local Open Scope R_scope.
  Lemma rotation_dot : forall axis angle a b, rdot axis axis = 1 ->
    rdot (multiply_by_matrix a (get_rotation_matrix axis angle)) (multiply_by_matrix b (get_rotation_matrix axis angle)) = rdot a b.
  Proof.
    intros [x y z] angle [ax ay az] [bx by0 bz] H. unfold rdot in H. cbn [rx ry rz] in H.
    assert (C : cos angle * cos angle + sin angle * sin angle = 1).
    { pose proof (sin2_cos2 angle) as P. unfold Rsqr in P. Lra.lra. }
    exact (rotation_dot_gen x y z (cos angle) (sin angle) ax ay az bx by0 bz C H).
  Qed.

  Lemma rotation_det : forall axis angle, rdot axis axis = 1 -> det (get_rotation_matrix axis angle) = 1.
  Proof.
    intros [x y z] angle H. unfold rdot in H. cbn [rx ry rz] in H.
    assert (C : cos angle * cos angle + sin angle * sin angle = 1).
    { pose proof (sin2_cos2 angle) as P. unfold Rsqr in P. Lra.lra. }
    unfold det, get_rotation_matrix. cbn [row0 row1 row2 rx ry rz].
    generalize dependent (cos angle). generalize (sin angle). intros s c C.
    assert (Hz : z * z = 1 - x * x - y * y) by Lra.lra. assert (Hs : s * s = 1 - c * c) by Lra.lra.
    ring_simplify.
    replace (s ^ 2) with (1 - c ^ 2) by (cbn; Lra.lra).
    replace (z ^ 4) with ((1 - x * x - y * y) * (1 - x * x - y * y)) by (rewrite <- Hz; ring).
    replace (z ^ 3) with ((1 - x * x - y * y) * z) by (rewrite <- Hz; ring).
    replace (z ^ 2) with (1 - x * x - y * y) by (rewrite <- Hz; ring).
    ring.
  Qed.

  Lemma random_axis : forall phi theta,
    rdot (RV (cos phi * sin theta) (sin phi * sin theta) (cos theta)) (RV (cos phi * sin theta) (sin phi * sin theta) (cos theta)) = 1.
  Proof.
    intros phi theta. unfold rdot. cbn [rx ry rz].
    pose proof (sin2_cos2 phi) as P. pose proof (sin2_cos2 theta) as T. unfold Rsqr in *.
    replace (cos phi * sin theta * (cos phi * sin theta) + sin phi * sin theta * (sin phi * sin theta) + cos theta * cos theta)
      with ((sin phi * sin phi + cos phi * cos phi) * (sin theta * sin theta) + cos theta * cos theta) by ring.
    rewrite P. Lra.lra.
  Qed.

  Lemma random_rotation : forall phi rand psi,
    (forall a b, rdot (multiply_by_matrix a (get_random_rotation_matrix phi rand psi))
                      (multiply_by_matrix b (get_random_rotation_matrix phi rand psi)) = rdot a b)
    /\ det (get_random_rotation_matrix phi rand psi) = 1.
  Proof.
    intros phi rand psi. unfold get_random_rotation_matrix. split.
    - intros a b. apply rotation_dot. apply random_axis.
    - apply rotation_det. apply random_axis.
  Qed.

  Lemma rotate_directions_ok : forall phi rand psi dirs i j di dj,
    nth_error dirs i = Some di -> nth_error dirs j = Some dj ->
    exists di' dj', nth_error (rotate_directions (get_random_rotation_matrix phi rand psi) dirs) i = Some di'
      /\ nth_error (rotate_directions (get_random_rotation_matrix phi rand psi) dirs) j = Some dj' /\ rdot di' dj' = rdot di dj.
  Proof.
    intros phi rand psi dirs i j di dj Hi Hj. unfold rotate_directions. rewrite !nth_error_map, Hi, Hj. cbn [option_map].
    eexists. eexists. split; [reflexivity|]. split; [reflexivity|]. apply random_rotation.
  Qed.
  (** The axis is a fixed direction. *)
  Lemma rotation_axis : forall axis angle, rdot axis axis = 1 -> multiply_by_matrix axis (get_rotation_matrix axis angle) = axis.
  Proof.
    intros [x y z] angle H. unfold rdot in H. cbn [rx ry rz] in H. unfold multiply_by_matrix, get_rotation_matrix.
    cbn [row0 row1 row2 rx ry rz]. generalize (cos angle) (sin angle). intros c s.
    assert (Hz : z * z = 1 - x * x - y * y) by Lra.lra.
    f_equal; ring_simplify;
      repeat match goal with
      | |- context [z ^ 3] => replace (z ^ 3) with ((1 - x * x - y * y) * z) by (rewrite <- Hz; ring)
      | |- context [z ^ 2] => replace (z ^ 2) with (1 - x * x - y * y) by (rewrite <- Hz; ring)
      end; ring.
  Qed.
End Matrix2.

Section Remap.
  Local Open Scope Q_scope.

  Lemma max_by_key_spec : forall keys best i (all : list Q),
    (forall j, nth_error keys j = nth_error all (i + j)) -> (i + length keys = length all)%nat ->
    (fst best < i)%nat -> nth_error all (fst best) = Some (snd best) ->
    (forall j k, (j < i)%nat -> nth_error all j = Some k -> k <= snd best) ->
    (forall j k, (fst best < j < i)%nat -> nth_error all j = Some k -> k < snd best) ->
    exists v, nth_error all (max_by_key best i keys) = Some v
      /\ (forall j k, nth_error all j = Some k -> k <= v)
      /\ (forall j k, (max_by_key best i keys < j)%nat -> nth_error all j = Some k -> k < v).
  Proof.
    induction keys as [|k keys IH]; intros best i all Hk Hl Hb Hv Hle Hlt; cbn [max_by_key].
    - cbn in Hl. exists (snd best). split; [exact Hv|]. split; intros j k' Hj.
      + intros. apply (Hle j); auto. rewrite <- (Nat.add_0_r i), Hl. apply nth_error_Some. congruence.
      + intros. apply (Hlt j); auto. split; auto. rewrite <- (Nat.add_0_r i), Hl. apply nth_error_Some. congruence.
    - assert (H0 : nth_error all i = Some k). { rewrite <- (Nat.add_0_r i), <- Hk. reflexivity. }
      apply IH.
      + intro j. specialize (Hk (S j)). cbn in Hk. rewrite Hk. f_equal. lia.
      + cbn in Hl. lia.
      + destruct (Qle_bool (snd best) k); cbn; lia.
      + destruct (Qle_bool (snd best) k); cbn; auto.
      + intros j k' Hj Ek. destruct (Nat.eq_dec j i) as [->|Hn].
        * rewrite H0 in Ek. injection Ek as <-. destruct (Qle_bool (snd best) k) eqn:E; cbn; [apply Qle_refl|].
          apply Qlt_le_weak. apply Qnot_le_lt. intro C. apply Qle_bool_iff in C. congruence.
        * assert (Hj' : (j < i)%nat) by lia. specialize (Hle j k' Hj' Ek).
          destruct (Qle_bool (snd best) k) eqn:E; cbn; [|exact Hle]. apply Qle_bool_iff in E. Lqa.lra.
      + intros j k' Hj Ek. destruct (Qle_bool (snd best) k) eqn:E; cbn [fst snd] in *; [lia|].
        destruct (Nat.eq_dec j i) as [->|Hn].
        * rewrite H0 in Ek. injection Ek as <-. apply Qnot_le_lt. intro C. apply Qle_bool_iff in C. congruence.
        * apply (Hlt j); auto. lia.
  Qed.

  Lemma argmax_spec : forall keys, keys <> [] -> exists m v, argmax keys = Some m /\ nth_error keys m = Some v
      /\ (forall j k, nth_error keys j = Some k -> k <= v)
      /\ (forall j k, (m < j)%nat -> nth_error keys j = Some k -> k < v).
  Proof.
    intros [|k keys] H; [congruence|]. unfold argmax.
    destruct (max_by_key_spec keys (0%nat, k) 1 (k :: keys)) as (v & A & B & C); cbn [fst snd]; auto.
    - intros [|j] k'; [|lia]. cbn. intros _ E. injection E as <-. apply Qle_refl.
    - intros j k' Hj. lia.
    - exists (max_by_key (0%nat, k) 1 keys), v. auto.
  Qed.

  Definition one_hot (n m : nat) : list Q := map (fun i => if (i =? m)%nat then 1 else 0) (seq 0 n).
  Lemma one_hot_nth : forall n m i, (i < n)%nat -> nth i (one_hot n m) 0 = if (i =? m)%nat then 1 else 0.
  Proof.
    intros n m i H. unfold one_hot.
    rewrite (nth_indep _ 0 ((fun i => if (i =? m)%nat then 1 else 0) 0%nat)) by (rewrite map_length, seq_length; exact H).
    rewrite (map_nth (fun i => if (i =? m)%nat then 1 else 0)), seq_nth by exact H. reflexivity.
  Qed.
  Lemma kernel_spec : forall d dirs, dirs <> [] -> exists m, kernel_f d dirs = Some (one_hot (length dirs) m) /\ best_aligned d dirs m.
  Proof.
    intros d dirs H. unfold kernel_f.
    destruct (argmax_spec (map (fun d2 => 1 + qdot d d2) dirs)) as (m & v & A & B & C & D).
    { destruct dirs; [congruence|discriminate]. }
    rewrite A. exists m. split; [reflexivity|]. rewrite nth_error_map in B.
    destruct (nth_error dirs m) as [dm|] eqn:E; [|discriminate]. cbn in B. injection B as <-.
    assert (G : forall j, (j < length dirs)%nat -> nth_error (map (fun d2 => 1 + qdot d d2) dirs) j = Some (1 + qdot d (nth j dirs (QV 0 0 0)))).
    { intros j Hj. rewrite nth_error_map, (nth_error_nth' _ (QV 0 0 0) Hj). reflexivity. }
    split; [apply nth_error_Some; congruence|]. rewrite (nth_error_nth _ _ (QV 0 0 0) E). split; intros j Hj.
    - specialize (C j _ (G j Hj)). Lqa.lra.
    - specialize (D j _ (proj1 Hj) (G j (proj2 Hj))). Lqa.lra.
  Qed.

  Lemma replace_length : forall i v l, length (replace_nth i v l) = length l.
  Proof. intros i v l. revert i. induction l as [|a l IH]; intros [|i]; cbn; auto. Qed.
  Lemma replace_twice : forall i v w l, replace_nth i v (replace_nth i w l) = replace_nth i v l.
  Proof. intros i v w l. revert i. induction l as [|a l IH]; intros [|i]; cbn; auto. f_equal. auto. Qed.
  Lemma replace_same : forall i v l, (i < length l)%nat -> nth i (replace_nth i v l) 0 = v.
  Proof. intros i v l. revert i. induction l as [|a l IH]; intros [|i] H; cbn in *; auto; try lia. apply IH. lia. Qed.
  Lemma replace_other : forall i j v l, i <> j -> nth j (replace_nth i v l) 0 = nth j l 0.
  Proof.
    intros i j v l. revert i j. induction l as [|a l IH]; intros [|i] [|j] H; cbn; try congruence. apply IH. congruence.
  Qed.

  Lemma inner_loop : forall i (f : nat -> Q) n vs, fold_left (fun vs j => replace_nth i (f j) vs) (seq 0 (S n)) vs = replace_nth i (f n) vs.
  Proof.
    intros i f n vs. rewrite seq_S, fold_left_app. cbn [fold_left Nat.add].
    assert (E : forall l vs, exists w, replace_nth i (f n) (fold_left (fun vs j => replace_nth i (f j) vs) l vs) = replace_nth i w vs /\ w = f n).
    { clear. induction l as [|a l IH]; intro vs; cbn [fold_left]; [eauto|].
      destruct (IH (replace_nth i (f a) vs)) as (w & E & ->). exists (f n). rewrite E, replace_twice. auto. }
    destruct (E (seq 0 n) vs) as (w & E' & ->). exact E'.
  Qed.

  Lemma outer_loop : forall (f : nat -> Q) n vs, (n <= length vs)%nat ->
    let r := fold_left (fun vs i => replace_nth i (f i) vs) (seq 0 n) vs in
    length r = length vs /\ forall i, nth i r 0 = if (i <? n)%nat then f i else nth i vs 0.
  Proof.
    intros f n vs. induction n as [|n IH]; intro H; cbv zeta; [cbn; auto|].
    rewrite seq_S, fold_left_app. cbn [fold_left Nat.add]. destruct IH as [L N]; [lia|]. cbv zeta in *.
    split; [rewrite replace_length; exact L|]. intro i. destruct (Nat.eq_dec i n) as [->|Hn].
    - rewrite replace_same by lia. destruct (Nat.ltb_spec n (S n)); [reflexivity|lia].
    - rewrite replace_other by auto. rewrite N. destruct (Nat.ltb_spec i n), (Nat.ltb_spec i (S n)); auto; lia.
  Qed.

  Lemma all_some_kernel : forall dirs old, dirs <> [] -> exists k,
    all_some (map (fun d => kernel_f d dirs) old) = Some k
    /\ forall i, (i < length old)%nat -> exists m, nth i k [] = one_hot (length dirs) m /\ best_aligned (nth i old (QV 0 0 0)) dirs m.
  Proof.
    intros dirs old H. induction old as [|d old IH]; cbn [map all_some].
    - exists []. split; [reflexivity|]. cbn. intros. lia.
    - destruct (kernel_spec d dirs H) as (m & E & B). rewrite E. destruct IH as (k & Ek & Hk). rewrite Ek.
      eexists. split; [reflexivity|]. intros [|i] Hi; cbn; [eauto|]. apply Hk. cbn in Hi. lia.
  Qed.

  Lemma fold_left_ext : forall (A B : Type) (f g : A -> B -> A) l a, (forall a b, f a b = g a b) -> fold_left f l a = fold_left g l a.
  Proof. intros A B f g l. induction l as [|b l IH]; intros a H; cbn; [reflexivity|]. rewrite H. auto. Qed.

  Lemma remap_result : forall values old_dirs new_dirs n,
    length values = S n -> length old_dirs = S n -> length new_dirs = S n ->
    exists r, remap values old_dirs new_dirs = Some r /\ length r = S n
      /\ forall i, (i <= n)%nat -> exists m, best_aligned (nth i old_dirs (QV 0 0 0)) new_dirs m
           /\ nth i r 0 == (if (m =? n)%nat then nth n values 0 else 0).
  Proof.
    intros values old_dirs new_dirs n Hv Ho Hn. unfold remap.
    destruct (all_some_kernel new_dirs old_dirs) as (k & E & Hk); [destruct new_dirs; discriminate|].
    rewrite E, Ho. eexists. split; [reflexivity|].
    rewrite (fold_left_ext _ _ _ (fun vs i => replace_nth i (nth n values 0 * nth n (nth i k []) 0) vs)).
    2:{ intros vs i. exact (inner_loop i (fun j => nth j values 0 * nth j (nth i k []) 0) n vs). }
    destruct (outer_loop (fun i => nth n values 0 * nth n (nth i k []) 0) (S n) values) as [L N]; [lia|]. cbv zeta in *.
    split; [congruence|]. intros i Hi. rewrite N. destruct (Nat.ltb_spec i (S n)); [|lia].
    destruct (Hk i) as (m & Em & B); [lia|]. exists m. split; [exact B|]. rewrite Em, Hn.
    rewrite one_hot_nth by lia.
    rewrite (Nat.eqb_sym m n). destruct (n =? m)%nat; ring.
  Qed.

  Lemma unit_strict : forall a b, unit_vec a -> unit_vec b -> ~ same_vec a b -> qdot a b < 1.
  Proof.
    intros [ax ay az] [bx by0 bz] Ha Hb Hn. unfold unit_vec, same_vec, qdot in *. cbn [qx qy qz] in *.
    destruct (Qlt_le_dec (ax * bx + ay * by0 + az * bz) 1) as [H|H]; [exact H|]. exfalso. apply Hn.
    assert (Sq : forall q, 0 <= q * q) by (intro q; nra).
    pose proof (Sq (ax - bx)). pose proof (Sq (ay - by0)). pose proof (Sq (az - bz)).
    assert (E : (ax - bx) * (ax - bx) + (ay - by0) * (ay - by0) + (az - bz) * (az - bz) <= 0) by Lqa.nra.
    assert (Z : forall q, q * q <= 0 -> q == 0).
    { intros q Hq. destruct (Q_dec q 0) as [[C|C]|C]; [nra|nra|exact C]. }
    assert (Z1 := Z (ax - bx) ltac:(Lqa.lra)). assert (Z2 := Z (ay - by0) ltac:(Lqa.lra)). assert (Z3 := Z (az - bz) ltac:(Lqa.lra)).
    repeat split; Lqa.lra.
  Qed.

  Lemma identity_remap : forall values dirs n, length values = S n -> length dirs = S n ->
    Forall unit_vec dirs -> distinct_dirs dirs ->
    exists r, remap values dirs dirs = Some r /\ length r = S n
      /\ (forall i, (i < n)%nat -> nth i r 0 == 0) /\ nth n r 0 == nth n values 0.
  Proof.
    intros values dirs n Hv Hd Hu Hdist. destruct (remap_result values dirs dirs n Hv Hd Hd) as (r & E & L & N).
    exists r. split; [exact E|]. split; [exact L|].
    assert (U : forall i, (i < length dirs)%nat -> unit_vec (nth i dirs (QV 0 0 0))).
    { intros i Hi. rewrite Forall_forall in Hu. apply Hu. apply nth_In. exact Hi. }
    assert (B : forall i m, (i <= n)%nat -> best_aligned (nth i dirs (QV 0 0 0)) dirs m -> m = i).
    { intros i m Hi (M1 & M2 & _). destruct (Nat.eq_dec m i) as [|Hne]; [auto|]. exfalso.
      assert (Hi' : (i < length dirs)%nat) by lia.
      pose proof (unit_strict _ _ (U i Hi') (U m M1) (Hdist i m Hi' M1 (not_eq_sym Hne))) as S1.
      specialize (M2 i Hi'). pose proof (U i Hi') as Ui. unfold unit_vec in Ui. Lqa.lra. }
    split.
    - intros i Hi. destruct (N i) as (m & Bm & E'); [lia|]. rewrite (B i m ltac:(lia) Bm) in E'.
      destruct (Nat.eqb_spec i n); [lia|exact E'].
    - destruct (N n) as (m & Bm & E'); [lia|]. rewrite (B n m ltac:(lia) Bm), Nat.eqb_refl in E'. exact E'.
  Qed.
End Remap.
