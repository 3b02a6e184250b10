(** Proofs about extents and the periodic box. *)
From Coq Require Import List QArith Qabs Qround ZArith Lia Lqa Bool.
Import ListNotations.
From Verif Require Import Box_Model Box_Spec.
Local Open Scope Q_scope.

Lemma Qltb_true : forall a b, Qltb a b = true <-> a < b.
Proof.
  intros. unfold Qltb. rewrite negb_true_iff. split; intro H.
  - apply Qnot_le_lt. intro C. apply Qle_bool_iff in C. congruence.
  - destruct (Qle_bool b a) eqn:E; auto. apply Qle_bool_iff in E. exfalso. lra.
Qed.
Lemma Qltb_false : forall a b, Qltb a b = false <-> b <= a.
Proof.
  intros. unfold Qltb. rewrite negb_false_iff. apply Qle_bool_iff.
Qed.

Ltac qltb :=
  repeat match goal with
  | H : Qltb _ _ = true |- _ => apply Qltb_true in H
  | H : Qltb _ _ = false |- _ => apply Qltb_false in H
  end.

(** * Wrapping *)
Lemma floor_div : forall a b, 0 < b ->
  b * inject_Z (Qfloor (a / b)) <= a /\ a < b * inject_Z (Qfloor (a / b)) + b.
Proof.
  intros a b Hb. pose proof (Qfloor_le (a / b)) as H1. pose proof (Qlt_floor (a / b)) as H2.
  set (f := Qfloor (a / b)) in *. rewrite inject_Z_plus in H2. change (inject_Z 1) with 1 in H2.
  assert (E : a == b * (a / b)) by (field; lra).
  set (q := a / b) in *. clearbody q f. split; nra.
Qed.

Lemma wrap_in : forall v mn mx, mn < mx -> in_half_open mn mx (wrap_component v mn mx).
Proof.
  intros v mn mx H. unfold in_half_open, wrap_component, rem_euclid.
  destruct (floor_div (v - mn) (mx - mn) ltac:(lra)). lra.
Qed.
Lemma wrap_class : forall v mn mx, same_class (mx - mn) (wrap_component v mn mx) v.
Proof.
  intros. unfold same_class, wrap_component, rem_euclid.
  exists (- Qfloor ((v - mn) / (mx - mn)))%Z. rewrite inject_Z_opp. ring.
Qed.
Lemma class_unique : forall mn mx a b, in_half_open mn mx a -> in_half_open mn mx b ->
  same_class (mx - mn) a b -> a == b.
Proof.
  intros mn mx a b [A1 A2] [B1 B2] (k & E).
  assert (k = 0)%Z.
  { assert (H : (k <= 0 \/ 1 <= k)%Z) by lia. destruct H as [H|H].
    - assert (H' : (k = 0 \/ k <= -1)%Z) by lia. destruct H' as [H'|H']; auto. exfalso.
      rewrite Zle_Qle in H'. change (inject_Z (-1)) with (- (1)) in H'. nra.
    - exfalso. rewrite Zle_Qle in H. change (inject_Z 1) with 1 in H. nra. }
  subst k. rewrite E. ring.
Qed.
Lemma wrap_inside : forall v mn mx, in_half_open mn mx v -> wrap_component v mn mx == v.
Proof.
  intros v mn mx H. apply (class_unique mn mx); auto.
  - apply wrap_in. destruct H. lra.
  - apply wrap_class.
Qed.

(** * Distances per axis *)
Lemma minimize_cases : forall v len,
  minimize_component v len = v - len /\ len / 2 < v
  \/ minimize_component v len = v + len /\ v < - len / 2 /\ v <= len / 2
  \/ minimize_component v len = v /\ - len / 2 <= v <= len / 2.
Proof.
  intros v len. unfold minimize_component. destruct (Qltb (len / 2) v) eqn:E1; qltb; [left; auto|].
  destruct (Qltb v (- len / 2)) eqn:E2; qltb; [right; left; auto|]. right. right. auto.
Qed.

Lemma half : forall x : Q, x / 2 == x * (1 # 2).
Proof. intro. field. Qed.

(** [minimize_component] is the smallest of the three images by absolute value. *)
Lemma minimize_best : forall v len k, 0 < len -> unit_shift k ->
  Qabs (minimize_component v len) <= Qabs (v + inject_Z k * len).
Proof.
  intros v len k Hl Hk. 
  assert (H : inject_Z k == 0 \/ inject_Z k == - (1) \/ inject_Z k == 1)
    by (destruct Hk as [ -> | [ -> | -> ] ]; [left|right; left|right; right]; reflexivity).
  destruct (minimize_cases v len) as [[E H1]|[(E & H1 & H2)|[E H1]]]; rewrite E; rewrite ?half in *;
    apply Qabs_case; intro; apply Qabs_case; intro; destruct H as [H|[H|H]]; nra.
Qed.
Lemma minimize_is_image : forall v len, exists k, unit_shift k /\ minimize_component v len == v + inject_Z k * len.
Proof.
  intros v len. destruct (minimize_cases v len) as [[E _]|[(E & _)|[E _]]]; rewrite E.
  - exists (-1)%Z. split; [right; left; auto|]. change (inject_Z (-1)) with (- (1)). ring.
  - exists 1%Z. split; [right; right; auto|]. change (inject_Z 1) with 1. ring.
  - exists 0%Z. split; [left; auto|]. change (inject_Z 0) with 0. ring.
Qed.
(** Up to three half box lengths it is the smallest of all images. *)
Lemma minimize_best_all : forall v len k, 0 < len -> - (3 # 2) * len <= v <= (3 # 2) * len ->
  Qabs (minimize_component v len) <= Qabs (v + inject_Z k * len).
Proof.
  intros v len k Hl Hv.
  assert (Hb : Qabs (minimize_component v len) <= len * (1 # 2)).
  { destruct (minimize_cases v len) as [[E H1]|[(E & H1 & H2)|[E H1]]]; rewrite E; rewrite ?half in *;  apply Qabs_case; lra. }
  assert (H : (unit_shift k \/ k <= -2 \/ 2 <= k)%Z) by (unfold unit_shift; lia).
  destruct H as [H|[H|H]]; [apply minimize_best; auto| |].
  - rewrite Zle_Qle in H. change (inject_Z (-2)) with (- (2)) in H.
    eapply Qle_trans; [exact Hb|]. apply Qabs_case; intro; nra.
  - rewrite Zle_Qle in H. change (inject_Z 2) with 2 in H.
    eapply Qle_trans; [exact Hb|]. apply Qabs_case; intro; nra.
Qed.
Lemma minimize_sym : forall v len, 0 < len ->
  Qabs (minimize_component (- v) len) == Qabs (minimize_component v len).
Proof.
  intros v len Hl. apply Qle_antisym.
  - destruct (minimize_is_image v len) as (k & Hk & E). rewrite E.
    rewrite <- (Qabs_opp (v + inject_Z k * len)).
    setoid_replace (- (v + inject_Z k * len)) with (- v + inject_Z (- k) * len)
      by (rewrite inject_Z_opp; ring).
    apply minimize_best; auto. unfold unit_shift in *. lia.
  - destruct (minimize_is_image (- v) len) as (k & Hk & E). rewrite E.
    rewrite <- (Qabs_opp (- v + inject_Z k * len)).
    setoid_replace (- (- v + inject_Z k * len)) with (v + inject_Z (- k) * len)
      by (rewrite inject_Z_opp; ring).
    apply minimize_best; auto. unfold unit_shift in *. lia.
Qed.
(** It changes by no more than its argument. *)
Lemma minimize_lipschitz : forall v w len, 0 < len ->
  Qabs (minimize_component v len) <= Qabs (minimize_component w len) + Qabs (v - w).
Proof.
  intros v w len Hl. destruct (minimize_is_image w len) as (k & Hk & E). rewrite E.
  eapply Qle_trans; [apply (minimize_best v len k); auto|].
  setoid_replace (v + inject_Z k * len) with ((w + inject_Z k * len) + (v - w)) by ring.
  apply Qabs_triangle.
Qed.

Lemma sq_abs : forall x, x * x == Qabs x * Qabs x.
Proof. intro x. apply Qabs_case; intro; ring. Qed.
Lemma sq_le : forall x y, Qabs x <= Qabs y -> x * x <= y * y.
Proof.
  intros x y H. rewrite (sq_abs x), (sq_abs y).
  pose proof (Qabs_nonneg x). nra.
Qed.
Lemma sq_eq : forall x y, Qabs x == Qabs y -> x * x == y * y.
Proof. intros x y H. rewrite (sq_abs x), (sq_abs y), H. reflexivity. Qed.

(** * Points *)
Section Points3.
Variable b : extent3.
Hypothesis Hb : proper3 b.

Lemma wrap3_in : forall p, in_box3 b (periodic_wrap3 b p).
Proof. intro p. destruct Hb as (A & B & C). split; [|split]; apply wrap_in; auto. Qed.
Lemma wrap3_class : forall p, same_class3 b (periodic_wrap3 b p) p.
Proof. intro p. split; [|split]; apply wrap_class. Qed.
Lemma wrap3_id : forall p, in_box3 b p -> eq3 (periodic_wrap3 b p) p.
Proof. intros p (A & B & C). split; [|split]; apply wrap_inside; auto. Qed.

Lemma pdist3_sym : forall p q,
  length_sq3 (periodic_distance_vec3 b p q) == length_sq3 (periodic_distance_vec3 b q p).
Proof.
  intros p q. unfold length_sq3, periodic_distance_vec3. cbn [x3 y3 z3 sides3].
  destruct Hb as (A & B & C).
  assert (S : forall u v len, 0 < len -> minimize_component (u - v) len * minimize_component (u - v) len
     == minimize_component (v - u) len * minimize_component (v - u) len).
  { intros u v len Hl. apply sq_eq. rewrite <- (minimize_sym (v - u) len Hl).
    assert (E : forall s t, s == t -> Qabs (minimize_component s len) == Qabs (minimize_component t len)).
    { assert (L : forall s t, s == t -> Qabs (minimize_component s len) <= Qabs (minimize_component t len)).
      { intros s t E. eapply Qle_trans; [apply (minimize_lipschitz s t len Hl)|].
        setoid_replace (s - t) with 0 by (rewrite E; ring). cbn. lra. }
      intros s t E. apply Qle_antisym; apply L; [|symmetry]; exact E. }
    apply E. ring. }
  rewrite (S (x3 p)), (S (y3 p)), (S (z3 p)) by lra. reflexivity.
Qed.

Lemma pdist3_best : forall p q kx ky kz,
  (- (3 # 2) * (x3 (max3 b) - x3 (min3 b)) <= x3 p - x3 q <= (3 # 2) * (x3 (max3 b) - x3 (min3 b))) ->
  (- (3 # 2) * (y3 (max3 b) - y3 (min3 b)) <= y3 p - y3 q <= (3 # 2) * (y3 (max3 b) - y3 (min3 b))) ->
  (- (3 # 2) * (z3 (max3 b) - z3 (min3 b)) <= z3 p - z3 q <= (3 # 2) * (z3 (max3 b) - z3 (min3 b))) ->
  length_sq3 (periodic_distance_vec3 b p q) <= dist_sq3 (shift3 b kx ky kz p) q.
Proof.
  intros p q kx ky kz Hx Hy Hz. destruct Hb as (A & B & C).
  unfold length_sq3, periodic_distance_vec3, dist_sq3, shift3. cbn [x3 y3 z3 sides3].
  pose proof (sq_le _ _ (minimize_best_all (x3 p - x3 q) (x3 (max3 b) - x3 (min3 b)) kx ltac:(lra) Hx)).
  pose proof (sq_le _ _ (minimize_best_all (y3 p - y3 q) (y3 (max3 b) - y3 (min3 b)) ky ltac:(lra) Hy)).
  pose proof (sq_le _ _ (minimize_best_all (z3 p - z3 q) (z3 (max3 b) - z3 (min3 b)) kz ltac:(lra) Hz)).
  setoid_replace (x3 p + inject_Z kx * (x3 (max3 b) - x3 (min3 b)) - x3 q)
    with (x3 p - x3 q + inject_Z kx * (x3 (max3 b) - x3 (min3 b))) by ring.
  setoid_replace (y3 p + inject_Z ky * (y3 (max3 b) - y3 (min3 b)) - y3 q)
    with (y3 p - y3 q + inject_Z ky * (y3 (max3 b) - y3 (min3 b))) by ring.
  setoid_replace (z3 p + inject_Z kz * (z3 (max3 b) - z3 (min3 b)) - z3 q)
    with (z3 p - z3 q + inject_Z kz * (z3 (max3 b) - z3 (min3 b))) by ring.
  lra.
Qed.
Lemma pdist3_best_unit : forall p q kx ky kz, unit_shift kx -> unit_shift ky -> unit_shift kz ->
  length_sq3 (periodic_distance_vec3 b p q) <= dist_sq3 (shift3 b kx ky kz p) q.
Proof.
  intros p q kx ky kz Hx Hy Hz. destruct Hb as (A & B & C).
  unfold length_sq3, periodic_distance_vec3, dist_sq3, shift3. cbn [x3 y3 z3 sides3].
  pose proof (sq_le _ _ (minimize_best (x3 p - x3 q) (x3 (max3 b) - x3 (min3 b)) kx ltac:(lra) Hx)).
  pose proof (sq_le _ _ (minimize_best (y3 p - y3 q) (y3 (max3 b) - y3 (min3 b)) ky ltac:(lra) Hy)).
  pose proof (sq_le _ _ (minimize_best (z3 p - z3 q) (z3 (max3 b) - z3 (min3 b)) kz ltac:(lra) Hz)).
  setoid_replace (x3 p + inject_Z kx * (x3 (max3 b) - x3 (min3 b)) - x3 q)
    with (x3 p - x3 q + inject_Z kx * (x3 (max3 b) - x3 (min3 b))) by ring.
  setoid_replace (y3 p + inject_Z ky * (y3 (max3 b) - y3 (min3 b)) - y3 q)
    with (y3 p - y3 q + inject_Z ky * (y3 (max3 b) - y3 (min3 b))) by ring.
  setoid_replace (z3 p + inject_Z kz * (z3 (max3 b) - z3 (min3 b)) - z3 q)
    with (z3 p - z3 q + inject_Z kz * (z3 (max3 b) - z3 (min3 b))) by ring.
  lra.
Qed.
Lemma pdist3_image : forall p q, exists kx ky kz, unit_shift kx /\ unit_shift ky /\ unit_shift kz
  /\ length_sq3 (periodic_distance_vec3 b p q) == dist_sq3 (shift3 b kx ky kz p) q.
Proof.
  intros p q.
  destruct (minimize_is_image (x3 p - x3 q) (x3 (max3 b) - x3 (min3 b))) as (kx & Kx & Ex).
  destruct (minimize_is_image (y3 p - y3 q) (y3 (max3 b) - y3 (min3 b))) as (ky & Ky & Ey).
  destruct (minimize_is_image (z3 p - z3 q) (z3 (max3 b) - z3 (min3 b))) as (kz & Kz & Ez).
  exists kx, ky, kz. split; [auto|]. split; [auto|]. split; [auto|].
  unfold length_sq3, periodic_distance_vec3, dist_sq3, shift3. cbn [x3 y3 z3 sides3].
  rewrite Ex, Ey, Ez. ring.
Qed.
End Points3.

Section Points2.
Variable b : extent2.
Hypothesis Hb : proper2 b.

Lemma wrap2_in : forall p, in_box2 b (periodic_wrap2 b p).
Proof. intro p. destruct Hb as (A & B). split; apply wrap_in; auto. Qed.
Lemma wrap2_class : forall p, same_class2 b (periodic_wrap2 b p) p.
Proof. intro p. split; apply wrap_class. Qed.
Lemma wrap2_id : forall p, in_box2 b p -> eq2 (periodic_wrap2 b p) p.
Proof. intros p (A & B). split; apply wrap_inside; auto. Qed.

(** The two-dimensional case by embedding. *)
Definition lift2 (p : vec2) : vec3 := V3 (x2 p) (y2 p) 0.
Definition lift_box2 : extent3 := E3 (V3 (x2 (min2 b)) (y2 (min2 b)) 0) (V3 (x2 (max2 b)) (y2 (max2 b)) 1).
Lemma lift_proper : proper3 lift_box2.
Proof. destruct Hb. split; [|split]; cbn; lra. Qed.
Lemma lift_pdist : forall p q,
  length_sq3 (periodic_distance_vec3 lift_box2 (lift2 p) (lift2 q)) == length_sq2 (periodic_distance_vec2 b p q).
Proof.
  intros p q. unfold length_sq3, length_sq2, periodic_distance_vec3, periodic_distance_vec2.
  cbn [x3 y3 z3 x2 y2 sides3 sides2 lift2 lift_box2 min3 max3].
  assert (E : minimize_component (0 - 0) (1 - 0) = 0 - 0) by reflexivity. rewrite E. ring.
Qed.
Lemma lift_dist : forall kx ky p q,
  dist_sq3 (shift3 lift_box2 kx ky 0 (lift2 p)) (lift2 q) == dist_sq2 (shift2 b kx ky p) q.
Proof.
  intros. unfold dist_sq3, dist_sq2, shift3, shift2. cbn [x3 y3 z3 x2 y2 lift2 lift_box2 min3 max3].
  change (inject_Z 0) with 0. ring.
Qed.

Lemma pdist2_sym : forall p q,
  length_sq2 (periodic_distance_vec2 b p q) == length_sq2 (periodic_distance_vec2 b q p).
Proof. intros. rewrite <- !lift_pdist. apply pdist3_sym. apply lift_proper. Qed.
Lemma pdist2_best : forall p q kx ky,
  (- (3 # 2) * (x2 (max2 b) - x2 (min2 b)) <= x2 p - x2 q <= (3 # 2) * (x2 (max2 b) - x2 (min2 b))) ->
  (- (3 # 2) * (y2 (max2 b) - y2 (min2 b)) <= y2 p - y2 q <= (3 # 2) * (y2 (max2 b) - y2 (min2 b))) ->
  length_sq2 (periodic_distance_vec2 b p q) <= dist_sq2 (shift2 b kx ky p) q.
Proof.
  intros p q kx ky Hx Hy. rewrite <- lift_pdist, <- lift_dist. apply pdist3_best; [apply lift_proper|exact Hx|exact Hy|].
  cbn. lra.
Qed.
Lemma pdist2_best_unit : forall p q kx ky, unit_shift kx -> unit_shift ky ->
  length_sq2 (periodic_distance_vec2 b p q) <= dist_sq2 (shift2 b kx ky p) q.
Proof.
  intros p q kx ky Hx Hy. rewrite <- lift_pdist, <- lift_dist.
  apply pdist3_best_unit; auto using lift_proper. left. auto.
Qed.
Lemma pdist2_image : forall p q, exists kx ky, unit_shift kx /\ unit_shift ky
  /\ length_sq2 (periodic_distance_vec2 b p q) == dist_sq2 (shift2 b kx ky p) q.
Proof.
  intros p q.
  destruct (minimize_is_image (x2 p - x2 q) (x2 (max2 b) - x2 (min2 b))) as (kx & Kx & Ex).
  destruct (minimize_is_image (y2 p - y2 q) (y2 (max2 b) - y2 (min2 b))) as (ky & Ky & Ey).
  exists kx, ky. split; [auto|]. split; [auto|].
  unfold length_sq2, periodic_distance_vec2, dist_sq2, shift2. cbn [x2 y2 sides2].
  rewrite Ex, Ey. ring.
Qed.
End Points2.

(** Points of the box are never further apart than one box length. *)
Lemma box_diff : forall mn mx u v, in_half_open mn mx u -> in_half_open mn mx v ->
  - (3 # 2) * (mx - mn) <= u - v <= (3 # 2) * (mx - mn).
Proof. intros mn mx u v [A B] [C D]. lra. Qed.

Lemma pdist3_best_box : forall b p q kx ky kz, in_box3 b p -> in_box3 b q ->
  length_sq3 (periodic_distance_vec3 b p q) <= dist_sq3 (shift3 b kx ky kz p) q.
Proof.
  intros b p q kx ky kz (A & B & C) (D & E & F).
  apply pdist3_best; try (apply box_diff; auto).
  unfold proper3, in_half_open in *. lra.
Qed.
Lemma pdist2_best_box : forall b p q kx ky, in_box2 b p -> in_box2 b q ->
  length_sq2 (periodic_distance_vec2 b p q) <= dist_sq2 (shift2 b kx ky p) q.
Proof.
  intros b p q kx ky (A & B) (D & E).
  apply pdist2_best; try (apply box_diff; auto).
  unfold proper2, in_half_open in *. lra.
Qed.

(** * Images *)
Definition sign_of (w : wrap_type) : Z := match w with NoWrap => 0 | Minus => -1 | Plus => 1 end%Z.
Lemma as_sign_inject : forall w, as_sign w == inject_Z (sign_of w).
Proof. destruct w; reflexivity. Qed.
Lemma sign_unit : forall w, unit_shift (sign_of w).
Proof. destruct w; unfold unit_shift; cbn; lia. Qed.
Lemma sign_ex : forall k, unit_shift k -> exists w, sign_of w = k.
Proof. intros k [ -> | [ -> | -> ] ]; [exists NoWrap|exists Minus|exists Plus]; reflexivity. Qed.

Lemma in_images3 : forall b p wx wy wz v,
  In (wx, wy, wz, v) (images3 b p) <->
  v = V3 (x3 p + x3 (sides3 b) * as_sign wx) (y3 p + y3 (sides3 b) * as_sign wy) (z3 p + z3 (sides3 b) * as_sign wz).
Proof.
  intros b p wx wy wz v. unfold images3. rewrite in_map_iff. split.
  - intros ([[a c] d] & E & _). inversion E; subst. reflexivity.
  - intros ->. exists (wx, wy, wz). split; [reflexivity|].
    destruct wx, wy, wz; cbn; tauto.
Qed.
Lemma images3_types : forall b p, map (fun '(wx, wy, wz, _) => (wx, wy, wz)) (images3 b p)
  = flat_map (fun '(x, y) => map (fun z => (x, y, z)) iter_all)
         (flat_map (fun x => map (fun y => (x, y)) iter_all) iter_all).
Proof. reflexivity. Qed.
Lemma images3_nodup : forall b p, NoDup (map (fun '(wx, wy, wz, _) => (wx, wy, wz)) (images3 b p)).
Proof.
  intros. rewrite images3_types. cbn.
  repeat (constructor; [cbn; intuition discriminate|]). constructor.
Qed.
Lemma images3_exact : forall b p v, (exists wx wy wz u, In (wx, wy, wz, u) (images3 b p) /\ eq3 u v)
  <-> exists kx ky kz, unit_shift kx /\ unit_shift ky /\ unit_shift kz /\ eq3 v (shift3 b kx ky kz p).
Proof.
  intros b p v. split.
  - intros (wx & wy & wz & u & H & E1 & E2 & E3). apply in_images3 in H. subst u. cbn [x3 y3 z3] in *.
    exists (sign_of wx), (sign_of wy), (sign_of wz). 
    split; [apply sign_unit|]. split; [apply sign_unit|]. split; [apply sign_unit|].
    unfold eq3, shift3. cbn [x3 y3 z3]. rewrite <- E1, <- E2, <- E3, !as_sign_inject. cbn [sides3 x3 y3 z3].
    split; [ring|split; ring].
  - intros (kx & ky & kz & Hx & Hy & Hz & E1 & E2 & E3).
    destruct (sign_ex _ Hx) as (wx & <-). destruct (sign_ex _ Hy) as (wy & <-). destruct (sign_ex _ Hz) as (wz & <-).
    exists wx, wy, wz. eexists. split; [apply in_images3; reflexivity|].
    unfold eq3, shift3 in *. cbn [x3 y3 z3] in *. rewrite E1, E2, E3, !as_sign_inject. cbn [sides3 x3 y3 z3].
    split; [ring|split; ring].
Qed.

Lemma in_images2 : forall b p wx wy v,
  In (wx, wy, v) (images2 b p) <->
  v = V2 (x2 p + x2 (sides2 b) * as_sign wx) (y2 p + y2 (sides2 b) * as_sign wy).
Proof.
  intros b p wx wy v. unfold images2. rewrite in_map_iff. split.
  - intros ([a c] & E & _). inversion E; subst. reflexivity.
  - intros ->. exists (wx, wy). split; [reflexivity|].
    destruct wx, wy; cbn; tauto.
Qed.
Lemma images2_nodup : forall b p, NoDup (map (fun '(wx, wy, _) => (wx, wy)) (images2 b p)).
Proof.
  intros. cbn.
  repeat (constructor; [cbn; intuition discriminate|]). constructor.
Qed.
Lemma images2_exact : forall b p v, (exists wx wy u, In (wx, wy, u) (images2 b p) /\ eq2 u v)
  <-> exists kx ky, unit_shift kx /\ unit_shift ky /\ eq2 v (shift2 b kx ky p).
Proof.
  intros b p v. split.
  - intros (wx & wy & u & H & E1 & E2). apply in_images2 in H. subst u. cbn [x2 y2] in *.
    exists (sign_of wx), (sign_of wy).
    split; [apply sign_unit|]. split; [apply sign_unit|].
    unfold eq2, shift2. cbn [x2 y2]. rewrite <- E1, <- E2, !as_sign_inject. cbn [sides2 x2 y2].
    split; ring.
  - intros (kx & ky & Hx & Hy & E1 & E2).
    destruct (sign_ex _ Hx) as (wx & <-). destruct (sign_ex _ Hy) as (wy & <-).
    exists wx, wy. eexists. split; [apply in_images2; reflexivity|].
    unfold eq2, shift2 in *. cbn [x2 y2] in *. rewrite E1, E2, !as_sign_inject. cbn [sides2 x2 y2].
    split; ring.
Qed.

(** * Combined statements *)
Lemma wrap3_all : forall b p, proper3 b ->
  in_box3 b (periodic_wrap3 b p) /\ same_class3 b (periodic_wrap3 b p) p
  /\ (in_box3 b p -> eq3 (periodic_wrap3 b p) p)
  /\ eq3 (periodic_wrap3 b (periodic_wrap3 b p)) (periodic_wrap3 b p).
Proof.
  intros b p Hb. split; [apply wrap3_in; auto|]. split; [apply wrap3_class|].
  split; [apply wrap3_id|]. apply wrap3_id. apply wrap3_in; auto.
Qed.
Lemma wrap2_all : forall b p, proper2 b ->
  in_box2 b (periodic_wrap2 b p) /\ same_class2 b (periodic_wrap2 b p) p
  /\ (in_box2 b p -> eq2 (periodic_wrap2 b p) p)
  /\ eq2 (periodic_wrap2 b (periodic_wrap2 b p)) (periodic_wrap2 b p).
Proof.
  intros b p Hb. split; [apply wrap2_in; auto|]. split; [apply wrap2_class|].
  split; [apply wrap2_id|]. apply wrap2_id. apply wrap2_in; auto.
Qed.
Lemma distance3_all : forall b p q, proper3 b -> in_box3 b p -> in_box3 b q ->
  length_sq3 (periodic_distance_vec3 b p q) == length_sq3 (periodic_distance_vec3 b q p)
  /\ (exists kx ky kz, length_sq3 (periodic_distance_vec3 b p q) == dist_sq3 (shift3 b kx ky kz p) q)
  /\ (forall kx ky kz, length_sq3 (periodic_distance_vec3 b p q) <= dist_sq3 (shift3 b kx ky kz p) q).
Proof.
  intros b p q Hb Hp Hq. split; [apply pdist3_sym; auto|]. split.
  - destruct (pdist3_image b p q) as (kx & ky & kz & _ & _ & _ & E). eauto.
  - intros. apply pdist3_best_box; auto.
Qed.
Lemma distance2_all : forall b p q, proper2 b -> in_box2 b p -> in_box2 b q ->
  length_sq2 (periodic_distance_vec2 b p q) == length_sq2 (periodic_distance_vec2 b q p)
  /\ (exists kx ky, length_sq2 (periodic_distance_vec2 b p q) == dist_sq2 (shift2 b kx ky p) q)
  /\ (forall kx ky, length_sq2 (periodic_distance_vec2 b p q) <= dist_sq2 (shift2 b kx ky p) q).
Proof.
  intros b p q Hb Hp Hq. split; [apply pdist2_sym; auto|]. split.
  - destruct (pdist2_image b p q) as (kx & ky & _ & _ & E). eauto.
  - intros. apply pdist2_best_box; auto.
Qed.
