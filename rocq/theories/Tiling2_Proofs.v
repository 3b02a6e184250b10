(** Positively oriented triangles that tile a big triangle, and what splits and flips do to
    them. *)
From Coq Require Import List Arith Lia QArith Lqa Setoid Qminmax.
From Verif Require Import Geometry_Model Geometry_Spec Circle2_Proofs Delaunay2_Proofs.
Import ListNotations.
Local Open Scope Q_scope.

(** ** Triangles *)
Lemma ins_rot a b c x : ins a b c x -> ins b c a x.
Proof. unfold ins. tauto. Qed.
Lemma cls_rot a b c x : cls a b c x -> cls b c a x.
Proof. unfold cls. tauto. Qed.
Lemma ins_cls a b c x : ins a b c x -> cls a b c x.
Proof. unfold ins, cls. lra. Qed.

Lemma qmul_pos x y : 0 < x -> 0 < y -> 0 < x * y.
Proof. apply Qmult_lt_0_compat. Qed.
Lemma qmul_nonneg x y : 0 <= x -> 0 <= y -> 0 <= x * y.
Proof. apply Qmult_le_0_compat. Qed.
Lemma qmul_pos_inv x y : 0 < x -> 0 < x * y -> 0 < y.
Proof. intros H K. destruct (Qlt_le_dec 0 y) as [L|L]; [exact L|]. pose proof (qmul_nonneg x (- y)). lra. Qed.
Lemma qmul_nonneg_inv x y : 0 < x -> 0 <= x * y -> 0 <= y.
Proof. intros H K. destruct (Qlt_le_dec y 0) as [L|L]; [|exact L]. pose proof (qmul_pos x (- y)). lra. Qed.

(** An affine function that is nonnegative at the corners is nonnegative inside. *)
Lemma cls_affine a b c x u v : 0 < orient a b c -> cls a b c x ->
  0 <= orient u v a -> 0 <= orient u v b -> 0 <= orient u v c -> 0 <= orient u v x.
Proof.
  intros H [I1 [I2 I3]] A B C. pose proof (orient_bary a b c x u v) as E. apply (qmul_nonneg_inv (orient a b c)); [exact H|].
  rewrite E. pose proof (qmul_nonneg _ _ I2 A). pose proof (qmul_nonneg _ _ I3 B). pose proof (qmul_nonneg _ _ I1 C). lra.
Qed.
Lemma ins_affine a b c x u v : 0 < orient a b c -> ins a b c x ->
  0 <= orient u v a -> 0 <= orient u v b -> 0 <= orient u v c ->
  0 < orient u v a \/ 0 < orient u v b \/ 0 < orient u v c -> 0 < orient u v x.
Proof.
  intros H [I1 [I2 I3]] A B C K. pose proof (orient_bary a b c x u v) as E. apply (qmul_pos_inv (orient a b c)); [exact H|].
  rewrite E. pose proof (qmul_nonneg _ _ (Qlt_le_weak _ _ I2) A). pose proof (qmul_nonneg _ _ (Qlt_le_weak _ _ I3) B).
  pose proof (qmul_nonneg _ _ (Qlt_le_weak _ _ I1) C).
  destruct K as [K|[K|K]]; [pose proof (qmul_pos _ _ I2 K)|pose proof (qmul_pos _ _ I3 K)|pose proof (qmul_pos _ _ I1 K)]; lra.
Qed.
Lemma cls_trans a b c d e f x : 0 < orient a b c -> cls a b c x ->
  cls d e f a -> cls d e f b -> cls d e f c -> cls d e f x.
Proof.
  intros H K [A1 [A2 A3]] [B1 [B2 B3]] [C1 [C2 C3]].
  split; [|split]; eapply cls_affine; eauto.
Qed.

(** Small steps stay inside. *)
Lemma small1 f g : 0 < f -> exists e, 0 < e /\ e < 1 /\ forall e', 0 < e' -> e' <= e -> 0 < (1 - e') * f + e' * g.
Proof.
  intro H. destruct (Qlt_le_dec 0 g) as [L|L].
  - exists (1#2). split; [lra|]. split; [lra|]. intros e' H1 H2.
    pose proof (qmul_pos (1 - e') f ltac:(lra) H). pose proof (qmul_pos e' g H1 L). lra.
  - set (d := 2 * (f - g)). assert (D : 0 < d) by (unfold d; lra).
    exists (f / d). assert (E : f / d * d == f) by (field; lra).
    assert (P : 0 < f / d) by (apply Qlt_shift_div_l; lra).
    assert (M : f / d < 1) by (apply Qlt_shift_div_r; unfold d in *; lra).
    split; [exact P|]. split; [exact M|]. intros e' H1 H2.
    assert (e' * d <= f) by (rewrite <- E; apply Qmult_le_compat_r; lra).
    unfold d in *. nra.
Qed.
Lemma small3 f1 f2 f3 g1 g2 g3 : 0 < f1 -> 0 < f2 -> 0 < f3 -> exists e, 0 < e /\ e < 1 /\
  0 < (1 - e) * f1 + e * g1 /\ 0 < (1 - e) * f2 + e * g2 /\ 0 < (1 - e) * f3 + e * g3.
Proof.
  intros H1 H2 H3. destruct (small1 f1 g1 H1) as [e1 [A1 [A2 A3]]]. destruct (small1 f2 g2 H2) as [e2 [B1 [B2 B3]]].
  destruct (small1 f3 g3 H3) as [e3 [C1 [C2 C3]]].
  exists (Qmin e1 (Qmin e2 e3)).
  assert (M : 0 < Qmin e1 (Qmin e2 e3)) by (apply Q.min_glb_lt; [exact A1|apply Q.min_glb_lt; assumption]).
  assert (M1 : Qmin e1 (Qmin e2 e3) <= e1) by apply Q.le_min_l.
  assert (M2 : Qmin e1 (Qmin e2 e3) <= e2) by (eapply Qle_trans; [apply Q.le_min_r|apply Q.le_min_l]).
  assert (M3 : Qmin e1 (Qmin e2 e3) <= e3) by (eapply Qle_trans; [apply Q.le_min_r|apply Q.le_min_r]).
  split; [exact M|]. split; [lra|]. split; [|split]; auto.
Qed.
Lemma ins_open a b c x y : ins a b c x -> exists e, 0 < e /\ e < 1 /\ ins a b c (mix e x y).
Proof.
  intros [I1 [I2 I3]]. destruct (small3 _ _ _ (orient a b y) (orient b c y) (orient c a y) I1 I2 I3) as [e [E1 [E2 E3]]].
  exists e. split; [exact E1|]. split; [exact E2|]. unfold ins. rewrite !orient_mix. exact E3.
Qed.
Lemma cls_mix_ins a b c e x y : 0 < e -> e < 1 -> cls a b c x -> ins a b c y -> ins a b c (mix e x y).
Proof.
  intros E1 E2 [C1 [C2 C3]] [I1 [I2 I3]]. unfold ins. rewrite !orient_mix.
  split; [|split];
  [pose proof (qmul_nonneg (1 - e) _ ltac:(lra) C1); pose proof (qmul_pos e _ E1 I1)
  |pose proof (qmul_nonneg (1 - e) _ ltac:(lra) C2); pose proof (qmul_pos e _ E1 I2)
  |pose proof (qmul_nonneg (1 - e) _ ltac:(lra) C3); pose proof (qmul_pos e _ E1 I3)]; lra.
Qed.
Lemma ins_mix_cls a b c e x y : 0 < e -> e < 1 -> ins a b c x -> cls a b c y -> ins a b c (mix e x y).
Proof.
  intros E1 E2 [I1 [I2 I3]] [C1 [C2 C3]]. unfold ins. rewrite !orient_mix.
  split; [|split];
  [pose proof (qmul_nonneg e _ ltac:(lra) C1); pose proof (qmul_pos (1 - e) _ ltac:(lra) I1)
  |pose proof (qmul_nonneg e _ ltac:(lra) C2); pose proof (qmul_pos (1 - e) _ ltac:(lra) I2)
  |pose proof (qmul_nonneg e _ ltac:(lra) C3); pose proof (qmul_pos (1 - e) _ ltac:(lra) I3)]; lra.
Qed.
Lemma center_ins a b c : 0 < orient a b c -> exists y, ins a b c y.
Proof.
  intro H. exists (P2 ((x2 a + x2 b + x2 c) / 3) ((y2 a + y2 b + y2 c) / 3)).
  assert (E : forall u v w, orient u v (P2 ((x2 u + x2 v + x2 w) / 3) ((y2 u + y2 v + y2 w) / 3)) == orient u v w / 3)
    by (intros u v w; coords; field).
  assert (X : forall u v z z', x2 z == x2 z' -> y2 z == y2 z' -> orient u v z == orient u v z')
    by (intros u v z z' Z1 Z2; unfold orient, area2; cbn [t2p1 t2p2 t2p3]; rewrite Z1, Z2; reflexivity).
  unfold ins. split; [|split].
  - rewrite E. apply Qlt_shift_div_l; lra.
  - rewrite (X b c _ (P2 ((x2 b + x2 c + x2 a) / 3) ((y2 b + y2 c + y2 a) / 3))); [|cbn [x2 y2]; field|cbn [x2 y2]; field].
    rewrite E, orient_rot. apply Qlt_shift_div_l; lra.
  - rewrite (X c a _ (P2 ((x2 c + x2 a + x2 b) / 3) ((y2 c + y2 a + y2 b) / 3))); [|cbn [x2 y2]; field|cbn [x2 y2]; field].
    rewrite E, orient_rot2. apply Qlt_shift_div_l; lra.
Qed.
Lemma corner_cls a b c : 0 < orient a b c -> cls a b c a /\ cls a b c b /\ cls a b c c.
Proof.
  intro H. destruct (orient_same a b) as [A1 [A2 A3]]. destruct (orient_same b c) as [B1 [B2 B3]]. destruct (orient_same c a) as [C1 [C2 C3]].
  pose proof (orient_rot a b c). pose proof (orient_rot2 a b c). unfold cls. repeat split; lra.
Qed.

(** The parts of a triangle. *)
Lemma split_pos a b c p : ins a b c p -> 0 < orient p a b /\ 0 < orient p b c /\ 0 < orient p c a.
Proof. intros [I1 [I2 I3]]. rewrite !(orient_rot2 _ _ p). auto. Qed.
Lemma split_cls a b c p x : 0 < orient a b c -> ins a b c p -> cls p a b x -> cls a b c x.
Proof.
  intros H Hp Hx. destruct (split_pos a b c p Hp) as [P1 _]. destruct (corner_cls a b c H) as [A [B C]].
  exact (cls_trans p a b a b c x P1 Hx (ins_cls _ _ _ _ Hp) A B).
Qed.
Lemma split_ins a b c p x : 0 < orient a b c -> ins a b c p -> ins p a b x -> ins a b c x.
Proof.
  intros H Hp Hx. destruct (split_pos a b c p Hp) as [P1 _]. destruct (corner_cls a b c H) as [[A1 [A2 A3]] [[B1 [B2 B3]] _]].
  destruct Hp as [I1 [I2 I3]]. split; [|split].
  - apply (ins_affine p a b x a b P1 Hx); try lra; auto.
  - apply (ins_affine p a b x b c P1 Hx); try lra; auto.
  - apply (ins_affine p a b x c a P1 Hx); try lra; auto.
Qed.
Lemma split_corner a b c p : ins a b c p -> ~ cls p a b c.
Proof.
  intros [I1 [I2 I3]] [C1 [C2 C3]]. pose proof (orient_rot2 b c p). pose proof (orient_swap p b c). lra.
Qed.
Lemma split_apart a b c p x : ins p a b x -> ins p b c x -> False.
Proof. intros [I1 [I2 I3]] [J1 [J2 J3]]. pose proof (orient_swap p b x). lra. Qed.
Lemma split_cover a b c p x : ins a b c p -> cls a b c x -> cls p a b x \/ cls p b c x \/ cls p c a x.
Proof.
  intros [I1 [I2 I3]] [C1 [C2 C3]].
  assert (S : orient b c p * orient p a x + orient c a p * orient p b x + orient a b p * orient p c x == 0) by (coords; ring).
  pose proof (orient_swap p a x) as Sa. pose proof (orient_swap p b x) as Sb. pose proof (orient_swap p c x) as Sc.
  unfold cls. rewrite Sa, Sb, Sc.
  destruct (Qlt_le_dec 0 (orient p a x)) as [A|A].
  - destruct (Qlt_le_dec 0 (orient p b x)) as [B|B].
    + destruct (Qlt_le_dec 0 (orient p c x)) as [C|C].
      * pose proof (qmul_pos _ _ I2 A). pose proof (qmul_pos _ _ I3 B). pose proof (qmul_pos _ _ I1 C). lra.
      * right. left. lra.
    + left. lra.
  - destruct (Qlt_le_dec (orient p c x) 0) as [C|C].
    + destruct (Qlt_le_dec (orient p b x) 0) as [B|B].
      * pose proof (qmul_nonneg _ (- orient p a x) (Qlt_le_weak _ _ I2) ltac:(lra)). pose proof (qmul_pos _ (- orient p b x) I3 ltac:(lra)).
        pose proof (qmul_pos _ (- orient p c x) I1 ltac:(lra)). lra.
      * right. left. lra.
    + right. right. lra.
Qed.

(** The two triangulations of a convex quadrilateral. *)
Section Quad.
  Variables p a b q : point2.
  Hypothesis H1 : 0 < orient p a b.
  Hypothesis H2 : 0 < orient b a q.
  Hypothesis H3 : 0 < orient p a q.
  Hypothesis H4 : 0 < orient p q b.

  Lemma quad_signs : 0 < orient a b p /\ 0 < orient b p a /\ 0 < orient a q b /\ 0 < orient q b a /\
    0 < orient a q p /\ 0 < orient q p a /\ 0 < orient q b p /\ 0 < orient b p q.
  Proof.
    pose proof (orient_rot p a b). pose proof (orient_rot2 p a b). pose proof (orient_rot b a q). pose proof (orient_rot2 b a q).
    pose proof (orient_rot p a q). pose proof (orient_rot2 p a q). pose proof (orient_rot p q b). pose proof (orient_rot2 p q b).
    lra.
  Qed.
  Lemma quad_ins_1 x : ins p a q x -> (0 < orient a b x -> ins p a b x) /\ (orient a b x < 0 -> ins b a q x).
  Proof.
    intro Hx. destruct quad_signs as [S1 [S2 [S3 [S4 [S5 [S6 [S7 S8]]]]]]]. pose proof Hx as [X1 [X2 X3]]. split; intro L.
    - split; [exact X1|]. split; [exact L|]. destruct (orient_same b p) as [? [? ?]].
      apply (ins_affine p a q x b p H3 Hx); lra.
    - pose proof (orient_swap a b x). split; [lra|]. split; [exact X2|]. destruct (orient_same q b) as [? [? ?]].
      apply (ins_affine p a q x q b H3 Hx); lra.
  Qed.
  Lemma quad_cls_1 x : cls p a q x -> (0 <= orient a b x -> cls p a b x) /\ (orient a b x <= 0 -> cls b a q x).
  Proof.
    intro Hx. destruct quad_signs as [S1 [S2 [S3 [S4 [S5 [S6 [S7 S8]]]]]]]. pose proof Hx as [X1 [X2 X3]]. split; intro L.
    - split; [exact X1|]. split; [exact L|]. destruct (orient_same b p) as [? [? ?]].
      apply (cls_affine p a q x b p H3 Hx); lra.
    - pose proof (orient_swap a b x). split; [lra|]. split; [exact X2|]. destruct (orient_same q b) as [? [? ?]].
      apply (cls_affine p a q x q b H3 Hx); lra.
  Qed.
  Lemma quad_ins_2 x : ins p q b x -> (0 < orient a b x -> ins p a b x) /\ (orient a b x < 0 -> ins b a q x).
  Proof.
    intro Hx. destruct quad_signs as [S1 [S2 [S3 [S4 [S5 [S6 [S7 S8]]]]]]]. pose proof Hx as [X1 [X2 X3]]. split; intro L.
    - split; [|split; [exact L|exact X3]]. destruct (orient_same p a) as [? [? ?]].
      apply (ins_affine p q b x p a H4 Hx); lra.
    - pose proof (orient_swap a b x). split; [lra|]. split; [|exact X2]. destruct (orient_same a q) as [? [? ?]].
      apply (ins_affine p q b x a q H4 Hx); lra.
  Qed.
  Lemma quad_cls_2 x : cls p q b x -> (0 <= orient a b x -> cls p a b x) /\ (orient a b x <= 0 -> cls b a q x).
  Proof.
    intro Hx. destruct quad_signs as [S1 [S2 [S3 [S4 [S5 [S6 [S7 S8]]]]]]]. pose proof Hx as [X1 [X2 X3]]. split; intro L.
    - split; [|split; [exact L|exact X3]]. destruct (orient_same p a) as [? [? ?]].
      apply (cls_affine p q b x p a H4 Hx); lra.
    - pose proof (orient_swap a b x). split; [lra|]. split; [|exact X2]. destruct (orient_same a q) as [? [? ?]].
      apply (cls_affine p q b x a q H4 Hx); lra.
  Qed.
  Lemma quad_cover x : cls p a b x \/ cls b a q x -> cls p a q x \/ cls p q b x.
  Proof.
    destruct quad_signs as [S1 [S2 [S3 [S4 [S5 [S6 [S7 S8]]]]]]].
    assert (M : orient q p b < 0) by (pose proof (orient_swap p q b); lra).
    assert (W : forall x, 0 <= orient p a x -> 0 <= orient a q x -> 0 <= orient q b x -> 0 <= orient b p x -> cls p a q x \/ cls p q b x).
    { intros y Y1 Y2 Y3 Y4. pose proof (orient_swap p q y). destruct (Qlt_le_dec (orient p q y) 0); [left|right]; unfold cls; lra. }
    destruct (orient_same a q) as [? [? ?]]. destruct (orient_same q b) as [? [? ?]].
    destruct (orient_same p a) as [? [? ?]]. destruct (orient_same b p) as [? [? ?]].
    intros [K|K]; pose proof K as [K1 [K2 K3]]; apply W; try assumption.
    - apply (cls_affine p a b x a q H1 K); lra.
    - apply (cls_affine p a b x q b H1 K); lra.
    - apply (cls_affine b a q x p a H2 K); lra.
    - apply (cls_affine b a q x b p H2 K); lra.
  Qed.
End Quad.

(** ** Tilings *)
Section Tiling.
  Variable pts : nat -> point2.
  Notation "'O' a b c" := (orient (pts a) (pts b) (pts c)) (at level 10, a at level 9, b at level 9, c at level 9).
  Notation ins' a b c x := (ins (pts a) (pts b) (pts c) x).
  Notation cls' a b c x := (cls (pts a) (pts b) (pts c) x).

  Record tiling (T : nat -> nat -> nat -> nat -> Prop) (m : nat) : Prop := {
    tl_rot : forall i a b c, T i a b c -> T i b c a;
    tl_same : forall i a b c d e f, T i a b c -> T i d e f -> rot3 [d; e; f] a b c;
    tl_pos : forall i a b c, T i a b c -> 0 < orient (pts a) (pts b) (pts c);
    tl_lt : forall i a b c, T i a b c -> (a < m)%nat;
    tl_disj : forall i j a b c d e f x, T i a b c -> T j d e f -> ins' a b c x -> ins' d e f x -> i = j;
    tl_corner : forall i a b c v, T i a b c -> (v < m)%nat -> cls' a b c (pts v) -> v = a \/ v = b \/ v = c;
    tl_big : forall v, (v < m)%nat -> cls' 0%nat 1%nat 2%nat (pts v);
    tl_cover : forall x, cls' 0%nat 1%nat 2%nat x -> exists i a b c, T i a b c /\ cls' a b c x
  }.

  Lemma rot3_ins x y z a b c v : rot3 [x; y; z] a b c -> (ins' x y z v <-> ins' a b c v).
  Proof. intros [E|[E|E]]; injection E as -> -> ->; unfold ins; tauto. Qed.
  Lemma rot3_cls x y z a b c v : rot3 [x; y; z] a b c -> (cls' x y z v <-> cls' a b c v).
  Proof. intros [E|[E|E]]; injection E as -> -> ->; unfold cls; tauto. Qed.
  Lemma rot3_pos x y z a b c : rot3 [x; y; z] a b c -> orient (pts x) (pts y) (pts z) == orient (pts a) (pts b) (pts c).
  Proof. intros [E|[E|E]]; injection E as -> -> ->; [reflexivity|apply orient_rot2|apply orient_rot]. Qed.
  Lemma rot3_rot x y z a b c : rot3 [x; y; z] a b c -> rot3 [y; z; x] a b c.
  Proof. intros [E|[E|E]]; injection E as -> -> ->; unfold rot3; tauto. Qed.
  Lemma rot3_mem x y z a b c v : rot3 [x; y; z] a b c -> (v = x \/ v = y \/ v = z <-> v = a \/ v = b \/ v = c).
  Proof. intros [E|[E|E]]; injection E as -> -> ->; tauto. Qed.

  Section Facts.
    Variables (T : nat -> nat -> nat -> nat -> Prop) (m : nat).
    Hypothesis L : tiling T m.

    (** The inside of a triangle does not touch another triangle. *)
    Lemma tl_disj_cls i j a b c d e f x : T i a b c -> T j d e f -> ins' a b c x -> cls' d e f x -> i = j.
    Proof.
      intros Hi Hj I C. destruct (center_ins _ _ _ (tl_pos _ _ L _ _ _ _ Hj)) as [y Y].
      destruct (ins_open _ _ _ x y I) as [e' [E1 [E2 E3]]].
      apply (tl_disj _ _ L i j a b c d e f (mix e' x y) Hi Hj E3). now apply cls_mix_ins.
    Qed.
    (** No directed edge belongs to two triangles. *)
    Lemma tl_edge i j a b c d : T i a b c -> T j a b d -> i = j.
    Proof.
      intros Hi Hj. pose proof (tl_pos _ _ L _ _ _ _ Hi) as Pi. pose proof (tl_pos _ _ L _ _ _ _ Hj) as Pj.
      set (x := mix (1#2) (pts a) (pts b)).
      assert (F : forall c, orient (pts a) (pts b) x == 0 /\ orient (pts b) (pts c) x == (1#2) * orient (pts a) (pts b) (pts c) /\
                orient (pts c) (pts a) x == (1#2) * orient (pts a) (pts b) (pts c)).
      { intro c0. unfold x. rewrite !orient_mix. destruct (orient_same (pts a) (pts b)) as [? [? ?]].
        destruct (orient_same (pts b) (pts c0)) as [? [? ?]]. destruct (orient_same (pts c0) (pts a)) as [? [? ?]].
        pose proof (orient_rot (pts a) (pts b) (pts c0)). pose proof (orient_rot2 (pts a) (pts b) (pts c0)). lra. }
      destruct (F c) as [C1 [C2 C3]]. destruct (F d) as [D1 [D2 D3]].
      destruct (small3 (orient (pts b) (pts d) x) (orient (pts d) (pts a) x) 1 (orient (pts b) (pts d) (pts c)) (orient (pts d) (pts a) (pts c)) 1)
        as [e [E1 [E2 [E3 [E4 _]]]]]; try lra.
      destruct (corner_cls _ _ _ Pi) as [_ [_ [K1 [K2 K3]]]].
      apply (tl_disj _ _ L i j a b c a b d (mix e x (pts c)) Hi Hj).
      - unfold ins. rewrite !orient_mix. pose proof (qmul_pos e (orient (pts a) (pts b) (pts c)) E1 Pi).
        pose proof (qmul_nonneg e _ ltac:(lra) K2). pose proof (qmul_nonneg e _ ltac:(lra) K3).
        pose proof (qmul_pos (1 - e) (orient (pts b) (pts c) x) ltac:(lra) ltac:(lra)).
        pose proof (qmul_pos (1 - e) (orient (pts c) (pts a) x) ltac:(lra) ltac:(lra)).
        rewrite C1. lra.
      - unfold ins. rewrite !orient_mix. pose proof (qmul_pos e (orient (pts a) (pts b) (pts c)) E1 Pi). rewrite D1. lra.
    Qed.
    (** Two different corners of the big triangle with all points on one side, and a third one on
        the other. *)
    Lemma tl_hull a b c d : (a < 3)%nat -> (b < 3)%nat -> (c < m)%nat -> (d < m)%nat ->
      0 < orient (pts a) (pts b) (pts c) -> orient (pts a) (pts b) (pts d) < 0 -> False.
    Proof.
      intros Ha Hb Hc Hd P N. destruct (tl_big _ _ L c Hc) as [C1 [C2 C3]]. destruct (tl_big _ _ L d Hd) as [D1 [D2 D3]].
      assert (SW : forall u v w, orient (pts v) (pts u) (pts w) == - orient (pts u) (pts v) (pts w)) by (intros; apply orient_swap).
      assert (SM : forall u w, orient (pts u) (pts u) (pts w) == 0) by (intros u w; apply (proj2 (proj2 (orient_same (pts u) (pts w))))).
      pose proof (SW 0%nat 1%nat c). pose proof (SW 1%nat 2%nat c). pose proof (SW 2%nat 0%nat c).
      pose proof (SM 0%nat c). pose proof (SM 1%nat c). pose proof (SM 2%nat c).
      pose proof (SM 0%nat d). pose proof (SM 1%nat d). pose proof (SM 2%nat d).
      destruct a as [|[|[|]]], b as [|[|[|]]]; try lia; lra.
    Qed.
  End Facts.

  Lemma tiling_split T T' m old n1 n2 n3 a b c : tiling T m -> T old a b c -> ins' a b c (pts m) ->
    (forall i x y z, T' i x y z <-> (T i x y z /\ i <> old) \/ (i = n1 /\ rot3 [x; y; z] m a b) \/
      (i = n2 /\ rot3 [x; y; z] m b c) \/ (i = n3 /\ rot3 [x; y; z] m c a)) ->
    (forall i x y z d e f, T' i x y z -> T' i d e f -> rot3 [d; e; f] x y z) -> tiling T' (S m).
  Proof.
    intros L Ho Hp HT HS. pose proof (tl_pos _ _ L _ _ _ _ Ho) as P0.
    pose proof (tl_rot _ _ L _ _ _ _ Ho) as Ho2. pose proof (tl_rot _ _ L _ _ _ _ Ho2) as Ho3.
    pose proof (tl_pos _ _ L _ _ _ _ Ho2) as P02. pose proof (tl_pos _ _ L _ _ _ _ Ho3) as P03.
    pose proof (ins_rot _ _ _ _ Hp) as Hp2. pose proof (ins_rot _ _ _ _ Hp2) as Hp3.
    (* a new triangle lies in the old one *)
    assert (NEW : forall i x y z, T' i x y z -> (T i x y z /\ i <> old) \/
      exists d e f, T old d e f /\ 0 < orient (pts d) (pts e) (pts f) /\ ins' d e f (pts m) /\ rot3 [x; y; z] m d e /\
        (forall v, ins' d e f v <-> ins' a b c v) /\ (forall v, cls' d e f v <-> cls' a b c v) /\
        (i = n1 /\ d = a /\ e = b \/ i = n2 /\ d = b /\ e = c \/ i = n3 /\ d = c /\ e = a)).
    { intros i x y z H. apply HT in H. destruct H as [H|[[-> R]|[[-> R]|[-> R]]]]; [now left| | |]; right.
      - exists a, b, c. unfold ins, cls. repeat split; try tauto; auto; apply Hp.
      - exists b, c, a. unfold ins, cls. repeat split; try tauto; auto; apply Hp.
      - exists c, a, b. unfold ins, cls. repeat split; try tauto; auto; apply Hp. }
    constructor.
    - intros i x y z H. apply HT. apply HT in H. destruct H as [[H N]|[[-> R]|[[-> R]|[-> R]]]].
      + left. split; [now apply (tl_rot _ _ L)|exact N].
      + right. left. split; [reflexivity|now apply rot3_rot].
      + right. right. left. split; [reflexivity|now apply rot3_rot].
      + right. right. right. split; [reflexivity|now apply rot3_rot].
    - exact HS.
    - intros i x y z H. apply NEW in H. destruct H as [[H _]|[d [e [f [H [P [I [R _]]]]]]]]; [exact (tl_pos _ _ L _ _ _ _ H)|].
      rewrite (rot3_pos _ _ _ _ _ _ R). apply (split_pos _ _ _ _ I).
    - intros i x y z H. apply NEW in H. destruct H as [[H _]|[d [e [f [H [P [I [R _]]]]]]]].
      + pose proof (tl_lt _ _ L _ _ _ _ H). lia.
      + assert (X : x = m \/ x = d \/ x = e) by (apply (rot3_mem _ _ _ _ _ _ x R); tauto).
        pose proof (tl_lt _ _ L _ _ _ _ H). pose proof (tl_lt _ _ L _ _ _ _ (tl_rot _ _ L _ _ _ _ H)). lia.
    - intros i j x y z x' y' z' v H H' V V'. apply NEW in H. apply NEW in H'.
      destruct H as [[H N]|[d [e [f [H [P [I [R [EI [EC K]]]]]]]]]], H' as [[H' N']|[d' [e' [f' [H' [P' [I' [R' [EI' [EC' K']]]]]]]]]].
      + exact (tl_disj _ _ L _ _ _ _ _ _ _ _ _ H H' V V').
      + exfalso. apply N. apply (tl_disj _ _ L _ _ _ _ _ _ _ _ v H Ho V). apply EI'.
        apply (split_ins _ _ _ _ _ P' I'). now apply (rot3_ins _ _ _ _ _ _ v R').
      + exfalso. apply N'. apply (tl_disj _ _ L _ _ _ _ _ _ _ _ v H' Ho V'). apply EI.
        apply (split_ins _ _ _ _ _ P I). now apply (rot3_ins _ _ _ _ _ _ v R).
      + apply (rot3_ins _ _ _ _ _ _ v R) in V. apply (rot3_ins _ _ _ _ _ _ v R') in V'.
        destruct K as [[-> [-> ->]]|[[-> [-> ->]]|[-> [-> ->]]]], K' as [[-> [-> ->]]|[[-> [-> ->]]|[-> [-> ->]]]];
          try reflexivity; exfalso;
          first [exact (split_apart _ _ _ _ _ V V')|exact (split_apart _ _ _ _ _ V' V)].
    - intros i x y z v H Hv C. apply NEW in H. destruct H as [[H N]|[d [e [f [H [P [I [R [EI [EC K]]]]]]]]]].
      + destruct (Nat.eq_dec v m) as [->|Nv].
        * exfalso. apply N. symmetry. exact (tl_disj_cls T m L old i a b c x y z (pts m) Ho H Hp C).
        * apply (tl_corner _ _ L _ _ _ _ _ H); [lia|exact C].
      + apply (rot3_mem _ _ _ _ _ _ v R). apply (rot3_cls _ _ _ _ _ _ (pts v) R) in C.
        destruct (Nat.eq_dec v m) as [->|Nv]; [tauto|].
        destruct (tl_corner _ _ L old d e f v H) as [->|[->| ->]]; [lia| |tauto|tauto|].
        * exact (split_cls _ _ _ _ _ P I C).
        * exfalso. exact (split_corner _ _ _ _ I C).
    - intros v Hv. destruct (Nat.eq_dec v m) as [->|Nv]; [|apply (tl_big _ _ L); lia].
      apply (cls_trans _ _ _ _ _ _ _ P0 (ins_cls _ _ _ _ Hp)); apply (tl_big _ _ L);
        [exact (tl_lt _ _ L _ _ _ _ Ho)|exact (tl_lt _ _ L _ _ _ _ Ho2)|exact (tl_lt _ _ L _ _ _ _ Ho3)].
    - intros x Hx. destruct (tl_cover _ _ L x Hx) as [i [d [e [f [H C]]]]].
      destruct (Nat.eq_dec i old) as [->|N]; [|exists i, d, e, f; split; [apply HT; tauto|exact C]].
      apply (rot3_cls _ _ _ _ _ _ x (tl_same _ _ L _ _ _ _ _ _ _ Ho H)) in C.
      destruct (split_cover _ _ _ _ x Hp C) as [K|[K|K]].
      + exists n1, m, a, b. split; [apply HT; unfold rot3; tauto|exact K].
      + exists n2, m, b, c. split; [apply HT; unfold rot3; tauto|exact K].
      + exists n3, m, c, a. split; [apply HT; unfold rot3; tauto|exact K].
  Qed.

  Lemma tiling_flip T T' m ct oj n1 n2 p a b q : tiling T m -> T ct p a b -> T oj b a q ->
    0 < orient (pts p) (pts a) (pts q) -> 0 < orient (pts p) (pts q) (pts b) ->
    (forall i x y z, T' i x y z <-> (T i x y z /\ i <> ct /\ i <> oj) \/ (i = n1 /\ rot3 [x; y; z] p a q) \/
      (i = n2 /\ rot3 [x; y; z] p q b)) ->
    (forall i x y z d e f, T' i x y z -> T' i d e f -> rot3 [d; e; f] x y z) -> tiling T' m.
  Proof.
    intros L Hc Ho Q1 Q2 HT HS. pose proof (tl_pos _ _ L _ _ _ _ Hc) as P1. pose proof (tl_pos _ _ L _ _ _ _ Ho) as P2.
    pose proof (tl_rot _ _ L _ _ _ _ Hc) as Hc2. pose proof (tl_rot _ _ L _ _ _ _ Hc2) as Hc3.
    pose proof (tl_rot _ _ L _ _ _ _ Ho) as Ho2. pose proof (tl_rot _ _ L _ _ _ _ Ho2) as Ho3.
    (* a new triangle does not meet a kept one *)
    assert (APART : forall i x y z d e f v, T i x y z -> i <> ct -> i <> oj ->
      (forall w, ins' d e f w -> (0 < orient (pts a) (pts b) w -> ins' p a b w) /\ (orient (pts a) (pts b) w < 0 -> ins' b a q w)) ->
      cls' d e f (pts p) -> ins' x y z v -> ins' d e f v -> False).
    { intros i x y z d e f v H N1 N2 S Cp V V'.
      assert (W : forall w, ins' x y z w -> ins' d e f w -> orient (pts a) (pts b) w == 0).
      { intros w W1 W2. destruct (S w W2) as [S1 S2]. destruct (Q_dec (orient (pts a) (pts b) w) 0) as [[K|K]|K]; [| |exact K]; exfalso.
        - apply N2. exact (tl_disj _ _ L _ _ _ _ _ _ _ _ _ H Ho W1 (S2 K)).
        - apply N1. exact (tl_disj _ _ L _ _ _ _ _ _ _ _ _ H Hc W1 (S1 K)). }
      destruct (ins_open _ _ _ v (pts p) V) as [e' [E1 [E2 E3]]].
      pose proof (W v V V') as Z1. pose proof (W _ E3 (ins_mix_cls _ _ _ e' v (pts p) E1 E2 V' Cp)) as Z2.
      rewrite orient_mix, Z1 in Z2. pose proof (orient_rot (pts p) (pts a) (pts b)).
      pose proof (qmul_pos e' (orient (pts a) (pts b) (pts p)) E1 ltac:(lra)). lra. }
    pose proof (fun x => quad_ins_1 _ _ _ _ P1 P2 Q1 Q2 x) as QI1. pose proof (fun x => quad_ins_2 _ _ _ _ P1 P2 Q1 Q2 x) as QI2.
    pose proof (fun x => quad_cls_1 _ _ _ _ P1 P2 Q1 Q2 x) as QC1. pose proof (fun x => quad_cls_2 _ _ _ _ P1 P2 Q1 Q2 x) as QC2.
    pose proof (proj1 (corner_cls _ _ _ Q1)) as Cp1. pose proof (proj1 (corner_cls _ _ _ Q2)) as Cp2.
    pose proof (tl_lt _ _ L _ _ _ _ Hc) as Lp. pose proof (tl_lt _ _ L _ _ _ _ Hc2) as La.
    pose proof (tl_lt _ _ L _ _ _ _ Hc3) as Lb. pose proof (tl_lt _ _ L _ _ _ _ Ho3) as Lq.
    constructor.
    - intros i x y z H. apply HT. apply HT in H. destruct H as [[H N]|[[-> R]|[-> R]]].
      + left. split; [now apply (tl_rot _ _ L)|exact N].
      + right. left. split; [reflexivity|now apply rot3_rot].
      + right. right. split; [reflexivity|now apply rot3_rot].
    - exact HS.
    - intros i x y z H. apply HT in H. destruct H as [[H N]|[[-> R]|[-> R]]]; [exact (tl_pos _ _ L _ _ _ _ H)| |];
        rewrite (rot3_pos _ _ _ _ _ _ R); assumption.
    - intros i x y z H. apply HT in H. destruct H as [[H N]|[[-> R]|[-> R]]]; [exact (tl_lt _ _ L _ _ _ _ H)| |].
      + assert (X : x = p \/ x = a \/ x = q) by (apply (rot3_mem _ _ _ _ _ _ x R); tauto). lia.
      + assert (X : x = p \/ x = q \/ x = b) by (apply (rot3_mem _ _ _ _ _ _ x R); tauto). lia.
    - intros i j x y z x' y' z' v H H' V V'. apply HT in H. apply HT in H'.
      destruct H as [[H [N1 N2]]|[[-> R]|[-> R]]], H' as [[H' [N1' N2']]|[[-> R']|[-> R']]]; try reflexivity;
        try apply (rot3_ins _ _ _ _ _ _ v R) in V; try apply (rot3_ins _ _ _ _ _ _ v R') in V'.
      + exact (tl_disj _ _ L _ _ _ _ _ _ _ _ _ H H' V V').
      + exfalso. exact (APART _ _ _ _ _ _ _ v H N1 N2 QI1 Cp1 V V').
      + exfalso. exact (APART _ _ _ _ _ _ _ v H N1 N2 QI2 Cp2 V V').
      + exfalso. exact (APART _ _ _ _ _ _ _ v H' N1' N2' QI1 Cp1 V' V).
      + exfalso. destruct V as [_ [_ V]], V' as [V' _]. pose proof (orient_swap (pts p) (pts q) v). lra.
      + exfalso. exact (APART _ _ _ _ _ _ _ v H' N1' N2' QI2 Cp2 V' V).
      + exfalso. destruct V' as [_ [_ V']], V as [V _]. pose proof (orient_swap (pts p) (pts q) v). lra.
    - intros i x y z v H Hv C. apply HT in H. destruct H as [[H N]|[[-> R]|[-> R]]].
      + exact (tl_corner _ _ L _ _ _ _ _ H Hv C).
      + apply (rot3_mem _ _ _ _ _ _ v R). apply (rot3_cls _ _ _ _ _ _ (pts v) R) in C.
        assert (Nb : v <> b).
        { intros ->. destruct C as [_ [_ C]]. pose proof (orient_swap (pts p) (pts q) (pts b)). lra. }
        destruct (QC1 (pts v) C) as [S1 S2]. destruct (Qlt_le_dec (orient (pts a) (pts b) (pts v)) 0) as [K|K].
        * destruct (tl_corner _ _ L _ _ _ _ _ Ho Hv (S2 (Qlt_le_weak _ _ K))); tauto.
        * destruct (tl_corner _ _ L _ _ _ _ _ Hc Hv (S1 K)); tauto.
      + apply (rot3_mem _ _ _ _ _ _ v R). apply (rot3_cls _ _ _ _ _ _ (pts v) R) in C.
        assert (Na : v <> a).
        { intros ->. destruct C as [C _]. pose proof (orient_swap (pts p) (pts a) (pts q)).
          assert (X : orient (pts p) (pts q) (pts a) == - orient (pts p) (pts a) (pts q)) by (clear; coords; ring). lra. }
        destruct (QC2 (pts v) C) as [S1 S2]. destruct (Qlt_le_dec (orient (pts a) (pts b) (pts v)) 0) as [K|K].
        * destruct (tl_corner _ _ L _ _ _ _ _ Ho Hv (S2 (Qlt_le_weak _ _ K))); tauto.
        * destruct (tl_corner _ _ L _ _ _ _ _ Hc Hv (S1 K)); tauto.
    - exact (tl_big _ _ L).
    - intros x Hx. destruct (tl_cover _ _ L x Hx) as [i [d [e [f [H C]]]]].
      assert (CV : (i <> ct /\ i <> oj) \/ (cls' p a b x \/ cls' b a q x)).
      { destruct (Nat.eq_dec i ct) as [->|N1].
        - right. left. exact (proj1 (rot3_cls _ _ _ _ _ _ x (tl_same _ _ L _ _ _ _ _ _ _ Hc H)) C).
        - destruct (Nat.eq_dec i oj) as [->|N2]; [|tauto].
          right. right. exact (proj1 (rot3_cls _ _ _ _ _ _ x (tl_same _ _ L _ _ _ _ _ _ _ Ho H)) C). }
      destruct CV as [N|CV]; [exists i, d, e, f; split; [apply HT; tauto|exact C]|].
      destruct (quad_cover _ _ _ _ P1 P2 Q1 Q2 x CV) as [K|K].
      + exists n1, p, a, q. split; [apply HT; unfold rot3; tauto|exact K].
      + exists n2, p, q, b. split; [apply HT; unfold rot3; tauto|exact K].
  Qed.
End Tiling.
