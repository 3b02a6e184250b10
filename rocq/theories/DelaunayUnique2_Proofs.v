(** The Delaunay triangulation is determined by the set of points, and the construction does not
    fail for points in general position. *)
From Coq Require Import List Arith Lia QArith Lqa Setoid Morphisms Bool Permutation.
From Verif Require Import Geometry_Model Geometry_Spec Geometry_Proofs GeometryContains_Proofs Circle2_Proofs Tiling2_Proofs Delaunay_Model Delaunay_Spec
  DelaunayGlobal_Spec
  DelaunayGeo_Model DelaunayGeo_Proofs DelaunaySurgery_Proofs DelaunayPlan_Proofs Delaunay2_Proofs DelaunayInsert_Proofs Delaunay2Insert_Proofs
  DelaunayPath_Proofs DelaunayGlobal2_Proofs.
Import ListNotations.
Local Open Scope Q_scope.

(** ** Points with equal coordinates *)
Global Instance same_point_equiv : Equivalence same_point.
Proof.
  split.
  - intro p. split; reflexivity.
  - intros p q [A B]. split; symmetry; assumption.
  - intros p q r [A B] [C D]. split; etransitivity; eassumption.
Qed.
Global Instance orient_proper : Proper (same_point ==> same_point ==> same_point ==> Qeq) orient.
Proof. intros a a' [A1 A2] b b' [B1 B2] c c' [C1 C2]. coords. rewrite A1, A2, B1, B2, C1, C2. reflexivity. Qed.
Global Instance pow_proper o k : Proper (same_point ==> Qeq) (pow o k).
Proof. intros a a' [A1 A2]. unfold pow. rewrite A1, A2. reflexivity. Qed.
Global Instance cls_proper : Proper (same_point ==> same_point ==> same_point ==> same_point ==> iff) cls.
Proof. intros a a' A b b' B c c' C x x' X. unfold cls. rewrite A, B, C, X. reflexivity. Qed.
Global Instance ins_proper : Proper (same_point ==> same_point ==> same_point ==> same_point ==> iff) ins.
Proof. intros a a' A b b' B c c' C x x' X. unfold ins. rewrite A, B, C, X. reflexivity. Qed.
Lemma circ_proper a b c a' b' c' o k : same_point a a' -> same_point b b' -> same_point c c' -> circ a b c o k -> circ a' b' c' o k.
Proof. intros A B C [H1 [H2 H3]]. unfold circ. rewrite <- A, <- B, <- C. auto. Qed.

(** ** Uniqueness *)
Section Unique.
  Variable pts : nat -> point2.
  Variables (T : nat -> nat -> nat -> nat -> Prop) (m : nat).
  Hypothesis L : tiling pts T m.
  Hypothesis E : empty_circles pts T m.

  Lemma empty_nonneg i a b c o k v : T i a b c -> circ (pts a) (pts b) (pts c) o k -> (v < m)%nat -> 0 <= pow o k (pts v).
  Proof.
    intros H C Hv. pose proof C as [C1 [C2 C3]].
    destruct (Nat.eq_dec v a) as [->|N1]; [lra|]. destruct (Nat.eq_dec v b) as [->|N2]; [lra|]. destruct (Nat.eq_dec v c) as [->|N3]; [lra|].
    apply Qlt_le_weak. exact (E i a b c o k v H C Hv N1 N2 N3).
  Qed.

  Lemma unique_triangle a b c : (a < m)%nat -> (b < m)%nat -> (c < m)%nat -> 0 < orient (pts a) (pts b) (pts c) ->
    (forall o k v, circ (pts a) (pts b) (pts c) o k -> (v < m)%nat -> 0 <= pow o k (pts v)) -> exists i, T i a b c.
  Proof.
    intros Ha Hb Hc P0 HE. destruct (circ_exists _ _ _ P0) as [o [k C]]. pose proof C as [C1 [C2 C3]].
    destruct (center_ins _ _ _ P0) as [x Hx].
    destruct (tl_cover _ _ _ L x) as [i [d [e [f [Hi Hu]]]]].
    { apply (cls_trans _ _ _ _ _ _ x P0 (ins_cls _ _ _ _ Hx)); now apply (tl_big _ _ _ L). }
    pose proof (tl_pos _ _ _ L _ _ _ _ Hi) as Pi. pose proof (tl_rot _ _ _ L _ _ _ _ Hi) as Hi2. pose proof (tl_rot _ _ _ L _ _ _ _ Hi2) as Hi3.
    pose proof (tl_lt _ _ _ L _ _ _ _ Hi) as Ld. pose proof (tl_lt _ _ _ L _ _ _ _ Hi2) as Le. pose proof (tl_lt _ _ _ L _ _ _ _ Hi3) as Lf.
    destruct (circ_exists _ _ _ Pi) as [o' [k' C']]. pose proof C' as [D1 [D2 D3]].
    (* the difference of the circles at [x] *)
    pose proof (pow_bary o k o' k' (pts d) (pts e) (pts f) x) as B1. rewrite D1, D2, D3 in B1.
    pose proof (pow_bary o k o' k' (pts a) (pts b) (pts c) x) as B2. rewrite C1, C2, C3 in B2.
    destruct Hu as [U1 [U2 U3]]. destruct Hx as [X1 [X2 X3]].
    pose proof (HE o k d C Ld) as F1. pose proof (HE o k e C Le) as F2. pose proof (HE o k f C Lf) as F3.
    pose proof (empty_nonneg i d e f o' k' a Hi C' Ha) as G1. pose proof (empty_nonneg i d e f o' k' b Hi C' Hb) as G2.
    pose proof (empty_nonneg i d e f o' k' c Hi C' Hc) as G3.
    assert (N1 : 0 <= pow o k x - pow o' k' x).
    { apply (qmul_nonneg_inv _ _ Pi). rewrite B1.
      pose proof (qmul_nonneg _ _ U2 F1). pose proof (qmul_nonneg _ _ U3 F2). pose proof (qmul_nonneg _ _ U1 F3). lra. }
    pose proof (qmul_nonneg _ _ (Qlt_le_weak _ _ P0) N1) as N2. rewrite B2 in N2.
    pose proof (qmul_nonneg _ _ (Qlt_le_weak _ _ X2) G1) as Q1. pose proof (qmul_nonneg _ _ (Qlt_le_weak _ _ X3) G2) as Q2.
    pose proof (qmul_nonneg _ _ (Qlt_le_weak _ _ X1) G3) as Q3.
    assert (Z : forall s t, 0 < s -> 0 <= t -> s * t <= 0 -> t <= 0).
    { intros s t Hs Ht Hst. destruct (Qlt_le_dec 0 t) as [K|K]; [|exact K]. pose proof (qmul_pos s t Hs K). lra. }
    assert (Za : pow o' k' (pts a) <= 0) by (apply (Z _ _ X2 G1); lra).
    assert (Zb : pow o' k' (pts b) <= 0) by (apply (Z _ _ X3 G2); lra).
    assert (Zc : pow o' k' (pts c) <= 0) by (apply (Z _ _ X1 G3); lra).
    assert (M : forall v, (v < m)%nat -> pow o' k' (pts v) <= 0 -> v = d \/ v = e \/ v = f).
    { intros v Hv Hp. destruct (Nat.eq_dec v d) as [->|M1]; [tauto|]. destruct (Nat.eq_dec v e) as [->|M2]; [tauto|].
      destruct (Nat.eq_dec v f) as [->|M3]; [tauto|]. pose proof (E i d e f o' k' v Hi C' Hv M1 M2 M3). lra. }
    destruct (orient_same (pts a) (pts b)) as [S1 [S2 _]]. destruct (orient_same (pts a) (pts c)) as [_ [_ S3]].
    assert (Nab : a <> b) by (intros ->; lra). assert (Nac : a <> c) by (intros <-; lra). assert (Nbc : b <> c) by (intros <-; lra).
    pose proof (orient_swap (pts d) (pts e) (pts f)) as W1. pose proof (orient_swap (pts e) (pts f) (pts d)) as W2.
    pose proof (orient_swap (pts f) (pts d) (pts e)) as W3.
    pose proof (orient_rot (pts d) (pts e) (pts f)) as W4. pose proof (orient_rot2 (pts d) (pts e) (pts f)) as W5.
    exists i. destruct (M a Ha Za) as [->|[->| ->]]; destruct (M b Hb Zb) as [->|[->| ->]]; destruct (M c Hc Zc) as [->|[->| ->]];
      try congruence; try assumption; exfalso; lra.
  Qed.
End Unique.

(** ** From signs to weights *)
Lemma strictly_inside2_ins a b c x : 0 < orient a b c -> (strictly_inside2 (T2 a b c) x <-> ins a b c x).
Proof.
  intro H. rewrite <- (inside2_test a b c x H). symmetry. apply contains2_ok. unfold orient in H. lra.
Qed.
Lemma covers2_cls a b c x : 0 < orient a b c -> (covers2 (T2 a b c) x <-> cls a b c x).
Proof.
  intro H. split.
  - assert (X : forall l1 l2 l3, mean2 (T2 a b c) l1 l2 l3 x -> 0 <= l1 -> 0 <= l2 -> 0 <= l3 -> cls a b c x).
    { intros l1 l2 l3 [M1 [M2 M3]] L1 L2 L3. cbn [t2p1 t2p2 t2p3] in *.
      assert (E1 : orient a b x == l3 * orient a b c) by (coords; rewrite M2, M3; assert (l1 == 1 - l2 - l3) as -> by lra; ring).
      assert (E2 : orient b c x == l1 * orient a b c) by (coords; rewrite M2, M3; assert (l1 == 1 - l2 - l3) as -> by lra; ring).
      assert (E3 : orient c a x == l2 * orient a b c) by (coords; rewrite M2, M3; assert (l1 == 1 - l2 - l3) as -> by lra; ring).
      unfold cls. rewrite E1, E2, E3. repeat split; apply qmul_nonneg; lra. }
    intros [[l1 [l2 [l3 [M [L1 [L2 L3]]]]]]|[l1 [l2 [l3 [M [L1 [L2 [L3 _]]]]]]]]; apply (X l1 l2 l3 M); lra.
  - intros [I1 [I2 I3]].
    destruct (Qlt_le_dec 0 (orient a b x)) as [J1|J1];
    [destruct (Qlt_le_dec 0 (orient b c x)) as [J2|J2]; [destruct (Qlt_le_dec 0 (orient c a x)) as [J3|J3]|]|].
    1: left; apply (strictly_inside2_ins a b c x H); repeat split; assumption.
    all: right; exists (orient b c x / orient a b c), (orient c a x / orient a b c), (orient a b x / orient a b c);
      pose proof (orient_sum a b c x) as S; cbn [t2p1 t2p2 t2p3].
    all: split; [split; [rewrite <- S; field; lra|split; cbn [t2p1 t2p2 t2p3]]|].
    all: try (apply (Qmult_inj_r _ _ (orient a b c)); [lra|];
      assert (E : x2 x * orient a b c == orient b c x * x2 a + orient c a x * x2 b + orient a b x * x2 c) by (coords; ring);
      rewrite E; field; lra).
    all: try (apply (Qmult_inj_r _ _ (orient a b c)); [lra|];
      assert (E : y2 x * orient a b c == orient b c x * y2 a + orient c a x * y2 b + orient a b x * y2 c) by (coords; ring);
      rewrite E; field; lra).
    all: split; [apply Qle_shift_div_l; lra|split; [apply Qle_shift_div_l; lra|split; [apply Qle_shift_div_l; lra|]]].
    + right; left. assert (orient c a x == 0) as -> by lra. field. lra.
    + left. assert (orient b c x == 0) as -> by lra. field. lra.
    + right; right. assert (orient a b x == 0) as -> by lra. field. lra.
Qed.
Lemma turned_rot3 a b c l : turned a b c l <-> rot3 l a b c.
Proof. unfold turned, rot3. tauto. Qed.
Lemma is_triangle_tri s a b c : is_triangle s a b c <-> exists i, tri s i a b c.
Proof.
  split.
  - intros [i [t [H R]]]. exists i, t. split; [exact H|]. now apply turned_rot3.
  - intros [i [t [H R]]]. exists i, t. split; [exact H|]. now apply turned_rot3.
Qed.

Section Geo.
  Variable pts : nat -> point2.
  Lemma good_delaunay s : good pts s -> 0 < orient (pts 0%nat) (pts 1%nat) (pts 2%nat) -> delaunay2 pts s.
  Proof.
    intros G P0. pose proof (gd_tiling _ _ G) as L. pose proof (good_empty pts s G) as E. split; [constructor|].
    - intros a b c H. apply is_triangle_tri in H. destruct H as [i H].
      split; [exact (tl_lt _ _ _ L _ _ _ _ H)|]. apply tri_rot in H. split; [exact (tl_lt _ _ _ L _ _ _ _ H)|].
      apply tri_rot in H. exact (tl_lt _ _ _ L _ _ _ _ H).
    - intros a b c H. apply is_triangle_tri in H. destruct H as [i H]. exact (tl_pos _ _ _ L _ _ _ _ H).
    - intros i t j u a b c d e f x Ht Hu Et Eu HI HC.
      assert (Hi : tri s i a b c) by (exists t; split; [exact Ht|left; exact Et]).
      assert (Hj : tri s j d e f) by (exists u; split; [exact Hu|left; exact Eu]).
      apply (strictly_inside2_ins _ _ _ _ (tl_pos _ _ _ L _ _ _ _ Hi)) in HI.
      apply (covers2_cls _ _ _ _ (tl_pos _ _ _ L _ _ _ _ Hj)) in HC.
      exact (tl_disj_cls pts _ _ L _ _ _ _ _ _ _ _ _ Hi Hj HI HC).
    - intros x Hx. apply (covers2_cls _ _ _ _ P0) in Hx. destruct (tl_cover _ _ _ L x Hx) as [i [a [b [c [H K]]]]].
      exists a, b, c. split; [apply is_triangle_tri; eauto|]. now apply (covers2_cls _ _ _ _ (tl_pos _ _ _ L _ _ _ _ H)).
    - intros a b c H. apply is_triangle_tri in H. destruct H as [i H].
      destruct (circ_exists _ _ _ (tl_pos _ _ _ L _ _ _ _ H)) as [o [k C]]. exists o. split; [exact (circ_center _ _ _ _ _ C)|].
      intros v Hv N1 N2 N3. pose proof (circ_dist _ _ _ _ _ (pts v) C). pose proof (E i a b c o k v H C Hv N1 N2 N3). lra.
  Qed.
  Lemma empty_circ n a b c o k v : 0 < orient (pts a) (pts b) (pts c) -> empty_circumcircle2 pts n a b c ->
    circ (pts a) (pts b) (pts c) o k -> (v < n)%nat -> 0 <= pow o k (pts v).
  Proof.
    intros P0 [o' [C' HE]] C Hv. pose proof (circ_of_center _ _ _ _ C') as C2.
    rewrite (circ_unique _ _ _ _ _ _ _ (pts v) P0 C C2). pose proof C2 as [D1 [D2 D3]].
    destruct (Nat.eq_dec v a) as [->|N1]; [lra|]. destruct (Nat.eq_dec v b) as [->|N2]; [lra|]. destruct (Nat.eq_dec v c) as [->|N3]; [lra|].
    pose proof (circ_dist _ _ _ _ _ (pts v) C2) as K. specialize (HE v Hv N1 N2 N3). lra.
  Qed.
  Lemma good_complete s a b c : good pts s -> (a < num_points s)%nat -> (b < num_points s)%nat -> (c < num_points s)%nat ->
    0 < orient (pts a) (pts b) (pts c) -> empty_circumcircle2 pts (num_points s) a b c -> is_triangle s a b c.
  Proof.
    intros G Ha Hb Hc P0 HE. apply is_triangle_tri. apply (unique_triangle pts _ _ (gd_tiling _ _ G) (good_empty pts s G)); auto.
    intros o k v C Hv. exact (empty_circ _ _ _ _ _ _ _ P0 HE C Hv).
  Qed.

  (** ** No panic in general position *)
  Variable pop : nat -> list nat -> nat.
  Lemma good_total s : good pts s -> 0 < orient (pts 0%nat) (pts 1%nat) (pts 2%nat) ->
    general_position pts (S (num_points s)) ->
    exists new s', insert split2 flip2 (circle2 pts) (inside2 pts) pop s = Some (num_points s, new, s').
  Proof.
    intros G P0 [GI GL GC]. pose proof (gd_inv _ _ G) as I. pose proof (gd_tiling _ _ G) as L. pose proof (gd_three _ _ G) as N3.
    set (p := num_points s) in *.
    assert (Tpos : forall i t, In (i, t) (tetras s) -> exists a b c, points_of t = [a; b; c] /\ tri s i a b c).
    { intros i t Ht. destruct (three_entries s i t I Ht) as [a [fa [b [fb [c [fc E]]]]]]. exists a, b, c.
      assert (X : points_of t = [a; b; c]) by (rewrite E; reflexivity). split; [exact X|]. exists t. split; [exact Ht|left; exact X]. }
    assert (IN : forall i t, In (i, t) (tetras s) -> inside2 pts (points_of t) p <> None).
    { intros i t Ht. destruct (Tpos i t Ht) as [a [b [c [E H]]]]. rewrite E. cbn [inside2].
      pose proof (tl_pos _ _ _ L _ _ _ _ H) as Pi. assert (NZ : ~ area2 (T2 (pts a) (pts b) (pts c)) == 0) by (unfold orient in Pi; lra).
      intro X. apply (contains2_ok _ (pts p) NZ) in X.
      assert (C : cls (pts a) (pts b) (pts c) (pts p)) by (apply (covers2_cls _ _ _ _ Pi); now right).
      assert (NI : ~ ins (pts a) (pts b) (pts c) (pts p)).
      { intro K. apply (inside2_test _ _ _ _ Pi) in K. apply (contains2_ok _ (pts p) NZ) in X. congruence. }
      pose proof (tri_rot _ _ _ _ _ H) as H2. pose proof (tri_rot _ _ _ _ _ H2) as H3.
      pose proof (tl_lt _ _ _ L _ _ _ _ H) as La. pose proof (tl_lt _ _ _ L _ _ _ _ H2) as Lb. pose proof (tl_lt _ _ _ L _ _ _ _ H3) as Lc.
      assert (LN : forall u v w, (u < p)%nat -> (v < p)%nat -> 0 < orient (pts u) (pts v) (pts w) -> ~ orient (pts u) (pts v) (pts p) == 0).
      { intros u v w Hu Hv K. apply (GL u v p); try lia. intros ->. destruct (orient_same (pts v) (pts w)) as [_ [_ Z]]. lra. }
      pose proof (LN a b c La Lb Pi) as Z1. pose proof (LN b c a Lb Lc (tl_pos _ _ _ L _ _ _ _ H2)) as Z2.
      pose proof (LN c a b Lc La (tl_pos _ _ _ L _ _ _ _ H3)) as Z3.
      apply NI. destruct C as [C1 [C2 C3]]. repeat split; lra. }
    destruct (insert_total_if 2 face_ok2 face_ok2_perm split2 flip2 (circle2 pts) (inside2 pts) pop count2
      flip_spec2 split_spec2 (circle2_corners pts) split_total2 flip_total2 s (between pts s) I (gd_last _ _ G)) as [new [s' H]].
    - intros s1 i B. now apply between_last.
    - intros s1 i t fi j q new s2 B Ht Hp Ho Hc Hf. exact (between_flip pts s s1 i t fi j q new s2 B Ht Hp Ho Hc Hf).
    - intros s1 i t fi j q B Ht Hp Ho X.
      pose proof (bw_tiling _ _ _ B) as L1. pose proof (bw_inv _ _ _ B) as I1. pose proof (bw_points _ _ _ B) as NP.
      destruct (three_entries s1 i t I1 Ht) as [a [fa [b [fb [c [fc E]]]]]].
      assert (Y : points_of t = [a; b; c]) by (rewrite E; reflexivity).
      assert (H : tri s1 i a b c) by (exists t; split; [exact Ht|left; exact Y]).
      pose proof (tl_pos _ _ _ L1 _ _ _ _ H) as Pi.
      pose proof (tri_rot _ _ _ _ _ H) as H2. pose proof (tri_rot _ _ _ _ _ H2) as H3.
      pose proof (tl_lt _ _ _ L1 _ _ _ _ H) as La. pose proof (tl_lt _ _ _ L1 _ _ _ _ H2) as Lb. pose proof (tl_lt _ _ _ L1 _ _ _ _ H3) as Lc.
      (* the point across is not a corner *)
      assert (Q : exists u v, tri s1 i u v p /\ tri s1 j v u q).
      { pose proof (entry_point t p fi Hp) as K. rewrite Y in K. destruct K as [K|[K|[K|[]]]]; subst.
        - exists b, c. split; [exact H2|]. refine (tri_opposing s1 i _ b c _ fi j q I1 Ht _ Hp Ho). rewrite Y. unfold rot3. tauto.
        - exists c, a. split; [exact H3|]. refine (tri_opposing s1 i _ c a _ fi j q I1 Ht _ Hp Ho). rewrite Y. unfold rot3. tauto.
        - exists a, b. split; [exact H|]. refine (tri_opposing s1 i _ a b _ fi j q I1 Ht _ Hp Ho). rewrite Y. unfold rot3. tauto. }
      destruct Q as [u [v [Hu Hv]]].
      pose proof (tl_lt _ _ _ L1 _ _ _ _ (tri_rot _ _ _ _ _ (tri_rot _ _ _ _ _ Hv))) as Lq.
      assert (Nq : ~ In q (points_of t)).
      { rewrite Y. intro K. assert (R : rot3 [a; b; c] u v p) by (exact (tri_same s1 i _ _ _ _ _ _ I1 Hu H)).
        apply (rot3_in _ _ _ _ q R) in K. pose proof (tl_pos _ _ _ L1 _ _ _ _ Hu) as P1. pose proof (tl_pos _ _ _ L1 _ _ _ _ Hv) as P2.
        destruct (orient_same (pts v) (pts u)) as [Z1 [Z2 _]]. pose proof (orient_swap (pts v) (pts u) (pts p)).
        destruct K as [->|[->| ->]]; lra. }
      rewrite Y in X, Nq. cbn [circle2] in X.
      destruct (circ_exists _ _ _ Pi) as [o [k C]]. destruct (circle2_test _ _ _ o k (pts q) Pi C) as [_ [_ T3]].
      apply (T3 : ~ _ == 0 -> _) in X; [exact X|]. intro Z. pose proof (circ_dist _ _ _ _ _ (pts q) C) as D.
      destruct (orient_same (pts a) (pts b)) as [S1 [S2 _]]. destruct (orient_same (pts a) (pts c)) as [_ [_ S3]].
      apply (GC a b c q o); try lia; cbn in Nq.
      + intros ->; lra.
      + intros <-; lra.
      + intros <-; lra.
      + intros ->; tauto.
      + intros ->; tauto.
      + intros ->; tauto.
      + exact (circ_center _ _ _ _ _ C).
      + lra.
    - intros old t new1 s1 Ht Hin Es. exact (between_split pts s G old t new1 s1 Ht Hin Es).
    - exact IN.
    - assert (Hin : strictly_inside2 (shape2 pts 0 1 2) (pts p)) by (apply GI; lia).
      apply (strictly_inside2_ins _ _ _ _ P0) in Hin.
      destruct (tl_cover _ _ _ L (pts p) (ins_cls _ _ _ _ Hin)) as [i [a [b [c [H C]]]]].
      destruct H as [t [Ht R]]. exists i, t. split; [exact Ht|].
      assert (H : tri s i a b c) by (exists t; auto). pose proof (tl_pos _ _ _ L _ _ _ _ H) as Pi.
      apply (inside_rot pts t a b c p R Pi).
      pose proof (tri_rot _ _ _ _ _ H) as H2. pose proof (tri_rot _ _ _ _ _ H2) as H3.
      pose proof (tl_lt _ _ _ L _ _ _ _ H) as La. pose proof (tl_lt _ _ _ L _ _ _ _ H2) as Lb. pose proof (tl_lt _ _ _ L _ _ _ _ H3) as Lc.
      assert (LN : forall u v w, (u < p)%nat -> (v < p)%nat -> 0 < orient (pts u) (pts v) (pts w) -> ~ orient (pts u) (pts v) (pts p) == 0).
      { intros u v w Hu Hv K. apply (GL u v p); try lia. intros ->. destruct (orient_same (pts v) (pts w)) as [_ [_ Z]]. lra. }
      pose proof (LN a b c La Lb Pi) as Z1. pose proof (LN b c a Lb Lc (tl_pos _ _ _ L _ _ _ _ H2)) as Z2.
      pose proof (LN c a b Lc La (tl_pos _ _ _ L _ _ _ _ H3)) as Z3. destruct C as [C1 [C2 C3]]. repeat split; lra.
    - eauto.
  Qed.
End Geo.

(** ** Two triangulations *)
Section Two.
  Variables pts pts' : nat -> point2.
  Variables s s' : triangulation.
  Hypothesis G : good pts s.
  Hypothesis G' : good pts' s'.
  Notation m := (num_points s).
  Notation m' := (num_points s').
  Notation "a ~ b" := (same_point (pts a) (pts' b)) (at level 70).

  Lemma transfer a b c a' b' c' : is_triangle s a b c -> (a' < m')%nat -> (b' < m')%nat -> (c' < m')%nat ->
    a ~ a' -> b ~ b' -> c ~ c' ->
    (forall o k v', circ (pts a) (pts b) (pts c) o k -> (v' < m')%nat -> 0 <= pow o k (pts' v')) -> is_triangle s' a' b' c'.
  Proof.
    intros H La Lb Lc Ea Eb Ec HE. apply is_triangle_tri in H. destruct H as [i H].
    pose proof (tl_pos _ _ _ (gd_tiling _ _ G) _ _ _ _ H) as P0. apply is_triangle_tri.
    apply (unique_triangle pts' _ _ (gd_tiling _ _ G') (good_empty pts' s' G')); auto.
    - rewrite <- Ea, <- Eb, <- Ec. exact P0.
    - intros o k v C Hv. apply HE; [|exact Hv]. apply (circ_proper _ _ _ _ _ _ _ _ (symmetry Ea) (symmetry Eb) (symmetry Ec) C).
  Qed.

  (** The triangulation depends on the set of points only. *)
  Lemma order_independent (R : nat -> nat -> Prop) : (forall v v', R v v' -> v ~ v') ->
    (forall v, (v < m)%nat -> exists v', (v' < m')%nat /\ R v v') ->
    (forall v', (v' < m')%nat -> exists v, (v < m)%nat /\ R v v') ->
    forall a b c, is_triangle s a b c -> exists a' b' c', is_triangle s' a' b' c' /\ R a a' /\ R b b' /\ R c c'.
  Proof.
    intros RS F B a b c H. pose proof H as K. apply is_triangle_tri in K. destruct K as [i K].
    pose proof (gd_tiling _ _ G) as L. pose proof (tri_rot _ _ _ _ _ K) as K2. pose proof (tri_rot _ _ _ _ _ K2) as K3.
    destruct (F a (tl_lt _ _ _ L _ _ _ _ K)) as [a' [La Ea]]. destruct (F b (tl_lt _ _ _ L _ _ _ _ K2)) as [b' [Lb Eb]].
    destruct (F c (tl_lt _ _ _ L _ _ _ _ K3)) as [c' [Lc Ec]]. exists a', b', c'. split; [|auto].
    apply (transfer a b c); auto. intros o k v' C Hv. destruct (B v' Hv) as [v [Lv Ev]]. rewrite <- (RS _ _ Ev).
    exact (empty_nonneg pts _ _ (good_empty pts s G) i a b c o k v K C Lv).
  Qed.

  (** Triangles around one point. *)
  Hypothesis outer : forall v, (v < 3)%nat -> v ~ v.
  Hypothesis sub : forall v, (v < m)%nat -> exists v', (v' < m')%nat /\ v ~ v'.
  Variables p p' : nat.
  Hypothesis Lp : (p < m)%nat.
  Hypothesis Ep : p ~ p'.
  Hypothesis Lp' : (p' < m')%nat.
  Hypothesis free : forall b c o v', is_triangle s p b c -> circumscribed2 (shape2 pts p b c) o -> (v' < m')%nat ->
    dist2_2 o (pts p) <= dist2_2 o (pts' v').

  Lemma star_forward b c : is_triangle s p b c -> exists b' c', is_triangle s' p' b' c' /\ b ~ b' /\ c ~ c'.
  Proof.
    intros H. pose proof H as K. apply is_triangle_tri in K. destruct K as [i K].
    pose proof (gd_tiling _ _ G) as L. pose proof (tri_rot _ _ _ _ _ K) as K2. pose proof (tri_rot _ _ _ _ _ K2) as K3.
    destruct (sub b (tl_lt _ _ _ L _ _ _ _ K2)) as [b' [Lb Eb]].
    destruct (sub c (tl_lt _ _ _ L _ _ _ _ K3)) as [c' [Lc Ec]]. exists b', c'. split; [|auto].
    apply (transfer p b c); auto. intros o k v' C Hv.
    pose proof (free b c o v' H (circ_center _ _ _ _ _ C) Hv) as D.
    pose proof (circ_dist _ _ _ _ _ (pts' v') C). lra.
  Qed.

  Lemma small_away y (l : list (nat * tetra)) : (forall i t, In (i, t) l -> In (i, t) (tetras s)) ->
    exists e, 0 < e /\ e < 1 /\ forall e', 0 < e' -> e' <= e -> forall i t a b c, In (i, t) l -> points_of t = [a; b; c] ->
      cls (pts a) (pts b) (pts c) (mix e' (pts p) y) -> p = a \/ p = b \/ p = c.
  Proof.
    induction l as [|[j u] l IH]; intro Hl.
    - exists (1#2). split; [lra|]. split; [lra|]. intros e' _ _ i t a b c [].
    - destruct IH as [e [E1 [E2 E3]]]; [intros; apply Hl; now right|].
      destruct (three_entries s j u (gd_inv _ _ G) (Hl j u (or_introl eq_refl))) as [a [fa [b [fb [c [fc E]]]]]].
      assert (Y : points_of u = [a; b; c]) by (rewrite E; reflexivity).
      assert (H : tri s j a b c) by (exists u; split; [apply Hl; now left|left; exact Y]).
      assert (X : exists e1, 0 < e1 /\ forall e', 0 < e' -> e' <= e1 ->
        cls (pts a) (pts b) (pts c) (mix e' (pts p) y) -> p = a \/ p = b \/ p = c).
      { assert (Z : forall f g, f < 0 -> exists e1, 0 < e1 /\ forall e', 0 < e' -> e' <= e1 -> (1 - e') * f + e' * g < 0).
        { intros f g Hf. destruct (small1 (- f) (- g)) as [e1 [A1 [A2 A3]]]; [lra|]. exists e1. split; [exact A1|].
          intros e' P1 P2. specialize (A3 e' P1 P2). lra. }
        destruct (Qlt_le_dec (orient (pts a) (pts b) (pts p)) 0) as [S1|S1].
        { destruct (Z _ (orient (pts a) (pts b) y) S1) as [e1 [A1 A2]]. exists e1. split; [exact A1|]. intros e' P1 P2 [C1 _].
          rewrite orient_mix in C1. specialize (A2 e' P1 P2). lra. }
        destruct (Qlt_le_dec (orient (pts b) (pts c) (pts p)) 0) as [S2|S2].
        { destruct (Z _ (orient (pts b) (pts c) y) S2) as [e1 [A1 A2]]. exists e1. split; [exact A1|]. intros e' P1 P2 [_ [C1 _]].
          rewrite orient_mix in C1. specialize (A2 e' P1 P2). lra. }
        destruct (Qlt_le_dec (orient (pts c) (pts a) (pts p)) 0) as [S3|S3].
        { destruct (Z _ (orient (pts c) (pts a) y) S3) as [e1 [A1 A2]]. exists e1. split; [exact A1|]. intros e' P1 P2 [_ [_ C1]].
          rewrite orient_mix in C1. specialize (A2 e' P1 P2). lra. }
        exists 1. split; [lra|]. intros _ _ _ _. apply (tl_corner _ _ _ (gd_tiling _ _ G) _ _ _ _ p H Lp). repeat split; assumption. }
      destruct X as [e1 [A1 A2]].
      assert (M : exists e2, 0 < e2 /\ e2 <= e /\ e2 <= e1) by (destruct (Qlt_le_dec e e1); [exists e|exists e1]; repeat split; lra).
      destruct M as [e2 [M1 [M2 M3]]]. exists e2. split; [exact M1|]. split; [lra|].
      intros e' P1 P2 i t a' b' c' [K|K] Et C.
      + injection K as <- <-. rewrite Y in Et. injection Et as <- <- <-. apply (A2 e'); [exact P1|lra|exact C].
      + apply (E3 e' P1 ltac:(lra) i t a' b' c' K Et C).
  Qed.

  Lemma star_backward b' c' : is_triangle s' p' b' c' -> exists b c, is_triangle s p b c /\ b ~ b' /\ c ~ c'.
  Proof.
    intros H. pose proof H as K. apply is_triangle_tri in K. destruct K as [i K].
    pose proof (gd_tiling _ _ G) as L. pose proof (gd_tiling _ _ G') as L'.
    pose proof (tri_rot _ _ _ _ _ K) as K2. pose proof (tri_rot _ _ _ _ _ K2) as K3.
    pose proof (tl_lt _ _ _ L' _ _ _ _ K2) as Lb. pose proof (tl_lt _ _ _ L' _ _ _ _ K3) as Lc.
    pose proof (tl_pos _ _ _ L' _ _ _ _ K) as P0. destruct (center_ins _ _ _ P0) as [y Hy].
    destruct (small_away y (tetras s)) as [e [E1 [E2 E3]]]; [auto|].
    assert (Hx : ins (pts' p') (pts' b') (pts' c') (mix e (pts' p') y)).
    { apply cls_mix_ins; auto. now destruct (corner_cls _ _ _ P0). }
    assert (SM : same_point (mix e (pts p) y) (mix e (pts' p') y)).
    { destruct Ep as [X1 X2]. split; cbn; [rewrite X1|rewrite X2]; reflexivity. }
    rewrite <- SM in Hx.
    assert (CO : cls (pts 0%nat) (pts 1%nat) (pts 2%nat) (mix e (pts p) y)).
    { rewrite (outer 0 ltac:(lia)), (outer 1 ltac:(lia)), (outer 2 ltac:(lia)).
      apply (cls_trans _ _ _ _ _ _ _ P0 (ins_cls _ _ _ _ Hx)); now apply (tl_big _ _ _ L'). }
    destruct (tl_cover _ _ _ L _ CO) as [j [a [b [c [Hj Cj]]]]].
    assert (R : exists b c, tri s j p b c /\ cls (pts p) (pts b) (pts c) (mix e (pts p) y)).
    { destruct Hj as [t [Ht R]].
      destruct (three_entries s j t (gd_inv _ _ G) Ht) as [a1 [fa [b1 [fb [c1 [fc E]]]]]].
      assert (Y : points_of t = [a1; b1; c1]) by (rewrite E; reflexivity). rewrite Y in R.
      apply (rot3_cls pts _ _ _ _ _ _ _ R) in Cj.
      assert (H1 : tri s j a1 b1 c1) by (exists t; split; [exact Ht|left; exact Y]).
      destruct (E3 e E1 (Qle_refl _) j t a1 b1 c1 Ht Y Cj) as [<-|[<-|<-]].
      - exists b1, c1. auto.
      - exists c1, a1. split; [now apply tri_rot|now apply cls_rot].
      - exists a1, b1. split; [now do 2 apply tri_rot|now do 2 apply cls_rot]. }
    clear a b c Hj Cj. destruct R as [b [c [Hj Cj]]].
    destruct (star_forward b c) as [d [f [Hd [Eb Ec]]]]; [apply is_triangle_tri; eauto|].
    apply is_triangle_tri in Hd. destruct Hd as [j' Hd].
    assert (Cd : cls (pts' p') (pts' d) (pts' f) (mix e (pts p) y)) by (rewrite <- Ep, <- Eb, <- Ec; exact Cj).
    assert (i = j') by exact (tl_disj_cls pts' _ _ L' _ _ _ _ _ _ _ _ _ K Hd Hx Cd). subst j'.
    pose proof (tri_same s' i _ _ _ _ _ _ (gd_inv _ _ G') Hd K) as R.
    destruct (orient_same (pts' p') (pts' c')) as [_ [_ Z1]]. destruct (orient_same (pts' p') (pts' b')) as [Z2 _].
    destruct R as [R|[R|R]]; injection R; intros; subst; try (exfalso; lra).
    exists b, c. split; [apply is_triangle_tri; eauto|auto].
  Qed.
End Two.

Section Total.
  Variable pts : nat -> point2.
  Variable pop : nat -> list nat -> nat.
  Lemma general_position_le n n' : (n <= n')%nat -> general_position pts n' -> general_position pts n.
  Proof.
    intros H [A B C]. constructor.
    - intros v Hv. apply A. lia.
    - intros a b c Ha Hb Hc. apply B; lia.
    - intros a b c d o Ha Hb Hc Hd. apply C; lia.
  Qed.
  Lemma total_many n : 0 < orient (pts 0%nat) (pts 1%nat) (pts 2%nat) -> forall s, good pts s ->
    general_position pts (num_points s + n) -> exists s', insert_many split2 flip2 (circle2 pts) (inside2 pts) pop n s = Some s'.
  Proof.
    intro P0. induction n as [|n IH]; intros s G GP; [exists s; reflexivity|].
    destruct (good_total pts pop s G P0) as [new [s1 E]]; [apply (general_position_le _ (num_points s + S n)); [lia|exact GP]|].
    pose proof (insert_good pts pop s _ new s1 G E) as G1.
    pose proof (insert_ok 2 face_ok2 face_ok2_perm split2 flip2 (circle2 pts) (inside2 pts) pop count2 count2_last
      flip_spec2 split_spec2 (circle2_corners pts) s _ new s1 (gd_inv _ _ G) (gd_last _ _ G) E) as [_ _ _ a4 _ _ _].
    destruct (IH s1 G1) as [s' E']; [rewrite a4; replace (S (num_points s) + n)%nat with (num_points s + S n)%nat by lia; exact GP|].
    exists s'. cbn [insert_many]. rewrite E. cbn [bind]. exact E'.
  Qed.
  Theorem built2_exists n : 0 < orient (pts 0%nat) (pts 1%nat) (pts 2%nat) -> general_position pts (n + 3) ->
    exists s, built2 (circle2 pts) (inside2 pts) pop n s.
  Proof.
    intros P0 GP. destruct inv2_start as [s0 [E0 [I [LO [_ NP]]]]].
    destruct (total_many n P0 s0 (start_good pts pop s0 P0 E0)) as [s E]; [rewrite NP, Nat.add_comm; exact GP|].
    exists s, s0. auto.
  Qed.
End Total.
