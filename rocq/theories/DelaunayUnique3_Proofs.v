(** The Delaunay triangulation of points in space is determined by the set of points. *)
From Coq Require Import List Arith Lia QArith Lqa Setoid Morphisms Bool Permutation.
From Verif Require Import Geometry_Model Geometry_Spec Geometry_Proofs GeometryContains_Proofs Circle2_Proofs Tiling2_Proofs Delaunay_Model Delaunay_Spec DelaunayGlobal3_Spec
  DelaunayGeo_Model DelaunaySurgery_Proofs DelaunayPlan_Proofs Delaunay2_Proofs DelaunayInsert_Proofs Delaunay3_Proofs Delaunay3Insert_Proofs
  Sphere3_Proofs Predicates3_Proofs Tiling3_Proofs DelaunayLink3_Proofs DelaunayGlobal3_Proofs.
Import ListNotations.
Local Open Scope Q_scope.

(** ** Points with equal coordinates *)
Definition same_point3 (p q : point3) : Prop := x3 p == x3 q /\ y3 p == y3 q /\ z3 p == z3 q.
Global Instance same_point3_equiv : Equivalence same_point3.
Proof.
  split.
  - intro p. repeat split; reflexivity.
  - intros p q [A [B C]]. repeat split; symmetry; assumption.
  - intros p q r [A [B C]] [D [E F]]. repeat split; etransitivity; eassumption.
Qed.
Global Instance orient3_proper : Proper (same_point3 ==> same_point3 ==> same_point3 ==> same_point3 ==> Qeq) orient3.
Proof.
  intros a a' [A1 [A2 A3]] b b' [B1 [B2 B3]] c c' [C1 [C2 C3]] d d' [D1 [D2 D3]]. coords3.
  rewrite A1, A2, A3, B1, B2, B3, C1, C2, C3, D1, D2, D3. reflexivity.
Qed.
Global Instance pow3_proper o k : Proper (same_point3 ==> Qeq) (pow3 o k).
Proof. intros a a' [A1 [A2 A3]]. unfold pow3. rewrite A1, A2, A3. reflexivity. Qed.
Global Instance cls3_proper : Proper (same_point3 ==> same_point3 ==> same_point3 ==> same_point3 ==> same_point3 ==> iff) cls3.
Proof. intros a a' A b b' B c c' C d d' D x x' X. unfold cls3. rewrite A, B, C, D, X. reflexivity. Qed.
Global Instance ins3_proper : Proper (same_point3 ==> same_point3 ==> same_point3 ==> same_point3 ==> same_point3 ==> iff) ins3.
Proof. intros a a' A b b' B c c' C d d' D x x' X. unfold ins3. rewrite A, B, C, D, X. reflexivity. Qed.
Lemma sph_proper a b c d a' b' c' d' o k : same_point3 a a' -> same_point3 b b' -> same_point3 c c' -> same_point3 d d' -> sph a b c d o k -> sph a' b' c' d' o k.
Proof. intros A B C D [H1 [H2 [H3 H4]]]. unfold sph. rewrite <- A, <- B, <- C, <- D. auto. Qed.

(** ** Orders of four corners *)
Lemma perm4_even a b c d x y z w : NoDup [a; b; c; d] -> Permutation [a; b; c; d] [x; y; z; w] ->
  even4 [a; b; c; d] [x; y; z; w] \/ even4 [b; a; c; d] [x; y; z; w].
Proof.
  intros ND P. assert (M : forall v, In v [x; y; z; w] -> In v [a; b; c; d]) by (intros v H; apply (Permutation_in v (Permutation_sym P) H)).
  assert (ND' : NoDup [x; y; z; w]) by exact (Permutation_NoDup P ND).
  assert (Hx := M x ltac:(cbn; tauto)). assert (Hy := M y ltac:(cbn; tauto)). assert (Hz := M z ltac:(cbn; tauto)). assert (Hw := M w ltac:(cbn; tauto)).
  apply NoDup4 in ND'. clear M P ND. destruct ND' as [N1 [N2 [N3 [N4 [N5 N6]]]]].
  cbn [In] in *.
  destruct Hx as [<-|[<-|[<-|[<-|[]]]]]; destruct Hy as [<-|[<-|[<-|[<-|[]]]]]; try congruence;
  destruct Hz as [<-|[<-|[<-|[<-|[]]]]]; try congruence; destruct Hw as [<-|[<-|[<-|[<-|[]]]]]; try congruence;
    first [left; even|right; even].
Qed.
Lemma mean4_swap a b c d l1 l2 l3 l4 x : mean4 (TT a b c d) l1 l2 l3 l4 x -> mean4 (TT b a c d) l2 l1 l3 l4 x.
Proof. intros [A [B [C D]]]. cbn [ttp1 ttp2 ttp3 ttp4] in *. repeat split; cbn [ttp1 ttp2 ttp3 ttp4]; lra. Qed.
Lemma in_tetra_swap a b c d x : in_tetra (TT a b c d) x -> in_tetra (TT b a c d) x.
Proof. intros [l1 [l2 [l3 [l4 [M [L1 [L2 [L3 L4]]]]]]]]. exists l2, l1, l3, l4. split; [now apply mean4_swap|auto]. Qed.
Lemma circumscribed3_swap a b c d o : circumscribed3 (TT a b c d) o -> circumscribed3 (TT b a c d) o.
Proof. intros [A [B C]]. cbn [ttp1 ttp2 ttp3 ttp4] in *. repeat split; cbn [ttp1 ttp2 ttp3 ttp4]; lra. Qed.
Lemma empty_swap pts n a b c d : empty_circumsphere3 pts n a b c d -> empty_circumsphere3 pts n b a c d.
Proof.
  intros [o [C H]]. exists o. split; [now apply circumscribed3_swap|]. intros v Hv N1 N2 N3 N4.
  destruct C as [E _]. cbn [shape3 ttp1 ttp2] in E. rewrite E. now apply H.
Qed.

Lemma is_tetra_tet s a b c d : inv3 s -> (is_tetra s a b c d <-> exists i, tet s i a b c d \/ tet s i b a c d).
Proof.
  intro I. split.
  - intros [i [t [H P]]]. destruct (iv_corners _ _ _ I _ _ H) as [L [ND _]].
    assert (ND' : NoDup [a; b; c; d]) by (apply (Permutation_NoDup (Permutation_sym P) ND)).
    assert (exists x y z w, points_of t = [x; y; z; w]) as [x [y [z [w E]]]].
    { pose proof (Permutation_length P) as LE. destruct (points_of t) as [|x [|y [|z [|w [|? ?]]]]]; try discriminate LE. eauto. }
    exists i. rewrite E in P. destruct (perm4_even a b c d x y z w ND' P) as [K|K]; [left|right]; exists t; rewrite E; auto.
  - intros [i [[t [H E]]|[t [H E]]]]; exists i, t; (split; [exact H|]); apply even4_perm in E; [exact E|].
    rewrite <- E. apply perm_swap.
Qed.

Lemma o3_distinct (pts : nat -> point3) a b c d : 0 < orient3 (pts a) (pts b) (pts c) (pts d) ->
  a <> b /\ a <> c /\ a <> d /\ b <> c /\ b <> d /\ c <> d.
Proof.
  intro H. repeat split; intros ->.
  - rewrite o3_first in H. lra.
  - rewrite o3_outer in H. lra.
  - rewrite (proj1 (o3_same _ _ _)) in H. lra.
  - rewrite o3_inner in H. lra.
  - rewrite (proj1 (proj2 (o3_same _ _ _))) in H. lra.
  - rewrite (proj2 (proj2 (o3_same _ _ _))) in H. lra.
Qed.
Lemma nodup4 (a b c d : nat) : a <> b -> a <> c -> a <> d -> b <> c -> b <> d -> c <> d -> NoDup [a; b; c; d].
Proof. intros. repeat constructor; cbn; intuition congruence. Qed.
Lemma member4 (v e f g h : nat) : v = e \/ v = f \/ v = g \/ v = h -> In v [e; f; g; h].
Proof. cbn. intuition congruence. Qed.
(** ** Uniqueness *)
Section Unique.
  Variable pts : nat -> point3.
  Variables (T : nat -> nat -> nat -> nat -> nat -> Prop) (m : nat).
  Hypothesis L : tiling3 pts T m.
  Hypothesis E : empty_spheres pts T m.
  Notation O a b c d := (orient3 (pts a) (pts b) (pts c) (pts d)).
  Notation sphere a b c d := (sph (pts a) (pts b) (pts c) (pts d)).

  Lemma empty_nonneg3 i a b c d o k v : T i a b c d -> sphere a b c d o k -> (v < m)%nat -> 0 <= pow3 o k (pts v).
  Proof.
    intros H C Hv. pose proof C as [C1 [C2 [C3 C4]]].
    destruct (Nat.eq_dec v a) as [->|N1]; [lra|]. destruct (Nat.eq_dec v b) as [->|N2]; [lra|]. destruct (Nat.eq_dec v c) as [->|N3]; [lra|].
    destruct (Nat.eq_dec v d) as [->|N4]; [lra|].
    apply Qlt_le_weak. exact (E i a b c d o k v H C Hv N1 N2 N3 N4).
  Qed.

  Lemma unique_tetra a b c d : (a < m)%nat -> (b < m)%nat -> (c < m)%nat -> (d < m)%nat -> 0 < O a b c d ->
    (forall o k v, sphere a b c d o k -> (v < m)%nat -> 0 <= pow3 o k (pts v)) -> exists i, T i a b c d.
  Proof.
    intros Ha Hb Hc Hd P0 HE. destruct (sph_exists _ _ _ _ P0) as [o [k C]]. pose proof C as [C1 [C2 [C3 C4]]].
    destruct (center_ins3 _ _ _ _ P0) as [x Hx].
    destruct (t3_cover _ _ _ L x) as [i [e [f [g [h [Hi Hu]]]]]].
    { apply (cls3_trans _ _ _ _ _ _ _ _ x P0 (ins3_cls3 _ _ _ _ _ Hx)); now apply (t3_big _ _ _ L). }
    pose proof (t3_pos _ _ _ L _ _ _ _ _ Hi) as Pi. destruct (t3_lts pts T m L _ _ _ _ _ Hi) as [Le [Lf [Lg Lh]]].
    destruct (sph_exists _ _ _ _ Pi) as [o' [k' C']]. pose proof C' as [D1 [D2 [D3 D4]]].
    pose proof (pow3_bary o k o' k' (pts e) (pts f) (pts g) (pts h) x) as B1. rewrite D1, D2, D3, D4 in B1.
    pose proof (pow3_bary o k o' k' (pts a) (pts b) (pts c) (pts d) x) as B2. rewrite C1, C2, C3, C4 in B2.
    destruct Hu as [U1 [U2 [U3 U4]]]. destruct Hx as [X1 [X2 [X3 X4]]].
    pose proof (HE o k e C Le) as F1. pose proof (HE o k f C Lf) as F2. pose proof (HE o k g C Lg) as F3. pose proof (HE o k h C Lh) as F4.
    pose proof (empty_nonneg3 i e f g h o' k' a Hi C' Ha) as G1. pose proof (empty_nonneg3 i e f g h o' k' b Hi C' Hb) as G2.
    pose proof (empty_nonneg3 i e f g h o' k' c Hi C' Hc) as G3. pose proof (empty_nonneg3 i e f g h o' k' d Hi C' Hd) as G4.
    assert (N1 : 0 <= pow3 o k x - pow3 o' k' x).
    { apply (qmul_nonneg_inv _ _ Pi). rewrite B1.
      pose proof (qmul_nonneg _ _ U1 F4). pose proof (qmul_nonneg _ _ U2 F3). pose proof (qmul_nonneg _ _ U3 F2). pose proof (qmul_nonneg _ _ U4 F1). lra. }
    pose proof (qmul_nonneg _ _ (Qlt_le_weak _ _ P0) N1) as N2. rewrite B2 in N2.
    pose proof (qmul_nonneg _ _ (Qlt_le_weak _ _ X4) G1) as Q1. pose proof (qmul_nonneg _ _ (Qlt_le_weak _ _ X3) G2) as Q2.
    pose proof (qmul_nonneg _ _ (Qlt_le_weak _ _ X2) G3) as Q3. pose proof (qmul_nonneg _ _ (Qlt_le_weak _ _ X1) G4) as Q4.
    assert (Z : forall s t, 0 < s -> 0 <= t -> s * t <= 0 -> t <= 0).
    { intros s t Hs Ht Hst. destruct (Qlt_le_dec 0 t) as [K|K]; [|exact K]. pose proof (qmul_pos s t Hs K). lra. }
    assert (Za : pow3 o' k' (pts a) <= 0) by (apply (Z _ _ X4 G1); lra).
    assert (Zb : pow3 o' k' (pts b) <= 0) by (apply (Z _ _ X3 G2); lra).
    assert (Zc : pow3 o' k' (pts c) <= 0) by (apply (Z _ _ X2 G3); lra).
    assert (Zd : pow3 o' k' (pts d) <= 0) by (apply (Z _ _ X1 G4); lra).
    assert (M : forall v, (v < m)%nat -> pow3 o' k' (pts v) <= 0 -> v = e \/ v = f \/ v = g \/ v = h).
    { intros v Hv Hp. destruct (Nat.eq_dec v e) as [->|M1]; [tauto|]. destruct (Nat.eq_dec v f) as [->|M2]; [tauto|].
      destruct (Nat.eq_dec v g) as [->|M3]; [tauto|]. destruct (Nat.eq_dec v h) as [->|M4]; [tauto|].
      pose proof (E i e f g h o' k' v Hi C' Hv M1 M2 M3 M4). lra. }
    pose proof (M a Ha Za) as Ma. pose proof (M b Hb Zb) as Mb. pose proof (M c Hc Zc) as Mc. pose proof (M d Hd Zd) as Md.
    clear M Za Zb Zc Zd Z Q1 Q2 Q3 Q4 N2 N1 G1 G2 G3 G4 F1 F2 F3 F4 B1 B2 U1 U2 U3 U4 X1 X2 X3 X4 D1 D2 D3 D4 C1 C2 C3 C4 C C' HE.
    pose proof (o3_distinct pts a b c d P0) as [Nab [Nac [Nad [Nbc [Nbd Ncd]]]]].
    exists i.
    assert (PE : NoDup [e; f; g; h] -> Permutation [e; f; g; h] [a; b; c; d]).
    { intro ND. apply Permutation_sym. apply NoDup_Permutation_bis.
      - now apply nodup4.
      - cbn. lia.
      - intros v [<-|[<-|[<-|[<-|[]]]]]; [now apply member4|now apply member4|now apply member4|now apply member4]. }
    assert (ND : NoDup [e; f; g; h]).
    { clear PE. pose proof (o3_distinct pts e f g h Pi) as [? [? [? [? [? ?]]]]].
      now apply nodup4. }
    destruct (perm4_even e f g h a b c d ND (PE ND)) as [K|K].
    - exact (t3_even _ _ _ L _ _ _ _ _ _ _ _ _ Hi K).
    - exfalso. pose proof (even_o3 pts _ _ _ _ _ _ _ _ K) as W. rewrite (o3_swap (pts e) (pts f)) in W. lra.
  Qed.
End Unique.

Section Geo.
  Variable pts : nat -> point3.
  Notation O a b c d := (orient3 (pts a) (pts b) (pts c) (pts d)).
  Notation sphere a b c d := (sph (pts a) (pts b) (pts c) (pts d)).

  Lemma stored s i t : inv3 s -> In (i, t) (tetras s) -> exists a b c d, points_of t = [a; b; c; d] /\ tet s i a b c d.
  Proof.
    intros I H. destruct (iv_corners _ _ _ I _ _ H) as [L _].
    assert (exists x y z w, points_of t = [x; y; z; w]) as [x [y [z [w E]]]].
    { unfold points_of. destruct t as [|[x ?] [|[y ?] [|[z ?] [|[w ?] [|? ?]]]]]; try discriminate L. do 4 eexists. reflexivity. }
    exists x, y, z, w. split; [exact E|]. exists t. split; [exact H|]. rewrite E. apply even4_refl.
  Qed.

  Lemma good_delaunay3 s : good3 pts s -> 0 < O 0%nat 1%nat 2%nat 3%nat -> delaunay3 pts s.
  Proof.
    intros G P0. pose proof (g3_tiling _ _ G) as L. pose proof (g3_empty _ _ G) as E. pose proof (g3_inv _ _ G) as I. split; [constructor|].
    - intros i t H. destruct (stored s i t I H) as [a [b [c [d [Et Ht]]]]]. exists a, b, c, d. split; [exact Et|].
      split; [exact (t3_lts pts _ _ L _ _ _ _ _ Ht)|exact (t3_pos _ _ _ L _ _ _ _ _ Ht)].
    - intros i t j u a b c d e f g h x Ht Hu Et Eu HI HC.
      assert (Hi : tet s i a b c d) by (exists t; split; [exact Ht|rewrite Et; apply even4_refl]).
      assert (Hj : tet s j e f g h) by (exists u; split; [exact Hu|rewrite Eu; apply even4_refl]).
      apply (ins3_strict _ _ _ _ _ (t3_pos _ _ _ L _ _ _ _ _ Hi)) in HI.
      apply (cls3_in_tetra _ _ _ _ _ (t3_pos _ _ _ L _ _ _ _ _ Hj)) in HC.
      exact (t3_disj_cls pts _ _ L _ _ _ _ _ _ _ _ _ _ _ Hi Hj HI HC).
    - intros x Hx. apply (cls3_in_tetra _ _ _ _ _ P0) in Hx. destruct (t3_cover _ _ _ L x Hx) as [i [a [b [c [d [H K]]]]]].
      exists a, b, c, d. split; [apply (is_tetra_tet s a b c d I); eauto|]. now apply (cls3_in_tetra _ _ _ _ _ (t3_pos _ _ _ L _ _ _ _ _ H)).
    - assert (X : forall i a b c d, tet s i a b c d -> empty_circumsphere3 pts (num_points s) a b c d).
      { intros i a b c d H. destruct (sph_exists _ _ _ _ (t3_pos _ _ _ L _ _ _ _ _ H)) as [o [k C]]. exists o. split; [exact (sph_center _ _ _ _ _ _ C)|].
        intros v Hv N1 N2 N3 N4. pose proof (sph_dist _ _ _ _ _ _ (pts v) C). pose proof (E i a b c d o k v H C Hv N1 N2 N3 N4). lra. }
      intros a b c d H. apply (is_tetra_tet s a b c d I) in H. destruct H as [i [H|H]]; [exact (X _ _ _ _ _ H)|].
      apply empty_swap. exact (X _ _ _ _ _ H).
  Qed.
  Lemma empty_sph n a b c d o k v : 0 < O a b c d -> empty_circumsphere3 pts n a b c d ->
    sphere a b c d o k -> (v < n)%nat -> 0 <= pow3 o k (pts v).
  Proof.
    intros P0 [o' [C' HE]] C Hv. pose proof (sph_of_center _ _ _ _ _ C') as C2.
    rewrite (sph_unique _ _ _ _ _ _ _ _ (pts v) P0 C C2). pose proof C2 as [D1 [D2 [D3 D4]]].
    destruct (Nat.eq_dec v a) as [->|N1]; [lra|]. destruct (Nat.eq_dec v b) as [->|N2]; [lra|]. destruct (Nat.eq_dec v c) as [->|N3]; [lra|].
    destruct (Nat.eq_dec v d) as [->|N4]; [lra|].
    pose proof (sph_dist _ _ _ _ _ _ (pts v) C2) as K. specialize (HE v Hv N1 N2 N3 N4). lra.
  Qed.
  Lemma good_complete3 s a b c d : good3 pts s ->
    (a < num_points s)%nat -> (b < num_points s)%nat -> (c < num_points s)%nat -> (d < num_points s)%nat ->
    ~ volume6 (shape3 pts a b c d) == 0 -> empty_circumsphere3 pts (num_points s) a b c d -> is_tetra s a b c d.
  Proof.
    intros G Ha Hb Hc Hd NZ HE. apply (is_tetra_tet s a b c d (g3_inv _ _ G)).
    assert (X : forall a b c d, (a < num_points s)%nat -> (b < num_points s)%nat -> (c < num_points s)%nat -> (d < num_points s)%nat ->
      0 < O a b c d -> empty_circumsphere3 pts (num_points s) a b c d -> exists i, tet s i a b c d).
    { clear - G. intros. apply (unique_tetra pts _ _ (g3_tiling _ _ G) (g3_empty _ _ G)); auto. intros o k v C Hv. now apply (empty_sph (num_points s) a b c d). }
    destruct (Q_dec (O a b c d) 0) as [[N|P]|Z].
    - destruct (X b a c d) as [i H]; auto; [rewrite o3_swap; lra|now apply empty_swap|eauto].
    - destruct (X a b c d) as [i H]; auto. eauto.
    - exfalso. apply NZ. exact Z.
  Qed.
End Geo.

(** ** Two triangulations *)
Section Two.
  Variables pts pts' : nat -> point3.
  Variables s s' : triangulation.
  Hypothesis G : good3 pts s.
  Hypothesis G' : good3 pts' s'.
  Notation m := (num_points s).
  Notation m' := (num_points s').
  Notation "a ~ b" := (same_point3 (pts a) (pts' b)) (at level 70).

  Lemma transfer3 i a b c d a' b' c' d' : tet s i a b c d -> (a' < m')%nat -> (b' < m')%nat -> (c' < m')%nat -> (d' < m')%nat ->
    a ~ a' -> b ~ b' -> c ~ c' -> d ~ d' ->
    (forall o k v', sph (pts a) (pts b) (pts c) (pts d) o k -> (v' < m')%nat -> 0 <= pow3 o k (pts' v')) -> exists i', tet s' i' a' b' c' d'.
  Proof.
    intros H La Lb Lc Ld Ea Eb Ec Ed HE.
    pose proof (t3_pos _ _ _ (g3_tiling _ _ G) _ _ _ _ _ H) as P0.
    apply (unique_tetra pts' _ _ (g3_tiling _ _ G') (g3_empty _ _ G')); auto.
    - rewrite <- Ea, <- Eb, <- Ec, <- Ed. exact P0.
    - intros o k v C Hv. apply HE; [|exact Hv]. apply (sph_proper _ _ _ _ _ _ _ _ _ _ (symmetry Ea) (symmetry Eb) (symmetry Ec) (symmetry Ed) C).
  Qed.

  (** The triangulation depends on the set of points only. *)
  Lemma order_independent3 (R : nat -> nat -> Prop) : (forall v v', R v v' -> v ~ v') ->
    (forall v, (v < m)%nat -> exists v', (v' < m')%nat /\ R v v') ->
    (forall v', (v' < m')%nat -> exists v, (v < m)%nat /\ R v v') ->
    forall a b c d, is_tetra s a b c d -> exists a' b' c' d', is_tetra s' a' b' c' d' /\ R a a' /\ R b b' /\ R c c' /\ R d d'.
  Proof.
    intros RS F B.
    assert (X : forall i a b c d, tet s i a b c d -> exists i' a' b' c' d', tet s' i' a' b' c' d' /\ R a a' /\ R b b' /\ R c c' /\ R d d').
    { intros i a b c d K. destruct (t3_lts pts _ _ (g3_tiling _ _ G) _ _ _ _ _ K) as [La [Lb [Lc Ld]]].
      destruct (F a La) as [a' [La' Ea]]. destruct (F b Lb) as [b' [Lb' Eb]].
      destruct (F c Lc) as [c' [Lc' Ec]]. destruct (F d Ld) as [d' [Ld' Ed]].
      destruct (transfer3 i a b c d a' b' c' d') as [i' H']; auto.
      - intros o k v' C Hv. destruct (B v' Hv) as [v [Lv Ev]]. rewrite <- (RS _ _ Ev).
        exact (empty_nonneg3 pts _ _ (g3_empty _ _ G) i a b c d o k v K C Lv).
      - exists i', a', b', c', d'. auto. }
    intros a b c d H. apply (is_tetra_tet s a b c d (g3_inv _ _ G)) in H. destruct H as [i [H|H]].
    - destruct (X _ _ _ _ _ H) as [i' [a' [b' [c' [d' [K [? [? [? ?]]]]]]]]]. exists a', b', c', d'. split; [|auto].
      apply (is_tetra_tet s' _ _ _ _ (g3_inv _ _ G')). eauto.
    - destruct (X _ _ _ _ _ H) as [i' [b' [a' [c' [d' [K [? [? [? ?]]]]]]]]]. exists a', b', c', d'. split; [|auto].
      apply (is_tetra_tet s' _ _ _ _ (g3_inv _ _ G')). eauto.
  Qed.
End Two.
