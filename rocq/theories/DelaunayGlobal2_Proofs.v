(** A tiling in which every edge passes the circumcircle test is the Delaunay triangulation, and
    the insertion of a point keeps it one. *)
From Coq Require Import List Arith Lia QArith Lqa Setoid Bool Permutation.
From Verif Require Import Geometry_Model Geometry_Spec Geometry_Proofs Circle2_Proofs Tiling2_Proofs Delaunay_Model Delaunay_Spec
  DelaunayGeo_Model DelaunayGeo_Proofs DelaunaySurgery_Proofs DelaunayPlan_Proofs Delaunay2_Proofs DelaunayInsert_Proofs Delaunay2Insert_Proofs
  DelaunayPath_Proofs.
Import ListNotations.
Local Open Scope Q_scope.

Lemma filter_lt (l : list Q) x y : x < y -> (exists z, In z l /\ z == x) ->
  (length (filter (fun z => if Qlt_le_dec z x then true else false) l) < length (filter (fun z => if Qlt_le_dec z y then true else false) l))%nat.
Proof.
  intros H [z [Hz E]].
  assert (LE : forall l, (length (filter (fun z => if Qlt_le_dec z x then true else false) l) <= length (filter (fun z => if Qlt_le_dec z y then true else false) l))%nat).
  { clear l Hz. induction l as [|w l IH]; cbn [filter]; [lia|].
    destruct (Qlt_le_dec w x), (Qlt_le_dec w y); cbn [length]; try lia. exfalso. lra. }
  induction l as [|w l IH]; [destruct Hz|]. destruct Hz as [->|Hz].
  - cbn [filter]. destruct (Qlt_le_dec z x), (Qlt_le_dec z y); try (exfalso; lra). cbn [length]. specialize (LE l). lia.
  - specialize (IH Hz). cbn [filter]. destruct (Qlt_le_dec w x), (Qlt_le_dec w y); cbn [length]; try lia. exfalso. lra.
Qed.

Section Global.
  Variable pts : nat -> point2.
  Variables (T : nat -> nat -> nat -> nat -> Prop) (m : nat).
  Hypothesis L : tiling pts T m.
  Definition has_neighbours : Prop :=
    forall i a b c v, T i a b c -> (v < m)%nat -> orient (pts a) (pts b) (pts v) < 0 -> exists j q, T j b a q.
  Definition passes : Prop := forall i j a b c q o k, T i a b c -> T j b a q -> circ (pts a) (pts b) (pts c) o k -> 0 < pow o k (pts q).
  Definition listed : Prop := forall v, exists l : list Q, forall i a b c o k, T i a b c -> circ (pts a) (pts b) (pts c) o k ->
    exists z, In z l /\ z == pow o k (pts v).
  Definition empty_circles : Prop := forall i a b c o k v, T i a b c -> circ (pts a) (pts b) (pts c) o k -> (v < m)%nat ->
    v <> a -> v <> b -> v <> c -> 0 < pow o k (pts v).

  Lemma local_global : has_neighbours -> passes -> listed -> empty_circles.
  Proof.
    intros HN HP HL i a b c o k v H C Hv Na Nb Nc. destruct (HL v) as [l Hl].
    remember (length (filter (fun z => if Qlt_le_dec z (pow o k (pts v)) then true else false) l)) as n eqn:En.
    revert i a b c o k H C Na Nb Nc En.
    induction n as [n IH] using lt_wf_ind. intros i a b c o k H C Na Nb Nc ->.
    (* across the edge [ab] *)
    assert (STEP : forall a b c, T i a b c -> circ (pts a) (pts b) (pts c) o k -> orient (pts a) (pts b) (pts v) < 0 -> 0 < pow o k (pts v)).
    { clear a b c H C Na Nb Nc. intros a b c H C S. destruct (HN i a b c v H Hv S) as [j [q Hq]].
      destruct (circ_exists _ _ _ (tl_pos _ _ _ L _ _ _ _ Hq)) as [o' [k' C']].
      pose proof (HP i j a b c q o k H Hq C) as Pq.
      pose proof (pow_beyond _ _ _ _ _ _ _ _ (pts v) (tl_pos _ _ _ L _ _ _ _ Hq) C C' Pq S) as LT.
      assert (Nab : v <> a /\ v <> b).
      { destruct (orient_same (pts a) (pts b)) as [X1 [X2 _]]. split; intros ->; lra. }
      destruct (Nat.eq_dec v q) as [->|Nq]; [exact Pq|].
      assert (0 < pow o' k' (pts v)); [|lra].
      eapply (IH _ (filter_lt l _ _ LT (Hl _ _ _ _ _ _ Hq C')) j b a q o' k' Hq C'); tauto. }
    destruct (Qlt_le_dec (orient (pts a) (pts b) (pts v)) 0) as [S1|S1]; [exact (STEP a b c H C S1)|].
    pose proof (tl_rot _ _ _ L _ _ _ _ H) as H2. pose proof (tl_rot _ _ _ L _ _ _ _ H2) as H3.
    destruct (Qlt_le_dec (orient (pts b) (pts c) (pts v)) 0) as [S2|S2]; [exact (STEP b c a H2 (circ_rot _ _ _ _ _ C) S2)|].
    destruct (Qlt_le_dec (orient (pts c) (pts a) (pts v)) 0) as [S3|S3]; [exact (STEP c a b H3 (circ_rot _ _ _ _ _ (circ_rot _ _ _ _ _ C)) S3)|].
    destruct (tl_corner _ _ _ L _ _ _ _ v H Hv) as [->|[->| ->]]; [|congruence|congruence|congruence].
    split; [exact S1|split; assumption].
  Qed.
End Global.

(** ** Triangles of the data structure *)
Definition tri (s : triangulation) (i a b c : nat) : Prop := exists t, In (i, t) (tetras s) /\ rot3 (points_of t) a b c.

Lemma rot3_sym x y z a b c : rot3 [x; y; z] a b c <-> rot3 [a; b; c] x y z.
Proof. unfold rot3. split; intros [E|[E|E]]; injection E as -> -> ->; tauto. Qed.
Lemma rot3_shift l a b c : rot3 l a b c -> rot3 l b c a.
Proof. unfold rot3. tauto. Qed.
Lemma rot3_shift' l a b c : rot3 l b c a -> rot3 l a b c.
Proof. unfold rot3. tauto. Qed.
Lemma rot3_trans l a b c x y z : rot3 l a b c -> rot3 l x y z -> rot3 [x; y; z] a b c.
Proof. unfold rot3. intros [->|[->| ->]] [E|[E|E]]; injection E as -> -> ->; tauto. Qed.
Lemma tri_rot s i a b c : tri s i a b c -> tri s i b c a.
Proof. intros [t [H R]]. exists t. split; [exact H|]. now apply rot3_shift. Qed.
Lemma tri_same s i a b c d e f : inv2 s -> tri s i a b c -> tri s i d e f -> rot3 [d; e; f] a b c.
Proof.
  intros I [t [H R]] [t' [H' R']]. rewrite (NoDup_ids_eq _ _ _ _ (iv_ids _ _ _ I) H' H) in R'. exact (rot3_trans _ _ _ _ _ _ _ R R').
Qed.
Lemma tri_replaced s s' R N : inv2 s -> inv2 s' -> replaced s s' R N -> forall i x y z,
  tri s' i x y z <-> (tri s i x y z /\ ~ In i R) \/ exists t, In (i, t) N /\ rot3 (points_of t) x y z.
Proof.
  intros I I' RP i x y z. split.
  - intros [t' [H' Rt]]. destruct (rp_old _ _ _ _ RP i t' H') as [[t [H [Hn E]]]|[t [H E]]].
    + left. split; [|exact Hn]. exists t. split; [exact H|]. now rewrite (skel_points t t' E).
    + right. exists t. split; [exact H|]. now rewrite (skel_points t t' E).
  - intros [[[t [H Rt]] Hn]|[t [H Rt]]].
    + destruct (rp_kept _ _ _ _ RP i t H Hn) as [t' [H' E]]. exists t'. split; [exact H'|]. now rewrite (skel_points t' t E).
    + destruct (rp_new _ _ _ _ RP i t H) as [t' [H' E]]. exists t'. split; [exact H'|]. now rewrite (skel_points t' t E).
Qed.

(** Faces on the boundary consist of corners of the big triangle. *)
Definition hull (s : triangulation) : Prop := forall i t q fi ps x, In (i, t) (tetras s) -> In (q, fi) t -> opposing fi = None ->
  In (face fi, ps) (faces s) -> In x ps -> (x < 3)%nat.
Lemma hull_replaced s s' R N : inv2 s -> replaced s s' R N -> hull s -> hull s'.
Proof.
  intros I RP H i t' q fi' ps x Ht' Hq Ho Hps Hx.
  destruct (rp_hull _ _ _ _ RP i t' q fi' Ht' Hq Ho) as [j [t [r [fi [Ht [Hr [Hn E]]]]]]].
  rewrite <- E in Hps. apply (H j t r fi ps x Ht Hr Hn); [|exact Hx].
  apply (rp_faces _ _ _ _ RP); [exact Hps|].
  destruct (iv_faces _ _ _ I j t r fi Ht Hr) as [ps' [P1 _]].
  apply (iv_ffresh _ _ _ I). change (face fi) with (fst (face fi, ps')). now apply in_map.
Qed.

(** What is on the other side of an edge. *)
Lemma tri_entry s i a b c : inv2 s -> tri s i a b c -> exists t fi, In (i, t) (tetras s) /\ rot3 (points_of t) a b c /\ In (c, fi) t /\
  In (face fi, if flipped fi then [b; a] else [a; b]) (faces s).
Proof.
  intros I [t [Ht R]]. destruct (points_entry t c) as [fi Hc]; [apply (rot3_in _ _ _ _ c R); tauto|].
  exists t, fi. split; [exact Ht|]. split; [exact R|]. split; [exact Hc|].
  destruct (iv_faces _ _ _ I i t c fi Ht Hc) as [ps [P1 P2]]. apply (rot3_face_ok2 _ c a b) in P2; [|now apply rot3_shift, rot3_shift].
  apply face_ok2_first in P2; [now rewrite <- P2|]. pose proof (proj1 (proj2 (iv_corners _ _ _ I _ _ Ht))) as ND.
  destruct (rot3_nodup _ _ _ _ R ND) as [N1 [N2 N3]]. apply NoDup3; congruence.
Qed.
Lemma tri_opposing s i t a b c fi j q : inv2 s -> In (i, t) (tetras s) -> rot3 (points_of t) a b c -> In (c, fi) t ->
  opposing fi = Some (Conn j q) -> tri s j b a q.
Proof.
  intros I Ht R Hc Ho.
  destruct (tri_entry s i a b c I (ex_intro _ t (conj Ht R))) as [t' [fi' [Ht' [_ [Hc' F]]]]].
  rewrite (NoDup_ids_eq _ _ _ _ (iv_ids _ _ _ I) Ht' Ht) in *.
  rewrite (NoDup_ids_eq t _ _ _ (proj1 (proj2 (iv_corners _ _ _ I _ _ Ht))) Hc' Hc) in *.
  pose proof (proj1 (iv_opp _ _ _ I i t c fi Ht Hc j q) Ho) as [Hne [u [gi [Hu [Hq Eg]]]]].
  pose proof (iv_flip _ _ _ I i t c fi j u q gi Ht Hc Hu Hq (eq_sym Eg) (not_eq_sym Hne)) as Ef.
  destruct (iv_faces _ _ _ I j u q gi Hu Hq) as [ps [P1 [x [y [P2 P3]]]]].
  rewrite Eg in P1. pose proof (NoDup_ids_eq _ _ _ _ (iv_fids _ _ _ I) P1 F) as X. rewrite P2, Ef in X.
  exists u. split; [exact Hu|].
  assert (x = b /\ y = a) as [-> ->] by (destruct (flipped fi); cbn in X; injection X; auto).
  unfold rot3. tauto.
Qed.

Section Geo.
  Variable pts : nat -> point2.
  Notation P := (fun a => pts a).
  Notation circle := (circle2 pts).
  Notation inside := (inside2 pts).

  Lemma tri_neighbours s m : inv2 s -> tiling pts (tri s) m -> hull s -> has_neighbours pts (tri s) m.
  Proof.
    intros I L H i a b c v Hi Hv S.
    destruct (tri_entry s i a b c I Hi) as [t [fi [Ht [R [Hc F]]]]].
    destruct (opposing fi) as [[j q]|] eqn:Eo; [exists j, q; exact (tri_opposing s i t a b c fi j q I Ht R Hc Eo)|].
    exfalso. assert (X : forall x, x = a \/ x = b -> (x < 3)%nat).
    { intros x Hx. apply (H i t c fi _ x Ht Hc Eo F). destruct (flipped fi); cbn; intuition. }
    apply (tl_hull pts (tri s) m L a b c v); auto.
    - exact (tl_lt _ _ _ L _ _ _ _ (tri_rot _ _ _ _ _ (tri_rot _ _ _ _ _ Hi))).
    - exact (tl_pos _ _ _ L _ _ _ _ Hi).
  Qed.
  Lemma tri_listed s : (forall i a b c, tri s i a b c -> 0 < orient (pts a) (pts b) (pts c)) -> listed pts (tri s).
  Proof.
    intros HP v.
    exists (map (fun e => match points_of (snd e) with
      | [a; b; c] => let o := circumcenter2 (T2 (pts a) (pts b) (pts c)) in dist2_2 o (pts v) - dist2_2 o (pts a) | _ => 0 end) (tetras s)).
    intros i a b c o k Hi C. pose proof (HP _ _ _ _ Hi) as P0. destruct Hi as [t [Ht R]]. eexists. split.
    - apply in_map_iff. exists (i, t). split; [reflexivity|exact Ht].
    - cbn [snd].
      assert (X : forall x y z, points_of t = [x; y; z] -> 0 < orient (pts x) (pts y) (pts z) -> circ (pts x) (pts y) (pts z) o k ->
        match points_of t with [a; b; c] => let o := circumcenter2 (T2 (pts a) (pts b) (pts c)) in dist2_2 o (pts v) - dist2_2 o (pts a) | _ => 0 end
        == pow o k (pts v)).
      { intros x y z E Po Co. rewrite E. cbv zeta.
        assert (N : ~ area2 (T2 (pts x) (pts y) (pts z)) == 0) by (unfold orient in Po; lra).
        pose proof (circ_of_center _ _ _ _ (circumcenter2_ok _ N)) as C2.
        rewrite (circ_dist _ _ _ _ _ (pts v) C2). exact (circ_unique _ _ _ _ _ _ _ (pts v) Po C2 Co). }
      destruct R as [E|[E|E]].
      + exact (X _ _ _ E P0 C).
      + apply (X _ _ _ E); [now rewrite orient_rot2|now do 2 apply circ_rot].
      + apply (X _ _ _ E); [now rewrite orient_rot|now apply circ_rot].
  Qed.

  Lemma circle_rot t a b c v o k : rot3 (points_of t) a b c -> 0 < orient (pts a) (pts b) (pts c) -> circ (pts a) (pts b) (pts c) o k ->
    (circle (points_of t) v = Some true -> pow o k (pts v) < 0) /\ (circle (points_of t) v = Some false -> 0 < pow o k (pts v)).
  Proof.
    intros R P0 C.
    assert (X : forall x y z, points_of t = [x; y; z] -> 0 < orient (pts x) (pts y) (pts z) -> circ (pts x) (pts y) (pts z) o k ->
      (circle (points_of t) v = Some true -> pow o k (pts v) < 0) /\ (circle (points_of t) v = Some false -> 0 < pow o k (pts v))).
    { intros x y z E Po Co. rewrite E. cbn [circle2]. destruct (circle2_test _ _ _ _ _ (pts v) Po Co) as [A [B _]]. auto. }
    destruct R as [E|[E|E]].
    - exact (X _ _ _ E P0 C).
    - apply (X _ _ _ E); [now rewrite orient_rot2|now do 2 apply circ_rot].
    - apply (X _ _ _ E); [now rewrite orient_rot|now apply circ_rot].
  Qed.
  Lemma inside_rot t a b c v : rot3 (points_of t) a b c -> 0 < orient (pts a) (pts b) (pts c) ->
    (inside (points_of t) v = Some true <-> ins (pts a) (pts b) (pts c) (pts v)).
  Proof.
    intros R P0.
    assert (X : forall x y z, points_of t = [x; y; z] -> 0 < orient (pts x) (pts y) (pts z) ->
      (inside (points_of t) v = Some true <-> ins (pts x) (pts y) (pts z) (pts v))).
    { intros x y z E Po. rewrite E. cbn [inside2]. exact (inside2_test _ _ _ (pts v) Po). }
    destruct R as [E|[E|E]].
    - exact (X _ _ _ E P0).
    - rewrite (X _ _ _ E); [|now rewrite orient_rot2]. unfold ins. tauto.
    - rewrite (X _ _ _ E); [|now rewrite orient_rot]. unfold ins. tauto.
  Qed.

  (** ** One insertion *)
  Record good (s : triangulation) : Prop := {
    gd_inv : inv2 s;
    gd_last : last_ok s;
    gd_tiling : tiling pts (tri s) (num_points s);
    gd_hull : hull s;
    gd_three : (3 <= num_points s)%nat;
    gd_passes : passes pts (tri s)
  }.
  Lemma good_empty s : good s -> empty_circles pts (tri s) (num_points s).
  Proof.
    intros [I _ L H _ HP]. apply local_global; auto.
    - exact (tri_neighbours s _ I L H).
    - exact (tri_listed s (tl_pos _ _ _ L)).
  Qed.

  Section Insert.
    Variable s0 : triangulation.
    Hypothesis G : good s0.
    Let p := num_points s0.
    (** [a] is a corner of a triangle of the old triangulation whose circumcircle contains [p]. *)
    Definition near (a : nat) : Prop := exists i y z o k, tri s0 i a y z /\ circ (pts a) (pts y) (pts z) o k /\ pow o k (pts p) < 0.

    Record between (s : triangulation) : Prop := {
      bw_inv : inv2 s;
      bw_points : num_points s = S p;
      bw_tiling : tiling pts (tri s) (num_points s);
      bw_hull : hull s;
      bw_near : forall i a b, tri s i p a b -> near a /\ near b;
      bw_old : forall i a b c, tri s i a b c -> a <> p -> b <> p -> c <> p -> tri s0 i a b c
    }.

    Lemma near_inside i a b c : tri s0 i a b c -> ins (pts a) (pts b) (pts c) (pts p) -> near a.
    Proof.
      intros H K. pose proof (tl_pos _ _ _ (gd_tiling _ G) _ _ _ _ H) as P0. destruct (circ_exists _ _ _ P0) as [o [k C]].
      exists i, b, c, o, k. split; [exact H|]. split; [exact C|]. exact (ins_pow _ _ _ _ _ _ P0 C K).
    Qed.

    Lemma between_split old t new s1 : In (old, t) (tetras s0) -> inside (points_of t) p = Some true ->
      split2 (push_point s0) old p = Some (new, s1) -> between s1.
    Proof.
      intros Ht Hin E. pose proof (gd_inv _ G) as I. pose proof (gd_tiling _ G) as L.
      destruct (three_entries s0 old t I Ht) as [q1 [g1 [q2 [g2 [q3 [g3 ->]]]]]].
      destruct (split2_ok s0 I old q1 q2 q3 g1 g2 g3 Ht) as [s1' [E1 [I1 [RP [NP LF]]]]].
      fold p in E1. rewrite E1 in E. injection E as <- <-.
      assert (To : tri s0 old q1 q2 q3) by (eexists; split; [exact Ht|left; reflexivity]).
      assert (Hp : ins (pts q1) (pts q2) (pts q3) (pts p)).
      { refine (proj1 (inside_rot _ q1 q2 q3 p _ _) Hin); [left; reflexivity|exact (tl_pos _ _ _ L _ _ _ _ To)]. }
      assert (HT : forall i x y z, tri s1' i x y z <-> (tri s0 i x y z /\ i <> old) \/ (i = S (S (next_tetra s0)) /\ rot3 [x; y; z] p q1 q2) \/
        (i = next_tetra s0 /\ rot3 [x; y; z] p q2 q3) \/ (i = S (next_tetra s0) /\ rot3 [x; y; z] p q3 q1)).
      { intros i x y z. rewrite (tri_replaced s0 s1' _ _ I I1 RP). cbn [In]. split.
        - intros [[K Hn]|[t [[K|[K|[K|[]]]] R]]]; [left; split; [exact K|intros ->; tauto]| | |]; injection K as <- <-; cbn [points_of map fst] in R;
            apply rot3_sym in R.
          + right. right. left. split; [reflexivity|]. now apply rot3_shift'.
          + right. right. right. split; [reflexivity|]. now apply rot3_shift'.
          + right. left. split; [reflexivity|]. now apply rot3_shift'.
        - intros [[K Hn]|[[-> R]|[[-> R]|[-> R]]]].
          + left. split; [exact K|]. intros [->|[]]. congruence.
          + right. eexists. split; [right; right; left; reflexivity|]. cbn [points_of map fst]. apply rot3_sym. now apply rot3_shift.
          + right. eexists. split; [left; reflexivity|]. cbn [points_of map fst]. apply rot3_sym. now apply rot3_shift.
          + right. eexists. split; [right; left; reflexivity|]. cbn [points_of map fst]. apply rot3_sym. now apply rot3_shift. }
      pose proof (tri_rot _ _ _ _ _ To) as To2. pose proof (tri_rot _ _ _ _ _ To2) as To3.
      assert (LT : forall i a b c, tri s0 i a b c -> (a < p)%nat) by (intros; eapply tl_lt; eauto).
      assert (N1 : near q1) by (eapply near_inside; eauto).
      assert (N2 : near q2) by (eapply near_inside; eauto; now apply ins_rot).
      assert (N3 : near q3) by (eapply near_inside; eauto; now do 2 apply ins_rot).
      constructor.
      - exact I1.
      - exact NP.
      - rewrite NP. apply (tiling_split pts (tri s0) (tri s1') p old (S (S (next_tetra s0))) (next_tetra s0) (S (next_tetra s0)) q1 q2 q3 L To Hp HT).
        intros. eapply tri_same; eauto.
      - exact (hull_replaced s0 s1' _ _ I RP (gd_hull _ G)).
      - intros i a b H. apply HT in H. destruct H as [[H _]|H].
        + exfalso. pose proof (LT _ _ _ _ H). lia.
        + assert (X : forall d e, rot3 [p; a; b] p d e -> d <> p -> e <> p -> a = d /\ b = e).
          { intros d e [R|[R|R]] D1 D2; injection R; intros; subst; try tauto; congruence. }
          pose proof (LT _ _ _ _ To). pose proof (LT _ _ _ _ To2). pose proof (LT _ _ _ _ To3).
          destruct H as [[_ R]|[[_ R]|[_ R]]]; apply X in R; try lia; destruct R as [-> ->]; auto.
      - intros i a b c H Na Nb Nc. apply HT in H. destruct H as [[H _]|H]; [exact H|]. exfalso.
        assert (X : forall d e, rot3 [a; b; c] p d e -> False).
        { intros d e [R|[R|R]]; injection R; intros; subst; congruence. }
        destruct H as [[_ R]|[[_ R]|[_ R]]]; exact (X _ _ R).
    Qed.

    Lemma between_last s i : between s -> between (set_last s i).
    Proof. intros [a1 a2 a3 a4 a5 a6]. constructor; auto. now apply inv_last. Qed.

    Lemma between_flip s i t fi j q new s1 : between s -> In (i, t) (tetras s) -> In (p, fi) t -> opposing fi = Some (Conn j q) ->
      circle (points_of t) q = Some true -> flip2 s i (face fi) = Some (new, s1) -> between s1.
    Proof.
      intros B Ht Hp Ho Hc Hf. pose proof (bw_inv _ B) as I. pose proof (bw_tiling _ B) as L.
      assert (Hq : ~ In q (points_of t)) by (intro X; exact (circle2_corners pts _ _ X Hc)).
      destruct (flip2_ok s i t p fi j q I Ht Hp Ho Hq) as [s1' [u [x [y [T1 [T2 [E1 [I1 [Hu [Hne [Rt [Ru [P1 [P2 [RP [NP LF]]]]]]]]]]]]]]]].
      rewrite E1 in Hf. injection Hf as <- <-.
      assert (Ti : tri s i p x y) by (exists t; auto).
      assert (Tj : tri s j y x q) by (exists u; split; [exact Hu|]; now apply rot3_shift).
      pose proof (tl_pos _ _ _ L _ _ _ _ Ti) as Pi. pose proof (tl_pos _ _ _ L _ _ _ _ Tj) as Pj.
      destruct (circ_exists _ _ _ Pi) as [o [k C]].
      pose proof (proj1 (circle_rot t p x y q o k Rt Pi C) Hc) as Neg.
      destruct (flip_convex _ _ _ _ _ _ Pi Pj C Neg) as [Q1 Q2].
      assert (HT : forall i' a b c, tri s1' i' a b c <-> (tri s i' a b c /\ i' <> i /\ i' <> j) \/ (i' = next_tetra s /\ rot3 [a; b; c] p x q) \/
        (i' = S (next_tetra s) /\ rot3 [a; b; c] p q y)).
      { intros i' a b c. rewrite (tri_replaced s s1' _ _ I I1 RP). cbn [In]. split.
        - intros [[K Hn]|[t' [[K|[K|[]]] R]]]; [left; split; [exact K|split; intros ->; tauto]| |]; injection K as <- <-; [rewrite P1 in R|rewrite P2 in R]; apply rot3_sym in R.
          + right. left. split; [reflexivity|exact R].
          + right. right. split; [reflexivity|]. now apply rot3_shift in R.
        - intros [[K Hn]|[[-> R]|[-> R]]].
          + left. split; [exact K|]. intros [->|[->|[]]]; tauto.
          + right. eexists. split; [left; reflexivity|]. rewrite P1. now apply rot3_sym.
          + right. eexists. split; [right; left; reflexivity|]. rewrite P2. apply rot3_sym. do 2 apply rot3_shift. exact R. }
      destruct (bw_near _ B _ _ _ Ti) as [Nx Ny].
      pose proof (proj1 (proj2 (iv_corners _ _ _ I _ _ Ht))) as ND. destruct (rot3_nodup _ _ _ _ Rt ND) as [D1 [D2 D3]].
      assert (Dq : q <> p) by (intros ->; apply Hq; apply (rot3_in _ _ _ _ _ Rt); tauto).
      assert (Nq : near q).
      { assert (To : tri s0 j y x q) by (apply (bw_old _ B); auto).
        destruct (circ_exists _ _ _ Pj) as [o' [k' C']].
        exists j, y, x, o', k'. split; [do 2 apply tri_rot; exact To|]. split; [do 2 apply circ_rot; exact C'|].
        assert (Pi' : 0 < orient (pts x) (pts y) (pts p)) by (now rewrite orient_rot).
        exact (proj1 (proj2 (pow_symm _ _ _ _ _ _ _ _ Pi' Pj (circ_rot _ _ _ _ _ C) C')) Neg). }
      constructor.
      - exact I1.
      - rewrite NP. exact (bw_points _ B).
      - rewrite NP. apply (tiling_flip pts (tri s) (tri s1') (num_points s) i j (next_tetra s) (S (next_tetra s)) p x y q L Ti Tj Q1 Q2 HT).
        intros. eapply tri_same; eauto.
      - exact (hull_replaced s s1' _ _ I RP (bw_hull _ B)).
      - intros i' a b H. apply HT in H. destruct H as [[H _]|H]; [exact (bw_near _ B _ _ _ H)|].
        assert (X : forall d e, rot3 [p; a; b] p d e -> d <> p -> e <> p -> a = d /\ b = e).
        { intros d e [R|[R|R]] E2 E3; injection R; intros; subst; try tauto; congruence. }
        destruct H as [[_ R]|[_ R]]; apply X in R; try congruence; destruct R as [-> ->]; auto.
      - intros i' a b c H Na Nb Nc. apply HT in H. destruct H as [[H _]|H]; [exact (bw_old _ B _ _ _ _ H Na Nb Nc)|]. exfalso.
        assert (X : forall d e, rot3 [a; b; c] p d e -> False).
        { intros d e [R|[R|R]]; injection R; intros; subst; congruence. }
        destruct H as [[_ R]|[_ R]]; exact (X _ _ R).
    Qed.

    Lemma between_flips s s' : flips 2 face_ok2 flip2 circle p s s' -> between s -> between s'.
    Proof.
      induction 1 as [s I|s j s' I F IH|s j t fi oj q new s1 s' I Ht Hp Ho Hc Hf F IH]; intro B; auto.
      - apply IH. now apply between_last.
      - apply IH. exact (between_flip s j t fi oj q new s1 B Ht Hp Ho Hc Hf).
    Qed.

    (** Edges that start at the new point. *)
    Lemma star_edge s i j a b c q o k : between s -> tri s i a b c -> tri s j b a q -> (a = p \/ b = p) ->
      circ (pts a) (pts b) (pts c) o k -> 0 < pow o k (pts q).
    Proof.
      intros B Hi Hj Hab C. pose proof (bw_tiling _ B) as L. pose proof (bw_points _ B) as NP.
      pose proof (tl_pos _ _ _ L _ _ _ _ Hi) as Pi. pose proof (tl_pos _ _ _ L _ _ _ _ Hj) as Pj.
      pose proof (tl_lt _ _ _ L _ _ _ _ (tri_rot _ _ _ _ _ (tri_rot _ _ _ _ _ Hi))) as Lc.
      pose proof (tl_lt _ _ _ L _ _ _ _ (tri_rot _ _ _ _ _ (tri_rot _ _ _ _ _ Hj))) as Lq.
      destruct (orient_same (pts a) (pts b)) as [Z1 [Z2 _]]. destruct (orient_same (pts b) (pts a)) as [Z3 [Z4 _]].
      assert (Nc : c <> p) by (destruct Hab as [<-|<-]; intros ->; lra).
      assert (Nq : q <> p) by (destruct Hab as [<-|<-]; intros ->; lra).
      (* a circle through [a] and [b] that all other points are outside of *)
      assert (W : exists o' k', pow o' k' (pts a) == 0 /\ pow o' k' (pts b) == 0 /\
        forall v e, (v < p)%nat -> e = a \/ e = b -> e <> p -> 0 < dist2_2 (pts v) (pts e) -> 0 < pow o' k' (pts v)).
      { assert (NR : forall e, near e -> exists o' k', pow o' k' (pts e) == 0 /\ pow o' k' (pts p) == 0 /\
          forall v, (v < p)%nat -> 0 < dist2_2 (pts v) (pts e) -> 0 < pow o' k' (pts v)).
        { intros e [i' [y [z [o1 [k1 [Ht [C1 Neg]]]]]]]. pose proof C1 as [A1 [B1 D1]].
          destruct (inner_circle (pts e) (pts p) o1 k1 A1 Neg) as [o' [k' [E1 [E2 E3]]]].
          exists o', k'. split; [exact E1|]. split; [exact E2|]. intros v Hv Dv. apply E3; [|exact Dv].
          destruct (Nat.eq_dec v e) as [->|N1]; [lra|]. destruct (Nat.eq_dec v y) as [->|N2]; [lra|].
          destruct (Nat.eq_dec v z) as [->|N3]; [lra|].
          apply Qlt_le_weak. exact (good_empty s0 G i' e y z o1 k1 v Ht C1 Hv N1 N2 N3). }
        destruct Hab as [E|E].
        - subst a. destruct (bw_near _ B _ _ _ Hi) as [Nb _]. destruct (NR b Nb) as [o' [k' [E1 [E2 E3]]]].
          exists o', k'. split; [exact E2|]. split; [exact E1|]. intros v e Hv [->| ->] Ne Dv; [congruence|auto].
        - subst b. destruct (bw_near _ B _ _ _ (tri_rot _ _ _ _ _ Hi)) as [_ Na]. destruct (NR a Na) as [o' [k' [E1 [E2 E3]]]].
          exists o', k'. split; [exact E1|]. split; [exact E2|]. intros v e Hv [->| ->] Ne Dv; [auto|congruence]. }
      destruct W as [o' [k' [W1 [W2 W3]]]].
      assert (Dab : forall v, 0 < orient (pts a) (pts b) (pts v) \/ 0 < orient (pts b) (pts a) (pts v) ->
        0 < dist2_2 (pts v) (pts a) /\ 0 < dist2_2 (pts v) (pts b)).
      { intros v [K|K].
        - split.
          + apply (orient_pos_dist _ _ (pts b)). now rewrite orient_rot2.
          + rewrite dist2_sym. apply (orient_pos_dist _ _ (pts a)). now rewrite orient_rot.
        - split.
          + rewrite dist2_sym. apply (orient_pos_dist _ _ (pts b)). now rewrite orient_rot.
          + apply (orient_pos_dist _ _ (pts a)). now rewrite orient_rot2. }
      destruct (Dab c (or_introl Pi)) as [Dc1 Dc2]. destruct (Dab q (or_intror Pj)) as [Dq1 Dq2].
      assert (E : exists e, (e = a \/ e = b) /\ e <> p).
      { destruct (Nat.eq_dec a p) as [->|Na]; [|exists a; tauto]. exists b. split; [tauto|]. intros ->.
        destruct (orient_same (pts p) (pts c)) as [_ [_ Z5]]. lra. }
      destruct E as [e [He Ne]].
      apply (witness_circle _ _ _ _ o k o' k' Pi Pj C W1 W2).
      - apply (W3 c e); auto; [lia|]. destruct He as [->| ->]; assumption.
      - apply (W3 q e); auto; [lia|]. destruct He as [->| ->]; assumption.
    Qed.

    (** The edges opposite to the new point. *)
    Lemma link_edge s i j a b q o k : between s ->
      (forall i t fi j q, In (i, t) (tetras s) -> In (p, fi) t -> opposing fi = Some (Conn j q) ->
         In q (points_of t) \/ circle (points_of t) q = Some false) ->
      tri s i a b p -> tri s j b a q -> circ (pts a) (pts b) (pts p) o k -> 0 < pow o k (pts q).
    Proof.
      intros B LG Hi Hj C. pose proof (bw_inv _ B) as I. pose proof (bw_tiling _ B) as L.
      pose proof (tl_pos _ _ _ L _ _ _ _ Hi) as Pi. pose proof (tl_pos _ _ _ L _ _ _ _ Hj) as Pj.
      pose proof (tl_lt _ _ _ L _ _ _ _ (tri_rot _ _ _ _ _ (tri_rot _ _ _ _ _ Hi))) as Lp.
      pose proof (tl_lt _ _ _ L _ _ _ _ (tri_rot _ _ _ _ _ (tri_rot _ _ _ _ _ Hj))) as Lq.
      pose proof (orient_swap (pts b) (pts a) (pts q)) as Sw.
      destruct (tri_entry s i a b p I Hi) as [t [fi [Ht [R [Hp F]]]]].
      destruct (opposing fi) as [[j' q']|] eqn:Eo.
      2: { exfalso. assert (X : forall x, x = a \/ x = b -> (x < 3)%nat).
           { intros x Hx. apply (bw_hull _ B i t p fi _ x Ht Hp Eo F). destruct (flipped fi); cbn; intuition. }
           apply (tl_hull pts (tri s) _ L a b p q); auto. lra. }
      pose proof (tri_opposing s i t a b p fi j' q' I Ht R Hp Eo) as Hj'.
      pose proof (tl_edge pts _ _ L _ _ _ _ _ _ Hj Hj') as Ej. subst j'.
      destruct (orient_same (pts b) (pts a)) as [Z3 [Z4 _]].
      assert (Eq : q' = q).
      { pose proof (tri_same s j _ _ _ _ _ _ I Hj Hj') as [E|[E|E]]; injection E; intros; subst; try reflexivity; try congruence; lra. }
      subst q'.
      destruct (LG i t fi j q Ht Hp Eo) as [K|K].
      - exfalso. apply (rot3_in _ _ _ _ q R) in K. pose proof (orient_swap (pts b) (pts a) (pts p)).
        destruct K as [->|[->| ->]]; lra.
      - exact (proj2 (circle_rot t a b p q o k R Pi C) K).
    Qed.

    Lemma between_passes s : between s ->
      (forall i t fi j q, In (i, t) (tetras s) -> In (p, fi) t -> opposing fi = Some (Conn j q) ->
         In q (points_of t) \/ circle (points_of t) q = Some false) -> passes pts (tri s).
    Proof.
      intros B LG i j a b c q o k Hi Hj C. pose proof (bw_tiling _ B) as L.
      pose proof (tl_pos _ _ _ L _ _ _ _ Hi) as Pi. pose proof (tl_pos _ _ _ L _ _ _ _ Hj) as Pj.
      destruct (Nat.eq_dec a p) as [Ea|Na]; [exact (star_edge s i j a b c q o k B Hi Hj (or_introl Ea) C)|].
      destruct (Nat.eq_dec b p) as [Eb|Nb]; [exact (star_edge s i j a b c q o k B Hi Hj (or_intror Eb) C)|].
      destruct (Nat.eq_dec c p) as [->|Nc]; [exact (link_edge s i j a b q o k B LG Hi Hj C)|].
      destruct (Nat.eq_dec q p) as [->|Nq].
      - destruct (circ_exists _ _ _ Pj) as [o' [k' C']].
        apply (proj1 (pow_symm _ _ _ _ _ _ _ _ Pi Pj C C')). exact (link_edge s j i b a c o' k' B LG Hj Hi C').
      - apply (gd_passes _ G i j a b c q o k); auto; apply (bw_old _ B); auto.
    Qed.
  End Insert.

  Variable pop : nat -> list nat -> nat.
  Notation insert := (insert split2 flip2 circle inside pop).

  Lemma insert_good s p new s' : good s -> insert s = Some (p, new, s') -> good s'.
  Proof.
    intros G H. pose proof (gd_inv _ G) as I. pose proof (gd_last _ G) as LO.
    destruct (insert_path 2 face_ok2 face_ok2_perm split2 flip2 circle inside pop count2 flip_spec2 split_spec2 (circle2_corners pts) s p new s' I LO H)
      as [-> [old [t [new1 [s1 [Ht [Hin [Es F]]]]]]]].
    pose proof (between_flips s s1 s' F (between_split s G old t new1 s1 Ht Hin Es)) as B.
    pose proof (insert_ok 2 face_ok2 face_ok2_perm split2 flip2 circle inside pop count2 count2_last
      flip_spec2 split_spec2 (circle2_corners pts) s (num_points s) new s' I LO H) as [a1 a2 a3 a4 a5 a6 a7].
    pose proof (gd_three _ G) as G3.
    constructor; auto.
    - exact (bw_tiling _ _ B).
    - exact (bw_hull _ _ B).
    - rewrite a4. lia.
    - apply (between_passes s G s' B). intros i u fi j q Hu Hp Ho.
      apply (a7 flip_moves2 i u fi j q); auto.
      apply a6; [apply in_ids; eauto|]. exists u. split; [exact Hu|]. exact (entry_point u _ fi Hp).
  Qed.
  Lemma insert_many_good n : forall s s', good s -> insert_many split2 flip2 circle inside pop n s = Some s' -> good s'.
  Proof.
    induction n as [|n IH]; intros s s' G H; cbn [insert_many] in H; [injection H as <-; exact G|].
    destruct (insert s) as [[[p new] s1]|] eqn:E; cbn [bind] in H; [|discriminate].
    exact (IH s1 s' (insert_good s p new s1 G E) H).
  Qed.
  Lemma start_good s : 0 < orient (pts 0%nat) (pts 1%nat) (pts 2%nat) -> all_encompassing_2d = Some s -> good s.
  Proof.
    intros P0 H. destruct inv2_start as [s' [E [I [LO [_ NP]]]]]. rewrite H in E. injection E as <-.
    assert (TR : forall i a b c, tri s i a b c -> i = 0%nat /\ rot3 [a; b; c] 0%nat 1%nat 2%nat).
    { vm_compute in H. injection H as <-. intros i a b c [t [[K|[]] R]]. injection K as <- <-. split; [reflexivity|].
      cbn [points_of map fst] in R. now apply rot3_sym. }
    assert (TR0 : tri s 0%nat 0%nat 1%nat 2%nat).
    { vm_compute in H. injection H as <-. eexists. split; [now left|]. left. reflexivity. }
    constructor; auto.
    - rewrite NP. constructor.
      + intros i a b c. apply tri_rot.
      + intros. eapply tri_same; eauto.
      + intros i a b c K. destruct (TR _ _ _ _ K) as [-> R]. now rewrite (rot3_pos pts _ _ _ _ _ _ R).
      + intros i a b c K. destruct (TR _ _ _ _ K) as [-> R]. assert (X : (a = 0 \/ a = 1 \/ a = 2)%nat) by (apply (rot3_in _ _ _ _ a R); now left). lia.
      + intros i j a b c d e f x K K' _ _. destruct (TR _ _ _ _ K) as [-> _]. destruct (TR _ _ _ _ K') as [-> _]. reflexivity.
      + intros i a b c v K Hv _. destruct (TR _ _ _ _ K) as [-> R]. assert (X : In v [a; b; c]) by (apply (rot3_in _ _ _ _ v R); lia). cbn in X. intuition.
      + intros v Hv. destruct (corner_cls _ _ _ P0) as [X1 [X2 X3]]. destruct v as [|[|[|]]]; auto; lia.
      + intros x Hx. exists 0%nat, 0%nat, 1%nat, 2%nat. auto.
    - intros i t q fi ps x Ht Hq Ho Hps Hx. vm_compute in H. injection H as <-. cbn in Ht, Hps.
      destruct Hps as [E|[E|[E|[]]]]; injection E as _ <-; destruct Hx as [<-|[<-|[]]]; lia.
    - lia.
    - intros i j a b c q o k K K' _. exfalso. destruct (TR _ _ _ _ K) as [-> R]. destruct (TR _ _ _ _ K') as [-> R'].
      pose proof (rot3_pos pts _ _ _ _ _ _ R) as E1.
      destruct R as [E|[E|E]]; injection E as -> -> ->; destruct R' as [E|[E|E]]; discriminate.
  Qed.
  Theorem built2_good n s : 0 < orient (pts 0%nat) (pts 1%nat) (pts 2%nat) -> built2 circle inside pop n s -> good s.
  Proof. intros P0 [s0 [E0 E]]. exact (insert_many_good n s0 s (start_good s0 P0 E0) E). Qed.
End Geo.
