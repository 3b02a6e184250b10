(** The distance of a point to a tetrahedron. *)
From Coq Require Import List Arith Lia QArith Qabs Qfield Lqa Bool.
Import ListNotations.
From Verif Require Import Geometry_Model Geometry_Spec Geometry_Proofs GeometrySolve_Proofs GeometryContains_Proofs GeometryTriangle_Proofs.
Local Open Scope Q_scope.

Lemma qmin_spec a b : (qmin a b == a /\ a <= b) \/ (qmin a b == b /\ b <= a).
Proof.
  unfold qmin. destruct (Qle_bool a b) eqn:E; [left; split; [reflexivity|apply Qle_bool_iff; exact E]|].
  right. split; [reflexivity|]. apply Qlt_le_weak. apply Qleb_false. exact E.
Qed.

(** Where the way from weight [m >= 0] to weight [l] leaves the positive side. *)
Definition leave (m l : Q) : Q := if Qle_bool 0 l then 1 else m / (m - l).

Lemma leave_spec m l : 0 <= m ->
  0 <= leave m l <= 1
  /\ (forall s, 0 <= s -> s <= 1 -> s <= leave m l -> 0 <= m + s * (l - m))
  /\ (l < 0 -> m + leave m l * (l - m) == 0).
Proof.
  intro Hm. unfold leave. destruct (Qle_bool 0 l) eqn:E.
  - apply Qle_bool_iff in E. split; [lra|]. split.
    + intros s H0 H1 _. assert (0 <= (1 - s) * m) by (apply Qmult_le_0_compat; lra). assert (0 <= s * l) by (apply Qmult_le_0_compat; lra). lra.
    + intro F. lra.
  - apply Qleb_false in E. set (u := m / (m - l)). assert (U : u * (m - l) == m) by (unfold u; field; lra).
    assert (U0 : 0 <= u <= 1) by (unfold u; split; [apply Qle_shift_div_l; lra|apply Qle_shift_div_r; lra]).
    clearbody u. split; [exact U0|]. split.
    + intros s H0 H1 Hs. assert (0 <= (u - s) * (m - l)) by (apply Qmult_le_0_compat; lra). lra.
    + intros _. lra.
Qed.

(** The point where the way from a point of the tetrahedron to a point outside leaves it. *)
Lemma way_out m1 m2 m3 m4 l1 l2 l3 l4 : 0 <= m1 -> 0 <= m2 -> 0 <= m3 -> 0 <= m4 ->
  (l1 < 0 \/ l2 < 0 \/ l3 < 0 \/ l4 < 0) ->
  exists s, 0 <= s <= 1 /\ 0 <= m1 + s * (l1 - m1) /\ 0 <= m2 + s * (l2 - m2) /\ 0 <= m3 + s * (l3 - m3) /\ 0 <= m4 + s * (l4 - m4)
    /\ (m1 + s * (l1 - m1) == 0 \/ m2 + s * (l2 - m2) == 0 \/ m3 + s * (l3 - m3) == 0 \/ m4 + s * (l4 - m4) == 0).
Proof.
  intros M1 M2 M3 M4 HL.
  destruct (leave_spec m1 l1 M1) as (A1 & B1 & C1). destruct (leave_spec m2 l2 M2) as (A2 & B2 & C2).
  destruct (leave_spec m3 l3 M3) as (A3 & B3 & C3). destruct (leave_spec m4 l4 M4) as (A4 & B4 & C4).
  set (s1 := leave m1 l1) in *. set (s2 := leave m2 l2) in *. set (s3 := leave m3 l3) in *. set (s4 := leave m4 l4) in *.
  (* a smallest one that belongs to a negative weight *)
  assert (G : exists s, 0 <= s <= 1 /\ s <= s1 /\ s <= s2 /\ s <= s3 /\ s <= s4 /\
     ((s == s1 /\ l1 < 0) \/ (s == s2 /\ l2 < 0) \/ (s == s3 /\ l3 < 0) \/ (s == s4 /\ l4 < 0))).
  { assert (X : forall l m, 0 <= l -> leave m l == 1) by (intros l m H; unfold leave; apply Qle_bool_iff in H; rewrite H; reflexivity).
    assert (P : forall s, 0 <= s <= 1 -> s <= s1 -> s <= s2 -> s <= s3 -> s <= s4 -> s == s1 \/ s == s2 \/ s == s3 \/ s == s4 ->
       exists s, 0 <= s <= 1 /\ s <= s1 /\ s <= s2 /\ s <= s3 /\ s <= s4 /\
     ((s == s1 /\ l1 < 0) \/ (s == s2 /\ l2 < 0) \/ (s == s3 /\ l3 < 0) \/ (s == s4 /\ l4 < 0))).
    { intros s Hs L1 L2 L3 L4 HE.
      assert (Y : forall sk lk mk, sk == leave mk lk -> s == sk -> 0 <= lk -> s == 1) by (intros sk lk mk K1 K2 K3; rewrite K2, K1; apply X; exact K3).
      destruct (Qlt_le_dec s 1) as [Hlt|Hge].
      - exists s. repeat (split; [assumption|]).
        destruct HE as [E|[E|[E|E]]]; [left|right; left|right; right; left|right; right; right]; (split; [exact E|]); apply Qnot_le_lt; intro F;
          [assert (Z := Y s1 l1 m1 (Qeq_refl _) E F)|assert (Z := Y s2 l2 m2 (Qeq_refl _) E F)|assert (Z := Y s3 l3 m3 (Qeq_refl _) E F)|assert (Z := Y s4 l4 m4 (Qeq_refl _) E F)]; lra.
      - exists s. repeat (split; [assumption|]). destruct HL as [H|[H|[H|H]]];
          [left|right; left|right; right; left|right; right; right]; (split; [lra|exact H]). }
    destruct (Qlt_le_dec s1 s2) as [K1|K1]; destruct (Qlt_le_dec s3 s4) as [K2|K2].
    - destruct (Qlt_le_dec s1 s3) as [K3|K3]; [apply (P s1)|apply (P s3)]; lra.
    - destruct (Qlt_le_dec s1 s4) as [K3|K3]; [apply (P s1)|apply (P s4)]; lra.
    - destruct (Qlt_le_dec s2 s3) as [K3|K3]; [apply (P s2)|apply (P s3)]; lra.
    - destruct (Qlt_le_dec s2 s4) as [K3|K3]; [apply (P s2)|apply (P s4)]; lra. }
  destruct G as (s & Hs & L1 & L2 & L3 & L4 & HE). exists s. split; [exact Hs|].
  split; [apply B1; tauto|]. split; [apply B2; tauto|]. split; [apply B3; tauto|]. split; [apply B4; tauto|].
  destruct HE as [[E F]|[[E F]|[[E F]|[E F]]]]; [left; rewrite E; apply C1|right; left; rewrite E; apply C2|right; right; left; rewrite E; apply C3|right; right; right; rewrite E; apply C4]; exact F.
Qed.

Lemma dist2_nonneg p q : 0 <= dist2_3 p q.
Proof.
  unfold dist2_3. assert (S : forall u, 0 <= u * u) by (intro u; nra).
  assert (A := S (x3 p - x3 q)). assert (B := S (y3 p - y3 q)). assert (C := S (z3 p - z3 q)). lra.
Qed.

(** A point on the way from [x] to [p] is not farther from [p] than [x]. *)
Lemma on_the_way p x y s : 0 <= s <= 1 ->
  x3 y == x3 x + s * (x3 p - x3 x) -> y3 y == y3 x + s * (y3 p - y3 x) -> z3 y == z3 x + s * (z3 p - z3 x) ->
  dist2_3 p y <= dist2_3 p x.
Proof.
  intros Hs Ex Ey Ez.
  assert (E : dist2_3 p y == (1 - s) * (1 - s) * dist2_3 p x) by (unfold dist2_3; rewrite Ex, Ey, Ez; ring).
  rewrite E. assert (N := dist2_nonneg p x).
  assert (0 <= (1 - (1 - s) * (1 - s)) * dist2_3 p x) by (apply Qmult_le_0_compat; [nra|exact N]). lra.
Qed.

Lemma face_proper t f : ~ volume6 t == 0 ->
  In f [T3 (ttp1 t) (ttp2 t) (ttp3 t); T3 (ttp2 t) (ttp3 t) (ttp4 t); T3 (ttp3 t) (ttp4 t) (ttp1 t); T3 (ttp4 t) (ttp1 t) (ttp2 t)] ->
  proper_triangle3 f.
Proof.
  destruct t as [[ax ay az] [bx by_ bz] [cx cy cz] [dx dy dz]].
  unfold volume6, proper_triangle3. cbn [ttp1 ttp2 ttp3 ttp4 x3 y3 z3]. intros HV Hf (H1 & H2 & H3). apply HV.
  unfold triple. destruct Hf as [<-|[<-|[<-|[<-|[]]]]]; cbn [t3p1 t3p2 t3p3 x3 y3 z3] in *.
  - transitivity ((dx - ax) * ((by_ - ay) * (cz - az) - (bz - az) * (cy - ay)) - (dy - ay) * ((bx - ax) * (cz - az) - (bz - az) * (cx - ax)) + (dz - az) * ((bx - ax) * (cy - ay) - (by_ - ay) * (cx - ax))); [ring|].
    rewrite H1, H2, H3. ring.
  - transitivity (- ((ax - bx) * ((cy - by_) * (dz - bz) - (cz - bz) * (dy - by_)) - (ay - by_) * ((cx - bx) * (dz - bz) - (cz - bz) * (dx - bx)) + (az - bz) * ((cx - bx) * (dy - by_) - (cy - by_) * (dx - bx)))); [ring|].
    rewrite H1, H2, H3. ring.
  - transitivity ((bx - cx) * ((dy - cy) * (az - cz) - (dz - cz) * (ay - cy)) - (by_ - cy) * ((dx - cx) * (az - cz) - (dz - cz) * (ax - cx)) + (bz - cz) * ((dx - cx) * (ay - cy) - (dy - cy) * (ax - cx))); [ring|].
    rewrite H1, H2, H3. ring.
  - transitivity (- ((cx - dx) * ((ay - dy) * (bz - dz) - (az - dz) * (by_ - dy)) - (cy - dy) * ((ax - dx) * (bz - dz) - (az - dz) * (bx - dx)) + (cz - dz) * ((ax - dx) * (by_ - dy) - (ay - dy) * (bx - dx)))); [ring|].
    rewrite H1, H2, H3. ring.
Qed.

(** Points of a face belong to the tetrahedron. *)
Lemma face_in_tetra t f x :
  In f [T3 (ttp1 t) (ttp2 t) (ttp3 t); T3 (ttp2 t) (ttp3 t) (ttp4 t); T3 (ttp3 t) (ttp4 t) (ttp1 t); T3 (ttp4 t) (ttp1 t) (ttp2 t)] ->
  in_triangle3 f x -> in_tetra t x.
Proof.
  intros Hf (l1 & l2 & l3 & (L & X & Y & Z) & P1 & P2 & P3). unfold in_tetra, mean4.
  destruct Hf as [<-|[<-|[<-|[<-|[]]]]]; cbn [t3p1 t3p2 t3p3] in *;
    [exists l1, l2, l3, 0|exists 0, l1, l2, l3|exists l3, 0, l1, l2|exists l2, l3, 0, l1]; repeat split; try lra.
Qed.

Lemma length2_dist f p : triangle_distance2 f p == dist2_3 p (closest_point f p).
Proof. unfold triangle_distance2, length2, dot3, sub3, dist2_3. cbn [x3 y3 z3]. ring. Qed.

Theorem tetra_distance_ok t p d : ~ volume6 t == 0 -> tetra_distance2 t p = Some d ->
  (exists y, in_tetra t y /\ dist2_3 p y == d) /\ forall x, in_tetra t x -> d <= dist2_3 p x.
Proof.
  intros HV. unfold tetra_distance2. destruct (contains3_ok t p HV) as (CI & CO & _).
  destruct (contains3 t p) as [[]|] eqn:E; [| |discriminate]; intro H; injection H as <-.
  - apply proj1 in CI. destruct (CI eq_refl) as (l1 & l2 & l3 & l4 & M & P). split.
    + exists p. split; [exists l1, l2, l3, l4; repeat split; try apply M; lra|]. unfold dist2_3. ring.
    + intros x _. apply dist2_nonneg.
  - destruct (CO eq_refl) as (l1 & l2 & l3 & l4 & (L & Lx & Ly & Lz) & HL).
    set (faces := [T3 (ttp1 t) (ttp2 t) (ttp3 t); T3 (ttp2 t) (ttp3 t) (ttp4 t); T3 (ttp3 t) (ttp4 t) (ttp1 t); T3 (ttp4 t) (ttp1 t) (ttp2 t)]).
    set (D := qmin _ _).
    (* the minimum over the faces *)
    assert (HM : (forall f, In f faces -> D <= triangle_distance2 f p) /\ exists f, In f faces /\ D == triangle_distance2 f p).
    { unfold D, faces.
      set (a1 := triangle_distance2 (T3 (ttp1 t) (ttp2 t) (ttp3 t)) p). set (a2 := triangle_distance2 (T3 (ttp2 t) (ttp3 t) (ttp4 t)) p).
      set (a3 := triangle_distance2 (T3 (ttp3 t) (ttp4 t) (ttp1 t)) p). set (a4 := triangle_distance2 (T3 (ttp4 t) (ttp1 t) (ttp2 t)) p).
      destruct (qmin_spec a1 a2) as [[E1 F1]|[E1 F1]]; destruct (qmin_spec (qmin a1 a2) a3) as [[E2 F2]|[E2 F2]]; destruct (qmin_spec (qmin (qmin a1 a2) a3) a4) as [[E3 F3]|[E3 F3]];
        (split;
         [intros f [<-|[<-|[<-|[<-|[]]]]];
          [change (triangle_distance2 _ p) with a1|change (triangle_distance2 _ p) with a2|change (triangle_distance2 _ p) with a3|change (triangle_distance2 _ p) with a4]; lra|]);
        first [ exists (T3 (ttp1 t) (ttp2 t) (ttp3 t)); split; [cbn; tauto|change (triangle_distance2 _ p) with a1; lra]
              | exists (T3 (ttp2 t) (ttp3 t) (ttp4 t)); split; [cbn; tauto|change (triangle_distance2 _ p) with a2; lra]
              | exists (T3 (ttp3 t) (ttp4 t) (ttp1 t)); split; [cbn; tauto|change (triangle_distance2 _ p) with a3; lra]
              | exists (T3 (ttp4 t) (ttp1 t) (ttp2 t)); split; [cbn; tauto|change (triangle_distance2 _ p) with a4; lra] ]. }
    clearbody D. destruct HM as [HM (f & Hf & ED)]. split.
    + exists (closest_point f p). split; [|rewrite ED; symmetry; apply length2_dist].
      apply (face_in_tetra t f _ Hf). apply closest_point_ok. apply (face_proper t f HV Hf).
    + intros x (m1 & m2 & m3 & m4 & (M & Mx & My & Mz) & N1 & N2 & N3 & N4).
      destruct (way_out m1 m2 m3 m4 l1 l2 l3 l4 N1 N2 N3 N4 HL) as (s & Hs & W1 & W2 & W3 & W4 & WZ).
      pose (y := P3 (x3 x + s * (x3 p - x3 x)) (y3 x + s * (y3 p - y3 x)) (z3 x + s * (z3 p - z3 x))).
      assert (Hy : exists g, In g faces /\ in_triangle3 g y).
      { set (n1 := m1 + s * (l1 - m1)) in *. set (n2 := m2 + s * (l2 - m2)) in *. set (n3 := m3 + s * (l3 - m3)) in *. set (n4 := m4 + s * (l4 - m4)) in *.
        assert (N : n1 + n2 + n3 + n4 == 1).
        { unfold n1, n2, n3, n4. transitivity ((1 - s) * (m1 + m2 + m3 + m4) + s * (l1 + l2 + l3 + l4)); [ring|]. rewrite M, L. ring. }
        assert (Nx : x3 y == n1 * x3 (ttp1 t) + n2 * x3 (ttp2 t) + n3 * x3 (ttp3 t) + n4 * x3 (ttp4 t)) by (unfold y, n1, n2, n3, n4; cbn [x3]; rewrite Mx, Lx; ring).
        assert (Ny : y3 y == n1 * y3 (ttp1 t) + n2 * y3 (ttp2 t) + n3 * y3 (ttp3 t) + n4 * y3 (ttp4 t)) by (unfold y, n1, n2, n3, n4; cbn [y3]; rewrite My, Ly; ring).
        assert (Nz : z3 y == n1 * z3 (ttp1 t) + n2 * z3 (ttp2 t) + n3 * z3 (ttp3 t) + n4 * z3 (ttp4 t)) by (unfold y, n1, n2, n3, n4; cbn [z3]; rewrite Mz, Lz; ring).
        clearbody n1 n2 n3 n4 y. unfold in_triangle3, mean3.
        destruct WZ as [Z|[Z|[Z|Z]]]; rewrite Z in N, Nx, Ny, Nz.
        - exists (T3 (ttp2 t) (ttp3 t) (ttp4 t)). split; [cbn; tauto|]. exists n2, n3, n4. cbn [t3p1 t3p2 t3p3]. repeat split; lra.
        - exists (T3 (ttp3 t) (ttp4 t) (ttp1 t)). split; [cbn; tauto|]. exists n3, n4, n1. cbn [t3p1 t3p2 t3p3]. repeat split; lra.
        - exists (T3 (ttp4 t) (ttp1 t) (ttp2 t)). split; [cbn; tauto|]. exists n4, n1, n2. cbn [t3p1 t3p2 t3p3]. repeat split; lra.
        - exists (T3 (ttp1 t) (ttp2 t) (ttp3 t)). split; [cbn; tauto|]. exists n1, n2, n3. cbn [t3p1 t3p2 t3p3]. repeat split; lra. }
      destruct Hy as (g & Hg & Ig).
      assert (K1 := HM g Hg). rewrite length2_dist in K1.
      assert (K2 := proj2 (closest_point_ok g p (face_proper t g HV Hg)) y Ig).
      assert (K3 : dist2_3 p y <= dist2_3 p x) by (apply (on_the_way p x y s Hs); reflexivity).
      lra.
Qed.
