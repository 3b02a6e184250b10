(** The tetrahedra with empty circumspheres of all images repeat themselves across the boundaries of the box. *)
From Coq Require Import List Arith ZArith QArith Lqa Lia Permutation Setoid Bool.
From Verif Require Geometry_Model VoronoiPeriodic_Proofs.
From Verif Require Import Geometry_Spec Box_Model Box_Spec Tree_Model Circle2_Proofs Delaunay_Model DelaunayGlobal3_Spec Halo_Model Halo_Spec HaloGeo_Model HaloGeo_Spec
  HaloDelaunay3_Model HaloDelaunay3_Spec DelaunayUnique3_Proofs Sphere3_Proofs Halo_Proofs HaloGeo_Proofs HaloDelaunay_Proofs HaloDelaunay3_Proofs VoronoiGrid3_Model VoronoiGrid3_Spec VoronoiGridWhole3_Proofs.
Import ListNotations.
Local Open Scope Q_scope.
Notation clamp := VoronoiPeriodic_Proofs.clamp.

Definition opposite (w : wrap_type) : wrap_type := match w with NoWrap => NoWrap | Minus => Plus | Plus => Minus end.
Definition opposite3 (w : wrap3) : wrap3 := (opposite (fst (fst w)), opposite (snd (fst w)), opposite (snd w)).
Lemma opposite_shift w : shift_of (opposite w) = (- shift_of w)%Z.
Proof. now destruct w. Qed.
Lemma opposite_periodic w : is_periodic3 (opposite3 w) = is_periodic3 w.
Proof. destruct w as [[[] []] []]; reflexivity. Qed.
Lemma opposite_twice w : opposite3 (opposite3 w) = w.
Proof. destruct w as [[[] []] []]; reflexivity. Qed.
Lemma not_periodic w : is_periodic3 w = false -> w = (NoWrap, NoWrap, NoWrap).
Proof. destruct w as [[[] []] []]; cbn; congruence. Qed.

Section Periodic.
  Variables (ranks : nat) (box : extent3) (particles : nat -> list (nat * vec3)) (outer : list vec3).
  Hypothesis D : distributed3 ranks box particles.
  Hypothesis half_open : forall r, Forall (fun p => Box_Spec.in_box3 box (snd p)) (particles r).
  Hypothesis far_corners : far_outer3 box outer.
  Notation image := (image_of vec3 wrap3 (images3 box) particles).
  Notation site := (site3 box particles outer).
  Notation gx := Geometry_Model.x3. Notation gy := Geometry_Model.y3. Notation gz := Geometry_Model.z3.
  Notation m1 := (x3 (min3 box)). Notation m2 := (y3 (min3 box)). Notation m3 := (z3 (min3 box)).
  Notation X := (x3 (max3 box) - x3 (min3 box)). Notation Y := (y3 (max3 box) - y3 (min3 box)). Notation ZZ := (z3 (max3 box) - z3 (min3 box)).
  Notation s1 w := (shift_of (fst (fst w))). Notation s2 w := (shift_of (snd (fst w))). Notation s3 w := (shift_of (snd w)).
  Let PB := di3_box _ _ _ D.
  Lemma in_half r i pos : In (i, pos) (particles r) -> (m1 <= x3 pos < m1 + X /\ m2 <= y3 pos < m2 + Y /\ m3 <= z3 pos < m3 + ZZ).
  Proof.
    intro H. pose proof (half_open r) as F. rewrite Forall_forall in F. destruct (F _ H) as [[H1 H2] [[H3 H4] [H5 H6]]]. cbn [snd] in *. repeat split; lra.
  Qed.
  Lemma X_pos : 0 < X. Proof. destruct PB as [? [? ?]]. lra. Qed.
  Lemma Y_pos : 0 < Y. Proof. destruct PB as [? [? ?]]. lra. Qed.
  Lemma Z_pos : 0 < ZZ. Proof. destruct PB as [? [? ?]]. lra. Qed.
  Lemma image_coord r i w v : image r i w v -> exists pos, In (i, pos) (particles r) /\
    x3 v == x3 pos + X * inject_Z (s1 w) /\ y3 v == y3 pos + Y * inject_Z (s2 w) /\ z3 v == z3 pos + ZZ * inject_Z (s3 w).
  Proof.
    intros [pos [H I]]. exists pos. split; [exact H|]. destruct w as [[wx wy] wz]. apply in_images3 in I. subst v. cbn [x3 y3 z3 sides3 fst snd]. rewrite <- !as_sign_shift. repeat split; reflexivity.
  Qed.
  Lemma image_ex r i pos w : In (i, pos) (particles r) -> exists v, image r i w v /\
    x3 v == x3 pos + X * inject_Z (s1 w) /\ y3 v == y3 pos + Y * inject_Z (s2 w) /\ z3 v == z3 pos + ZZ * inject_Z (s3 w).
  Proof.
    intro H. destruct w as [[wx wy] wz]. eexists. split; [exists pos; split; [exact H|]; apply in_images3; reflexivity|].
    cbn [x3 y3 z3 sides3 fst snd]. rewrite <- !as_sign_shift. repeat split; reflexivity.
  Qed.
  Lemma base_fun r i pos pos' : In (i, pos) (particles r) -> In (i, pos') (particles r) -> pos' = pos.
  Proof.
    pose proof (di3_ids _ _ _ D r) as ND. revert ND. generalize (particles r). intros ps ND I HP.
    induction ps as [|[a b] ps IH]; [destruct I|]. cbn in ND. apply NoDup_cons_iff in ND. destruct ND as [N1 N2].
    destruct I as [I|I]; destruct HP as [HP|HP]; [congruence| | |auto].
    - injection I as -> ->. exfalso. apply N1. change i with (fst (i, pos')). now apply in_map.
    - injection HP as -> ->. exfalso. apply N1. change i with (fst (i, pos)). now apply in_map.
  Qed.
  (** The square of the distance from [o] to the image of [pos] in another box. *)
  Definition sq (a : Q) : Q := a * a.
  Definition dk (o : Geometry_Model.point3) (pos : vec3) (k1 k2 k3 : Z) : Q :=
    sq (gx o - (x3 pos + X * inject_Z k1)) + sq (gy o - (y3 pos + Y * inject_Z k2)) + sq (gz o - (z3 pos + ZZ * inject_Z k3)).
  Lemma dk_at o v pos k1 k2 k3 : x3 v == x3 pos + X * inject_Z k1 -> y3 v == y3 pos + Y * inject_Z k2 -> z3 v == z3 pos + ZZ * inject_Z k3 -> dist2_3 o (to_point3 v) == dk o pos k1 k2 k3.
  Proof. intros A B C. unfold dk, sq, dist2_3, to_point3. cbn [gx gy gz]. rewrite A, B, C. ring. Qed.
  Lemma dk_here o pos : dk o pos 0 0 0 == sq (gx o - x3 pos) + sq (gy o - y3 pos) + sq (gz o - z3 pos).
  Proof. unfold dk, sq. change (inject_Z 0) with 0. ring. Qed.
  Definition out (o : Geometry_Model.point3) (R : Q) : Prop := forall r i w v, image r i w v -> R <= dist2_3 o (to_point3 v).
  Definition near (o : Geometry_Model.point3) (pos : vec3) : Prop :=
    - X <= 2 * (gx o - x3 pos) <= X /\ - Y <= 2 * (gy o - y3 pos) <= Y /\ - ZZ <= 2 * (gz o - z3 pos) <= ZZ.
  Lemma out_at o R r i pos w : out o R -> In (i, pos) (particles r) -> R <= dk o pos (s1 w) (s2 w) (s3 w).
  Proof. intros O H. destruct (image_ex r i pos w H) as [v [I [A [B C]]]]. pose proof (O _ _ _ _ I) as K. rewrite (dk_at _ _ _ _ _ _ A B C) in K. exact K. Qed.
  Lemma center_near o R r i pos : out o R -> In (i, pos) (particles r) -> R == dk o pos 0 0 0 -> near o pos.
  Proof.
    intros O H E. rewrite dk_here in E.
    pose proof (out_at o R r i pos (Plus, NoWrap, NoWrap) O H) as A1. pose proof (out_at o R r i pos (Minus, NoWrap, NoWrap) O H) as A2.
    pose proof (out_at o R r i pos (NoWrap, Plus, NoWrap) O H) as A3. pose proof (out_at o R r i pos (NoWrap, Minus, NoWrap) O H) as A4.
    pose proof (out_at o R r i pos (NoWrap, NoWrap, Plus) O H) as A5. pose proof (out_at o R r i pos (NoWrap, NoWrap, Minus) O H) as A6.
    unfold dk, sq in *. cbn [shift_of fst snd] in *. change (inject_Z 1) with 1 in *. change (inject_Z (-1)) with (-(1)) in *. change (inject_Z 0) with 0 in *.
    pose proof X_pos. pose proof Y_pos. pose proof Z_pos. repeat split.
    - apply VoronoiPeriodic_Proofs.axis_half'; [assumption|]. clear A1 A3 A4 A5 A6. lra.
    - apply VoronoiPeriodic_Proofs.axis_half; [assumption|]. clear A2 A3 A4 A5 A6. lra.
    - apply VoronoiPeriodic_Proofs.axis_half'; [assumption|]. clear A1 A2 A3 A5 A6. lra.
    - apply VoronoiPeriodic_Proofs.axis_half; [assumption|]. clear A1 A2 A4 A5 A6. lra.
    - apply VoronoiPeriodic_Proofs.axis_half'; [assumption|]. clear A1 A2 A3 A4 A5. lra.
    - apply VoronoiPeriodic_Proofs.axis_half; [assumption|]. clear A1 A2 A3 A4 A6. lra.
  Qed.
  Lemma clamp_wrap k : exists w, shift_of w = clamp k.
  Proof. apply unit_shift_of. unfold unit_shift, clamp. lia. Qed.
  (** No image is in the sphere, not even those of the next boxes. *)
  Lemma far o R rc ic c r i pos k1 k2 k3 : out o R -> In (ic, c) (particles rc) -> near o c -> In (i, pos) (particles r) -> (-2 <= k1 <= 2)%Z -> (-2 <= k2 <= 2)%Z -> (-2 <= k3 <= 2)%Z ->
    R <= dk o pos k1 k2 k3 /\ (clamp k1 <> k1 \/ clamp k2 <> k2 \/ clamp k3 <> k3 -> R < dk o pos k1 k2 k3).
  Proof.
    intros O HC [N1 [N2 N3]] H K1 K2 K3. destruct (clamp_wrap k1) as [wx Ex]. destruct (clamp_wrap k2) as [wy Ey]. destruct (clamp_wrap k3) as [wz Ez].
    pose proof (out_at o R r i pos (wx, wy, wz) O H) as A. cbn [fst snd] in A. rewrite Ex, Ey, Ez in A.
    destruct (in_half _ _ _ HC) as [B1 [B2 B3]]. destruct (in_half _ _ _ H) as [B4 [B5 B6]].
    destruct (VoronoiPeriodic_Proofs.axis_step X m1 (gx o) (x3 c) (x3 pos) k1 X_pos B1 N1 B4 K1) as [C1 C2].
    destruct (VoronoiPeriodic_Proofs.axis_step Y m2 (gy o) (y3 c) (y3 pos) k2 Y_pos B2 N2 B5 K2) as [C3 C4].
    destruct (VoronoiPeriodic_Proofs.axis_step ZZ m3 (gz o) (z3 c) (z3 pos) k3 Z_pos B3 N3 B6 K3) as [C5 C6]. unfold dk, sq in *.
    repeat match goal with |- context [?a * ?a] => let q := fresh "q" in set (q := a * a) in * end.
    repeat match type of A with context [?a * ?a] => let q := fresh "q" in set (q := a * a) in * end.
    clear N1 N2 N3 B1 B2 B3 B4 B5 B6. split.
    - clear C2 C4 C6. lra.
    - intros [W|[W|W]]; [apply C2 in W; clear C2 C4 C6|apply C4 in W; clear C2 C4 C6|apply C6 in W; clear C2 C4 C6]; lra.
  Qed.
  Lemma corner_far o rc ic c v : In (ic, c) (particles rc) -> near o c -> In v outer -> dk o c 0 0 0 < dist2_3 o (to_point3 v).
  Proof.
    intros HC [N1 [N2 N3]] Hv. destruct (in_half _ _ _ HC) as [B1 [B2 B3]].
    assert (K : (1#4) * dist2_3 (to_point3 (min3 box)) (to_point3 (max3 box)) < dist2_3 o (to_point3 v)).
    { apply far_corners; [exact Hv| | |]; split; clear - N1 N2 N3 B1 B2 B3; lra. }
    pose proof (VoronoiPeriodic_Proofs.square_half _ _ N1) as Q1. pose proof (VoronoiPeriodic_Proofs.square_half _ _ N2) as Q2. pose proof (VoronoiPeriodic_Proofs.square_half _ _ N3) as Q3.
    rewrite dk_here. unfold sq. unfold dist2_3 at 1 in K. unfold to_point3 at 1 2 3 4 5 6 7 8 9 10 11 12 in K. cbn [gx gy gz] in K.
    set (d := dist2_3 o (to_point3 v)) in *. clearbody d. clear N1 N2 N3 B1 B2 B3. lra.
  Qed.
  (** Points on a sphere are not in boxes on opposite sides. *)
  Lemma same_side o R re ie pe we rf jf pf wf : out o R -> In (ie, pe) (particles re) -> In (jf, pf) (particles rf) ->
    R == dk o pe (s1 we) (s2 we) (s3 we) -> R == dk o pf (s1 wf) (s2 wf) (s3 wf) ->
    ~ (fst (fst we) = Plus /\ fst (fst wf) = Minus) /\ ~ (snd (fst we) = Plus /\ snd (fst wf) = Minus) /\ ~ (snd we = Plus /\ snd wf = Minus).
  Proof.
    intros O HE HF EE EF. destruct (in_half _ _ _ HE) as [B1 [B2 B3]]. destruct (in_half _ _ _ HF) as [B4 [B5 B6]].
    destruct we as [[w1 w2] w3]. destruct wf as [[u1 u2] u3]. cbn [fst snd] in *. unfold dk in EE, EF.
    split; [|split]; intros [-> ->]; cbn [shift_of] in *.
    - pose proof (out_at o R re ie pe (NoWrap, w2, w3) O HE) as A1. pose proof (out_at o R rf jf pf (NoWrap, u2, u3) O HF) as A2. unfold dk in A1, A2. cbn [shift_of fst snd] in *.
      change (inject_Z 1) with 1 in *. change (inject_Z (-1)) with (-(1)) in *. change (inject_Z 0) with 0 in *. pose proof X_pos as XP. clear B2 B3 B5 B6.
      set (e1 := sq (gy o - (y3 pe + Y * inject_Z (shift_of w2)))) in *. set (e2 := sq (gz o - (z3 pe + ZZ * inject_Z (shift_of w3)))) in *.
      set (e3 := sq (gy o - (y3 pf + Y * inject_Z (shift_of u2)))) in *. set (e4 := sq (gz o - (z3 pf + ZZ * inject_Z (shift_of u3)))) in *. clearbody e1 e2 e3 e4. unfold sq in *.
      assert (C1 : - X <= 2 * (gx o - (x3 pe + X))) by (apply VoronoiPeriodic_Proofs.axis_half'; [exact XP|]; clear B1 B4 EF A2; lra).
      assert (C2 : 2 * (gx o - (x3 pf - X)) <= X) by (apply VoronoiPeriodic_Proofs.axis_half; [exact XP|]; clear B1 B4 EE A1; lra). clear - B1 B4 C1 C2 XP. lra.
    - pose proof (out_at o R re ie pe (w1, NoWrap, w3) O HE) as A1. pose proof (out_at o R rf jf pf (u1, NoWrap, u3) O HF) as A2. unfold dk in A1, A2. cbn [shift_of fst snd] in *.
      change (inject_Z 1) with 1 in *. change (inject_Z (-1)) with (-(1)) in *. change (inject_Z 0) with 0 in *. pose proof Y_pos as XP. clear B1 B3 B4 B6.
      set (e1 := sq (gx o - (x3 pe + X * inject_Z (shift_of w1)))) in *. set (e2 := sq (gz o - (z3 pe + ZZ * inject_Z (shift_of w3)))) in *.
      set (e3 := sq (gx o - (x3 pf + X * inject_Z (shift_of u1)))) in *. set (e4 := sq (gz o - (z3 pf + ZZ * inject_Z (shift_of u3)))) in *. clearbody e1 e2 e3 e4. unfold sq in *.
      assert (C1 : - Y <= 2 * (gy o - (y3 pe + Y))) by (apply VoronoiPeriodic_Proofs.axis_half'; [exact XP|]; clear B2 B5 EF A2; lra).
      assert (C2 : 2 * (gy o - (y3 pf - Y)) <= Y) by (apply VoronoiPeriodic_Proofs.axis_half; [exact XP|]; clear B2 B5 EE A1; lra). clear - B2 B5 C1 C2 XP. lra.
    - pose proof (out_at o R re ie pe (w1, w2, NoWrap) O HE) as A1. pose proof (out_at o R rf jf pf (u1, u2, NoWrap) O HF) as A2. unfold dk in A1, A2. cbn [shift_of fst snd] in *.
      change (inject_Z 1) with 1 in *. change (inject_Z (-1)) with (-(1)) in *. change (inject_Z 0) with 0 in *. pose proof Z_pos as XP. clear B1 B2 B4 B5.
      set (e1 := sq (gx o - (x3 pe + X * inject_Z (shift_of w1)))) in *. set (e2 := sq (gy o - (y3 pe + Y * inject_Z (shift_of w2)))) in *.
      set (e3 := sq (gx o - (x3 pf + X * inject_Z (shift_of u1)))) in *. set (e4 := sq (gy o - (y3 pf + Y * inject_Z (shift_of u2)))) in *. clearbody e1 e2 e3 e4. unfold sq in *.
      assert (C1 : - ZZ <= 2 * (gz o - (z3 pe + ZZ))) by (apply VoronoiPeriodic_Proofs.axis_half'; [exact XP|]; clear B3 B6 EF A2; lra).
      assert (C2 : 2 * (gz o - (z3 pf - ZZ)) <= ZZ) by (apply VoronoiPeriodic_Proofs.axis_half; [exact XP|]; clear B3 B6 EE A1; lra). clear - B3 B6 C1 C2 XP. lra.
  Qed.

  (** ** Translation *)
  Definition tau (w : wrap3) : vec3 := V3 (- (X * inject_Z (s1 w))) (- (Y * inject_Z (s2 w))) (- (ZZ * inject_Z (s3 w))).
  Definition tr (w : wrap3) (p : Geometry_Model.point3) : Geometry_Model.point3 :=
    Geometry_Model.P3 (gx p + x3 (tau w)) (gy p + y3 (tau w)) (gz p + z3 (tau w)).
  Lemma tr_dist w o a b : moved3 (tau w) a b -> dist2_3 (tr w o) (to_point3 b) == dist2_3 o (to_point3 a).
  Proof. intros [A [B C]]. unfold dist2_3, tr, to_point3. cbn [gx gy gz]. rewrite A, B, C. ring. Qed.
  Lemma tr_dk w o pos k1 k2 k3 : dk (tr w o) pos k1 k2 k3 == dk o pos (k1 + s1 w) (k2 + s2 w) (k3 + s3 w).
  Proof. unfold dk, sq, tr, tau. cbn [gx gy gz x3 y3 z3]. rewrite !inject_Z_plus. ring. Qed.
  Lemma image_moved w r i z z' v v' : image r i z v -> image r i z' v' -> s1 z' = (s1 z - s1 w)%Z -> s2 z' = (s2 z - s2 w)%Z -> s3 z' = (s3 z - s3 w)%Z -> moved3 (tau w) v v'.
  Proof.
    intros H H' E1 E2 E3. destruct (image_coord _ _ _ _ H) as [pos [HP [A [B C]]]]. destruct (image_coord _ _ _ _ H') as [pos' [HP' [A' [B' C']]]].
    rewrite (base_fun _ _ _ _ HP HP') in *. rewrite E1 in A'. rewrite E2 in B'. rewrite E3 in C'. unfold Zminus in *. rewrite inject_Z_plus, inject_Z_opp in A', B', C'.
    unfold moved3, tau. cbn [x3 y3 z3]. rewrite A, B, C, A', B', C'. repeat split; ring.
  Qed.
  Lemma shift_inj u w : shift_of u = shift_of w -> u = w.
  Proof. destruct u, w; cbn; congruence. Qed.
  Lemma shift_wrap u w : ~ (u = Plus /\ w = Minus) -> ~ (w = Plus /\ u = Minus) -> exists z, shift_of z = (shift_of u - shift_of w)%Z.
  Proof. intros H1 H2. apply unit_shift_of. unfold unit_shift. destruct u, w; cbn; auto; exfalso; auto. Qed.
  Lemma tr_volume w a b c d a' b' c' d' : moved3 (tau w) a a' -> moved3 (tau w) b b' -> moved3 (tau w) c c' -> moved3 (tau w) d d' ->
    volume6 (Geometry_Model.TT (to_point3 b') (to_point3 a') (to_point3 c') (to_point3 d')) == - volume6 (Geometry_Model.TT (to_point3 a) (to_point3 b) (to_point3 c) (to_point3 d)).
  Proof. exact (moved_orient (tau w) a b c d a' b' c' d'). Qed.

  Theorem shift_tetra x y z u rx ix ry iy w : image rx ix (NoWrap, NoWrap, NoWrap) x -> image ry iy w y -> site z -> site u -> delaunay_tetra to_point3 site x y z u ->
    exists x' y' z' u', image rx ix (opposite3 w) x' /\ image ry iy (NoWrap, NoWrap, NoWrap) y' /\ site z' /\ site u' /\
      moved3 (tau w) x x' /\ moved3 (tau w) y y' /\ moved3 (tau w) z z' /\ moved3 (tau w) u u' /\ delaunay_tetra to_point3 site y' x' z' u'.
  Proof.
    intros IX IY Sz Su [NZ [o [[C1 [C2 C3]] E]]]. cbn [Geometry_Model.ttp1 Geometry_Model.ttp2 Geometry_Model.ttp3 Geometry_Model.ttp4] in C1, C2, C3.
    set (R := dist2_3 o (to_point3 x)) in *.
    assert (RO : same_point3 o o) by reflexivity.
    assert (ALL : forall v, site v -> R <= dist2_3 o (to_point3 v)).
    { intros v Sv. destruct (E v Sv) as [K|[K|[K|[K|K]]]]; [now apply Qlt_le_weak| | | |]; rewrite (dist_same3 o o _ _ RO (proj1 (same_to_point _ _) K));
        [|rewrite C1|rewrite C2|rewrite C3]; apply Qle_refl. }
    assert (O : out o R) by (intros r i wv v I; apply ALL; right; eauto).
    destruct (image_coord _ _ _ _ IX) as [px [HX [X1 [X2 X3]]]].
    assert (RX : R == dk o px 0 0 0) by (exact (dk_at o x px _ _ _ X1 X2 X3)).
    pose proof (center_near o R rx ix px O HX RX) as NX.
    assert (IMG : forall v, site v -> dist2_3 o (to_point3 v) == R -> exists r i wv, image r i wv v).
    { intros v [Hv|Hv] Rv; [exfalso|exact Hv]. pose proof (corner_far o rx ix px v HX NX Hv) as K. rewrite <- RX, Rv in K. exact (Qlt_irrefl _ K). }
    destruct (image_coord _ _ _ _ IY) as [py [HY [Y1 [Y2 Y3]]]].
    assert (RY : R == dk o py (s1 w) (s2 w) (s3 w)) by (rewrite <- C1; exact (dk_at o y py _ _ _ Y1 Y2 Y3)).
    assert (SH : forall v r i wv, image r i wv v -> dist2_3 o (to_point3 v) == R -> exists v' wv', image r i wv' v' /\ moved3 (tau w) v v' /\
      s1 wv' = (s1 wv - s1 w)%Z /\ s2 wv' = (s2 wv - s2 w)%Z /\ s3 wv' = (s3 wv - s3 w)%Z).
    { intros v r i wv IV RV. destruct (image_coord _ _ _ _ IV) as [pv [HV [V1 [V2 V3]]]]. rewrite (dk_at o v pv _ _ _ V1 V2 V3) in RV.
      destruct (same_side o R _ _ _ _ _ _ _ _ O HY HV RY (Qeq_sym _ _ RV)) as [S1 [S2 S3]].
      destruct (same_side o R _ _ _ _ _ _ _ _ O HV HY (Qeq_sym _ _ RV) RY) as [S4 [S5 S6]].
      destruct (shift_wrap _ _ S4 S1) as [z1 Z1]. destruct (shift_wrap _ _ S5 S2) as [z2 Z2]. destruct (shift_wrap _ _ S6 S3) as [z3 Z3].
      destruct (image_ex r i pv (z1, z2, z3) HV) as [v' [IV' _]]. exists v', (z1, z2, z3). split; [exact IV'|]. split; [|auto].
      exact (image_moved w r i wv (z1, z2, z3) v v' IV IV' Z1 Z2 Z3). }
    assert (WR : forall a b : wrap3, s1 a = s1 b -> s2 a = s2 b -> s3 a = s3 b -> a = b).
    { intros [[a1 a2] a3] [[b1 b2] b3]. cbn [fst snd]. intros A1 A2 A3. apply shift_inj in A1. apply shift_inj in A2. apply shift_inj in A3. congruence. }
    assert (RXX : dist2_3 o (to_point3 x) == R) by reflexivity.
    destruct (SH x _ _ _ IX RXX) as [x' [wx [IX' [MX [A1 [A2 A3]]]]]]. destruct (SH y _ _ _ IY C1) as [y' [wy [IY' [MY [B1 [B2 B3]]]]]].
    assert (wx = opposite3 w) as -> by (apply WR; cbn [opposite3 fst snd]; rewrite opposite_shift; [rewrite A1|rewrite A2|rewrite A3]; cbn [fst snd shift_of]; lia).
    assert (wy = (NoWrap, NoWrap, NoWrap)) as -> by (apply WR; [rewrite B1|rewrite B2|rewrite B3]; cbn [fst snd shift_of]; lia).
    destruct (IMG z Sz C2) as [rz [iz [wz IZ]]]. destruct (IMG u Su C3) as [ru [iu [wu IU]]].
    destruct (SH z _ _ _ IZ C2) as [z' [wz' [IZ' [MZ _]]]]. destruct (SH u _ _ _ IU C3) as [u' [wu' [IU' [MU _]]]].
    exists x', y', z', u'. split; [exact IX'|]. split; [exact IY'|]. split; [right; eauto|]. split; [right; eauto|]. repeat (split; [assumption|]).
    assert (NZ' : ~ volume6 (Geometry_Model.TT (to_point3 y') (to_point3 x') (to_point3 z') (to_point3 u')) == 0).
    { rewrite (tr_volume w x y z u x' y' z' u' MX MY MZ MU). intro K. apply NZ. apply Qopp_comp in K. rewrite Qopp_involutive in K. exact K. }
    split; [exact NZ'|]. set (o' := tr w o). exists o'.
    assert (RY' : dist2_3 o' (to_point3 y') == R) by (unfold o'; rewrite (tr_dist w o y y' MY); exact C1).
    split.
    { unfold circumscribed3. cbn [Geometry_Model.ttp1 Geometry_Model.ttp2 Geometry_Model.ttp3 Geometry_Model.ttp4]. rewrite RY'. unfold o'.
      rewrite (tr_dist w o x x' MX), (tr_dist w o z z' MZ), (tr_dist w o u u' MU). split; [reflexivity|]. split; assumption. }
    assert (BD : forall a b : wrap_type, (-2 <= shift_of a + shift_of b <= 2)%Z) by (intros [] []; cbn; lia).
    assert (O' : out o' R).
    { intros r i wv v IV. destruct (image_coord _ _ _ _ IV) as [pv [HV [V1 [V2 V3]]]]. rewrite (dk_at o' v pv _ _ _ V1 V2 V3). unfold o'. rewrite tr_dk.
      apply (far o R rx ix px r i pv _ _ _ O HX NX HV (BD _ _) (BD _ _) (BD _ _)). }
    intros v [Hv|[r [i [wv IV]]]].
    - left. rewrite RY'. assert (RP : R == dk o' py 0 0 0) by (unfold o'; rewrite tr_dk, !Z.add_0_l; exact RY).
      pose proof (center_near o' R ry iy py O' HY RP) as NY. rewrite RP. exact (corner_far o' ry iy py v HY NY Hv).
    - destruct (image_coord _ _ _ _ IV) as [pv [HV [V1 [V2 V3]]]].
      destruct (far o R rx ix px r i pv _ _ _ O HX NX HV (BD (fst (fst wv)) (fst (fst w))) (BD (snd (fst wv)) (snd (fst w))) (BD (snd wv) (snd w))) as [_ ST].
      assert (EV : dist2_3 o' (to_point3 v) == dk o pv (s1 wv + s1 w) (s2 wv + s2 w) (s3 wv + s3 w)) by (rewrite (dk_at o' v pv _ _ _ V1 V2 V3); unfold o'; apply tr_dk).
      assert (STR : (clamp (s1 wv + s1 w) <> s1 wv + s1 w \/ clamp (s2 wv + s2 w) <> s2 wv + s2 w \/ clamp (s3 wv + s3 w) <> s3 wv + s3 w)%Z -> dist2_3 o' (to_point3 y') < dist2_3 o' (to_point3 v))
        by (intro K; rewrite RY', EV; exact (ST K)).
      destruct (Z.eq_dec (clamp (s1 wv + s1 w)) (s1 wv + s1 w)) as [K1|K1]; [|left; auto].
      destruct (Z.eq_dec (clamp (s2 wv + s2 w)) (s2 wv + s2 w)) as [K2|K2]; [|left; auto].
      destruct (Z.eq_dec (clamp (s3 wv + s3 w)) (s3 wv + s3 w)) as [K3|K3]; [|left; auto].
      destruct (clamp_wrap (s1 wv + s1 w)) as [u1 U1]. destruct (clamp_wrap (s2 wv + s2 w)) as [u2 U2]. destruct (clamp_wrap (s3 wv + s3 w)) as [u3 U3].
      rewrite K1 in U1. rewrite K2 in U2. rewrite K3 in U3.
      destruct (image_ex r i pv (u1, u2, u3) HV) as [q [IQ _]].
      assert (MQ : moved3 (tau w) q v) by (apply (image_moved w r i (u1, u2, u3) wv q v IQ IV); cbn [fst snd]; lia).
      assert (SQ : site q) by (right; eauto).
      assert (UN : forall a a', moved3 (tau w) a a' -> same_position3 q a -> same_position3 v a').
      { intros a a' MA S. exact (moved_fun _ _ _ _ MQ (moved_proper _ _ _ _ _ (same_position3_sym _ _ S) (same_refl3 _) MA)). }
      destruct (E q SQ) as [K|[K|[K|[K|K]]]].
      + left. rewrite RY'. unfold o'. rewrite (tr_dist w o q v MQ). exact K.
      + right; right; left. exact (UN _ _ MX K).
      + right; left. exact (UN _ _ MY K).
      + right; right; right; left. exact (UN _ _ MZ K).
      + right; right; right; right. exact (UN _ _ MU K).
  Qed.
End Periodic.
