(** The triangulation of all images repeats itself across the boundaries of the box. *)
From Coq Require Import List Arith ZArith QArith Lqa Lia Permutation Setoid Bool.
From Verif Require Geometry_Model.
From Verif Require Import Geometry_Spec Box_Model Box_Spec Tree_Model Circle2_Proofs Tiling2_Proofs Delaunay_Model Delaunay_Spec DelaunayGeo_Model
  DelaunayGlobal_Spec DelaunayBuild_Proofs DelaunaySurgery_Proofs Delaunay2_Proofs Halo_Model Halo_Spec HaloGeo_Model HaloGeo_Spec HaloDelaunay_Spec DelaunayRemap_Model HaloDelaunay_Model DelaunayRemap_Proofs
  DelaunayInsert_Proofs Delaunay2Insert_Proofs DelaunayGlobal2_Proofs DelaunayUnique2_Proofs Halo_Proofs HaloGeo_Proofs HaloFinal_Proofs
  HaloDelaunay_Proofs Voronoi_Model Voronoi_Spec VoronoiRing_Proofs Voronoi_Proofs VoronoiConstruct_Proofs VoronoiGrid_Model VoronoiGrid_Spec VoronoiGrid_Proofs
  VoronoiGridWhole_Proofs.
Import ListNotations.
Local Open Scope Q_scope.

(** ** One axis *)
Lemma axis_half X o c : 0 < X -> (o - c) * (o - c) <= (o - (c + X)) * (o - (c + X)) -> 2 * (o - c) <= X.
Proof.
  intros HX H. assert (E : (o - (c + X)) * (o - (c + X)) == (o - c) * (o - c) + X * (X - 2 * (o - c))) by ring.
  assert (N : 0 <= X * (X - 2 * (o - c))) by lra. destruct (Qlt_le_dec (X - 2 * (o - c)) 0) as [L|L]; [exfalso|lra].
  assert (P : 0 < X * - (X - 2 * (o - c))) by (apply qmul_pos; lra). lra.
Qed.
Lemma axis_half' X o c : 0 < X -> (o - c) * (o - c) <= (o - (c - X)) * (o - (c - X)) -> - X <= 2 * (o - c).
Proof.
  intros HX H. assert (E : (o - (c - X)) * (o - (c - X)) == (o - c) * (o - c) + X * (X + 2 * (o - c))) by ring.
  assert (N : 0 <= X * (X + 2 * (o - c))) by lra. destruct (Qlt_le_dec (X + 2 * (o - c)) 0) as [L|L]; [exfalso|lra].
  assert (P : 0 < X * - (X + 2 * (o - c))) by (apply qmul_pos; lra). lra.
Qed.
Definition clamp (k : Z) : Z := (Z.max (-1) (Z.min 1 k))%Z.
Lemma axis_step X m o c p k : 0 < X -> m <= c < m + X -> - X <= 2 * (o - c) <= X -> m <= p < m + X -> (-2 <= k <= 2)%Z ->
  (o - (p + X * inject_Z (clamp k))) * (o - (p + X * inject_Z (clamp k))) <= (o - (p + X * inject_Z k)) * (o - (p + X * inject_Z k)) /\
  (clamp k <> k ->
   (o - (p + X * inject_Z (clamp k))) * (o - (p + X * inject_Z (clamp k))) < (o - (p + X * inject_Z k)) * (o - (p + X * inject_Z k))).
Proof.
  intros HX [C1 C2] [O1 O2] [P1 P2] K.
  assert (CK : (k = -2 \/ k = 2 \/ (clamp k = k))%Z) by (unfold clamp; lia). destruct CK as [->|[->|E]].
  - change (clamp (-2)) with (-1)%Z. change (inject_Z (-1)) with (-1#1). change (inject_Z (-2)) with (-2#1).
    assert (Y : 0 < X * (X + 2 * (o - (p - X)))) by (apply qmul_pos; lra).
    assert (S : (o - (p + X * (-1#1))) * (o - (p + X * (-1#1))) < (o - (p + X * (-2#1))) * (o - (p + X * (-2#1)))) by lra.
    split; [lra|auto].
  - change (clamp 2) with 1%Z. change (inject_Z 1) with (1#1). change (inject_Z 2) with (2#1).
    assert (Y : 0 < X * (X - 2 * (o - (p + X)))) by (apply qmul_pos; lra).
    assert (S : (o - (p + X * (1#1))) * (o - (p + X * (1#1))) < (o - (p + X * (2#1))) * (o - (p + X * (2#1)))) by lra.
    split; [lra|auto].
  - rewrite E. split; [lra|contradiction].
Qed.
Lemma square_half X t : - X <= 2 * t <= X -> t * t <= X * X * (1#4).
Proof. intros [H1 H2]. assert (0 <= (X - 2 * t) * (X + 2 * t)) by (apply Qmult_le_0_compat; lra). lra. Qed.
Lemma square_far X t : 0 < X -> (3 * X <= t \/ t <= - (3 * X)) -> X * X < t * t.
Proof.
  intros HX [H|H].
  - assert (0 < (t - X) * (t + X)) by (apply qmul_pos; lra). lra.
  - assert (0 < (- t - X) * (X - t)) by (apply qmul_pos; lra). lra.
Qed.

Section Periodic.
  Variables (ranks : nat) (box : extent2) (particles : nat -> list (nat * vec2)).
  Hypothesis D : distributed2 ranks box particles.
  Hypothesis square : x2 (max2 box) - x2 (min2 box) == y2 (max2 box) - y2 (min2 box).
  Variables (pop' : nat -> list nat -> nat) (l : list vec2) (whole : triangulation).
  Hypothesis all : all_images2 box particles l.
  Hypothesis built : whole2 box pop' l = Some whole.
  Hypothesis distinct : distinct_images2 box particles.
  Notation image := (image_of vec2 wrap2 (images2 box) particles).
  Notation all_pos := (whole_points box l).
  Notation P := (whole_point box l).
  Notation n := (num_points whole).
  Let PB := di2_box _ _ _ D.
  Let WI := whole_is ranks box particles D pop' l whole built.

  (** ** Labels of the points *)
  Definition label (v rank id : nat) (w : wrap2) : Prop := (3 <= v)%nat /\ exists x, nth_error all_pos v = Some x /\ image rank id w x.
  Lemma label_fun v r i w r' i' w' : label v r i w -> label v r' i' w' -> r' = r /\ i' = i /\ w' = w.
  Proof.
    intros [_ [x [E H]]] [_ [x' [E' H']]]. rewrite E in E'. injection E' as <-.
    apply (distinct r' i' w' x r i w x H' H). split; reflexivity.
  Qed.
  Lemma label_lt v r i w : label v r i w -> (3 <= v < n)%nat.
  Proof. intros [L [x [E _]]]. split; [exact L|]. destruct WI as [_ [N NL]]. rewrite N, <- NL. apply nth_error_Some. congruence. Qed.
  Lemma has_triangle v : (v < n)%nat -> exists a b, is_triangle whole v a b.
  Proof.
    intro H. destruct WI as [G _]. destruct (iv_points _ _ _ (gd_inv _ _ G) v H) as [i [t [Ht Hv]]].
    destruct (three_entries whole i t (gd_inv _ _ G) Ht) as [a [fa [b [fb [c [fc ->]]]]]].
    assert (T : is_triangle whole a b c) by (exists i, [(a, fa); (b, fb); (c, fc)]; split; [exact Ht|left; reflexivity]).
    pose proof (is_triangle_rot _ _ _ _ T) as T2. pose proof (is_triangle_rot _ _ _ _ T2) as T3. cbn in Hv.
    destruct Hv as [<-|[<-|[<-|[]]]]; eauto.
  Qed.
  Lemma label_inj v v' r i w : label v r i w -> label v' r i w -> v' = v.
  Proof.
    intros H H'. pose proof (label_lt _ _ _ _ H) as L. destruct H as [_ [x [E H]]]. destruct H' as [_ [x' [E' H']]].
    pose proof (one_image2 box particles (di2_ids _ _ _ D) r i w x x' H H') as <-.
    apply (whole_apart ranks box particles D pop' l whole built v v' x x E E'); [split; reflexivity|]. apply has_triangle. lia.
  Qed.
  Lemma label_ex r i pos w : In (i, pos) (particles r) -> exists v, label v r i w.
  Proof.
    intro H. destruct w as [wx wy].
    set (x := V2 (x2 pos + x2 (sides2 box) * as_sign wx) (y2 pos + y2 (sides2 box) * as_sign wy)).
    assert (I : image r i (wx, wy) x) by (exists pos; split; [exact H|]; now apply in_images2).
    destruct (image_index ranks box particles D pop' l whole all built x r i (wx, wy) I) as [v [L E]]. exists v. split; [lia|]. eauto.
  Qed.
  Lemma label_of v : (3 <= v < n)%nat -> exists r i w, label v r i w.
  Proof.
    intros [L L2]. destruct WI as [_ [N NL]]. destruct (nth_error all_pos v) as [x|] eqn:E; [|apply nth_error_None in E; lia].
    destruct (image_at box particles l all v x L E) as [r [i [w H]]]. exists r, i, w. split; [exact L|]. eauto.
  Qed.
  Lemma base_fun r i pos pos' : In (i, pos) (particles r) -> In (i, pos') (particles r) -> pos' = pos.
  Proof.
    pose proof (di2_ids _ _ _ D r) as ND. revert ND. generalize (particles r). intros ps ND I HP.
    induction ps as [|[a b] ps IH]; [destruct I|]. cbn in ND. apply NoDup_cons_iff in ND. destruct ND as [N1 N2].
    destruct I as [I|I]; destruct HP as [HP|HP]; [congruence| | |auto].
    - injection I as -> ->. exfalso. apply N1. change i with (fst (i, pos')). now apply in_map.
    - injection HP as -> ->. exfalso. apply N1. change i with (fst (i, pos)). now apply in_map.
  Qed.
  Notation gx := Geometry_Model.x2. Notation gy := Geometry_Model.y2.
  Notation m1 := (x2 (min2 box)). Notation m2 := (y2 (min2 box)).
  Notation X := (x2 (max2 box) - x2 (min2 box)). Notation Y := (y2 (max2 box) - y2 (min2 box)).
  Notation s1 w := (shift_of (fst w)). Notation s2 w := (shift_of (snd w)).
  Lemma label_base v r i w : label v r i w -> exists pos, In (i, pos) (particles r).
  Proof. intros [_ [x [_ [pos [H _]]]]]. eauto. Qed.
  Lemma label_coord v r i w pos : label v r i w -> In (i, pos) (particles r) ->
    gx (P v) == x2 pos + X * inject_Z (s1 w) /\ gy (P v) == y2 pos + Y * inject_Z (s2 w).
  Proof.
    intros [_ [x [E [pos' [H I]]]]] H'. rewrite (base_fun _ _ _ _ H' H) in I. destruct w as [wx wy]. apply in_images2 in I. subst x.
    unfold whole_point. rewrite (nth_error_nth _ _ _ E). cbn [to_point2 gx gy x2 y2 sides2 fst snd]. rewrite <- !as_sign_shift. split; reflexivity.
  Qed.

  (** ** Circles *)
  Hypothesis half_open : forall r, Forall (fun p => in_box2 box (snd p)) (particles r).
  Lemma in_half r i pos : In (i, pos) (particles r) -> m1 <= x2 pos < m1 + X /\ m2 <= y2 pos < m2 + Y.
  Proof.
    intro H. pose proof (half_open r) as F. rewrite Forall_forall in F. destruct (F _ H) as [[H1 H2] [H3 H4]]. cbn [snd] in *. split; split; lra.
  Qed.
  Lemma X_pos : 0 < X.
  Proof. destruct PB. lra. Qed.
  Lemma Y_pos : 0 < Y.
  Proof. destruct PB. lra. Qed.
  Definition out (o : Geometry_Model.point2) (R : Q) : Prop := forall v, (3 <= v < n)%nat -> R <= dist2_2 o (P v).
  Definition here (w : wrap2) : Prop := w = (NoWrap, NoWrap).
  Definition near (o : Geometry_Model.point2) (pos : vec2) : Prop :=
    - X <= 2 * (gx o - x2 pos) <= X /\ - Y <= 2 * (gy o - y2 pos) <= Y.
  Lemma out_at o R r i pos wx wy : out o R -> In (i, pos) (particles r) ->
    R <= (gx o - (x2 pos + X * inject_Z (shift_of wx))) * (gx o - (x2 pos + X * inject_Z (shift_of wx))) +
         (gy o - (y2 pos + Y * inject_Z (shift_of wy))) * (gy o - (y2 pos + Y * inject_Z (shift_of wy))).
  Proof.
    intros O H. destruct (label_ex r i pos (wx, wy) H) as [v Hv]. pose proof (O v (label_lt _ _ _ _ Hv)) as H1.
    destruct (label_coord _ _ _ _ _ Hv H) as [E1 E2]. cbn [fst snd] in *. unfold dist2_2 in H1. rewrite E1, E2 in H1. exact H1.
  Qed.
  Lemma center_near o R r i pos : out o R -> In (i, pos) (particles r) ->
    R == (gx o - x2 pos) * (gx o - x2 pos) + (gy o - y2 pos) * (gy o - y2 pos) -> near o pos.
  Proof.
    intros O H E.
    pose proof (out_at o R r i pos Plus NoWrap O H) as A1. pose proof (out_at o R r i pos Minus NoWrap O H) as A2.
    pose proof (out_at o R r i pos NoWrap Plus O H) as A3. pose proof (out_at o R r i pos NoWrap Minus O H) as A4.
    cbn [shift_of] in *. change (inject_Z 1) with 1 in *. change (inject_Z (-1)) with (-(1)) in *. change (inject_Z 0) with 0 in *.
    pose proof X_pos. pose proof Y_pos. split; split.
    - apply axis_half'; [assumption|]. lra.
    - apply axis_half; [assumption|]. lra.
    - apply axis_half'; [assumption|]. lra.
    - apply axis_half; [assumption|]. lra.
  Qed.
  Lemma clamp_wrap k : exists w, shift_of w = clamp k.
  Proof. apply unit_shift_of. unfold unit_shift, clamp. lia. Qed.
  (** No image is in the circle, not even those of the next boxes. *)
  Lemma far o R rc ic c r i pos k1 k2 : out o R -> In (ic, c) (particles rc) -> near o c -> In (i, pos) (particles r) -> (-2 <= k1 <= 2)%Z -> (-2 <= k2 <= 2)%Z ->
    let d := (gx o - (x2 pos + X * inject_Z k1)) * (gx o - (x2 pos + X * inject_Z k1)) + (gy o - (y2 pos + Y * inject_Z k2)) * (gy o - (y2 pos + Y * inject_Z k2)) in
    R <= d /\ (clamp k1 <> k1 \/ clamp k2 <> k2 -> R < d).
  Proof.
    intros O HC [N1 N2] H K1 K2 d. destruct (clamp_wrap k1) as [wx Ex]. destruct (clamp_wrap k2) as [wy Ey].
    pose proof (out_at o R r i pos wx wy O H) as A. rewrite Ex, Ey in A.
    destruct (in_half _ _ _ HC) as [B1 B2]. destruct (in_half _ _ _ H) as [B3 B4].
    destruct (axis_step X m1 (gx o) (x2 c) (x2 pos) k1 X_pos B1 N1 B3 K1) as [C1 C2].
    destruct (axis_step Y m2 (gy o) (y2 c) (y2 pos) k2 Y_pos B2 N2 B4 K2) as [C3 C4]. unfold d. split.
    - lra.
    - intros [Z|Z]; [apply C2 in Z|apply C4 in Z]; lra.
  Qed.
  Lemma corner_far o rc ic c v : In (ic, c) (particles rc) -> near o c -> (v < 3)%nat ->
    (gx o - x2 c) * (gx o - x2 c) + (gy o - y2 c) * (gy o - y2 c) < dist2_2 o (P v).
  Proof.
    intros HC [N1 N2] Hv. pose proof (square_half _ _ N1) as Q1. pose proof (square_half _ _ N2) as Q2. pose proof X_pos as XP. pose proof Y_pos as YP.
    destruct (in_half _ _ _ HC) as [B1 B2].
    assert (EX : X * X == Y * Y) by (rewrite square; reflexivity).
    assert (XX : 0 < X * X) by (apply qmul_pos; lra).
    enough (K : X * X < (gx o - gx (P v)) * (gx o - gx (P v)) \/ Y * Y < (gy o - gy (P v)) * (gy o - gy (P v))).
    { unfold dist2_2.
      assert (0 <= (gx o - gx (P v)) * (gx o - gx (P v))) by (destruct (Qlt_le_dec (gx o - gx (P v)) 0); [assert (0 < - (gx o - gx (P v)) * - (gx o - gx (P v))) by (apply qmul_pos; lra); lra|apply Qmult_le_0_compat; lra]).
      assert (0 <= (gy o - gy (P v)) * (gy o - gy (P v))) by (destruct (Qlt_le_dec (gy o - gy (P v)) 0); [assert (0 < - (gy o - gy (P v)) * - (gy o - gy (P v))) by (apply qmul_pos; lra); lra|apply Qmult_le_0_compat; lra]).
      destruct K; lra. }
    unfold whole_point, whole_points, box_outer2, box_extent2, including_periodic_images2, Geometry_Model.all_encompassing2.
    destruct v as [|[|[|v]]]; [| | |lia]; cbn [nth app to_point2 of_point2 Geometry_Model.t2p1 Geometry_Model.t2p2 Geometry_Model.t2p3 gx gy x2 y2].
    - right. apply square_far; [exact YP|]. right. lra.
    - left. apply square_far; [exact XP|]. left. lra.
    - left. apply square_far; [exact XP|]. right. lra.
  Qed.
  (** Points on a circle are not in boxes on opposite sides. *)
  Lemma same_side o R re ie pe we rf jf pf wf : out o R -> In (ie, pe) (particles re) -> In (jf, pf) (particles rf) ->
    R == (gx o - (x2 pe + X * inject_Z (s1 we))) * (gx o - (x2 pe + X * inject_Z (s1 we))) + (gy o - (y2 pe + Y * inject_Z (s2 we))) * (gy o - (y2 pe + Y * inject_Z (s2 we))) ->
    R == (gx o - (x2 pf + X * inject_Z (s1 wf))) * (gx o - (x2 pf + X * inject_Z (s1 wf))) + (gy o - (y2 pf + Y * inject_Z (s2 wf))) * (gy o - (y2 pf + Y * inject_Z (s2 wf))) ->
    ~ (fst we = Plus /\ fst wf = Minus) /\ ~ (snd we = Plus /\ snd wf = Minus).
  Proof.
    intros O HE HF EE EF. destruct (in_half _ _ _ HE) as [B1 B2]. destruct (in_half _ _ _ HF) as [B3 B4]. destruct we as [w1 w2]. destruct wf as [u1 u2]. cbn [fst snd] in *.
    split; intros [-> ->].
    - pose proof (out_at o R re ie pe NoWrap w2 O HE) as A1. pose proof (out_at o R rf jf pf NoWrap u2 O HF) as A2. cbn [shift_of] in *.
      change (inject_Z 1) with 1 in *. change (inject_Z (-1)) with (-(1)) in *. change (inject_Z 0) with 0 in *. pose proof X_pos as XP.
      assert (C1 : - X <= 2 * (gx o - (x2 pe + X))) by (apply axis_half'; [exact XP|]; lra).
      assert (C2 : 2 * (gx o - (x2 pf - X)) <= X) by (apply axis_half; [exact XP|]; lra). lra.
    - pose proof (out_at o R re ie pe w1 NoWrap O HE) as A1. pose proof (out_at o R rf jf pf u1 NoWrap O HF) as A2. cbn [shift_of] in *.
      change (inject_Z 1) with 1 in *. change (inject_Z (-1)) with (-(1)) in *. change (inject_Z 0) with 0 in *. pose proof Y_pos as YP.
      assert (C1 : - Y <= 2 * (gy o - (y2 pe + Y))) by (apply axis_half'; [exact YP|]; lra).
      assert (C2 : 2 * (gy o - (y2 pf - Y)) <= Y) by (apply axis_half; [exact YP|]; lra). lra.
  Qed.

  (** ** Translation *)
  Lemma shift_inj u w : shift_of u = shift_of w -> u = w.
  Proof. destruct u, w; cbn; congruence. Qed.
  Lemma shift_wrap u w : ~ (u = Plus /\ w = Minus) -> ~ (w = Plus /\ u = Minus) -> exists z, shift_of z = (shift_of u - shift_of w)%Z.
  Proof.
    intros H1 H2. apply unit_shift_of. unfold unit_shift. destruct u, w; cbn; auto; exfalso; auto.
  Qed.
  Definition shifted (w : wrap2) (v v' : nat) : Prop :=
    exists r i z z', label v r i z /\ label v' r i z' /\ s1 z' = (s1 z - s1 w)%Z /\ s2 z' = (s2 z - s2 w)%Z.
  Lemma shifted_lt w v v' : shifted w v v' -> (v' < n)%nat.
  Proof. intros [r [i [z [z' [_ [H _]]]]]]. apply label_lt in H. lia. Qed.
  Lemma shifted_inj w v u v' : shifted w v v' -> shifted w u v' -> u = v.
  Proof.
    intros [r [i [z [z' [H1 [H2 [E1 E2]]]]]]] [r2 [i2 [z2 [z2' [K1 [K2 [F1 F2]]]]]]]. destruct (label_fun _ _ _ _ _ _ _ H2 K2) as [-> [-> ->]].
    assert (z2 = z) as ->.
    { destruct z as [z1 z3], z2 as [y1 y3]. cbn [fst snd] in *. f_equal; apply shift_inj; lia. }
    exact (label_inj _ _ _ _ _ H1 K1).
  Qed.
  Definition tr (w : wrap2) (p : Geometry_Model.point2) : Geometry_Model.point2 :=
    Geometry_Model.P2 (gx p - X * inject_Z (s1 w)) (gy p - Y * inject_Z (s2 w)).
  Lemma shifted_at w v v' : shifted w v v' -> same_point (P v') (tr w (P v)).
  Proof.
    intros [r [i [z [z' [H1 [H2 [E1 E2]]]]]]]. destruct (label_base _ _ _ _ H1) as [pos HP].
    destruct (label_coord _ _ _ _ _ H1 HP) as [A1 A2]. destruct (label_coord _ _ _ _ _ H2 HP) as [A3 A4]. rewrite E1 in A3. rewrite E2 in A4.
    unfold Zminus in *. rewrite inject_Z_plus, inject_Z_opp in A3, A4. unfold tr. split; cbn [gx gy]; [rewrite A3, A1|rewrite A4, A2]; ring.
  Qed.
  Lemma tr_dist w o p q : same_point q (tr w p) -> dist2_2 (tr w o) q == dist2_2 o p.
  Proof. intros [E1 E2]. unfold tr in *. cbn [gx gy] in *. unfold dist2_2. cbn [gx gy]. rewrite E1, E2. ring. Qed.
  Lemma tr_orient w a b c a' b' c' : same_point a' (tr w a) -> same_point b' (tr w b) -> same_point c' (tr w c) -> orient a' b' c' == orient a b c.
  Proof.
    intros [A1 A2] [B1 B2] [C1 C2]. unfold tr in *. cbn [gx gy] in *. unfold orient, Geometry_Spec.area2. cbn. rewrite A1, A2, B1, B2, C1, C2. ring.
  Qed.
  Lemma empty_at a b c : is_triangle whole a b c -> empty_circumcircle2 P n a b c /\ 0 < orient (P a) (P b) (P c) /\ (a < n)%nat /\ (b < n)%nat /\ (c < n)%nat.
  Proof.
    intro T. destruct WI as [G _].
    assert (TU : 0 < orient (positions2 (box_remap2 box) all_pos 0) (positions2 (box_remap2 box) all_pos 1) (positions2 (box_remap2 box) all_pos 2)).
    { assert (three : length (box_outer2 box) = 3%nat) by (unfold box_outer2; destruct (box_extent2 box); reflexivity).
      unfold whole_points. rewrite !(positions_app (box_remap2 box)) by (rewrite three; lia). now apply box_turn. }
    destruct (good_delaunay _ _ G TU) as [_ EM]. pose proof (proj1 (box_empty box PB square _ _ _ _ _) (EM a b c T)) as E. split; [exact E|].
    apply is_triangle_tri in T. destruct T as [i T]. pose proof (gd_tiling _ _ G) as L. pose proof (tl_pos _ _ _ L _ _ _ _ T) as PO.
    split; [exact (proj1 (box_orient box PB _ _ _ _) PO)|]. pose proof (tri_rot _ _ _ _ _ T) as T2. pose proof (tri_rot _ _ _ _ _ T2) as T3.
    pose proof (tl_lt _ _ _ L _ _ _ _ T). pose proof (tl_lt _ _ _ L _ _ _ _ T2). pose proof (tl_lt _ _ _ L _ _ _ _ T3). auto.
  Qed.
  Lemma complete_at a b c : (a < n)%nat -> (b < n)%nat -> (c < n)%nat -> 0 < orient (P a) (P b) (P c) -> empty_circumcircle2 P n a b c -> is_triangle whole a b c.
  Proof.
    intros A B C PO E. destruct WI as [G _]. apply (good_complete (positions2 (box_remap2 box) all_pos) whole a b c G A B C).
    - exact (proj2 (box_orient box PB _ _ _ _) PO).
    - exact (proj2 (box_empty box PB square _ _ _ _ _) E).
  Qed.
  Theorem shift_triangle a b c ra ia e re ie w : is_triangle whole a b c -> label a ra ia (NoWrap, NoWrap) -> (e = b \/ e = c) -> label e re ie w ->
    exists a' b' c', is_triangle whole a' b' c' /\ shifted w a a' /\ shifted w b b' /\ shifted w c c'.
  Proof.
    intros T LA EB LE. destruct (empty_at a b c T) as [[o [[C1 C2] EM]] [PO [NA [NB NC]]]]. unfold shape2 in C1, C2.
    cbn [Geometry_Model.t2p1 Geometry_Model.t2p2 Geometry_Model.t2p3] in C1, C2. set (R := dist2_2 o (P a)) in *.
    assert (O : out o R).
    { intros v Hv. destruct (Nat.eq_dec v a) as [->|N1]; [unfold R; lra|]. destruct (Nat.eq_dec v b) as [->|N2]; [rewrite C1; lra|].
      destruct (Nat.eq_dec v c) as [->|N3]; [rewrite C2; lra|]. apply Qlt_le_weak. apply EM; tauto. }
    destruct (label_base _ _ _ _ LA) as [pa HA].
    assert (RA : R == (gx o - x2 pa) * (gx o - x2 pa) + (gy o - y2 pa) * (gy o - y2 pa)).
    { destruct (label_coord _ _ _ _ _ LA HA) as [E1 E2]. cbn [fst snd shift_of] in E1, E2. change (inject_Z 0) with 0 in *. unfold R, dist2_2. rewrite E1, E2. ring. }
    pose proof (center_near o R ra ia pa O HA RA) as NE.
    assert (B3 : (3 <= b)%nat).
    { destruct (Nat.lt_ge_cases b 3) as [L|]; [exfalso|assumption]. pose proof (corner_far o ra ia pa b HA NE L). lra. }
    assert (C3 : (3 <= c)%nat).
    { destruct (Nat.lt_ge_cases c 3) as [L|]; [exfalso|assumption]. pose proof (corner_far o ra ia pa c HA NE L). lra. }
    destruct (label_base _ _ _ _ LE) as [pe HE].
    assert (RE : dist2_2 o (P e) == R) by (destruct EB as [->| ->]; assumption).
    assert (SH : forall v, (3 <= v < n)%nat -> dist2_2 o (P v) == R -> exists v', shifted w v v').
    { intros v Hv RV. destruct (label_of v Hv) as [r [i [z LV]]]. destruct (label_base _ _ _ _ LV) as [pv HV].
      destruct (label_coord _ _ _ _ _ LV HV) as [E1 E2]. destruct (label_coord _ _ _ _ _ LE HE) as [E3 E4]. unfold dist2_2 in RV, RE. rewrite E1, E2 in RV. rewrite E3, E4 in RE.
      destruct (same_side o R _ _ _ _ _ _ _ _ O HE HV (Qeq_sym _ _ RE) (Qeq_sym _ _ RV)) as [X1 X2].
      destruct (same_side o R _ _ _ _ _ _ _ _ O HV HE (Qeq_sym _ _ RV) (Qeq_sym _ _ RE)) as [X3 X4].
      destruct (shift_wrap _ _ X3 X1) as [z1 Z1]. destruct (shift_wrap _ _ X4 X2) as [z2 Z2].
      destruct (label_ex r i pv (z1, z2) HV) as [v' LV']. exists v', r, i, z, (z1, z2). auto. }
    destruct (SH a) as [a' SA]; [exact (label_lt _ _ _ _ LA)|unfold R; reflexivity|].
    destruct (SH b) as [b' SB]; [lia|exact C1|]. destruct (SH c) as [c' SC]; [lia|exact C2|].
    exists a', b', c'. split; [|auto].
    pose proof (shifted_at _ _ _ SA) as PA. pose proof (shifted_at _ _ _ SB) as PBB. pose proof (shifted_at _ _ _ SC) as PC.
    apply complete_at; [exact (shifted_lt _ _ _ SA)|exact (shifted_lt _ _ _ SB)|exact (shifted_lt _ _ _ SC)|rewrite (tr_orient w _ _ _ _ _ _ PA PBB PC); exact PO|].
    set (o' := tr w o). assert (RA' : dist2_2 o' (P a') == R) by (exact (tr_dist w o _ _ PA)).
    exists o'. split.
    { unfold circumscribed2, shape2. cbn [Geometry_Model.t2p1 Geometry_Model.t2p2 Geometry_Model.t2p3]. rewrite RA'. unfold o'.
      rewrite (tr_dist w o _ _ PBB), (tr_dist w o _ _ PC). auto. }
    assert (FA : forall v r i z pv, label v r i z -> In (i, pv) (particles r) ->
      dist2_2 o' (P v) == (gx o - (x2 pv + X * inject_Z (s1 z + s1 w))) * (gx o - (x2 pv + X * inject_Z (s1 z + s1 w))) +
                          (gy o - (y2 pv + Y * inject_Z (s2 z + s2 w))) * (gy o - (y2 pv + Y * inject_Z (s2 z + s2 w)))).
    { intros v r i z pv LV HV. destruct (label_coord _ _ _ _ _ LV HV) as [E1 E2]. unfold o', tr, dist2_2. cbn [gx gy]. rewrite E1, E2, !inject_Z_plus. ring. }
    assert (BD : forall u x : wrap_type, (-2 <= shift_of u + shift_of x <= 2)%Z) by (intros [] []; cbn; lia).
    assert (O' : out o' R).
    { intros v Hv. destruct (label_of v Hv) as [r [i [z LV]]]. destruct (label_base _ _ _ _ LV) as [pv HV]. rewrite (FA _ _ _ _ _ LV HV).
      apply (far o R ra ia pa r i pv _ _ O HA NE HV (BD _ _) (BD _ _)). }
    intros v Hv NVA NVB NVC. rewrite RA'. destruct (Nat.lt_ge_cases v 3) as [L|L].
    - (* corners of the initial triangle *)
      assert (NE' : near o' pe /\ R == (gx o' - x2 pe) * (gx o' - x2 pe) + (gy o' - y2 pe) * (gy o' - y2 pe)).
      { assert (Z : R == (gx o' - x2 pe) * (gx o' - x2 pe) + (gy o' - y2 pe) * (gy o' - y2 pe)).
        { rewrite <- RE. destruct (label_coord _ _ _ _ _ LE HE) as [E3 E4]. unfold o', tr, dist2_2. cbn [gx gy]. rewrite E3, E4. ring. }
        split; [exact (center_near o' R re ie pe O' HE Z)|exact Z]. }
      destruct NE' as [NE' Z]. rewrite Z. exact (corner_far o' re ie pe v HE NE' L).
    - destruct (label_of v (conj L Hv)) as [r [i [z LV]]]. destruct (label_base _ _ _ _ LV) as [pv HV].
      destruct (far o R ra ia pa r i pv _ _ O HA NE HV (BD (fst z) (fst w)) (BD (snd z) (snd w))) as [_ ST]. rewrite <- (FA _ _ _ _ _ LV HV) in ST.
      destruct (Z.eq_dec (clamp (s1 z + s1 w)) (s1 z + s1 w)) as [K1|K1]; [|auto].
      destruct (Z.eq_dec (clamp (s2 z + s2 w)) (s2 z + s2 w)) as [K2|K2]; [|auto].
      destruct (clamp_wrap (s1 z + s1 w)) as [u1 U1]. destruct (clamp_wrap (s2 z + s2 w)) as [u2 U2]. rewrite K1 in U1. rewrite K2 in U2.
      destruct (label_ex r i pv (u1, u2) HV) as [u LU].
      assert (SU : shifted w u v) by (exists r, i, (u1, u2), z; cbn [fst snd]; repeat (split; [assumption|]); lia).
      pose proof (shifted_at _ _ _ SU) as PU. unfold o'. rewrite (tr_dist w o _ _ PU). pose proof (label_lt _ _ _ _ LU) as LTU.
      assert (UN : forall x x', shifted w x x' -> v <> x' -> u <> x).
      { intros x x' SX N ->. apply N. destruct SX as [r2 [i2 [y [y' [Y1 [Y2 [Y3 Y4]]]]]]]. destruct (label_fun _ _ _ _ _ _ _ LU Y1) as [-> [-> ->]]. cbn [fst snd] in *.
        assert (y' = z) as ->; [|exact (label_inj _ _ _ _ _ Y2 LV)]. destruct y' as [y1 y2], z as [z1 z2]. cbn [fst snd] in *. f_equal; apply shift_inj; lia. }
      apply EM; [lia|eapply UN; eassumption|eapply UN; eassumption|eapply UN; eassumption].
  Qed.

  (** ** Neighbours across the boundary *)
  Definition opposite (w : wrap_type) : wrap_type := match w with NoWrap => NoWrap | Minus => Plus | Plus => Minus end.
  Definition opposite2 (w : wrap2) : wrap2 := (opposite (fst w), opposite (snd w)).
  Theorem neighbour_shift a q ra ia rq iq w : neighbour whole a q -> label a ra ia (NoWrap, NoWrap) -> label q rq iq w ->
    exists a' q', label a' ra ia (opposite2 w) /\ label q' rq iq (NoWrap, NoWrap) /\ neighbour whole q' a'.
  Proof.
    intros N LA LQ. destruct WI as [G _]. apply (neighbour_tri _ _ _ _ G) in N.
    assert (LS : forall x r i z u x', label x r i z -> shifted w x x' -> shift_of (fst u) = (s1 z - s1 w)%Z -> shift_of (snd u) = (s2 z - s2 w)%Z -> label x' r i u).
    { intros x r i z u x' L [r2 [i2 [y [y' [Y1 [Y2 [Y3 Y4]]]]]]] U1 U2. destruct (label_fun _ _ _ _ _ _ _ L Y1) as [-> [-> ->]].
      replace u with y'; [exact Y2|]. destruct y', u. cbn [fst snd] in *. f_equal; apply shift_inj; lia. }
    assert (OA : forall a', shifted w a a' -> label a' ra ia (opposite2 w)).
    { intros a' S. apply (LS a _ _ (NoWrap, NoWrap)); [assumption|assumption| |]; cbn [fst snd opposite2 shift_of]; destruct w as [[] []]; reflexivity. }
    assert (OQ : forall q', shifted w q q' -> label q' rq iq (NoWrap, NoWrap)).
    { intros q' S. apply (LS q _ _ w); [assumption|assumption| |]; cbn [fst snd shift_of]; lia. }
    destruct N as [c [T|T]].
    - destruct (shift_triangle a q c ra ia q rq iq w T LA (or_introl eq_refl) LQ) as [a' [q' [c' [T' [SA [SB SC]]]]]].
      exists a', q'. split; [auto|]. split; [auto|]. apply neighbour_sym. apply (neighbour_tri _ _ _ _ G). eauto.
    - destruct (shift_triangle a c q ra ia q rq iq w T LA (or_intror eq_refl) LQ) as [a' [c' [q' [T' [SA [SB SC]]]]]].
      exists a', q'. split; [auto|]. split; [auto|]. apply neighbour_sym. apply (neighbour_tri _ _ _ _ G). eauto.
  Qed.
  Lemma shifted_label w x r i z u x' : label x r i z -> shifted w x x' -> shift_of (fst u) = (s1 z - s1 w)%Z -> shift_of (snd u) = (s2 z - s2 w)%Z -> label x' r i u.
  Proof.
    intros L [r2 [i2 [y [y' [Y1 [Y2 [Y3 Y4]]]]]]] U1 U2. destruct (label_fun _ _ _ _ _ _ _ L Y1) as [-> [-> ->]].
    replace u with y'; [exact Y2|]. destruct y', u. cbn [fst snd] in *. f_equal; apply shift_inj; lia.
  Qed.
  Lemma shifted_own w x r i x' : label x r i (NoWrap, NoWrap) -> shifted w x x' -> label x' r i (opposite2 w).
  Proof. intros L S. apply (shifted_label w x _ _ (NoWrap, NoWrap)); [assumption|assumption| |]; cbn [fst snd opposite2 shift_of]; destruct w as [[] []]; reflexivity. Qed.
  Lemma shifted_back w x r i x' : label x r i w -> shifted w x x' -> label x' r i (NoWrap, NoWrap).
  Proof. intros L S. apply (shifted_label w x _ _ w); [assumption|assumption| |]; cbn [fst snd shift_of]; lia. Qed.
  Lemma circum_shift w a b c a' b' c' o : shifted w a a' -> shifted w b b' -> shifted w c c' -> circumscribed2 (shape2 P a b c) o -> circumscribed2 (shape2 P a' b' c') (tr w o).
  Proof.
    intros SA SB SC [C1 C2]. unfold circumscribed2, shape2 in *. cbn [Geometry_Model.t2p1 Geometry_Model.t2p2 Geometry_Model.t2p3] in *.
    rewrite (tr_dist w o _ _ (shifted_at _ _ _ SA)), (tr_dist w o _ _ (shifted_at _ _ _ SB)), (tr_dist w o _ _ (shifted_at _ _ _ SC)). auto.
  Qed.
  (** The two centers of an edge, seen from the other side of the boundary. *)
  Theorem centers_shift v q rv iv rq iq w o1 o2 : edge_centers P whole v q o1 o2 -> label v rv iv (NoWrap, NoWrap) -> label q rq iq w ->
    exists v' q', label v' rv iv (opposite2 w) /\ label q' rq iq (NoWrap, NoWrap) /\ edge_centers P whole q' v' (tr w o2) (tr w o1).
  Proof.
    intros [[a [T1 C1]] [b [T2 C2]]] LV LQ.
    destruct (shift_triangle v q a rv iv q rq iq w T1 LV (or_introl eq_refl) LQ) as [v' [q' [a' [T1' [SV [SQ SA]]]]]].
    destruct (shift_triangle v b q rv iv q rq iq w (is_triangle_rot _ _ _ _ T2) LV (or_intror eq_refl) LQ) as [v2 [b' [q2 [T2' [SV2 [SB SQ2]]]]]].
    rewrite (label_inj _ _ _ _ _ (shifted_own _ _ _ _ _ LV SV) (shifted_own _ _ _ _ _ LV SV2)) in *.
    rewrite (label_inj _ _ _ _ _ (shifted_back _ _ _ _ _ LQ SQ) (shifted_back _ _ _ _ _ LQ SQ2)) in *.
    exists v', q'. split; [exact (shifted_own _ _ _ _ _ LV SV)|]. split; [exact (shifted_back _ _ _ _ _ LQ SQ)|]. split.
    - exists b'. split; [do 2 apply is_triangle_rot; exact T2'|]. exact (circum_shift w q v b q' v' b' o2 SQ SV SB C2).
    - exists a'. split; [exact T1'|]. exact (circum_shift w v q a v' q' a' o1 SV SQ SA C1).
  Qed.
  Lemma tr_centers w o1 o2 : dist2_2 (tr w o2) (tr w o1) == dist2_2 o1 o2.
  Proof. unfold tr, dist2_2. cbn [gx gy]. ring. Qed.
End Periodic.
