(** The grids of all ranks in space satisfy the assumptions of the sweep. *)
From Coq Require Import List Arith ZArith QArith Qcanon Lqa Lia Permutation Bool Reals.
From Verif Require Geometry_Model Sweep_Model Sweep_Spec Cartesian_Sweep VoronoiGrid_Spec VoronoiGridSweep_Proofs.
From Verif Require Import Geometry_Spec Box_Model Box_Spec Box_Proofs Tree_Model Circle2_Proofs Delaunay_Model DelaunayGlobal3_Spec Halo_Model Halo_Spec HaloGeo_Model HaloGeo_Spec
  HaloDelaunay3_Model HaloDelaunay3_Spec Sphere3_Proofs DelaunayUnique3_Proofs Tiling3_Proofs Delaunay3_Proofs Halo_Proofs HaloGeo_Proofs HaloDelaunay_Proofs HaloDelaunay3_Proofs VoronoiConstruct3_Proofs
  Voronoi_Model Voronoi_Spec Voronoi_Proofs Voronoi3_Model Voronoi3_Spec Voronoi3_Proofs VoronoiGrid3_Model VoronoiGrid3_Spec VoronoiGrid3_Proofs VoronoiGridWhole3_Proofs VoronoiPeriodic3_Proofs.
Import ListNotations.
Local Open Scope nat_scope.
Notation seen_from := VoronoiGrid_Spec.seen_from.
Notation no_wrap := (NoWrap, NoWrap, NoWrap).

Lemma moved_same t a b a' b' : same_position3 a a' -> same_position3 b b' -> moved3 t a b -> moved3 t a' b'.
Proof. exact (moved_proper t a b a' b'). Qed.
Lemma ordered_in {A} (R : A -> A -> Prop) l a b : ForallOrdPairs R l -> In a l -> In b l -> a = b \/ R a b \/ R b a.
Proof. intros F H1 H2. destruct (ForallOrdPairs_In F a b H1 H2) as [?|[?|?]]; auto. Qed.
Lemma Forall2_tag {A B C} (R : A -> B -> Prop) (h : B -> C) l m : Forall2 R l m -> Forall2 (fun a c => exists b, In a l /\ In b m /\ R a b /\ c = h b) l (map h m).
Proof.
  induction 1 as [|a b l m H F IH]; cbn [map]; constructor; [exists b; repeat split; auto; now left|].
  apply (Forall2_weak (fun a c => exists b, In a l /\ In b m /\ R a b /\ c = h b)); [|exact IH]. intros u v [b' [I1 [I2 K]]]. exists b'. split; [now right|]. split; [now right|exact K].
Qed.

Section Sweep.
  Variables (ranks : nat) (box : extent3) (particles : nat -> list (nat * vec3)) (outer : list vec3).
  Hypothesis D : distributed3 ranks box particles.
  Hypothesis distinct : distinct_images3 box particles.
  Variables (periodic : bool) (world : nat -> rank_grid3).
  Hypothesis half_open : periodic = true -> forall r, Forall (fun p => Box_Spec.in_box3 box (snd p)) (particles r).
  Hypothesis far_corners : periodic = true -> far_outer3 box outer.
  Notation image := (image_of vec3 wrap3 (images3 box) particles).
  Notation site := (site3 box particles outer).
  Notation tau := (tau box).
  Notation DT := (delaunay_tetra to_point3 site).
  Hypothesis real_apart : forall r i y v, In (i, y) (particles r) -> In v outer -> ~ same_position3 v y.
  Hypothesis ids : forall r, r < ranks -> Permutation (map fst (local_cells3 (world r))) (map fst (particles r)).
  Hypothesis wcells : forall r, r < ranks -> forall id c, In (id, c) (local_cells3 (world r)) ->
    exists pos, In (id, pos) (particles r) /\ whole_cell3 box particles outer periodic r pos c.
  Hypothesis halos : forall r, r < ranks -> forall q x, In (q, x) (halo_ids3 (world r)) <-> exists e f, In e (local_cells3 (world r)) /\ In f (neighbours3 (snd e)) /\
    (connection3 f = Remote wrap3 x q \/ exists wr, connection3 f = RemotePeriodic wrap3 x q wr).
  Hypothesis areas : forall r1 r2 id1 id2 c1 c2 pos1 pos2 y1 y2 f g t, r1 < ranks -> r2 < ranks ->
    In (id1, c1) (local_cells3 (world r1)) -> In (id1, pos1) (particles r1) -> In (id2, c2) (local_cells3 (world r2)) -> In (id2, pos2) (particles r2) ->
    In f (neighbours3 c1) -> In g (neighbours3 c2) -> face_between site pos1 y1 f -> face_between site pos2 y2 g ->
    moved3 t y1 pos2 -> moved3 t pos1 y2 ->
    (forall z u, site z -> site u -> DT pos1 y1 z u -> exists z' u', site z' /\ site u' /\ moved3 t z z' /\ moved3 t u u' /\ DT pos2 y2 z' u') ->
    (forall z' u', site z' -> site u' -> DT pos2 y2 z' u' -> exists z u, site z /\ site u /\ moved3 t z z' /\ moved3 t u u' /\ DT pos1 y1 z u) ->
    face_area f = face_area g.
  Variable round : R -> Qc.
  Hypothesis round_pos : forall x, (0 < x)%R -> (0 < round x)%Qc.
  Variables (dirs : list Geometry_Model.point3) (batch : nat) (source : nat * nat -> Qc) (lev : nat * nat -> nat) (sweeps : list nat).
  Variables (resp : nat * nat -> list Qc -> Qc -> Qc) (chemup : nat * nat -> list Qc -> Qc -> list Qc).
  Notation G := (sweep_config3 round world ranks dirs batch source lev sweeps resp chemup).
  Notation dir d := (nth d dirs (Geometry_Model.P3 0 0 0)).

  (** ** Images *)
  Lemma base_image r i pos : In (i, pos) (particles r) -> exists y, image r i no_wrap y /\ same_position3 y pos.
  Proof.
    intro H. destruct (unwrapped3 box particles i pos r H) as [y [Y1 Y2]]. exists y. split; [exact Y1|]. now apply same_position3_sym.
  Qed.
  Lemma image_base r i w y : image r i w y -> exists pos, In (i, pos) (particles r).
  Proof. intros [pos [H _]]. eauto. Qed.
  Lemma image_same r i w y y' : image r i w y -> image r i w y' -> same_position3 y y'.
  Proof.
    intros [p [H I]] [p' [H' I']]. rewrite (base_fun ranks box particles D r i p p' H H') in I'. destruct w as [[wx wy] wz].
    apply in_images3 in I. apply in_images3 in I'. subst y y'. apply same_refl3.
  Qed.
  Lemma image_fun r i w y r' i' w' y' : image r i w y -> image r' i' w' y' -> same_position3 y y' -> r = r' /\ i = i' /\ w = w'.
  Proof. intros H H' E. exact (distinct r i w y r' i' w' y' H H' E). Qed.
  Lemma tau_back w a b : moved3 (tau (opposite3 w)) a b -> moved3 (tau w) b a.
  Proof.
    destruct w as [[wx wy] wz]. unfold moved3, VoronoiPeriodic3_Proofs.tau, opposite3. cbn [fst snd x3 y3 z3]. rewrite !opposite_shift, !inject_Z_opp.
    intros [A [B C]]. rewrite A, B, C. repeat split; ring.
  Qed.
  Lemma tau_none a b : same_position3 a b -> moved3 (tau no_wrap) a b.
  Proof.
    intros [A [B C]]. unfold moved3, VoronoiPeriodic3_Proofs.tau. cbn [fst snd x3 y3 z3 shift_of]. change (inject_Z 0) with 0%Q. rewrite A, B, C. repeat split; ring.
  Qed.
  (** The pair of a particle and an image of another one, seen from the other side. *)
  Lemma shifted rc ic x rp ip y0 w y : (is_periodic3 w = true -> periodic = true) -> In (ic, x) (particles rc) -> In (ip, y0) (particles rp) -> image rp ip w y ->
    (exists z u, site z /\ site u /\ DT x y z u) ->
    exists x', image rc ic (opposite3 w) x' /\ moved3 (tau w) x x' /\ moved3 (tau w) y y0 /\
      forall z u, site z -> site u -> DT x y z u -> exists z' u', site z' /\ site u' /\ moved3 (tau w) z z' /\ moved3 (tau w) u u' /\ DT y0 x' z' u'.
  Proof.
    intros PE HX HY IY [z0 [u0 [Sz0 [Su0 DT0]]]]. destruct (base_image _ _ _ HX) as [xi [IX EX]]. destruct (base_image _ _ _ HY) as [yi [IYI EY]].
    destruct (is_periodic3 w) eqn:W.
    - pose proof (shift_tetra ranks box particles outer D (half_open (PE eq_refl)) (far_corners (PE eq_refl))) as SH.
      assert (PR : forall z u, DT x y z u -> DT xi y z u).
      { intros z u H. exact (delaunay_tetra_proper to_point3 same_to_point site _ _ _ _ _ _ _ _ (same_position3_sym _ _ EX) (same_refl3 _) (same_refl3 _) (same_refl3 _) H). }
      destruct (SH _ _ _ _ _ _ _ _ _ IX IY Sz0 Su0 (PR _ _ DT0)) as [x' [y' [_ [_ [IX' [IY' [_ [_ [MX [MY _]]]]]]]]]].
      pose proof (image_same _ _ _ _ _ IY' IYI) as E1.
      exists x'. split; [exact IX'|]. split; [exact (moved_same _ _ _ _ _ EX (same_refl3 _) MX)|].
      split; [exact (moved_same _ _ _ _ _ (same_refl3 _) (same_position3_trans _ _ _ E1 EY) MY)|].
      intros z u Sz Su H. destruct (SH _ _ _ _ _ _ _ _ _ IX IY Sz Su (PR _ _ H)) as [x2 [y2 [z' [u' [IX2 [IY2 [Sz' [Su' [_ [_ [MZ [MU H']]]]]]]]]]]].
      exists z', u'. repeat (split; [assumption|]).
      exact (delaunay_tetra_proper to_point3 same_to_point site _ _ _ _ _ _ _ _ (same_position3_trans _ _ _ (image_same _ _ _ _ _ IY2 IYI) EY) (image_same _ _ _ _ _ IX2 IX') (same_refl3 _) (same_refl3 _) H').
    - apply not_periodic in W. subst w. exists xi. split; [exact IX|]. split; [apply tau_none; now apply same_position3_sym|].
      pose proof (same_position3_trans _ _ _ (image_same _ _ _ _ _ IY IYI) EY) as E1. split; [now apply tau_none|].
      intros z u Sz Su H. exists z, u. split; [exact Sz|]. split; [exact Su|]. split; [apply tau_none, same_refl3|]. split; [apply tau_none, same_refl3|].
      apply (delaunay_tetra_proper to_point3 same_to_point site _ _ _ _ _ _ _ _ E1 (same_position3_sym _ _ EX) (same_refl3 _) (same_refl3 _)). now apply delaunay_tetra_swap.
  Qed.
  (** A particle is not next to a corner of the initial tetrahedron at the position of an image. *)
  Lemma not_corner r i x y v : periodic = true -> In (i, x) (particles r) -> neighbours_in_whole site x y -> In v outer -> ~ same_position3 v y.
  Proof.
    intros PE HX [z [u [Sz [Su [_ [o [[C1 [C2 C3]] E]]]]]]] Hv S. cbn [Geometry_Model.ttp1 Geometry_Model.ttp2 Geometry_Model.ttp3 Geometry_Model.ttp4] in C1, C2, C3.
    assert (RO : same_point3 o o) by reflexivity.
    assert (O : out box particles o (dist2_3 o (to_point3 x))).
    { intros rv iv wv v' IV. destruct (E v' (or_intror (ex_intro _ rv (ex_intro _ iv (ex_intro _ wv IV))))) as [K|[K|[K|[K|K]]]]; [now apply Qlt_le_weak| | | |];
        rewrite (dist_same3 o o _ _ RO (proj1 (same_to_point _ _) K)); [|rewrite C1|rewrite C2|rewrite C3]; apply Qle_refl. }
    assert (RX : (dist2_3 o (to_point3 x) == dk box o x 0 0 0)%Q) by (rewrite dk_here; unfold dist2_3, sq, to_point3; cbn; ring).
    pose proof (center_near ranks box particles D o _ r i x O HX RX) as NX.
    pose proof (corner_far box particles outer (half_open PE) (far_corners PE) o r i x v HX NX Hv) as K.
    rewrite <- RX, (dist_same3 o o _ _ RO (proj1 (same_to_point _ _) S)), C1 in K. exact (Qlt_irrefl _ K).
  Qed.

  (** ** Cells and faces *)
  Lemma G_cells c : In c (Sweep_Model.cells G) <-> exists pos, In (snd c, pos) (particles (fst c)).
  Proof.
    cbn [Sweep_Model.cells sweep_config3]. rewrite in_flat_map. split.
    - intros [r [Hr H]]. apply in_map_iff in H. destruct H as [e [<- He]]. cbn [fst snd]. apply in_seq in Hr. destruct Hr as [_ Hr].
      pose proof (Permutation_in _ (ids r Hr) (in_map fst _ _ He)) as I. apply in_map_iff in I. destruct I as [[i pos] [E I]]. cbn [fst] in E. subst i. eauto.
    - intros [pos H]. destruct c as [r id]. cbn [fst snd] in *. assert (Hr : r < ranks) by (apply (di3_ranks _ _ _ D); intro Z; rewrite Z in H; destruct H).
      exists r. split; [apply in_seq; lia|]. pose proof (in_map fst _ _ H) as I. apply (Permutation_in _ (Permutation_sym (ids r Hr))) in I.
      apply in_map_iff in I. destruct I as [e [E I]]. cbn [fst] in E. apply in_map_iff. exists e. split; [now rewrite E|exact I].
  Qed.
  Lemma cell_rank c : In c (Sweep_Model.cells G) -> fst c < ranks.
  Proof. intro H. apply G_cells in H. destruct H as [pos H]. apply (di3_ranks _ _ _ D). intro Z. rewrite Z in H. destruct H. Qed.
  Definition face_of (self : nat) (x y : vec3) (fs : list (voronoi_face3 ptype3)) (f : Sweep_Model.face) : Prop :=
    exists vf, In vf fs /\ refers_to3 box particles outer periodic self y (connection3 vf) /\ face_between site x y vf /\ f = sweep_face3 round self dirs vf.
  Lemma G_faces c x : In c (Sweep_Model.cells G) -> In (snd c, x) (particles (fst c)) -> exists gc ys, In (snd c, gc) (local_cells3 (world (fst c))) /\
    ForallOrdPairs (fun y y' => ~ same_position3 y y') ys /\ (forall y, site y -> neighbours_in_whole site x y <-> exists y', In y' ys /\ same_position3 y' y) /\
    Forall2 (fun y f => site y /\ neighbours_in_whole site x y /\ face_of (fst c) x y (neighbours3 gc) f) ys (Sweep_Model.faces G c).
  Proof.
    intros H HP. pose proof (cell_rank c H) as Hr. destruct c as [r id]. cbn [fst snd] in *. cbn [Sweep_Model.faces sweep_config3 fst snd].
    destruct (find (fun e => fst e =? id) (local_cells3 (world r))) as [[id' gc]|] eqn:F.
    - apply find_some in F. destruct F as [He E]. cbn [fst] in E. apply Nat.eqb_eq in E. subst id'. cbn [snd].
      destruct (wcells r Hr id gc He) as [pos [HP' WC]]. rewrite <- (base_fun ranks box particles D r id pos x HP' HP) in WC.
      destruct (wc3_faces _ _ _ _ _ _ _ WC) as [ys [OP [NW FA]]]. exists gc, ys. split; [exact He|]. split; [exact OP|]. split; [exact NW|].
      eapply Forall2_weak; [|exact (Forall2_tag _ (sweep_face3 round r dirs) _ _ FA)]. intros y f [vf [Hy [Hv [[Sy [RT FB]] ->]]]]. split; [exact Sy|]. split.
      + apply (NW y Sy). exists y. split; [exact Hy|apply same_refl3].
      + exists vf. auto.
    - exfalso. pose proof (in_map fst _ _ HP) as I. apply (Permutation_in _ (Permutation_sym (ids r Hr))) in I. apply in_map_iff in I. destruct I as [e [E I]].
      pose proof (find_none _ _ F _ I) as X. cbv beta in X. cbn [fst] in E. rewrite E, Nat.eqb_refl in X. discriminate.
  Qed.

  (** The neighbour of a face. *)
  Definition nb_at (self rq iq : nat) (w : wrap3) : Sweep_Model.nb :=
    if is_periodic3 w then if periodic then if rq =? self then Sweep_Model.LocalPeriodic (rq, iq) else Sweep_Model.RemotePeriodic (rq, iq) else Sweep_Model.Boundary
    else if rq =? self then Sweep_Model.Local (rq, iq) else Sweep_Model.Remote (rq, iq).
  (** [y] is at the position of the image. *)
  Definition labelled (y : vec3) (r i : nat) (w : wrap3) : Prop := exists y0, image r i w y0 /\ same_position3 y0 y.
  Lemma labelled_fun y r i w r' i' w' : labelled y r i w -> labelled y r' i' w' -> r = r' /\ i = i' /\ w = w'.
  Proof.
    intros [a [A1 A2]] [b [B1 B2]]. exact (image_fun _ _ _ _ _ _ _ _ A1 B1 (same_position3_trans _ _ _ A2 (same_position3_sym _ _ B2))).
  Qed.
  Lemma labelled_same y y' r i w : labelled y r i w -> same_position3 y y' -> labelled y' r i w.
  Proof. intros [a [A1 A2]] E. exists a. split; [exact A1|]. exact (same_position3_trans _ _ _ A2 E). Qed.
  Lemma labelled_pos y y' r i w : labelled y r i w -> labelled y' r i w -> same_position3 y y'.
  Proof. intros [a [A1 A2]] [b [B1 B2]]. exact (same_position3_trans _ _ _ (same_position3_sym _ _ A2) (same_position3_trans _ _ _ (image_same _ _ _ _ _ A1 B1) B2)). Qed.
  Lemma face_nb self x y fs f : face_of self x y fs f -> Sweep_Model.f_nb f = Sweep_Model.Boundary \/
    exists rq iq w, labelled y rq iq w /\ Sweep_Model.f_nb f = nb_at self rq iq w.
  Proof.
    intros [vf [_ [R [_ ->]]]]. cbn [sweep_face3 Sweep_Model.f_nb]. destruct R as [[_ ->]|[rq [iq [w [I ->]]]]]; [left; reflexivity|right].
    exists rq, iq, w. split; [exists y; split; [exact I|apply same_refl3]|]. unfold shown_type3, image_type3, nb_at.
    destruct (is_periodic3 w); destruct periodic; cbn [andb negb]; destruct (Nat.eqb_spec rq self) as [->|]; reflexivity.
  Qed.
  Lemma face_nb_label self id x y fs f rq iq w : In (id, x) (particles self) -> neighbours_in_whole site x y -> face_of self x y fs f -> labelled y rq iq w ->
    Sweep_Model.f_nb f = nb_at self rq iq w.
  Proof.
    intros HX NW [vf [_ [R [_ ->]]]] L. cbn [sweep_face3 Sweep_Model.f_nb]. destruct R as [[IO ->]|[r [i [w' [I ->]]]]].
    - cbn [sweep_nb3]. unfold nb_at. destruct (is_periodic3 w) eqn:W.
      + destruct (bool_dec periodic true) as [PE|PE]; [exfalso; exact (not_corner self id x y y PE HX NW IO (same_refl3 y))|]. destruct periodic; [contradiction|reflexivity].
      + exfalso. apply not_periodic in W. subst w. destruct L as [y0 [I0 E0]]. destruct (image_base _ _ _ _ I0) as [pos HP].
        destruct (base_image _ _ _ HP) as [y1 [I1 E1]]. apply (real_apart _ _ _ y HP IO).
        exact (same_position3_trans _ _ _ (same_position3_sym _ _ E0) (same_position3_trans _ _ _ (image_same _ _ _ _ _ I0 I1) E1)).
    - assert (L' : labelled y r i w') by (exists y; split; [exact I|apply same_refl3]). destruct (labelled_fun _ _ _ _ _ _ _ L L') as [-> [-> ->]].
      unfold shown_type3, image_type3, nb_at. destruct (is_periodic3 w'); destruct periodic; cbn [andb negb]; destruct (Nat.eqb_spec r self) as [->|]; reflexivity.
  Qed.
  Lemma to_iff self id x y fs f p : In (id, x) (particles self) -> neighbours_in_whole site x y -> face_of self x y fs f ->
    (Sweep_Spec.face_to p f = true <-> labelled y (fst p) (snd p) no_wrap).
  Proof.
    intros HX NW H. unfold Sweep_Spec.face_to. split.
    - intro T. destruct (face_nb _ _ _ _ _ H) as [E|[r [i [w [L E]]]]]; rewrite E in T; [discriminate|]. unfold nb_at in T.
      destruct (is_periodic3 w) eqn:W; [destruct periodic; [destruct (r =? self)|]; discriminate|]. rewrite (not_periodic w W) in L.
      destruct (r =? self); apply Cartesian_Sweep.pid_eqb_true in T; subst p; exact L.
    - intro L. rewrite (face_nb_label _ _ _ _ _ _ _ _ _ HX NW H L). unfold nb_at. change (is_periodic3 no_wrap) with false. cbv iota.
      destruct (fst p =? self); apply Cartesian_Sweep.pid_eqb_true; now destruct p.
  Qed.
  Lemma toP_iff self id x y fs f p : In (id, x) (particles self) -> neighbours_in_whole site x y -> face_of self x y fs f ->
    (Sweep_Spec.face_toP p f = true <-> periodic = true /\ fst p <> self /\ exists w, is_periodic3 w = true /\ labelled y (fst p) (snd p) w).
  Proof.
    intros HX NW H. unfold Sweep_Spec.face_toP. split.
    - intro T. destruct (face_nb _ _ _ _ _ H) as [E|[r [i [w [L E]]]]]; rewrite E in T; [discriminate|]. unfold nb_at in T.
      destruct (is_periodic3 w) eqn:W; [|destruct (r =? self); discriminate]. destruct periodic; [|discriminate].
      destruct (Nat.eqb_spec r self) as [|N]; [discriminate|]. apply Cartesian_Sweep.pid_eqb_true in T. subst p. cbn [fst snd]. eauto.
    - intros [PE [N [w [W L]]]]. rewrite (face_nb_label _ _ _ _ _ _ _ _ _ HX NW H L). unfold nb_at. rewrite W, PE. destruct (Nat.eqb_spec (fst p) self); [contradiction|].
      apply Cartesian_Sweep.pid_eqb_true. now destruct p.
  Qed.

  (** The side of a face. *)
  Definition slope (x y : vec3) (d : nat) : Q :=
    ((x3 y - x3 x) * Geometry_Model.x3 (dir d) + (y3 y - y3 x) * Geometry_Model.y3 (dir d) + (z3 y - z3 x) * Geometry_Model.z3 (dir d))%Q.
  Lemma apart_in_whole x y : neighbours_in_whole site x y -> ~ same_position3 x y.
  Proof.
    intros [z [u [_ [_ [NZ _]]]]] S. apply NZ. apply (proj1 (same_to_point _ _)) in S.
    change (orient3 (to_point3 x) (to_point3 y) (to_point3 z) (to_point3 u) == 0)%Q. rewrite S. apply o3_first.
  Qed.
  Lemma square_pos (a b c : Q) : ~ ((a == 0)%Q /\ (b == 0)%Q /\ (c == 0)%Q) -> (0 < a * a + b * b + c * c)%Q.
  Proof.
    intro N. assert (NN : forall q : Q, (0 <= q * q)%Q) by (intro q; nra). assert (ZZ : forall q : Q, (q * q <= 0)%Q -> (q == 0)%Q).
    { intros q Hq. destruct (Qmult_integral q q) as [|]; auto. apply Qle_antisym; [exact Hq|apply NN]. }
    destruct (Qlt_le_dec 0 (a * a + b * b + c * c)) as [|L]; [assumption|exfalso]. apply N. pose proof (NN a). pose proof (NN b). pose proof (NN c). repeat split; apply ZZ; lra.
  Qed.
  Lemma normal_length x y vf : neighbours_in_whole site x y -> face_between (C := ptype3) site x y vf -> (0 < length3 (normal3 vf))%R.
  Proof.
    intros NW FB. apply length3_pos. destruct (fb_normal _ _ _ _ FB) as [A [B C]]. unfold Geometry_Model.dot3. apply square_pos. intros [E1 [E2 E3]].
    apply (apart_in_whole x y NW). rewrite A in E1. rewrite B in E2. rewrite C in E3. repeat split; lra.
  Qed.
  Lemma side_iff self x y fs f d : neighbours_in_whole site x y -> face_of self x y fs f ->
    (Sweep_Model.upwind f d = true <-> (slope x y d < 0)%Q) /\ (Sweep_Model.downwind f d = true <-> (0 < slope x y d)%Q).
  Proof.
    intros NW [vf [_ [_ [H ->]]]]. pose proof (round_pos _ (normal_length x y vf NW H)) as RP. destruct (fb_normal _ _ _ _ H) as [N1 [N2 N3]].
    assert (SE : (Geometry_Model.dot3 (normal3 vf) (dir d) == slope x y d)%Q) by (unfold Geometry_Model.dot3, slope; rewrite N1, N2, N3; ring).
    unfold Sweep_Model.upwind, Sweep_Model.downwind. cbn [sweep_face3 Sweep_Model.f_dot].
    destruct (VoronoiGridSweep_Proofs.div_sign (Q2Qc (Geometry_Model.dot3 (normal3 vf) (dir d))) _ RP) as [-> ->].
    rewrite Cartesian_Sweep.Q2Qc_neg, Cartesian_Sweep.Q2Qc_pos, SE. tauto.
  Qed.
  Notation wind := VoronoiGridSweep_Proofs.wind.
  Notation on_side := VoronoiGridSweep_Proofs.on_side.
  Lemma wind_iff up self x y fs f d : neighbours_in_whole site x y -> face_of self x y fs f -> (wind up f d = true <-> on_side up (slope x y d)).
  Proof. intros H2 H3. destruct (side_iff self x y fs f d H2 H3) as [A B]. destruct up; assumption. Qed.
  Lemma moved_slope t x y x' y' d : moved3 t y x' -> moved3 t x y' -> (slope x' y' d == - slope x y d)%Q.
  Proof. intros [A [B C]] [A' [B' C']]. unfold slope. rewrite A, B, C, A', B', C'. ring. Qed.
  Lemma slope_same x y y' d : same_position3 y y' -> (slope x y d == slope x y' d)%Q.
  Proof. intros [A [B C]]. unfold slope. rewrite A, B, C. reflexivity. Qed.
  Lemma side_eq up a b : (a == b)%Q -> on_side up a -> on_side up b.
  Proof. intros E H. destruct up; cbn in *; lra. Qed.
  Lemma ordered_same ys a b : ForallOrdPairs (fun y y' => ~ same_position3 y y') ys -> In a ys -> In b ys -> same_position3 a b -> a = b.
  Proof. intros F Ha Hb S. destruct (ordered_in _ _ a b F Ha Hb) as [E|[E|E]]; [exact E|contradiction|]. apply same_position3_sym in S. contradiction. Qed.
  Lemma ordered_nodup ys : ForallOrdPairs (fun y y' => ~ same_position3 y y') ys -> NoDup ys.
  Proof.
    induction 1 as [|a l H F IH]; constructor; [|exact IH]. intro I. rewrite Forall_forall in H. exact (H a I (same_refl3 a)).
  Qed.
  (** A neighbour of [c] that is an image of [p], seen from [p]. *)
  Lemma other_side c p xc xp w y ysp : In (snd c, xc) (particles (fst c)) -> In (snd p, xp) (particles (fst p)) -> (is_periodic3 w = true -> periodic = true) ->
    neighbours_in_whole site xc y -> labelled y (fst p) (snd p) w ->
    (forall y, site y -> neighbours_in_whole site xp y <-> exists y', In y' ysp /\ same_position3 y' y) ->
    exists y', In y' ysp /\ labelled y' (fst c) (snd c) (opposite3 w) /\ moved3 (tau w) y xp /\ moved3 (tau w) xc y' /\
      (forall z u, site z -> site u -> DT xc y z u -> exists z' u', site z' /\ site u' /\ moved3 (tau w) z z' /\ moved3 (tau w) u u' /\ DT xp y' z' u').
  Proof.
    intros HC HP PE NW [y0 [I0 E0]] NP.
    assert (PR : forall a b z u, same_position3 a b -> DT xc a z u -> DT xc b z u).
    { intros a b z u S H. exact (delaunay_tetra_proper to_point3 same_to_point site _ _ _ _ _ _ _ _ (same_refl3 _) S (same_refl3 _) (same_refl3 _) H). }
    assert (PR' : forall a b z u, same_position3 a b -> DT xp a z u -> DT xp b z u).
    { intros a b z u S H. exact (delaunay_tetra_proper to_point3 same_to_point site _ _ _ _ _ _ _ _ (same_refl3 _) S (same_refl3 _) (same_refl3 _) H). }
    destruct NW as [z0 [u0 [Sz0 [Su0 H0]]]].
    destruct (shifted (fst c) (snd c) xc (fst p) (snd p) xp w y0 PE HC HP I0) as [x' [IX [MX [MY FW]]]].
    { exists z0, u0. split; [exact Sz0|]. split; [exact Su0|]. exact (PR _ _ _ _ (same_position3_sym _ _ E0) H0). }
    assert (SX : site x') by (right; eauto).
    assert (NX : neighbours_in_whole site xp x').
    { destruct (FW z0 u0 Sz0 Su0 (PR _ _ _ _ (same_position3_sym _ _ E0) H0)) as [z' [u' [S1 [S2 [_ [_ H']]]]]]. exists z', u'. auto. }
    apply (NP x' SX) in NX. destruct NX as [y' [Hy' Ey']]. exists y'. split; [exact Hy'|]. split; [exists x'; split; [exact IX|now apply same_position3_sym]|].
    split; [exact (moved_same _ _ _ _ _ E0 (same_refl3 _) MY)|]. split; [exact (moved_same _ _ _ _ _ (same_refl3 _) (same_position3_sym _ _ Ey') MX)|].
    intros z u Sz Su H. destruct (FW z u Sz Su (PR _ _ _ _ (same_position3_sym _ _ E0) H)) as [z' [u' [S1 [S2 [M1 [M2 H']]]]]]. exists z', u'.
    repeat (split; [assumption|]). exact (PR' _ _ _ _ (same_position3_sym _ _ Ey') H').
  Qed.
  Lemma sym_le c p d up : In c (Sweep_Model.cells G) -> In p (Sweep_Model.cells G) ->
    Sweep_Model.countb (fun f => wind up f d && Sweep_Spec.face_to p f) (Sweep_Model.faces G c) <=
    Sweep_Model.countb (fun f => wind (negb up) f d && Sweep_Spec.face_to c f) (Sweep_Model.faces G p).
  Proof.
    intros Hc Hp. destruct (proj1 (G_cells c) Hc) as [xc HC]. destruct (proj1 (G_cells p) Hp) as [xp HP].
    destruct (G_faces c xc Hc HC) as [gc [yc [_ [OC [NC FC]]]]]. destruct (G_faces p xp Hp HP) as [gp [yp [_ [OP [NP FP]]]]].
    apply (VoronoiGridSweep_Proofs.count_le (fun a b => In a yc /\ labelled a (fst p) (snd p) no_wrap /\ labelled b (fst c) (snd c) no_wrap) _ _
      (fun y => on_side up (slope xc y d) /\ labelled y (fst p) (snd p) no_wrap) (fun y => on_side (negb up) (slope xp y d) /\ labelled y (fst c) (snd c) no_wrap) yc _ yp _);
      [|now apply ordered_nodup| |now apply ordered_nodup| |].
    - eapply Forall2_weak; [|exact FC]. intros y f [Sy [N H]]. cbv beta. rewrite andb_true_iff, (wind_iff up _ _ _ _ _ _ N H), (to_iff _ _ _ _ _ _ _ HC N H). reflexivity.
    - eapply Forall2_weak; [|exact FP]. intros y f [Sy [N H]]. cbv beta. rewrite andb_true_iff, (wind_iff _ _ _ _ _ _ _ N H), (to_iff _ _ _ _ _ _ _ HP N H). reflexivity.
    - intros a Ha [S L]. destruct (Forall2_in_l _ _ _ _ FC Ha) as [f [_ [Sa [NW _]]]].
      destruct (other_side c p xc xp no_wrap a yp HC HP (fun E => match Bool.diff_false_true E with end) NW L NP) as [b [Hb [LB [M1 [M2 _]]]]].
      exists b. split; [exact Hb|]. split; [split; [|exact LB]|auto]. apply (VoronoiGridSweep_Proofs.side_opp up (slope xc a d)); [|exact S]. exact (moved_slope _ _ _ _ _ d M1 M2).
    - intros a a' b [A1 [A2 _]] [B1 [B2 _]]. apply (ordered_same yc); auto. exact (labelled_pos _ _ _ _ _ A2 B2).
  Qed.
  Lemma opposite3_inj w w' : opposite3 w = opposite3 w' -> w = w'.
  Proof. intro E. rewrite <- (opposite_twice w), E. apply opposite_twice. Qed.
  Lemma symP_le c p d up : In c (Sweep_Model.cells G) -> In p (Sweep_Model.cells G) ->
    Sweep_Model.countb (fun f => wind up f d && Sweep_Spec.face_toP p f) (Sweep_Model.faces G c) <=
    Sweep_Model.countb (fun f => wind (negb up) f d && Sweep_Spec.face_toP c f) (Sweep_Model.faces G p).
  Proof.
    intros Hc Hp. destruct (proj1 (G_cells c) Hc) as [xc HC]. destruct (proj1 (G_cells p) Hp) as [xp HP].
    destruct (G_faces c xc Hc HC) as [gc [yc [_ [OC [NC FC]]]]]. destruct (G_faces p xp Hp HP) as [gp [yp [_ [OP [NP FP]]]]].
    apply (VoronoiGridSweep_Proofs.count_le (fun a b => exists w, In a yc /\ labelled a (fst p) (snd p) w /\ labelled b (fst c) (snd c) (opposite3 w)) _ _
      (fun y => on_side up (slope xc y d) /\ periodic = true /\ fst p <> fst c /\ exists w, is_periodic3 w = true /\ labelled y (fst p) (snd p) w)
      (fun y => on_side (negb up) (slope xp y d) /\ periodic = true /\ fst c <> fst p /\ exists w, is_periodic3 w = true /\ labelled y (fst c) (snd c) w) yc _ yp _);
      [|now apply ordered_nodup| |now apply ordered_nodup| |].
    - eapply Forall2_weak; [|exact FC]. intros y f [Sy [N H]]. cbv beta. rewrite andb_true_iff, (wind_iff up _ _ _ _ _ _ N H), (toP_iff _ _ _ _ _ _ _ HC N H). reflexivity.
    - eapply Forall2_weak; [|exact FP]. intros y f [Sy [N H]]. cbv beta. rewrite andb_true_iff, (wind_iff _ _ _ _ _ _ _ N H), (toP_iff _ _ _ _ _ _ _ HP N H). reflexivity.
    - intros a Ha [S [PE [NE [w [W L]]]]]. destruct (Forall2_in_l _ _ _ _ FC Ha) as [f [_ [Sa [NW _]]]].
      destruct (other_side c p xc xp w a yp HC HP (fun _ => PE) NW L NP) as [b [Hb [LB [M1 [M2 _]]]]].
      exists b. split; [exact Hb|]. split; [split|eauto].
      + apply (VoronoiGridSweep_Proofs.side_opp up (slope xc a d)); [|exact S]. exact (moved_slope _ _ _ _ _ d M1 M2).
      + split; [exact PE|]. split; [congruence|]. exists (opposite3 w). split; [now rewrite opposite_periodic|exact LB].
    - intros a a' b [w [A1 [A2 A3]]] [w' [B1 [B2 B3]]]. destruct (labelled_fun _ _ _ _ _ _ _ A3 B3) as [_ [_ E]]. apply opposite3_inj in E. subst w'.
      apply (ordered_same yc); auto. exact (labelled_pos _ _ _ _ _ A2 B2).
  Qed.

  Lemma nodup_flat rs : NoDup rs -> (forall r, In r rs -> r < ranks) -> NoDup (flat_map (fun r => map (fun e => (r, fst e)) (local_cells3 (world r))) rs).
  Proof.
    induction rs as [|r rs IH]; intros H B; [constructor|]. apply NoDup_cons_iff in H. destruct H as [N1 N2]. cbn [flat_map].
    assert (X : NoDup (map (fun e => (r, fst e)) (local_cells3 (world r)))).
    { assert (N : NoDup (map fst (local_cells3 (world r)))).
      { eapply Permutation_NoDup; [apply Permutation_sym, ids; apply B; now left|]. apply (di3_ids _ _ _ D). }
      replace (map (fun e => (r, fst e)) (local_cells3 (world r))) with (map (pair r) (map fst (local_cells3 (world r)))) by (now rewrite map_map).
      apply FinFun.Injective_map_NoDup; [|exact N]. intros a b E. congruence. }
    assert (Y : forall x, In x (map (fun e => (r, fst e)) (local_cells3 (world r))) -> fst x = r).
    { intros x Hx. apply in_map_iff in Hx. destruct Hx as [e [<- _]]. reflexivity. }
    assert (Z : forall x, In x (flat_map (fun r => map (fun e => (r, fst e)) (local_cells3 (world r))) rs) -> In (fst x) rs).
    { intros x Hx. apply in_flat_map in Hx. destruct Hx as [r' [Hr' Hx]]. apply in_map_iff in Hx. destruct Hx as [e [<- _]]. exact Hr'. }
    assert (IH' := IH N2 (fun r' H' => B r' (or_intror H'))). clear IH. revert X Y.
    generalize (map (fun e => (r, fst e)) (local_cells3 (world r))). intros m X Y. induction m as [|x m IHm]; [exact IH'|].
    apply NoDup_cons_iff in X. destruct X as [X1 X2]. cbn [app]. constructor; [|apply IHm; [exact X2|intros; apply Y; now right]].
    rewrite in_app_iff. intros [A|A]; [auto|]. apply Z in A. rewrite (Y x (or_introl eq_refl)) in A. auto.
  Qed.
  Lemma labelled_cell y r i w : labelled y r i w -> In (r, i) (Sweep_Model.cells G).
  Proof. intros [y0 [I _]]. apply G_cells. exact (image_base _ _ _ _ I). Qed.

  Theorem grid_consistent : Sweep_Spec.consistent G.
  Proof.
    constructor.
    - cbn [Sweep_Model.cells sweep_config3]. apply nodup_flat; [apply seq_NoDup|]. intros r H. apply in_seq in H. lia.
    - intros c H. exact (cell_rank c H).
    - intros c f p Hc Hf NB. destruct (proj1 (G_cells c) Hc) as [xc HC]. destruct (G_faces c xc Hc HC) as [gc [yc [_ [OC [NC FC]]]]].
      destruct (Forall2_in_r _ _ _ _ FC Hf) as [q [Hq [_ [_ H]]]].
      destruct (face_nb _ _ _ _ _ H) as [E|[r [i [w [L E]]]]]; rewrite E in NB; [destruct NB; discriminate|]. unfold nb_at in NB.
      assert (X : p = (r, i) /\ r = fst c).
      { destruct (is_periodic3 w); destruct periodic; destruct (Nat.eqb_spec r (fst c)); destruct NB as [NB|NB]; try discriminate; injection NB as <-; auto. }
      destruct X as [-> X]. split; [exact (labelled_cell _ _ _ _ L)|exact X].
    - intros c f p Hc Hf NB. pose proof (cell_rank c Hc) as Hr. destruct (proj1 (G_cells c) Hc) as [xc HC]. destruct (G_faces c xc Hc HC) as [gc [yc [Hg [OC [NC FC]]]]].
      destruct (Forall2_in_r _ _ _ _ FC Hf) as [q [Hq [_ [_ H]]]].
      destruct (face_nb _ _ _ _ _ H) as [E|[r [i [w [L E]]]]]; rewrite E in NB; [destruct NB; discriminate|]. unfold nb_at in NB.
      assert (X : p = (r, i) /\ r <> fst c).
      { destruct (is_periodic3 w); destruct periodic; destruct (Nat.eqb_spec r (fst c)); destruct NB as [NB|NB]; try discriminate; injection NB as <-; auto. }
      destruct X as [-> X]. split; [exact (labelled_cell _ _ _ _ L)|]. split; [exact X|].
      cbn [Sweep_Model.halo Sweep_Model.lev sweep_config3]. unfold Sweep_Model.rank_of.
      assert (I : In (r, i) (halo_ids3 (world (fst c)))).
      { apply (halos (fst c) Hr). destruct H as [vf [Hvf [_ [_ EF]]]]. exists (snd c, gc), vf. split; [exact Hg|]. split; [exact Hvf|]. subst f. cbn [sweep_face3 Sweep_Model.f_nb] in E.
        unfold nb_at in E. destruct (connection3 vf) as [j|j rk|j wr|j rk wr|]; cbn [sweep_nb3] in E;
          destruct (is_periodic3 w); destruct periodic; destruct (Nat.eqb_spec r (fst c)); try discriminate; try contradiction; try (destruct NB; discriminate); injection E; intros; subst; eauto. }
      destruct (existsb (Sweep_Model.pid_eqb (r, i)) (halo_ids3 (world (fst c)))) eqn:EX; [reflexivity|exfalso].
      assert (existsb (Sweep_Model.pid_eqb (r, i)) (halo_ids3 (world (fst c))) = true); [|congruence].
      apply existsb_exists. exists (r, i). split; [exact I|]. now apply Cartesian_Sweep.pid_eqb_true.
    - intros c p d Hc Hp _. apply Nat.le_antisymm; [exact (sym_le c p d true Hc Hp)|exact (sym_le p c d false Hp Hc)].
    - intros c p d Hc Hp _. apply Nat.le_antisymm; [exact (symP_le c p d true Hc Hp)|exact (symP_le p c d false Hp Hc)].
  Qed.

  Definition pos_of (c : nat * nat) : vec3 := match find (fun e => fst e =? snd c) (particles (fst c)) with Some e => snd e | None => V3 0 0 0 end.
  Lemma pos_of_eq c pos : In (snd c, pos) (particles (fst c)) -> pos_of c = pos.
  Proof.
    intro H. unfold pos_of. destruct (find _ _) as [[i p]|] eqn:F.
    - apply find_some in F. destruct F as [I E]. cbn [fst] in E. apply Nat.eqb_eq in E. subst i. cbn [snd]. exact (base_fun ranks box particles D _ _ _ _ H I).
    - pose proof (find_none _ _ F _ H) as X. cbv beta in X. cbn [fst] in X. rewrite Nat.eqb_refl in X. discriminate.
  Qed.
  Definition along (d : nat) (c : nat * nat) : Q := Geometry_Model.dot3 (to_point3 (pos_of c)) (dir d).
  Theorem grid_acyclic : Sweep_Spec.acyclic G.
  Proof.
    intros cur _. exists (fun d c => length (filter (fun c' => Qltb (along d c') (along d c)) (Sweep_Model.cells G))).
    intros c p f d Hc Hf Hd DW TO _ _. destruct (proj1 (G_cells c) Hc) as [xc HC]. destruct (G_faces c xc Hc HC) as [gc [yc [_ [OC [NC FC]]]]].
    destruct (Forall2_in_r _ _ _ _ FC Hf) as [y [Hy [_ [NW H]]]].
    apply (to_iff _ _ _ _ _ _ _ HC NW H) in TO. apply (side_iff _ _ _ _ _ d NW H) in DW. destruct TO as [y0 [I0 E0]]. destruct (image_base _ _ _ _ I0) as [pp HP].
    destruct (base_image _ _ _ HP) as [y1 [I1 E1]]. pose proof (same_position3_trans _ _ _ (same_position3_sym _ _ E0) (same_position3_trans _ _ _ (image_same _ _ _ _ _ I0 I1) E1)) as E.
    assert (LL : (along d c < along d p)%Q).
    { unfold along, Geometry_Model.dot3. rewrite (pos_of_eq c xc HC), (pos_of_eq p pp HP). unfold to_point3. cbn [Geometry_Model.x3 Geometry_Model.y3 Geometry_Model.z3].
      rewrite (slope_same _ _ _ d E) in DW. unfold slope in DW. lra. }
    apply Cartesian_Sweep.filter_lt.
    - intros x Hx. apply Qltb_true in Hx. apply Qltb_true. lra.
    - exists c. split; [exact Hc|]. split; [|now apply Qltb_true]. destruct (Qltb (along d c) (along d c)) eqn:E2; [|reflexivity]. apply Qltb_true in E2. lra.
  Qed.
  Theorem grid_non_periodic : periodic = false -> Sweep_Spec.non_periodic G.
  Proof.
    intros PE c f Hc Hf. destruct (proj1 (G_cells c) Hc) as [xc HC]. destruct (G_faces c xc Hc HC) as [gc [yc [_ [OC [NC FC]]]]].
    destruct (Forall2_in_r _ _ _ _ FC Hf) as [y [Hy [_ [_ H]]]].
    destruct (face_nb _ _ _ _ _ H) as [E|[r [i [w [L E]]]]]; rewrite E; [exact I|]. unfold nb_at. rewrite PE.
    destruct (is_periodic3 w); [exact I|]. destruct (r =? fst c); exact I.
  Qed.

  (** ** The two sides of a face *)
  Lemma G_area c f : In c (Sweep_Model.cells G) -> In f (Sweep_Model.faces G c) -> (0 < Sweep_Model.f_area f)%Qc.
  Proof.
    intros Hc Hf. destruct (proj1 (G_cells c) Hc) as [xc HC]. destruct (G_faces c xc Hc HC) as [gc [yc [_ [OC [NC FC]]]]].
    destruct (Forall2_in_r _ _ _ _ FC Hf) as [y [Hy [_ [_ [vf [_ [_ [FB ->]]]]]]]]. cbn [sweep_face3 Sweep_Model.f_area]. apply round_pos. exact (pf_area _ (fb_proper _ _ _ _ FB)).
  Qed.
  Theorem grid_mutual c p f across : In c (Sweep_Model.cells G) -> In f (Sweep_Model.faces G c) -> Sweep_Model.f_nb f = seen_from (fst c) p across ->
    exists g, In g (Sweep_Model.faces G p) /\ Sweep_Model.f_nb g = seen_from (fst p) c across /\ Sweep_Model.f_area g = Sweep_Model.f_area f /\
      forall d, Sweep_Model.f_dot g d = (- Sweep_Model.f_dot f d)%Qc.
  Proof.
    intros Hc Hf NB. destruct (proj1 (G_cells c) Hc) as [xc HC]. destruct (G_faces c xc Hc HC) as [gc [yc [Hg [OC [NC FC]]]]].
    destruct (Forall2_in_r _ _ _ _ FC Hf) as [y [Hy [Sy [NW H]]]].
    destruct (face_nb _ _ _ _ _ H) as [E|[r [i [w [L E]]]]]; rewrite E in NB.
    { unfold VoronoiGrid_Spec.seen_from in NB. destruct across; destruct (fst p =? fst c); discriminate. }
    assert (X : p = (r, i) /\ across = is_periodic3 w /\ (across = true -> periodic = true)).
    { unfold nb_at, VoronoiGrid_Spec.seen_from in NB. destruct p as [rp ip]. cbn [fst snd] in NB. destruct across; destruct (is_periodic3 w); destruct periodic; destruct (r =? fst c);
        destruct (rp =? fst c); try discriminate; injection NB as <- <-; auto. }
    destruct X as [-> [AW PE]]. pose proof (labelled_cell _ _ _ _ L) as Hp. destruct (proj1 (G_cells (r, i)) Hp) as [xp HP].
    destruct (G_faces (r, i) xp Hp HP) as [gp [yp [Hgp [OP [NP FP]]]]].
    assert (PE' : is_periodic3 w = true -> periodic = true) by (intro W; apply PE; congruence).
    destruct (other_side c (r, i) xc xp w y yp HC HP PE' NW L NP) as [y' [Hy' [LY [M1 [M2 FW]]]]].
    destruct (Forall2_in_l _ _ _ _ FP Hy') as [g [Hgf [Sy' [NW' H']]]].
    assert (PE2 : is_periodic3 (opposite3 w) = true -> periodic = true) by (rewrite opposite_periodic; exact PE').
    destruct (other_side (r, i) c xp xc (opposite3 w) y' yc HP HC PE2 NW' LY NC) as [y2 [Hy2 [LY2 [M3 [M4 BW]]]]].
    rewrite opposite_twice in LY2. cbn [fst snd] in *.
    assert (y2 = y) by (apply (ordered_same yc); auto; exact (labelled_pos _ _ _ _ _ LY2 L)). subst y2.
    exists g. split; [exact Hgf|]. split.
    { rewrite (face_nb_label _ _ _ _ _ _ _ _ _ HP NW' H' LY). unfold nb_at, VoronoiGrid_Spec.seen_from. destruct c as [rc ic]. cbn [fst snd]. rewrite opposite_periodic, <- AW.
      destruct across; [|reflexivity]. rewrite (PE eq_refl). reflexivity. }
    destruct H as [vf [Hvf [_ [FB ->]]]]. destruct H' as [vg [Hvg [_ [FB' ->]]]].
    destruct (fb_normal _ _ _ _ FB) as [N1 [N2 N3]]. destruct (fb_normal _ _ _ _ FB') as [K1 [K2 K3]].
    destruct M1 as [A1 [A2 A3]]. destruct M2 as [B1 [B2 B3]].
    assert (U1 : (Geometry_Model.x3 (normal3 vg) == - Geometry_Model.x3 (normal3 vf))%Q) by (rewrite N1, K1, A1, B1; ring).
    assert (U2 : (Geometry_Model.y3 (normal3 vg) == - Geometry_Model.y3 (normal3 vf))%Q) by (rewrite N2, K2, A2, B2; ring).
    assert (U3 : (Geometry_Model.z3 (normal3 vg) == - Geometry_Model.z3 (normal3 vf))%Q) by (rewrite N3, K3, A3, B3; ring).
    cbn [sweep_face3 Sweep_Model.f_area Sweep_Model.f_dot]. split.
    - f_equal. symmetry. apply (areas (fst c) r (snd c) i gc gp xc xp y y' vf vg (tau w) (cell_rank c Hc) (cell_rank (r, i) Hp) Hg HC Hgp HP Hvf Hvg FB FB').
      + split; [exact A1|split; assumption].
      + split; [exact B1|split; assumption].
      + exact FW.
      + intros z' u' Sz Su HD. destruct (BW z' u' Sz Su HD) as [z [u [Sz' [Su' [MZ [MU HD']]]]]]. exists z, u. split; [exact Sz'|]. split; [exact Su'|].
        split; [now apply tau_back|]. split; [now apply tau_back|exact HD'].
    - intro d. replace (length3 (normal3 vg)) with (length3 (normal3 vf)).
      2:{ unfold length3. f_equal. apply Qreals.Qeq_eqR. unfold Geometry_Model.dot3. rewrite U1, U2, U3. ring. }
      apply VoronoiGridSweep_Proofs.opposite_dot. unfold Geometry_Model.dot3. rewrite U1, U2, U3. ring.
  Qed.
End Sweep.
