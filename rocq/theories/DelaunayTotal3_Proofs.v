(** The construction in space does not panic when the points are in general position. *)
From Coq Require Import List Arith Lia Bool Permutation QArith Lqa Setoid Sorted.
From Verif Require Import Geometry_Model Geometry_Spec Delaunay_Model Delaunay_Spec DelaunayGeo_Model GeometryContains_Proofs DelaunayBuild_Proofs DelaunaySurgery_Proofs DelaunayPlan_Proofs
  Delaunay2_Proofs DelaunayInsert_Proofs Delaunay3_Proofs Delaunay23_Proofs Delaunay32_Proofs Delaunay3Insert_Proofs Delaunay3Exact_Proofs DelaunayFlip3_Proofs DelaunayGeo_Proofs
  Circle2_Proofs Tiling2_Proofs Sphere3_Proofs Predicates3_Proofs Tiling3_Proofs DelaunayLink3_Proofs DelaunayGlobal3_Proofs DelaunayGlobal3_Spec DelaunayUnique3_Proofs Geometry_Proofs DelaunayRemap3_Model DelaunayRemap3_Proofs.
Import ListNotations.

Section Flip.
  Variable pts : nat -> point3.
  Notation O a b c d := (orient3 (pts a) (pts b) (pts c) (pts d)).
  Notation crossing := (crossing3 pts).

  (** When a flip fails: the line to the point across meets the line through a side of the face, or
      there is no tetrahedron on one of the two other sides of a reflex edge. *)
  Lemma flip3_fails s ct t c fc oj q : inv3 s ->
    (forall i t a b c d, In (i, t) (tetras s) -> even4 [a; b; c; d] (points_of t) -> 0 < O a b c d)%Q ->
    In (ct, t) (tetras s) -> In (c, fc) t -> opposing fc = Some (Conn oj q) -> ~ In q (points_of t) ->
    flip3 crossing s ct (face fc) = None ->
    exists u x y z, In (oj, u) (tetras s) /\ even4 [x; y; z; c] (points_of t) /\ even4 [y; x; z; q] (points_of u) /\
     ((O y z q c == 0 \/ O z x q c == 0 \/ O x y q c == 0)%Q \/
      ((O y z q c < 0)%Q /\ exists g1 g2, In (x, g1) t /\ In (x, g2) u /\ (opposing g1 = None \/ opposing g2 = None))).
  Proof.
    intros I POS Ht Hc Ho Hq FL.
    assert (exists ps, In (face fc, ps) (faces s)) as [ps Hps] by (destruct (iv_faces _ _ _ I ct t c fc Ht Hc) as [ps [P1 _]]; eauto).
    pose proof Ho as Ho'. apply (iv_opp _ _ _ I ct t c fc Ht Hc) in Ho'. destruct Ho' as [Hne [u [gc [Hu [Hgc Eg]]]]].
    assert (Hcq : c <> q) by (intros ->; apply Hq; eapply entry_point; eassumption).
    destruct (iv_faces _ _ _ I ct t c fc Ht Hc) as [ps' [P1 P2]].
    rewrite (NoDup_ids_eq _ _ _ _ (iv_fids _ _ _ I) P1 Hps) in P2. clear ps' P1.
    pose proof P2 as [x [y [z [Eps _]]]].
    assert (exists a b d, ps = [a; b; d]) as [a [b [d Eabd]]] by (destruct (flipped fc); eauto). clear Eps x y z. subst ps.
    pose proof (proj1 (proj2 (iv_corners _ _ _ I _ _ Ht))) as NDt.
    pose proof (proj1 (proj2 (iv_corners _ _ _ I _ _ Hu))) as NDu.
    destruct (face_entries s ct t c fc a b d I Ht Hc Hps) as [Ea [ta [tb [td [Hta [Htb Htd]]]]]].
    assert (Hps' : In (face gc, [a; b; d]) (faces s)) by now rewrite Eg.
    destruct (face_entries s oj u q gc a b d I Hu Hgc Hps') as [Eb [ua [ub [ud [Hua [Hub Hud]]]]]].
    assert (RUN : flip3 crossing s ct (face fc) = do kind <- crossing [a; b; d] c q;
      match kind with
      | Inside => two_to_three_flip s ct oj c q (face fc)
      | OutsideOneEdge e =>
          let o := get_point_opposite a b d e in
          let '(e1, e2) := get_points_of a b d e in
          do g1 <- find_face_opposite t o;
          do c1 <- opposing g1;
          do g2 <- find_face_opposite u o;
          do c2 <- opposing g2;
          if conn_tetra c2 =? conn_tetra c1
          then three_to_two_flip s ct oj (conn_tetra c1) q c o e1 e2
          else Some ([], s)
      | OutsideTwoEdges _ _ => Some ([], s)
      end).
    { unfold flip3. rewrite (In_arena_get _ _ _ (iv_ids _ _ _ I) Ht). cbn [bind].
    rewrite (In_arena_get _ _ _ (iv_fids _ _ _ I) Hps). cbn [bind].
    rewrite (find_face_unique t c fc); [| |exact Hc].
    2: { intros q' fi' A B. now destruct (inv_entry_unique _ _ face_ok3_perm s ct t q' fi' c fc I Ht A Hc B). }
    cbn [bind]. rewrite Ho. cbn [bind conn_tetra conn_point]. rewrite (In_arena_get _ _ _ (iv_ids _ _ _ I) Hu). cbn [bind].
    rewrite (find_point_opposite_in t c fc); [| |exact Hc].
    2: { intros q' fi' A B. now destruct (inv_entry_unique _ _ face_ok3_perm s ct t q' fi' c fc I Ht A Hc B). }
    cbn [bind]. assert (FP : find_point_opposite u (face fc) = Some q).
    { rewrite <- Eg. apply (find_point_opposite_in u q gc); [|exact Hgc].
      intros q' fi' A B. now destruct (inv_entry_unique _ _ face_ok3_perm s oj u q' fi' q gc I Hu A Hgc B). }
    rewrite FP. reflexivity. }
    rewrite RUN in FL. clear RUN.
    pose proof (iv_flip _ _ _ I ct t c fc oj u q gc Ht Hc Hu Hgc (eq_sym Eg) (not_eq_sym Hne)) as Fl. rewrite Fl in Eb.
    assert (exists x0 y0, x0 = (if flipped fc then b else a) /\ y0 = (if flipped fc then a else b)) as [x0 [y0 [Ex0 Ey0]]] by eauto.
    assert (Et : even4 [x0; y0; d; c] (points_of t)) by (rewrite Ex0, Ey0; destruct (flipped fc); exact Ea).
    assert (Eu : even4 [y0; x0; d; q] (points_of u)) by (rewrite Ex0, Ey0; destruct (flipped fc); exact Eb).
    pose proof (POS _ _ _ _ _ _ Ht Et) as Pt. pose proof (POS _ _ _ _ _ _ Hu Eu) as Pu.
    destruct (crossing [a; b; d] c q) as [i|] eqn:EC; cbn [bind] in FL; rewrite crossing3_eq in EC.
    2: { exists u, x0, y0, d. split; [exact Hu|]. split; [exact Et|]. split; [exact Eu|]. left.
      assert (N : (O a b d c * O a b d q < 0)%Q).
      { destruct (flipped fc); subst x0 y0.
        - pose proof (o3_swap (pts a) (pts b) (pts d) (pts c)) as W. pose proof (qmul_pos _ _ Pt Pu) as M. rewrite W in M. lra.
        - pose proof (o3_swap (pts a) (pts b) (pts d) (pts q)) as W. pose proof (qmul_pos _ _ Pt Pu) as M. rewrite W in M. lra. }
      pose proof (crossing_none (pts a) (pts b) (pts d) (pts c) (pts q) N EC) as Z. clear - Z Ex0 Ey0. destruct (flipped fc); subst x0 y0.
      - pose proof (o3_swap (pts d) (pts b) (pts q) (pts c)) as W1. pose proof (o3_swap (pts d) (pts a) (pts q) (pts c)) as W2.
        pose proof (o3_swap (pts a) (pts b) (pts q) (pts c)) as W3. destruct Z as [Z|[Z|Z]]; [right; left|left|right; right]; lra.
      - exact Z. }
    assert (ME : exists l1 l2 l3, describes i l1 l2 l3 /\
      (if flipped fc then (l2 < 0 -> O y0 d q c < 0) /\ (l1 < 0 -> O d x0 q c < 0)
       else (l1 < 0 -> O y0 d q c < 0) /\ (l2 < 0 -> O d x0 q c < 0))%Q /\
      (l3 < 0 -> O x0 y0 q c < 0)%Q).
    { destruct (flipped fc); subst x0 y0.
      - destruct (crossing_back (pts a) (pts b) (pts d) (pts c) (pts q) i Pt Pu EC) as (l1 & l2 & l3 & D & S1 & S2 & S3).
        exists l1, l2, l3. split; [exact D|]. split; [split; tauto|tauto].
      - destruct (crossing_front (pts a) (pts b) (pts d) (pts c) (pts q) i Pt Pu EC) as (l1 & l2 & l3 & D & S1 & S2 & S3).
        exists l1, l2, l3. split; [exact D|]. split; [split; tauto|tauto]. }
    destruct ME as (l1 & l2 & l3 & D & SD & S3).
    destruct i as [|e|e f]; [|  |discriminate FL].
    - exfalso. destruct (two_to_three_exact s ct oj t u c q fc gc a b d I Ht Hu (not_eq_sym Hne) Hc Hgc Eg Hcq Hps x0 y0 Ex0 Ey0)
        as (s1 & N & n1 & n2 & n3 & T1 & T2 & T3 & E1 & _).
      rewrite E1 in FL. discriminate FL.
    - assert (B3 : forall o e1 e2 g1 g2, turned o e1 e2 [a; b; d] -> In (o, g1) t -> In (o, g2) u ->
        get_point_opposite a b d e = o -> get_points_of a b d e = (e1, e2) ->
        forall y z, y = (if flipped fc then e2 else e1) -> z = (if flipped fc then e1 else e2) ->
        (O y z q c < 0)%Q ->
        exists u x y z, In (oj, u) (tetras s) /\ even4 [x; y; z; c] (points_of t) /\ even4 [y; x; z; q] (points_of u) /\
         ((O y z q c == 0 \/ O z x q c == 0 \/ O x y q c == 0)%Q \/
          ((O y z q c < 0)%Q /\ exists g1 g2, In (x, g1) t /\ In (x, g2) u /\ (opposing g1 = None \/ opposing g2 = None)))).
      { intros o e1 e2 g1 g2 Htu Hg1 Hg2 Eo Ee y z Ey Ez N1.
        rewrite Eo, Ee in FL. cbv zeta in FL.
        assert (F1 : even4 [o; y; z; c] (points_of t)).
        { subst y z. clear - Htu Ea. destruct Htu as [E|[E|E]]; injection E as -> -> ->; destruct (flipped fc); even_to Ea. }
        assert (F2 : even4 [y; o; z; q] (points_of u)).
        { subst y z. clear - Htu Eb. destruct Htu as [E|[E|E]]; injection E as -> -> ->; destruct (flipped fc); even_to Eb. }
        exists u, o, y, z. split; [exact Hu|]. split; [exact F1|]. split; [exact F2|]. right. split; [exact N1|].
        exists g1, g2. split; [exact Hg1|]. split; [exact Hg2|].
        rewrite (find_face_opposite_in t o g1 NDt Hg1) in FL. cbn [bind] in FL.
        destruct (opposing g1) as [[k1 r1]|] eqn:O1; cbn [bind] in FL; [|now left].
        rewrite (find_face_opposite_in u o g2 NDu Hg2) in FL. cbn [bind] in FL.
        destruct (opposing g2) as [[k2 r2]|] eqn:O2; cbn [bind] in FL; [|now right]. cbn [conn_tetra] in FL. exfalso.
        destruct (Nat.eqb_spec k2 k1) as [E|E]; [|discriminate FL]. subst k2.
        pose proof O1 as O1'. apply (iv_opp _ _ _ I ct t o g1 Ht Hg1) in O1'. destruct O1' as [_ [w [_ [Hw _]]]].
        destruct (three_to_two_exact s ct oj k1 t u w q c o e1 e2 fc gc g1 g2 [a; b; d] r1 r2 I Ht Hu Hw (not_eq_sym Hne)
                    Hc Hgc (eq_sym Eg) (not_eq_sym Hcq) Hps' Htu Hg1 Hg2 O1 O2 y z Ey Ez)
          as (s1 & N & nA & nB & TA & TB & E1 & _).
        rewrite E1 in FL. discriminate FL. }
      destruct e; cbn [describes] in D; destruct D as [D1 [D2 D3]].
      + apply (B3 a b d ta ua) with (y := if flipped fc then d else b) (z := if flipped fc then b else d);
          [now left|exact Hta|exact Hua|reflexivity|reflexivity|reflexivity|reflexivity| ];
          destruct (flipped fc); subst x0 y0; first [apply S3; assumption|apply SD; assumption].
      + apply (B3 b d a tb ub) with (y := if flipped fc then a else d) (z := if flipped fc then d else a);
          [unfold turned; tauto|exact Htb|exact Hub|reflexivity|reflexivity|reflexivity|reflexivity| ];
          destruct (flipped fc); subst x0 y0; first [apply S3; assumption|apply SD; assumption].
      + apply (B3 d a b td ud) with (y := if flipped fc then b else a) (z := if flipped fc then a else b);
          [unfold turned; tauto|exact Htd|exact Hud|reflexivity|reflexivity|reflexivity|reflexivity| ];
          destruct (flipped fc); subst x0 y0; first [apply S3; assumption|apply SD; assumption].
  Qed.
End Flip.

Local Open Scope Q_scope.

Lemma nodup5 (a b c d e : nat) : NoDup [a; b; c; d] -> ~ In e [a; b; c; d] -> NoDup [a; b; c; d; e].
Proof.
  intros H N. change [a; b; c; d; e] with ([a; b; c; d] ++ [e])%list. apply (Permutation_NoDup (Permutation_cons_append [a; b; c; d] e)). now constructor.
Qed.
Lemma contains3_none a b c d x : 0 < orient3 a b c d -> contains3 (TT a b c d) x = None ->
  orient3 a b c x == 0 \/ orient3 a d b x == 0 \/ orient3 a c d x == 0 \/ orient3 b d c x == 0.
Proof.
  intros P H. assert (H0 : ~ volume6 (TT a b c d) == 0) by (unfold orient3 in P; lra).
  apply (proj2 (proj2 (contains3_ok (TT a b c d) x H0))) in H. destruct H as [l1 [l2 [l3 [l4 [M Z]]]]].
  destruct (mean4_orient a b c d x l1 l2 l3 l4 M) as [E1 [E2 [E3 E4]]]. rewrite E1, E2, E3, E4.
  destruct Z as [Z|[Z|[Z|Z]]]; rewrite Z; [right; right; right|right; right; left|right; left|left]; ring.
Qed.

Section Total.
  Variable pts : nat -> point3.
  Variable pop : nat -> list nat -> nat.
  Notation O a b c d := (orient3 (pts a) (pts b) (pts c) (pts d)).
  Notation circle := (circle3 pts).
  Notation inside := (inside3 pts).
  Notation flip := (flip3 (crossing3 pts)).

  (** A point that is not a corner is not on the plane of a face. *)
  Lemma off_face m i T a b c d v : tiling3 pts T m -> general_position3 pts (S m) -> T i a b c d -> (v <= m)%nat -> ~ In v [a; b; c] -> ~ O a b c v == 0.
  Proof.
    intros L G H Hv N. destruct (t3_lts _ _ _ L _ _ _ _ _ H) as [La [Lb [Lc Ld]]].
    destruct (o3_distinct pts a b c d (t3_pos _ _ _ L _ _ _ _ _ H)) as [n1 [n2 [n3 [n4 [n5 n6]]]]].
    apply (gp3_plane _ _ G a b c v); try lia. apply nodup4; auto; intros ->; apply N; cbn; tauto.
  Qed.
  Lemma good_total3 s : good3 pts s -> 0 < O 0%nat 1%nat 2%nat 3%nat -> general_position3 pts (S (num_points s)) ->
    exists new s', insert split3 flip circle inside pop s = Some (num_points s, new, s').
  Proof.
    intros G P0 GP. pose proof (g3_inv _ _ G) as I. pose proof (g3_tiling _ _ G) as L. pose proof (g3_four _ _ G) as N4.
    set (p := num_points s) in *.
    assert (FR : forall i a b c d, tet s i a b c d -> ~ In p [a; b; c; d]).
    { intros i a b c d H. destruct (t3_lts _ _ _ L _ _ _ _ _ H) as [La [Lb [Lc Ld]]]. clear - La Lb Lc Ld. cbn. lia. }
    assert (OFF : forall i a b c d, tet s i a b c d -> ~ O a b c (num_points s) == 0).
    { intros i a b c d H. apply (off_face p i (tet s) a b c d p L GP H); [lia|]. intro K. apply (FR _ _ _ _ _ H). cbn in *. tauto. }
    assert (FOUR : forall i a b c d, tet s i a b c d -> ~ O a b c p == 0 /\ ~ O a d b p == 0 /\ ~ O a c d p == 0 /\ ~ O b d c p == 0).
    { intros i a b c d H. split; [exact (OFF _ _ _ _ _ H)|].
      split; [|split]; refine (OFF i _ _ _ _ (tet_even s i a b c d _ _ _ _ H _)); even. }
    destruct (insert_total_gen 3 face_ok3 face_ok3_perm split3 flip circle inside pop count3
      (flip_spec3 (crossing3 pts)) split_spec3 (circle3_corners pts) split_total3 s (between3 pts s) I (g3_last _ _ G)) as [new [s' H]].
    - (* flips *)
      intros s1 i t fi j q B I1 Ht Hp Ho Hq Hc HF. fold p in Hp.
      pose proof (b3_tiling _ _ _ B) as L1. pose proof (b3_hull _ _ _ B) as H1. fold p in L1.
      assert (POS : forall i t a b c d, In (i, t) (tetras s1) -> even4 [a; b; c; d] (points_of t) -> 0 < O a b c d).
      { intros i0 t0 a b c d K E. apply (t3_pos _ _ _ L1 i0). exists t0. auto. }
      destruct (flip3_fails pts s1 i t p fi j q I1 POS Ht Hp Ho Hq HF) as [u [x [y [z [Hu [Et [Eu [Z|[V [g1 [g2 [Hg1 [Hg2 N]]]]]]]]]]]]].
      + assert (Ti : tet s1 i x y z p) by (exists t; auto). assert (Tj : tet s1 j y x z q) by (exists u; auto).
        destruct (t3_lts _ _ _ L1 _ _ _ _ _ Ti) as [Lx [Ly [Lz _]]]. destruct (t3_lts _ _ _ L1 _ _ _ _ _ Tj) as [_ [_ [_ Lq]]].
        destruct (tet_nodup s1 i x y z p I1 Ti) as [n1 [n2 [n3 [n4 [n5 n6]]]]].
        destruct (tet_nodup s1 j y x z q I1 Tj) as [m1 [m2 [m3 [m4 [m5 m6]]]]].
        assert (Nqp : q <> p) by (intros ->; apply Hq; eapply entry_point; eassumption).
        destruct Z as [Z|[Z|Z]].
        * revert Z. apply (gp3_plane _ _ GP y z q p); try (clear - Ly Lz Lq; lia). now apply nodup4.
        * revert Z. apply (gp3_plane _ _ GP z x q p); try (clear - Lx Lz Lq; lia). apply nodup4; auto.
        * revert Z. apply (gp3_plane _ _ GP x y q p); try (clear - Lx Ly Lq; lia). apply nodup4; auto.
      + destruct N as [N|N].
        * assert (E : even4 [z; y; p; x] (points_of t)) by even_to Et.
          destruct (face3 s1 i t x g1 z y p I1 Ht Hg1 E) as [ps [Q1 Q2]].
          assert (K : (p < 4)%nat) by (apply (H1 i t x g1 ps p Ht Hg1 N Q1), (turns_in _ _ _ _ _ p Q2); auto). clear - K N4. unfold p in K. lia.
        * assert (E : even4 [y; z; q; x] (points_of u)) by even_to Eu.
          destruct (tet_across pts s1 (S p) j u y z q x g2 p I1 L1 H1 Hu E Hg2 ltac:(lia) V) as [j' [q' [Eo _]]]. congruence.
    - intros s1 i B. now apply between3_last.
    - intros s1 i t fi j q new s2 B Ht Hp Ho Hc Hf.
      destruct (between3_flip pts s s1 i t fi j q new s2 B Ht Hp Ho Hc Hf) as [[_ [-> _]]|[B2 _]]; assumption.
    - (* circumspheres *)
      intros s1 i t fi j q B Ht Hp Ho X. fold p in Hp.
      pose proof (b3_tiling _ _ _ B) as L1. pose proof (b3_inv _ _ _ B) as I1. pose proof (b3_hull _ _ _ B) as H1. fold p in L1.
      destruct (stored s1 i t I1 Ht) as [a [b [c [d [E T]]]]].
      assert (exists x y z, even4 [x; y; z; p] (points_of t)) as [x [y [z Et]]].
      { destruct (to_last p a b c d) as [[n1 [n2 [n3 n4]]]|[x [y [z K]]]].
        - exfalso. pose proof (entry_point t p fi Hp) as K. rewrite E in K. cbn in K. destruct K as [K|[K|[K|[K|[]]]]]; congruence.
        - exists x, y, z. rewrite E. now apply even4_sym. }
      assert (Ti : tet s1 i x y z p) by (exists t; auto).
      destruct (tet_opposing s1 i t x y z p fi j q I1 Ht Et Hp Ho) as [Tj _].
      pose proof (t3_pos _ _ _ L1 _ _ _ _ _ Ti) as Pi. pose proof (t3_pos _ _ _ L1 _ _ _ _ _ Tj) as Pj.
      destruct (t3_lts _ _ _ L1 _ _ _ _ _ Ti) as [Lx [Ly [Lz Lp]]]. destruct (t3_lts _ _ _ L1 _ _ _ _ _ Tj) as [_ [_ [_ Lq]]].
      assert (Nqp : q <> p). { intros ->. rewrite o3_swap in Pj. lra. }
      destruct (sph_exists _ _ _ _ Pi) as [o [k C]]. revert X. apply (circle_even pts t x y z p q o k Et Pi C).
      intro Z. pose proof (sph_dist _ _ _ _ _ _ (pts q) C) as D.
      destruct (tet_nodup s1 i x y z p I1 Ti) as [n1 [n2 [n3 [n4 [n5 n6]]]]].
      destruct (tet_nodup s1 j y x z q I1 Tj) as [m1 [m2 [m3 [m4 [m5 m6]]]]].
      apply (gp3_sphere _ _ GP x y z p q o); try (clear - Lx Ly Lz Lp Lq; lia).
      + apply nodup5; [now apply nodup4|]. cbn. intros [K|[K|[K|[K|[]]]]]; congruence.
      + exact (sph_center _ _ _ _ _ _ C).
      + lra.
    - intros old t new1 s1 Ht Hin Es. exact (between3_split pts s G old t new1 s1 Ht Hin Es).
    - intros i t Ht X. destruct (stored s i t I Ht) as [a [b [c [d [E T]]]]]. rewrite E in X. cbn [inside3] in X.
      apply (contains3_none _ _ _ _ _ (t3_pos _ _ _ L _ _ _ _ _ T)) in X. destruct (FOUR i a b c d T) as [F1 [F2 [F3 F4]]].
      fold p in X. destruct X as [X|[X|[X|X]]]; contradiction.
    - assert (Hin : strictly_inside3 (shape3 pts 0 1 2 3) (pts p)) by (apply (gp3_inside _ _ GP); lia).
      apply (ins3_strict _ _ _ _ _ P0) in Hin.
      destruct (t3_cover _ _ _ L (pts p) (ins3_cls3 _ _ _ _ _ Hin)) as [i [a [b [c [d [T C]]]]]].
      pose proof T as [t [Ht R]]. exists i, t. split; [exact Ht|].
      apply (inside_even pts t a b c d p R (t3_pos _ _ _ L _ _ _ _ _ T)).
      destruct (FOUR i a b c d T) as [F1 [F2 [F3 F4]]]. destruct C as [C1 [C2 [C3 C4]]]. unfold ins3. repeat split; lra.
    - eauto.
  Qed.

  Lemma general_position3_le n n' : (n <= n')%nat -> general_position3 pts n' -> general_position3 pts n.
  Proof.
    intros H [A B C]. constructor.
    - intros v Hv. apply A. lia.
    - intros a b c d Ha Hb Hc Hd. apply B; lia.
    - intros a b c d e o Ha Hb Hc Hd He. apply C; lia.
  Qed.
  Lemma total_many3 n : 0 < O 0%nat 1%nat 2%nat 3%nat -> forall s, good3 pts s -> general_position3 pts (num_points s + n) ->
    exists s', insert_many split3 flip circle inside pop n s = Some s'.
  Proof.
    intro P0. induction n as [|n IH]; intros s G GP; [exists s; reflexivity|].
    destruct (good_total3 s G P0) as [new [s1 E]]; [apply (general_position3_le _ (num_points s + S n)); [lia|exact GP]|].
    pose proof (insert_good3 pts pop s _ new s1 G E) as G1.
    pose proof (insert_ok 3 face_ok3 face_ok3_perm split3 flip circle inside pop count3 count3_last
      (flip_spec3 (crossing3 pts)) split_spec3 (circle3_corners pts) s _ new s1 (g3_inv _ _ G) (g3_last _ _ G) E) as [_ _ _ a4 _ _ _].
    destruct (IH s1 G1) as [s' E']; [rewrite a4; replace (S (num_points s) + n)%nat with (num_points s + S n)%nat by lia; exact GP|].
    exists s'. cbn [insert_many]. rewrite E. cbn [bind]. exact E'.
  Qed.
  Theorem built3_exists n : 0 < O 0%nat 1%nat 2%nat 3%nat -> general_position3 pts (n + 4) ->
    exists s, built3 (crossing3 pts) circle inside pop n s.
  Proof.
    intros P0 GP. destruct inv3_start as [s0 [E0 [I [LO [_ NP]]]]].
    destruct (total_many3 n P0 s0 (start_good3 pts s0 P0 E0)) as [s E]; [rewrite NP, Nat.add_comm; exact GP|].
    exists s, s0. auto.
  Qed.
End Total.


Theorem construct3_total min max pop l : x3 min < x3 max -> y3 min < y3 max -> z3 min < z3 max ->
  general_position3 (remapped_table3 min max l) (length l + 4) -> exists s, construct3 min max pop l = Some s.
Proof.
  intros Hx Hy Hz GP. destruct (built3_exists (remapped_table3 min max l) pop (length l)) as [s [s0 [E0 E]]]; auto.
  - apply remapped3_pos; auto. now apply outer_pos3.
  - exists s. unfold construct3. rewrite E0. exact E.
Qed.
Theorem construct3_total_cube min max pop l : x3 min < x3 max -> x3 max - x3 min == y3 max - y3 min -> x3 max - x3 min == z3 max - z3 min ->
  general_position3 (table3 min max l) (length l + 4) -> exists s, construct3 min max pop l = Some s.
Proof.
  intros Hx S1 S2 GP. assert (Hy : y3 min < y3 max) by lra. assert (Hz : z3 min < z3 max) by lra. apply construct3_total; auto.
  destruct (remapped3 min max l Hx Hy Hz) as [emin [emax [E [A [B [C [E1 [E2 E3]]]]]]]].
  apply (stretch3_general (remap3 emin emax) (unmap3 emin emax) _ (remap3_pos emin emax A B C) (remap3_orient emin emax A B C)
      (remap3_mean emin emax A B C) (remap3_inverse emin emax A B C) (table3 min max l) (remapped_table3 min max l) E (/ ((x3 emax - x3 emin) * (x3 emax - x3 emin)))); auto.
  - apply Qinv_lt_0_compat. apply qmul_pos; lra.
  - intros. apply remap3_dist; auto; lra.
Qed.

(** A test for general position: all increasing sequences of four and five points are tried. *)
Section Check.
  Variables (ins : nat -> bool) (vol : nat -> nat -> nat -> nat -> Q) (on : nat -> nat -> nat -> nat -> nat -> option bool).
  Definition answered (o : option bool) : bool := match o with Some _ => true | None => false end.
  Definition check_tuple (n a b c d : nat) : bool :=
    negb (Qeq_bool (vol a b c d) 0) &&
    (if Qle_bool (vol a b c d) 0 then forallb (fun e => answered (on b a c d e)) (seq (S d) (n - S d))
     else forallb (fun e => answered (on a b c d e)) (seq (S d) (n - S d))).
  Definition check_tuples (n : nat) : bool :=
    forallb ins (seq 0 n) &&
    forallb (fun a => forallb (fun b => forallb (fun c => forallb (check_tuple n a b c) (seq (S c) (n - S c))) (seq (S b) (n - S b))) (seq (S a) (n - S a))) (seq 0 n).
  Lemma check_tuples_ok n : check_tuples n = true -> (forall v, (v < n)%nat -> ins v = true) /\
    forall a b c d, (a < b)%nat -> (b < c)%nat -> (c < d)%nat -> (d < n)%nat -> ~ vol a b c d == 0 /\
      forall e, (d < e < n)%nat -> (0 < vol a b c d -> on a b c d e <> None) /\ (vol a b c d <= 0 -> on b a c d e <> None).
  Proof.
    unfold check_tuples. intro H. apply andb_true_iff in H. destruct H as [H1 H2]. rewrite forallb_forall in H1. rewrite forallb_forall in H2.
    split; [intros v Hv; apply H1, in_seq; lia|].
    assert (SQ : forall u v, (u < v < n)%nat -> In v (seq (S u) (n - S u))) by (intros u v Hv; apply in_seq; lia).
    intros a b c d Ha Hb Hc Hd.
    pose proof (proj1 (forallb_forall _ _) (proj1 (forallb_forall _ _) (proj1 (forallb_forall _ _) (H2 a ltac:(apply in_seq; lia)) b (SQ a b ltac:(lia))) c (SQ b c ltac:(lia))) d (SQ c d ltac:(lia))) as K.
    clear H1 H2. unfold check_tuple in K. apply andb_true_iff in K. destruct K as [K1 K2]. split.
    - intro Z. apply Qeq_bool_iff in Z. rewrite Z in K1. discriminate.
    - intros e He. destruct (Qle_bool (vol a b c d) 0) eqn:L; pose proof (proj1 (forallb_forall _ _) K2 e (SQ d e He)) as Q; cbv beta in Q; split; intro V.
      + apply Qle_bool_iff in L. exfalso. exact (Qle_not_lt _ _ L V).
      + destruct (on b a c d e); [discriminate|discriminate Q].
      + destruct (on a b c d e); [discriminate|discriminate Q].
      + apply Qle_bool_iff in V. congruence.
  Qed.
End Check.
Definition check_inside3 (pts : nat -> point3) (v : nat) : bool :=
  (v <? 4)%nat || match contains3 (shape3 pts 0 1 2 3) (pts v) with Some b => b | None => false end.
Definition check_general3 (pts : nat -> point3) (n : nat) : bool :=
  check_tuples (check_inside3 pts) (fun a b c d => volume6 (shape3 pts a b c d))
    (fun a b c d e => circumcircle_contains3_exact (shape3 pts a b c d) (pts e)) n.
Lemma exact_on_sphere a b c d o e : 0 < volume6 (TT a b c d) -> circumscribed3 (TT a b c d) o -> dist2_3 o e == dist2_3 o a ->
  circumcircle_contains3_exact (TT a b c d) e = None.
Proof. intros P C Z. exact (proj2 (proj2 (proj2 (circumsphere_exact (TT a b c d) o e P C))) Z). Qed.
(** Sequences without repetitions can be put in increasing order. *)
Lemma insert_increasing x l : StronglySorted lt l -> ~ In x l -> exists l', Permutation (x :: l) l' /\ StronglySorted lt l'.
Proof.
  induction l as [|y l IH]; intros S N.
  - exists [x]. split; [reflexivity|]. repeat constructor.
  - inversion S as [|? ? S1 F]; subst. destruct (lt_dec x y) as [L|L].
    + exists (x :: y :: l). split; [reflexivity|]. constructor; [exact S|]. constructor; [exact L|].
      rewrite Forall_forall in *. intros z Hz. specialize (F z Hz). lia.
    + destruct IH as [l' [P S']]; [exact S1|intro H; apply N; now right|]. exists (y :: l'). split.
      * rewrite <- P. apply perm_swap.
      * constructor; [exact S'|]. rewrite Forall_forall in *. intros z Hz. apply (Permutation_in _ (Permutation_sym P)) in Hz.
        destruct Hz as [<-|Hz]; [|now apply F]. assert (x <> y) by (intros ->; apply N; now left). lia.
Qed.
Lemma increasing_order l : NoDup l -> exists l', Permutation l l' /\ StronglySorted lt l'.
Proof.
  induction 1 as [|x l N ND [l' [P S]]]; [exists []; split; constructor|].
  destruct (insert_increasing x l' S) as [l2 [P2 S2]]; [intro H; apply N, (Permutation_in _ (Permutation_sym P)); exact H|].
  exists l2. split; [|exact S2]. rewrite P. exact P2.
Qed.
Lemma in_increasing x l a : StronglySorted lt (a :: l) -> In x l -> (a < x)%nat.
Proof. intros S H. inversion S as [|? ? _ F]; subst. rewrite Forall_forall in F. now apply F. Qed.
Lemma check_inside3_ok pts v : 0 < orient3 (pts 0%nat) (pts 1%nat) (pts 2%nat) (pts 3%nat) -> check_inside3 pts v = true -> (4 <= v)%nat ->
  strictly_inside3 (shape3 pts 0 1 2 3) (pts v).
Proof.
  unfold check_inside3. intros P0 H Hv. apply orb_true_iff in H. destruct H as [H|H]; [apply Nat.ltb_lt in H; lia|].
  assert (NZ : ~ volume6 (shape3 pts 0 1 2 3) == 0) by (unfold shape3, orient3 in *; lra).
  apply (proj1 (proj1 (contains3_ok (shape3 pts 0 1 2 3) (pts v) NZ))).
  destruct (contains3 (shape3 pts 0 1 2 3) (pts v)) as [[|]|]; [reflexivity|discriminate H|discriminate H].
Qed.
Lemma check_general3_ok pts n : 0 < orient3 (pts 0%nat) (pts 1%nat) (pts 2%nat) (pts 3%nat) -> check_general3 pts n = true -> general_position3 pts n.
Proof.
  intros P0 H. destruct (check_tuples_ok _ _ _ n H) as [H1 H2].
  assert (K : forall a b c d, (a < b)%nat -> (b < c)%nat -> (c < d)%nat -> (d < n)%nat ->
    ~ volume6 (shape3 pts a b c d) == 0 /\ forall e o, (d < e < n)%nat ->
    ~ (dist2_3 o (pts b) == dist2_3 o (pts a) /\ dist2_3 o (pts c) == dist2_3 o (pts a) /\ dist2_3 o (pts d) == dist2_3 o (pts a) /\ dist2_3 o (pts e) == dist2_3 o (pts a))).
  { intros a b c d Ha Hb Hc Hd. destruct (H2 a b c d Ha Hb Hc Hd) as [NZ F]. split; [exact NZ|].
    intros e o He [Z1 [Z2 [Z3 Z4]]]. destruct (F e He) as [F1 F2]. destruct (Qlt_le_dec 0 (volume6 (shape3 pts a b c d))) as [P|P].
    - apply (F1 P). apply (exact_on_sphere (pts a) (pts b) (pts c) (pts d) o (pts e) P); [|exact Z4].
      split; [|split]; cbn [ttp1 ttp2 ttp3 ttp4]; assumption.
    - apply (F2 P). assert (Sw : 0 < volume6 (TT (pts b) (pts a) (pts c) (pts d))).
      { pose proof (o3_swap (pts a) (pts b) (pts c) (pts d)) as E. unfold orient3 in E. unfold shape3 in NZ, P. lra. }
      apply (exact_on_sphere (pts b) (pts a) (pts c) (pts d) o (pts e) Sw); [|rewrite Z1; exact Z4].
      split; [|split]; cbn [ttp1 ttp2 ttp3 ttp4]; rewrite Z1; [reflexivity|exact Z2|exact Z3]. }
  clear H2. constructor.
  - intros v Hv. apply check_inside3_ok; [exact P0|apply H1|]; lia.
  - intros a b c d Ha Hb Hc Hd ND Z. destruct (increasing_order _ ND) as [l' [P S]].
    pose proof (Permutation_length P) as LE. destruct l' as [|x [|y [|z [|w [|? ?]]]]]; try discriminate LE.
    assert (Bw : (w < n)%nat).
    { assert (X : In w [a; b; c; d]) by (apply (Permutation_in _ (Permutation_sym P)); cbn; tauto). cbn in X. destruct X as [<-|[<-|[<-|[<-|[]]]]]; assumption. }
    assert (L1 : (x < y)%nat) by (apply (in_increasing y [y; z; w] x S); cbn; tauto). inversion S as [|? ? S1 _]; subst.
    assert (L2 : (y < z)%nat) by (apply (in_increasing z [z; w] y S1); cbn; tauto). inversion S1 as [|? ? S2 _]; subst.
    assert (L3 : (z < w)%nat) by (apply (in_increasing w [w] z S2); cbn; tauto).
    destruct (K x y z w L1 L2 L3 Bw) as [NZ _]. apply NZ.
    change (orient3 (pts x) (pts y) (pts z) (pts w) == 0). change (orient3 (pts a) (pts b) (pts c) (pts d) == 0) in Z.
    destruct (perm4_even a b c d x y z w ND P) as [E|E]; rewrite (even_o3 pts _ _ _ _ _ _ _ _ E); [exact Z|].
    rewrite o3_swap, Z. reflexivity.
  - intros a b c d e o Ha Hb Hc Hd He ND C Z. destruct (increasing_order _ ND) as [l' [P S]].
    pose proof (Permutation_length P) as LE. destruct l' as [|x [|y [|z [|w [|v [|? ?]]]]]]; try discriminate LE.
    assert (Q : forall u, In u [x; y; z; w; v] -> (u < n)%nat /\ dist2_3 o (pts u) == dist2_3 o (pts a)).
    { intros u Hu. apply (Permutation_in _ (Permutation_sym P)) in Hu. destruct C as [C1 [C2 C3]]. cbn [shape3 ttp1 ttp2 ttp3 ttp4] in *.
      destruct Hu as [<-|[<-|[<-|[<-|[<-|[]]]]]]; split; auto. reflexivity. }
    assert (L1 : (x < y)%nat) by (apply (in_increasing y [y; z; w; v] x S); cbn; tauto). inversion S as [|? ? S1 _]; subst.
    assert (L2 : (y < z)%nat) by (apply (in_increasing z [z; w; v] y S1); cbn; tauto). inversion S1 as [|? ? S2 _]; subst.
    assert (L3 : (z < w)%nat) by (apply (in_increasing w [w; v] z S2); cbn; tauto). inversion S2 as [|? ? S3 _]; subst.
    assert (L4 : (w < v)%nat) by (apply (in_increasing v [v] w S3); cbn; tauto).
    destruct (Q x) as [_ D1]; [cbn; tauto|]. destruct (Q y) as [_ D2]; [cbn; tauto|]. destruct (Q z) as [_ D3]; [cbn; tauto|].
    destruct (Q w) as [Bw D4]; [cbn; tauto|]. destruct (Q v) as [Bv D5]; [cbn; tauto|].
    destruct (K x y z w L1 L2 L3 Bw) as [_ NS]. apply (NS v o (conj L4 Bv)).
    rewrite D1. auto.
Qed.

(** The test with reduced coordinates. *)
Lemma general_position3_proper pts pts' n : (forall v, same_point3 (pts v) (pts' v)) ->
  0 < orient3 (pts 0%nat) (pts 1%nat) (pts 2%nat) (pts 3%nat) -> general_position3 pts n -> general_position3 pts' n.
Proof.
  intros E P0 [A B C]. constructor.
  - intros v Hv. pose proof (proj1 (ins3_strict _ _ _ _ _ P0) (A v Hv)) as K. rewrite (E v), !E in K. rewrite !E in P0. exact (proj2 (ins3_strict _ _ _ _ _ P0) K).
  - intros a b c d Ha Hb Hc Hd ND Z. apply (B a b c d Ha Hb Hc Hd ND). change (orient3 (pts a) (pts b) (pts c) (pts d) == 0). rewrite !E. exact Z.
  - intros a b c d e o Ha Hb Hc Hd He ND K Z.
    assert (D : forall v, dist2_3 o (pts v) == dist2_3 o (pts' v)).
    { intro v. destruct (E v) as [E1 [E2 E3]]. unfold dist2_3. rewrite E1, E2, E3. reflexivity. }
    apply (C a b c d e o Ha Hb Hc Hd He ND); [|rewrite !D; exact Z].
    destruct K as [K1 [K2 K3]]. cbn [shape3 ttp1 ttp2 ttp3 ttp4] in *. split; [|split]; cbn [shape3 ttp1 ttp2 ttp3 ttp4]; rewrite !D; assumption.
Qed.
Definition red3 (p : point3) : point3 := P3 (Qred (x3 p)) (Qred (y3 p)) (Qred (z3 p)).
Definition red_table (l : list point3) (i : nat) : point3 := nth i l (P3 0 0 0).
Lemma red_table_ok min max l v : same_point3 (red_table (map (fun i => red3 (table3 min max l i)) (seq 0 (length l + 4))) v) (table3 min max l v).
Proof.
  unfold red_table. destruct (le_lt_dec (length l + 4) v) as [L|L].
  - rewrite nth_overflow by (rewrite map_length, seq_length; exact L). unfold table3. rewrite nth_overflow by (cbn; lia). reflexivity.
  - rewrite (nth_indep _ _ (red3 (table3 min max l 0))) by (rewrite map_length, seq_length; exact L).
    rewrite (map_nth (fun i => red3 (table3 min max l i))), seq_nth by exact L. cbn [plus].
    repeat split; cbn [red3 x3 y3 z3]; apply Qred_correct.
Qed.
Theorem check_table3 min max l : x3 min < x3 max -> y3 min < y3 max -> z3 min < z3 max ->
  (let r := map (fun i => red3 (table3 min max l i)) (seq 0 (length l + 4)) in check_general3 (red_table r) (length l + 4)) = true ->
  general_position3 (table3 min max l) (length l + 4).
Proof.
  intros Hx Hy Hz H. set (r := map (fun i => red3 (table3 min max l i)) (seq 0 (length l + 4))) in *. cbv zeta in H.
  assert (P0 : 0 < orient3 (red_table r 0%nat) (red_table r 1%nat) (red_table r 2%nat) (red_table r 3%nat)).
  { unfold r. rewrite !red_table_ok. now apply outer_pos3. }
  apply (general_position3_proper (red_table r)); [apply red_table_ok|exact P0|]. now apply check_general3_ok.
Qed.
