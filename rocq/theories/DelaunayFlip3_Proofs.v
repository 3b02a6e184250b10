(** What a flip does, with the geometric meaning of the case that has been taken. *)
From Coq Require Import List Arith Lia Bool Permutation QArith Lqa Setoid.
From Verif Require Import Geometry_Model Geometry_Spec Delaunay_Model Delaunay_Spec DelaunayGeo_Model DelaunayBuild_Proofs DelaunaySurgery_Proofs DelaunayPlan_Proofs
  Delaunay2_Proofs DelaunayInsert_Proofs Delaunay3_Proofs Delaunay23_Proofs Delaunay32_Proofs Delaunay3Insert_Proofs Delaunay3Exact_Proofs
  Circle2_Proofs Tiling2_Proofs Sphere3_Proofs Predicates3_Proofs Tiling3_Proofs.
Import ListNotations.

Section Flip.
  Variable pts : nat -> point3.
  Notation O a b c d := (orient3 (pts a) (pts b) (pts c) (pts d)).
  Notation crossing := (crossing3 pts).

  Lemma crossing3_eq a b c p q : crossing [a; b; c] p q = get_line_intersection_type (T3 (pts a) (pts b) (pts c)) (pts p) (pts q).
  Proof. reflexivity. Qed.

  (** [x], [y], [z]: the face between [p] and [q], in the positive sense as seen from [p]. *)
  Lemma flip3_geo s ct t c fc oj q new s' : inv3 s ->
    (forall i t a b c d, In (i, t) (tetras s) -> even4 [a; b; c; d] (points_of t) -> 0 < O a b c d)%Q ->
    In (ct, t) (tetras s) -> In (c, fc) t -> opposing fc = Some (Conn oj q) -> ~ In q (points_of t) ->
    flip3 crossing s ct (face fc) = Some (new, s') ->
    exists u x y z, In (oj, u) (tetras s) /\ even4 [x; y; z; c] (points_of t) /\ even4 [y; x; z; q] (points_of u) /\
     ((new = [] /\ s' = s /\ (O x y q c < 0)%Q /\ (O z x q c < 0)%Q) \/
      (new = [] /\ s' = s /\ (O y z q c < 0)%Q /\ (0 < O x y q c)%Q /\ (0 < O z x q c)%Q /\
         exists g1 g2 c1 c2, In (x, g1) t /\ In (x, g2) u /\ opposing g1 = Some c1 /\ opposing g2 = Some c2 /\ conn_tetra c1 <> conn_tetra c2) \/
      ((0 < O y z q c)%Q /\ (0 < O x y q c)%Q /\ (0 < O z x q c)%Q /\
         exists N n1 n2 n3 T1 T2 T3, new = map fst N /\ inv3 s' /\ replaced s s' [ct; oj] N /\
           (forall e, In e N <-> e = (n1, T1) \/ e = (n2, T2) \/ e = (n3, T3)) /\
           even4 [x; y; q; c] (points_of T1) /\ even4 [y; z; q; c] (points_of T2) /\ even4 [z; x; q; c] (points_of T3) /\
           num_points s' = num_points s) \/
      ((O y z q c < 0)%Q /\ (0 < O x y q c)%Q /\ (0 < O z x q c)%Q /\
         exists k w N nA nB TA TB, In (k, w) (tetras s) /\ even4 [z; y; q; c] (points_of w) /\
           new = map fst N /\ inv3 s' /\ replaced s s' [ct; oj; k] N /\
           (forall e, In e N <-> e = (nA, TA) \/ e = (nB, TB)) /\
           even4 [x; y; q; c] (points_of TA) /\ even4 [z; x; q; c] (points_of TB) /\ num_points s' = num_points s)).
  Proof.
    intros I POS Ht Hc Ho Hq FL.
    assert (exists ps, In (face fc, ps) (faces s)) as [ps Hps] by (destruct (iv_faces _ _ _ I ct t c fc Ht Hc) as [ps [P1 _]]; eauto).
    pose proof Ho as Ho'. apply (iv_opp _ _ _ I ct t c fc Ht Hc) in Ho'. destruct Ho' as [Hne [u [gc [Hu [Hgc Eg]]]]].
    assert (Hcq : c <> q) by (intros ->; apply Hq; eapply entry_point; eassumption).
    destruct (iv_faces _ _ _ I ct t c fc Ht Hc) as [ps' [P1 P2]].
    rewrite (NoDup_ids_eq _ _ _ _ (iv_fids _ _ _ I) P1 Hps) in P2. clear ps' P1.
    pose proof P2 as [x [y [z [Eps _]]]].
    assert (exists a b d, ps = [a; b; d]) as [a [b [d Eabd]]] by (destruct (flipped fc); eauto). clear Eps x y z. subst ps.
    pose proof (proj1 (proj2 (iv_corners _ _ _ I _ _ Ht))) as NDt.
    pose proof (proj1 (proj2 (iv_corners _ _ _ I _ _ Hu))) as NDu.
    destruct (face_entries s ct t c fc a b d I Ht Hc Hps) as [Ea [ta [tb [td [Hta [Htb Htd]]]]]].
    assert (Hps' : In (face gc, [a; b; d]) (faces s)) by now rewrite Eg.
    destruct (face_entries s oj u q gc a b d I Hu Hgc Hps') as [Eb [ua [ub [ud [Hua [Hub Hud]]]]]].
    assert (RUN : flip3 crossing s ct (face fc) = do kind <- crossing [a; b; d] c q;
      match kind with
      | Inside => two_to_three_flip s ct oj c q (face fc)
      | OutsideOneEdge e =>
          let o := get_point_opposite a b d e in
          let '(e1, e2) := get_points_of a b d e in
          do g1 <- find_face_opposite t o;
          do c1 <- opposing g1;
          do g2 <- find_face_opposite u o;
          do c2 <- opposing g2;
          if conn_tetra c2 =? conn_tetra c1
          then three_to_two_flip s ct oj (conn_tetra c1) q c o e1 e2
          else Some ([], s)
      | OutsideTwoEdges _ _ => Some ([], s)
      end).
    { unfold flip3. rewrite (In_arena_get _ _ _ (iv_ids _ _ _ I) Ht). cbn [bind].
    rewrite (In_arena_get _ _ _ (iv_fids _ _ _ I) Hps). cbn [bind].
    rewrite (find_face_unique t c fc); [| |exact Hc].
    2: { intros q' fi' A B. now destruct (inv_entry_unique _ _ face_ok3_perm s ct t q' fi' c fc I Ht A Hc B). }
    cbn [bind]. rewrite Ho. cbn [bind conn_tetra conn_point]. rewrite (In_arena_get _ _ _ (iv_ids _ _ _ I) Hu). cbn [bind].
    rewrite (find_point_opposite_in t c fc); [| |exact Hc].
    2: { intros q' fi' A B. now destruct (inv_entry_unique _ _ face_ok3_perm s ct t q' fi' c fc I Ht A Hc B). }
    cbn [bind]. assert (FP : find_point_opposite u (face fc) = Some q).
    { rewrite <- Eg. apply (find_point_opposite_in u q gc); [|exact Hgc].
      intros q' fi' A B. now destruct (inv_entry_unique _ _ face_ok3_perm s oj u q' fi' q gc I Hu A Hgc B). }
    rewrite FP. reflexivity. }
    rewrite RUN in FL. clear RUN.
    pose proof (iv_flip _ _ _ I ct t c fc oj u q gc Ht Hc Hu Hgc (eq_sym Eg) (not_eq_sym Hne)) as Fl. rewrite Fl in Eb.
    destruct (crossing [a; b; d] c q) as [i|] eqn:EC; cbn [bind] in FL; [|discriminate]. rewrite crossing3_eq in EC.
    (* the meaning of the case *)
    assert (exists x0 y0, x0 = (if flipped fc then b else a) /\ y0 = (if flipped fc then a else b)) as [x0 [y0 [Ex0 Ey0]]] by eauto.
    assert (Et : even4 [x0; y0; d; c] (points_of t)) by (rewrite Ex0, Ey0; destruct (flipped fc); exact Ea).
    assert (Eu : even4 [y0; x0; d; q] (points_of u)) by (rewrite Ex0, Ey0; destruct (flipped fc); exact Eb).
    assert (ME : exists l1 l2 l3, describes i l1 l2 l3 /\
      (if flipped fc then ((0 < l2 -> 0 < O y0 d q c) /\ (l2 < 0 -> O y0 d q c < 0)) /\ ((0 < l1 -> 0 < O d x0 q c) /\ (l1 < 0 -> O d x0 q c < 0))
       else ((0 < l1 -> 0 < O y0 d q c) /\ (l1 < 0 -> O y0 d q c < 0)) /\ ((0 < l2 -> 0 < O d x0 q c) /\ (l2 < 0 -> O d x0 q c < 0)))%Q /\
      ((0 < l3 -> 0 < O x0 y0 q c) /\ (l3 < 0 -> O x0 y0 q c < 0))%Q).
    { pose proof (POS _ _ _ _ _ _ Ht Et) as Pt. pose proof (POS _ _ _ _ _ _ Hu Eu) as Pu. destruct (flipped fc); subst x0 y0.
      - destruct (crossing_back (pts a) (pts b) (pts d) (pts c) (pts q) i Pt Pu EC) as (l1 & l2 & l3 & D & S1 & S2 & S3).
        exists l1, l2, l3. split; [exact D|]. split; [split; assumption|exact S3].
      - destruct (crossing_front (pts a) (pts b) (pts d) (pts c) (pts q) i Pt Pu EC) as (l1 & l2 & l3 & D & S1 & S2 & S3).
        exists l1, l2, l3. split; [exact D|]. split; [split; assumption|exact S3]. }
    destruct ME as (l1 & l2 & l3 & D & SD & S3).
    assert (R1 : even4 [y0; d; x0; c] (points_of t)) by even_to Et. assert (R2 : even4 [d; x0; y0; c] (points_of t)) by even_to Et.
    assert (V1 : even4 [d; y0; x0; q] (points_of u)) by even_to Eu. assert (V2 : even4 [x0; d; y0; q] (points_of u)) by even_to Eu.
    destruct i as [|e|e f].
    - (* 2-3 *)
      exists u, x0, y0, d. split; [exact Hu|]. split; [exact Et|]. split; [exact Eu|]. right. right. left.
      cbn [describes] in D. destruct D as [D1 [D2 D3]].
      split; [destruct (flipped fc); apply SD; assumption|]. split; [apply S3; assumption|]. split; [destruct (flipped fc); apply SD; assumption|].
      destruct (two_to_three_exact s ct oj t u c q fc gc a b d I Ht Hu (not_eq_sym Hne) Hc Hgc Eg Hcq Hps x0 y0 Ex0 Ey0)
        as (s1 & N & n1 & n2 & n3 & T1 & T2 & T3 & E1 & E2 & E3 & E4 & _ & _ & E5 & E6 & E7 & E8).
      rewrite E1 in FL. injection FL as <- <-. exists N, n1, n2, n3, T1, T2, T3. auto 10.
    - (* one edge *)
      assert (B3 : forall o e1 e2 g1 g2, turned o e1 e2 [a; b; d] -> In (o, g1) t -> In (o, g2) u ->
        get_point_opposite a b d e = o -> get_points_of a b d e = (e1, e2) ->
        forall y z, y = (if flipped fc then e2 else e1) -> z = (if flipped fc then e1 else e2) ->
        (O y z q c < 0)%Q -> (0 < O o y q c)%Q -> (0 < O z o q c)%Q -> 
        exists u x y z, In (oj, u) (tetras s) /\ even4 [x; y; z; c] (points_of t) /\ even4 [y; x; z; q] (points_of u) /\
         ((new = [] /\ s' = s /\ (O y z q c < 0)%Q /\ (0 < O x y q c)%Q /\ (0 < O z x q c)%Q /\
             exists g1 g2 c1 c2, In (x, g1) t /\ In (x, g2) u /\ opposing g1 = Some c1 /\ opposing g2 = Some c2 /\ conn_tetra c1 <> conn_tetra c2) \/
          ((O y z q c < 0)%Q /\ (0 < O x y q c)%Q /\ (0 < O z x q c)%Q /\
             exists k w N nA nB TA TB, In (k, w) (tetras s) /\ even4 [z; y; q; c] (points_of w) /\
               new = map fst N /\ inv3 s' /\ replaced s s' [ct; oj; k] N /\
               (forall e, In e N <-> e = (nA, TA) \/ e = (nB, TB)) /\
               even4 [x; y; q; c] (points_of TA) /\ even4 [z; x; q; c] (points_of TB) /\ num_points s' = num_points s))).
      { intros o e1 e2 g1 g2 Htu Hg1 Hg2 Eo Ee y z Ey Ez N1 N2 N3.
        rewrite Eo, Ee in FL. cbv zeta in FL.
        assert (F1 : even4 [o; y; z; c] (points_of t)).
        { subst y z. clear - Htu Ea. destruct Htu as [E|[E|E]]; injection E as -> -> ->; destruct (flipped fc); even_to Ea. }
        assert (F2 : even4 [y; o; z; q] (points_of u)).
        { subst y z. clear - Htu Eb. destruct Htu as [E|[E|E]]; injection E as -> -> ->; destruct (flipped fc); even_to Eb. }
        exists u, o, y, z. split; [exact Hu|]. split; [exact F1|]. split; [exact F2|].
        rewrite (find_face_opposite_in t o g1 NDt Hg1) in FL. cbn [bind] in FL.
        destruct (opposing g1) as [[k1 r1]|] eqn:O1; cbn [bind] in FL; [|discriminate].
        rewrite (find_face_opposite_in u o g2 NDu Hg2) in FL. cbn [bind] in FL.
        destruct (opposing g2) as [[k2 r2]|] eqn:O2; cbn [bind] in FL; [|discriminate]. cbn [conn_tetra] in FL.
        destruct (Nat.eqb_spec k2 k1) as [E|E].
        - right. subst k2. split; [exact N1|]. split; [exact N2|]. split; [exact N3|].
          pose proof O1 as O1'. apply (iv_opp _ _ _ I ct t o g1 Ht Hg1) in O1'. destruct O1' as [_ [w [_ [Hw _]]]].
          destruct (three_to_two_exact s ct oj k1 t u w q c o e1 e2 fc gc g1 g2 [a; b; d] r1 r2 I Ht Hu Hw (not_eq_sym Hne)
                      Hc Hgc (eq_sym Eg) (not_eq_sym Hcq) Hps' Htu Hg1 Hg2 O1 O2 y z Ey Ez)
            as (s1 & N & nA & nB & TA & TB & E1 & E2 & E3 & E4 & _ & _ & E5 & E6 & E7 & E8).
          rewrite E1 in FL. injection FL as <- <-. exists k1, w, N, nA, nB, TA, TB. auto 12.
        - left. injection FL as <- <-. repeat (split; [auto|]). exists g1, g2, (Conn k1 r1), (Conn k2 r2). cbn [conn_tetra].
          repeat (split; [auto|]). congruence. }
      assert (DONE : forall P Q R S : Prop, Q \/ S -> P \/ Q \/ R \/ S) by tauto.
      destruct e; cbn [describes] in D; destruct D as [D1 [D2 D3]].
      + destruct (B3 a b d ta ua) with (y := if flipped fc then d else b) (z := if flipped fc then b else d) as (u' & x & y & z & A1 & A2 & A3 & A4);
          [now left|exact Hta|exact Hua|reflexivity|reflexivity|reflexivity|reflexivity| | | |exists u', x, y, z; repeat (split; [assumption|]); apply DONE; exact A4];
          destruct (flipped fc); subst x0 y0; first [apply S3; assumption|apply SD; assumption].
      + destruct (B3 b d a tb ub) with (y := if flipped fc then a else d) (z := if flipped fc then d else a) as (u' & x & y & z & A1 & A2 & A3 & A4);
          [unfold turned; tauto|exact Htb|exact Hub|reflexivity|reflexivity|reflexivity|reflexivity| | | |exists u', x, y, z; repeat (split; [assumption|]); apply DONE; exact A4];
          destruct (flipped fc); subst x0 y0; first [apply S3; assumption|apply SD; assumption].
      + destruct (B3 d a b td ud) with (y := if flipped fc then b else a) (z := if flipped fc then a else b) as (u' & x & y & z & A1 & A2 & A3 & A4);
          [unfold turned; tauto|exact Htd|exact Hud|reflexivity|reflexivity|reflexivity|reflexivity| | | |exists u', x, y, z; repeat (split; [assumption|]); apply DONE; exact A4];
          destruct (flipped fc); subst x0 y0; first [apply S3; assumption|apply SD; assumption].
    - (* two edges *)
      injection FL as <- <-.
      destruct e, f; cbn [describes] in D; try contradiction; destruct D as [D1 [D2 D3]]; destruct (flipped fc).
      all: first
       [ exists u, x0, y0, d; split; [exact Hu|]; split; [exact Et|]; split; [exact Eu|]; left; split; [reflexivity|]; split; [reflexivity|]; split;
           first [apply S3; assumption|apply SD; assumption]
       | exists u, y0, d, x0; split; [exact Hu|]; split; [exact R1|]; split; [exact V1|]; left; split; [reflexivity|]; split; [reflexivity|]; split;
           first [apply S3; assumption|apply SD; assumption]
       | exists u, d, x0, y0; split; [exact Hu|]; split; [exact R2|]; split; [exact V2|]; left; split; [reflexivity|]; split; [reflexivity|]; split;
           first [apply S3; assumption|apply SD; assumption] ].
  Qed.
End Flip.
