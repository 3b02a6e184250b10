(** The insertion of points in three dimensions. *)
From Coq Require Import List Arith Lia Bool Permutation.
From Verif Require Import Geometry_Model Delaunay_Model Delaunay_Spec DelaunayBuild_Proofs DelaunaySurgery_Proofs DelaunayPlan_Proofs
  Delaunay2_Proofs DelaunayInsert_Proofs Delaunay3_Proofs Delaunay23_Proofs Delaunay32_Proofs.
Import ListNotations.

(** Every tetrahedron has four faces; four faces have only one owner. *)
Definition count3 (s : triangulation) : Prop := length (faces s) = 2 * length (tetras s) + 2.

Lemma count3_last s i : count3 s -> count3 (set_last s i).
Proof. auto. Qed.

Lemma four_entries s old t : inv3 s -> In (old, t) (tetras s) ->
  exists q1 g1 q2 g2 q3 g3 q4 g4, t = [(q1, g1); (q2, g2); (q3, g3); (q4, g4)].
Proof.
  intros I H. pose proof (proj1 (iv_corners _ _ _ I _ _ H)) as L.
  destruct t as [|[q1 g1] [|[q2 g2] [|[q3 g3] [|[q4 g4] [|? ?]]]]]; cbn in L; try discriminate. eauto 9.
Qed.

Lemma split_spec3 s old t new s' : inv3 s -> In (old, t) (tetras s) ->
  split3 (push_point s) old (num_points s) = Some (new, s') ->
  exists N, new = map fst N /\ N <> [] /\ replaced s s' [old] N /\ inv3 s' /\ num_points s' = S (num_points s) /\
    (forall i t, In (i, t) N -> In (num_points s) (points_of t)) /\ (count3 s -> count3 s').
Proof.
  intros I Ht E. destruct (four_entries s old t I Ht) as [q1 [g1 [q2 [g2 [q3 [g3 [q4 [g4 ->]]]]]]]].
  destruct (split3_ok s I old q1 q2 q3 q4 g1 g2 g3 g4 Ht) as [s1 [E1 [I1 [RP [NP LF]]]]].
  rewrite E1 in E. injection E as <- <-. eexists. split; [|split; [|split; [exact RP|split; [exact I1|split; [exact NP|split]]]]].
  - reflexivity.
  - discriminate.
  - intros i t [X|[X|[X|[X|[]]]]]; injection X as <- <-; cbn; tauto.
  - intro C. pose proof (rp_tetras _ _ _ _ RP) as LT. unfold count3 in *. cbn in LT. rewrite LF. lia.
Qed.
Lemma split_total3 s old t : inv3 s -> In (old, t) (tetras s) -> split3 (push_point s) old (num_points s) <> None.
Proof.
  intros I Ht. destruct (four_entries s old t I Ht) as [q1 [g1 [q2 [g2 [q3 [g3 [q4 [g4 ->]]]]]]]].
  destruct (split3_ok s I old q1 q2 q3 q4 g1 g2 g3 g4 Ht) as [s1 [E1 _]]. congruence.
Qed.

Section Flip.
  Variable crossing : list nat -> nat -> nat -> option intersection_type.

  Definition pick (a b c : nat) (e : edge_id) : nat * nat * nat :=
    match e with One => (a, b, c) | Two => (b, c, a) | Three => (c, a, b) end.

  (** What the flip of a face does. *)
  Lemma flip3_cases s ct t c fc oj q ps : inv3 s -> In (ct, t) (tetras s) -> In (c, fc) t ->
    opposing fc = Some (Conn oj q) -> ~ In q (points_of t) -> In (face fc, ps) (faces s) ->
    (crossing ps c q = None /\ flip3 crossing s ct (face fc) = None) \/
    (exists e f, crossing ps c q = Some (OutsideTwoEdges e f) /\ flip3 crossing s ct (face fc) = Some ([], s)) \/
    (crossing ps c q = Some Inside /\ exists s' N, flip3 crossing s ct (face fc) = Some (map fst N, s') /\
       inv3 s' /\ replaced s s' [ct; oj] N /\ length N = 3 /\
       (forall i t, In (i, t) N -> In c (points_of t) /\ In q (points_of t)) /\
       num_points s' = num_points s /\ length (faces s') = length (faces s) + 2) \/
    (exists e u o e1 e2 g1 g2, crossing ps c q = Some (OutsideOneEdge e) /\ In (oj, u) (tetras s) /\
       turned o e1 e2 ps /\ In (o, g1) t /\ In (o, g2) u /\
       (((opposing g1 = None \/ opposing g2 = None) /\ flip3 crossing s ct (face fc) = None) \/
        (exists c1 c2, opposing g1 = Some c1 /\ opposing g2 = Some c2 /\ conn_tetra c1 <> conn_tetra c2 /\
           flip3 crossing s ct (face fc) = Some ([], s)) \/
        (exists c1 c2, opposing g1 = Some c1 /\ opposing g2 = Some c2 /\ conn_tetra c1 = conn_tetra c2 /\
           exists s' N, flip3 crossing s ct (face fc) = Some (map fst N, s') /\
           inv3 s' /\ replaced s s' [ct; oj; conn_tetra c1] N /\ length N = 2 /\
           (forall i t, In (i, t) N -> In c (points_of t) /\ In q (points_of t)) /\
           num_points s' = num_points s /\ length (faces s') + 2 = length (faces s)))).
  Proof.
    intros I Ht Hc Ho Hq Hps.
    pose proof Ho as Ho'. apply (iv_opp _ _ _ I ct t c fc Ht Hc) in Ho'. destruct Ho' as [Hne [u [gc [Hu [Hgc Eg]]]]].
    assert (Hcq : c <> q) by (intros ->; apply Hq; eapply entry_point; eassumption).
    destruct (iv_faces _ _ _ I ct t c fc Ht Hc) as [ps' [P1 P2]].
    rewrite (NoDup_ids_eq _ _ _ _ (iv_fids _ _ _ I) P1 Hps) in P2. clear ps' P1.
    pose proof P2 as [x [y [z [Eps _]]]].
    assert (exists a b d, ps = [a; b; d]) as [a [b [d Eabd]]] by (destruct (flipped fc); eauto). clear Eps x y z. subst ps.
    pose proof (proj1 (proj2 (iv_corners _ _ _ I _ _ Ht))) as NDt.
    pose proof (proj1 (proj2 (iv_corners _ _ _ I _ _ Hu))) as NDu.
    destruct (face_entries s ct t c fc a b d I Ht Hc Hps) as [Ea [ta [tb [td [Hta [Htb Htd]]]]]].
    assert (Hps' : In (face gc, [a; b; d]) (faces s)) by now rewrite Eg.
    destruct (face_entries s oj u q gc a b d I Hu Hgc Hps') as [Eb [ua [ub [ud [Hua [Hub Hud]]]]]].
    assert (RUN : flip3 crossing s ct (face fc) = do kind <- crossing [a; b; d] c q;
      match kind with
      | Inside => two_to_three_flip s ct oj c q (face fc)
      | OutsideOneEdge e =>
          let o := get_point_opposite a b d e in
          let '(e1, e2) := get_points_of a b d e in
          do g1 <- find_face_opposite t o;
          do c1 <- opposing g1;
          do g2 <- find_face_opposite u o;
          do c2 <- opposing g2;
          if conn_tetra c2 =? conn_tetra c1
          then three_to_two_flip s ct oj (conn_tetra c1) q c o e1 e2
          else Some ([], s)
      | OutsideTwoEdges _ _ => Some ([], s)
      end).
    { unfold flip3. rewrite (In_arena_get _ _ _ (iv_ids _ _ _ I) Ht). cbn [bind].
    rewrite (In_arena_get _ _ _ (iv_fids _ _ _ I) Hps). cbn [bind].
    rewrite (find_face_unique t c fc); [| |exact Hc].
    2: { intros q' fi' A B. now destruct (inv_entry_unique _ _ face_ok3_perm s ct t q' fi' c fc I Ht A Hc B). }
    cbn [bind]. rewrite Ho. cbn [bind conn_tetra conn_point]. rewrite (In_arena_get _ _ _ (iv_ids _ _ _ I) Hu). cbn [bind].
    rewrite (find_point_opposite_in t c fc); [| |exact Hc].
    2: { intros q' fi' A B. now destruct (inv_entry_unique _ _ face_ok3_perm s ct t q' fi' c fc I Ht A Hc B). }
    cbn [bind]. assert (FP : find_point_opposite u (face fc) = Some q).
    { rewrite <- Eg. apply (find_point_opposite_in u q gc); [|exact Hgc].
      intros q' fi' A B. now destruct (inv_entry_unique _ _ face_ok3_perm s oj u q' fi' q gc I Hu A Hgc B). }
    rewrite FP. reflexivity. }
    rewrite RUN.
    destruct (crossing [a; b; d] c q) as [k|]; [|left; split; reflexivity]. right. cbn [bind].
    destruct k as [|e|e f].
    - right. left. split; [reflexivity|].
      destruct (two_to_three_ok s ct oj t u c q fc gc I Ht Hu (not_eq_sym Hne) Hc Hgc Eg Hcq) as [s' [N [E1 [E2 [E3 [E4 [E5 [E6 E7]]]]]]]].
      exists s', N. repeat (split; [assumption|]). assumption.
    - right. right. exists e, u.
      assert (B3 : forall o e1 e2, turned o e1 e2 [a; b; d] -> forall g1 g2, In (o, g1) t -> In (o, g2) u ->
        get_point_opposite a b d e = o -> get_points_of a b d e = (e1, e2) ->
        let run := let o := get_point_opposite a b d e in
          let '(e1, e2) := get_points_of a b d e in
          do g1 <- find_face_opposite t o;
          do c1 <- opposing g1;
          do g2 <- find_face_opposite u o;
          do c2 <- opposing g2;
          if conn_tetra c2 =? conn_tetra c1
          then three_to_two_flip s ct oj (conn_tetra c1) q c o e1 e2
          else Some ([], s) in
        (((opposing g1 = None \/ opposing g2 = None) /\ run = None) \/
        (exists c1 c2, opposing g1 = Some c1 /\ opposing g2 = Some c2 /\ conn_tetra c1 <> conn_tetra c2 /\
           run = Some ([], s)) \/
        (exists c1 c2, opposing g1 = Some c1 /\ opposing g2 = Some c2 /\ conn_tetra c1 = conn_tetra c2 /\
           exists s' N, run = Some (map fst N, s') /\
           inv3 s' /\ replaced s s' [ct; oj; conn_tetra c1] N /\ length N = 2 /\
           (forall i t, In (i, t) N -> In c (points_of t) /\ In q (points_of t)) /\
           num_points s' = num_points s /\ length (faces s') + 2 = length (faces s)))).
      { intros o e1 e2 Htu g1 g2 Hg1 Hg2 Eo Ee. rewrite Eo, Ee. intro run. unfold run. clear run.
        rewrite (find_face_opposite_in t o g1 NDt Hg1). cbn [bind].
        destruct (opposing g1) as [[k1 r1]|] eqn:O1; cbn [bind]; [|left; auto].
        rewrite (find_face_opposite_in u o g2 NDu Hg2). cbn [bind].
        destruct (opposing g2) as [[k2 r2]|] eqn:O2; cbn [bind]; [|left; auto]. cbn [conn_tetra].
        right. destruct (Nat.eqb_spec k2 k1) as [E|E].
        - right. subst k2. exists (Conn k1 r1), (Conn k1 r2). cbn [conn_tetra]. repeat (split; [reflexivity|]).
          pose proof O1 as O1'. apply (iv_opp _ _ _ I ct t o g1 Ht Hg1) in O1'. destruct O1' as [_ [w [_ [Hw _]]]].
          destruct (three_to_two_ok s ct oj k1 t u w q c o e1 e2 fc gc g1 g2 [a; b; d] r1 r2 I Ht Hu Hw (not_eq_sym Hne)
                      Hc Hgc (eq_sym Eg) (not_eq_sym Hcq) Hps' Htu Hg1 Hg2 O1 O2) as [s' [N [E1 [E2 [E3 [E4 [E5 [E6 E7]]]]]]]].
          exists s', N. repeat (split; [assumption|]). split; [|auto]. intros i t0 X. destruct (E5 i t0 X). auto.
        - left. exists (Conn k1 r1), (Conn k2 r2). cbn [conn_tetra]. repeat (split; [reflexivity|]). split; [congruence|reflexivity]. }
      destruct e.
      + exists a, b, d, ta, ua. split; [reflexivity|]. split; [exact Hu|]. split; [now left|]. split; [exact Hta|]. split; [exact Hua|].
        exact (B3 a b d (or_introl eq_refl) ta ua Hta Hua eq_refl eq_refl).
      + exists b, d, a, tb, ub. split; [reflexivity|]. split; [exact Hu|].
        assert (T : turned b d a [a; b; d]) by (unfold turned; tauto).
        split; [exact T|]. split; [exact Htb|]. split; [exact Hub|].
        exact (B3 b d a T tb ub Htb Hub eq_refl eq_refl).
      + exists d, a, b, td, ud. split; [reflexivity|]. split; [exact Hu|].
        assert (T : turned d a b [a; b; d]) by (unfold turned; tauto).
        split; [exact T|]. split; [exact Htd|]. split; [exact Hud|].
        exact (B3 d a b T td ud Htd Hud eq_refl eq_refl).
    - left. exists e, f. split; reflexivity.
  Qed.

  Lemma flip_spec3 s ct t c fc oj q new s' :
    inv3 s -> In (ct, t) (tetras s) -> In (c, fc) t -> opposing fc = Some (Conn oj q) -> ~ In q (points_of t) ->
    flip3 crossing s ct (face fc) = Some (new, s') -> flip_effect 3 face_ok3 count3 s s' ct c new.
  Proof.
    intros I Ht Hc Ho Hq E.
    pose proof Ho as Ho'. apply (iv_opp _ _ _ I ct t c fc Ht Hc) in Ho'. destruct Ho' as [Hne [u [gc [Hu [Hgc Eg]]]]].
    destruct (iv_faces _ _ _ I ct t c fc Ht Hc) as [ps [P1 P2]].
    assert (Hcu : forall u', In (oj, u') (tetras s) -> ~ In c (points_of u')).
    { intros u' Hu' X. rewrite (NoDup_ids_eq _ _ _ _ (iv_ids _ _ _ I) Hu' Hu) in X.
      destruct (iv_faces _ _ _ I oj u q gc Hu Hgc) as [ps' [Q1 Q2]]. rewrite Eg in Q1.
      rewrite <- (NoDup_ids_eq _ _ _ _ (iv_fids _ _ _ I) P1 Q1) in Q2.
      apply face_ok3_perm in P2. apply face_ok3_perm in Q2.
      apply (Permutation_in _ (Permutation_sym Q2)) in X. destruct X as [->|X].
      - apply Hq. eapply entry_point; eassumption.
      - exact (perm_nodup_head c ps _ P2 (proj1 (proj2 (iv_corners _ _ _ I _ _ Ht))) X). }
    destruct (flip3_cases s ct t c fc oj q ps I Ht Hc Ho Hq P1) as [A|[A|[A|A]]].
    1: { destruct A as [_ X]. congruence. }
    1: { destruct A as [e [f [_ X]]]. rewrite X in E. injection E as <- <-. left. auto. }
    2: { destruct A as [e [u' [o [e1 [e2 [g1 [g2 [_ [_ [_ [_ [_ A]]]]]]]]]]]]. destruct A as [A|[A|A]].
         1: { destruct A as [_ X]. congruence. }
         1: { destruct A as [c1 [c2 [_ [_ [_ X]]]]]. rewrite X in E. injection E as <- <-. left. auto. }
         destruct A as [c1 [c2 [_ [_ [_ [s1 [N [X [I1 [RP [LN [HN [NP LF]]]]]]]]]]]]]. rewrite X in E. injection E as <- <-.
         right. exists [ct; oj; conn_tetra c1], N, oj. split; [reflexivity|]. split; [intros ->; discriminate LN|]. split; [lia|].
         repeat (split; [assumption|]). split; [now left|]. split; [cbn; tauto|]. split; [exact Hcu|].
         split; [intros i t0 H0; apply (HN i t0 H0)|]. intro C. pose proof (rp_tetras _ _ _ _ RP) as LT.
         unfold count3 in *. cbn [length] in LT. lia. }
    destruct A as [_ [s1 [N [X [I1 [RP [LN [HN [NP LF]]]]]]]]]. rewrite X in E. injection E as <- <-.
    right. exists [ct; oj], N, oj. split; [reflexivity|]. split; [intros ->; discriminate LN|]. split; [lia|].
    repeat (split; [assumption|]). split; [now left|]. split; [cbn; tauto|]. split; [exact Hcu|].
    split; [intros i t0 H0; apply (HN i t0 H0)|]. intro C. pose proof (rp_tetras _ _ _ _ RP) as LT.
    unfold count3 in *. cbn [length] in LT. lia.
  Qed.
End Flip.

Lemma inv3_start : exists s, all_encompassing_3d = Some s /\ inv3 s /\ last_ok s /\ count3 s /\ num_points s = 4.
Proof.
  eexists. split; [vm_compute; reflexivity|]. split; [|split; [intros i; discriminate|split; reflexivity]].
  constructor; cbn [tetras faces next_tetra next_face num_points map fst].
  - repeat constructor; cbn; tauto.
  - repeat constructor; cbn; intuition discriminate.
  - intros i [<-|[]]. lia.
  - intros f [<-|[<-|[<-|[<-|[]]]]]; lia.
  - intros i t [X|[]]. injection X as <- <-. split; [reflexivity|]. split.
    + repeat constructor; cbn; intuition discriminate.
    + cbn. intros p [<-|[<-|[<-|[<-|[]]]]]; lia.
  - intros i t q fi [X|[]] Y. injection X as <- <-.
    destruct Y as [Y|[Y|[Y|[Y|[]]]]]; injection Y as <- <-; cbn [face flipped points_of map fst].
    + exists [2; 1; 3]. split; [cbn; tauto|]. exists 2, 1, 3. split; [reflexivity|even].
    + exists [2; 3; 0]. split; [cbn; tauto|]. exists 2, 3, 0. split; [reflexivity|even].
    + exists [0; 3; 1]. split; [cbn; tauto|]. exists 0, 3, 1. split; [reflexivity|even].
    + exists [0; 1; 2]. split; [cbn; tauto|]. exists 0, 1, 2. split; [reflexivity|even].
  - intros i t q fi [X|[]] Y j r. injection X as <- <-.
    assert (E : opposing fi = None) by (destruct Y as [Y|[Y|[Y|[Y|[]]]]]; injection Y as <- <-; reflexivity).
    rewrite E. split; [discriminate|]. intros [Hne [u [gi [[X|[]] _]]]]. injection X as <- <-. congruence.
  - intros i t q fi j u r gi [X|[]] _ [Y|[]] _ _ Hne. injection X as <- <-. injection Y as <- <-. congruence.
  - intros f ps H. exists 0. destruct H as [X|[X|[X|[X|[]]]]]; injection X as <- <-;
      [exists 0|exists 1|exists 2|exists 3]; do 2 eexists; (split; [now left|]); (split; [|]); cbn; eauto 6.
  - intros p Hp. exists 0. eexists. split; [now left|]. cbn. lia.
  - intros i j t u [X|[]] [Y|[]]. injection X as <- <-. injection Y as <- <-. constructor.
Qed.

Lemma inv3_oriented s : inv3 s -> oriented3 s.
Proof.
  intros I i a fa b fb c fc d fd H tri.
  assert (X : forall q fi x y z, In (q, fi) [(a, fa); (b, fb); (c, fc); (d, fd)] -> even4 [x; y; z; q] [a; b; c; d] -> tri fi x y z).
  { intros q fi x y z Hq E. destruct (face3 s i _ q fi x y z I H Hq E) as [ps [P1 [u [v [w [P2 P3]]]]]].
    exists ps. split; [exact P1|]. subst ps. unfold turned.
    destruct P3 as [[-> [-> ->]]|[[-> [-> ->]]|[-> [-> ->]]]]; destruct (flipped fi); tauto. }
  split; [|split; [|split]].
  - apply (X a); [cbn; tauto|even].
  - apply (X b); [cbn; tauto|even].
  - apply (X c); [cbn; tauto|even].
  - apply (X d); [cbn; tauto|even].
Qed.
