(** What the flips in space put in place of what, corner by corner. *)
From Coq Require Import List Arith Lia Bool Permutation.
From Verif Require Import Geometry_Model Delaunay_Model Delaunay_Spec DelaunayBuild_Proofs DelaunaySurgery_Proofs DelaunayPlan_Proofs
  Delaunay2_Proofs DelaunayInsert_Proofs Delaunay3_Proofs Delaunay23_Proofs Delaunay32_Proofs Delaunay3Insert_Proofs.
Import ListNotations.

Ltac even_to E := eapply even4_trans; [|exact E]; even.
(** [x], [y], [z] turn in the positive sense as seen from [p1]. *)
Lemma two_to_three_exact s ja jb ta tb p1 p2 f1 f2 a b c : inv3 s -> In (ja, ta) (tetras s) -> In (jb, tb) (tetras s) -> ja <> jb ->
  In (p1, f1) ta -> In (p2, f2) tb -> face f2 = face f1 -> p1 <> p2 -> In (face f1, [a; b; c]) (faces s) ->
  forall x y, x = (if flipped f1 then b else a) -> y = (if flipped f1 then a else b) ->
  exists s' N n1 n2 n3 T1 T2 T3, two_to_three_flip s ja jb p1 p2 (face f1) = Some (map fst N, s') /\ inv3 s' /\ replaced s s' [ja; jb] N /\ (forall e, In e N <-> e = (n1, T1) \/ e = (n2, T2) \/ e = (n3, T3)) /\
    even4 [x; y; c; p1] (points_of ta) /\ even4 [y; x; c; p2] (points_of tb) /\
    even4 [x; y; p2; p1] (points_of T1) /\ even4 [y; c; p2; p1] (points_of T2) /\ even4 [c; x; p2; p1] (points_of T3) /\
    num_points s' = num_points s.
Proof.
  intros I Ha Hb Hne H1 H2 Ef Hp P1 x y Ex Ey.
  destruct (face_entries s ja ta p1 f1 a b c I Ha H1 P1) as [Ea [aa [ab [ac [Haa [Hab Hac]]]]]].
  pose proof P1 as P1'. rewrite <- Ef in P1'.
  destruct (face_entries s jb tb p2 f2 a b c I Hb H2 P1') as [Eb [ba [bb [bc [Hba [Hbb Hbc]]]]]].
  pose proof (iv_flip _ _ _ I ja ta p1 f1 jb tb p2 f2 Ha H1 Hb H2 (eq_sym Ef) Hne) as Fl.
  pose proof (two_to_three_run s I ja jb p1 p2 a b c ta tb f1 aa ab ac ba bb bc Ha Hb Hne H1 Haa Hab Hac Hba Hbb Hbc P1) as RUN.
  rewrite Fl in Eb. destruct (flipped f1) eqn:E1; cbn [negb] in Eb, Fl; subst x y.
  - destruct (flip23_core s I ja jb ja jb p1 p2 a b c ta tb true f1 aa ab ac f2 ba bb bc Ha Hb Hne
                (or_introl (conj eq_refl eq_refl)) H1 Haa Hab Hac H2 Hba Hbb Hbc Ef Ea Eb Hp P1)
      as [s1 [s' [E2 [E3 [E4 [E5 [E6 E7]]]]]]].
    cbn [negb] in RUN, E2, E3, E5. rewrite E2 in RUN. cbn [bind] in RUN. rewrite E3 in RUN. cbn [bind] in RUN.
    match type of E5 with replaced _ _ _ [(?n1, ?T1); (?n2, ?T2); (?n3, ?T3)] => exists s', [(n1, T1); (n2, T2); (n3, T3)], n3, n2, n1, T3, T2, T1 end.
    split; [exact RUN|]. split; [exact E4|]. split; [exact E5|].
    split; [intro e; cbn; intuition congruence|]. split; [exact Ea|]. split; [exact Eb|].
    split; [even|]. split; [even|]. split; [even|]. exact E6.
  - rewrite <- Ef in P1.
    destruct (flip23_core s I ja jb jb ja p2 p1 a b c tb ta false f2 ba bb bc f1 aa ab ac Hb Ha (not_eq_sym Hne)
                (or_intror (conj eq_refl eq_refl)) H2 Hba Hbb Hbc H1 Haa Hab Hac (eq_sym Ef) Eb Ea (not_eq_sym Hp) P1)
      as [s1 [s' [E2 [E3 [E4 [E5 [E6 E7]]]]]]].
    rewrite Ef in E2. cbn [negb] in RUN, E2, E3, E5. rewrite E2 in RUN. cbn [bind] in RUN. rewrite E3 in RUN. cbn [bind] in RUN.
    match type of E5 with replaced _ _ _ [(?n1, ?T1); (?n2, ?T2); (?n3, ?T3)] => exists s', [(n1, T1); (n2, T2); (n3, T3)], n3, n1, n2, T3, T1, T2 end.
    split; [exact RUN|]. split; [exact E4|]. split; [exact E5|].
    split; [intro e; cbn; intuition congruence|]. split; [exact Ea|]. split; [exact Eb|].
    split; [even|]. split; [even|]. split; [even|]. exact E6.
Qed.

(** [z], [y1], [y2] turn in the positive sense as seen from [p2]. *)
Lemma three_to_two_exact s i1 i2 i3 t1 t2 t3 p1 p2 z e1 e2 f2 f1 g1 g2 ps q r :
  inv3 s -> In (i1, t1) (tetras s) -> In (i2, t2) (tetras s) -> In (i3, t3) (tetras s) -> i1 <> i2 ->
  In (p2, f2) t1 -> In (p1, f1) t2 -> face f2 = face f1 -> p1 <> p2 ->
  In (face f1, ps) (faces s) -> turned z e1 e2 ps ->
  In (z, g1) t1 -> In (z, g2) t2 -> opposing g1 = Some (Conn i3 q) -> opposing g2 = Some (Conn i3 r) ->
  forall y1 y2, y1 = (if flipped f2 then e2 else e1) -> y2 = (if flipped f2 then e1 else e2) ->
  exists s' N nA nB TA TB, three_to_two_flip s i1 i2 i3 p1 p2 z e1 e2 = Some (map fst N, s') /\ inv3 s' /\ replaced s s' [i1; i2; i3] N /\ (forall e, In e N <-> e = (nA, TA) \/ e = (nB, TB)) /\
    even4 [z; y1; y2; p2] (points_of t1) /\ even4 [y1; z; y2; p1] (points_of t2) /\ even4 [y2; y1; p1; p2] (points_of t3) /\
    even4 [z; y1; p1; p2] (points_of TA) /\ even4 [y2; z; p1; p2] (points_of TB) /\ num_points s' = num_points s.
Proof.
  intros I H1 H2 H3 N12 Hp2 Hp1 Ef Hp Hps Htu Hg1 Hg2 O1 O2 y1 y2 Y1 Y2.
  apply (iv_opp _ _ _ I i1 t1 z g1 H1 Hg1) in O1. destruct O1 as [N31 [u [c1 [Hu [Hc1 Ec1]]]]].
  rewrite (NoDup_ids_eq _ _ _ _ (iv_ids _ _ _ I) Hu H3) in Hc1. clear u Hu.
  apply (iv_opp _ _ _ I i2 t2 z g2 H2 Hg2) in O2. destruct O2 as [N32 [u [c2 [Hu [Hc2 Ec2]]]]].
  rewrite (NoDup_ids_eq _ _ _ _ (iv_ids _ _ _ I) Hu H3) in Hc2. clear u Hu.
  assert (Hps2 : In (face f2, ps) (faces s)) by now rewrite Ef.
  pose proof (iv_flip _ _ _ I i2 t2 p1 f1 i1 t1 p2 f2 H2 Hp1 H1 Hp2 (eq_sym Ef) (not_eq_sym N12)) as Fl.
  (* the two tetras in terms of z, e1, e2 *)
  assert (EN : forall j t p f, In (j, t) (tetras s) -> In (p, f) t -> In (face f, ps) (faces s) ->
    even4 (if flipped f then [e1; z; e2; p] else [z; e1; e2; p]) (points_of t) /\
    exists h1 h2, In (e1, h1) t /\ In (e2, h2) t).
  { intros j t p f Hj Hf Hfp. destruct Htu as [-> |[-> | ->]].
    - destruct (face_entries s j t p f _ _ _ I Hj Hf Hfp) as [E [ga [gb [gc [A [B C]]]]]]. split; [exact E|eauto].
    - destruct (face_entries s j t p f _ _ _ I Hj Hf Hfp) as [E [ga [gb [gc [A [B C]]]]]]. split; [|eauto].
      destruct (flipped f); (eapply even4_trans; [|exact E]); even.
    - destruct (face_entries s j t p f _ _ _ I Hj Hf Hfp) as [E [ga [gb [gc [A [B C]]]]]]. split; [|eauto].
      destruct (flipped f); (eapply even4_trans; [|exact E]); even. }
  destruct (EN i1 t1 p2 f2 H1 Hp2 Hps2) as [E1 [a1' [a2' [Ha1 Ha2]]]].
  destruct (EN i2 t2 p1 f1 H2 Hp1 Hps) as [E2 [b1' [b2' [Hb1 Hb2]]]]. clear EN.
  rewrite Fl in E1.
  (* the corners of the third *)
  assert (P12 : even4 [e1; e2; p2; z] (points_of t1) \/ even4 [e2; e1; p2; z] (points_of t1)).
  { destruct (flipped f1); cbn [negb] in E1; [right|left]; (eapply even4_trans; [|exact E1]); even. }
  assert (P21 : even4 [e1; e2; p1; z] (points_of t2) \/ even4 [e2; e1; p1; z] (points_of t2)).
  { destruct (flipped f1); cbn [negb] in E2; [left|right]; (eapply even4_trans; [|exact E2]); even. }
  assert (Q1 : forall x, In x (points_of t3) <-> x = e1 \/ x = e2 \/ x = p2 \/ x = q).
  { intro x. destruct P12 as [P|P]; pose proof (neighbour3 s i1 t1 z g1 i3 t3 q c1 _ _ _ I H1 Hg1 P H3 Hc1 Ec1 (not_eq_sym N31)) as Z;
      rewrite (even4_in _ _ _ _ _ _ Z); tauto. }
  assert (Q2 : forall x, In x (points_of t3) <-> x = e1 \/ x = e2 \/ x = p1 \/ x = r).
  { intro x. destruct P21 as [P|P]; pose proof (neighbour3 s i2 t2 z g2 i3 t3 r c2 _ _ _ I H2 Hg2 P H3 Hc2 Ec2 (not_eq_sym N32)) as Z;
      rewrite (even4_in _ _ _ _ _ _ Z); tauto. }
  pose proof (proj1 (proj2 (iv_corners _ _ _ I _ _ H1))) as ND1.
  pose proof (proj1 (proj2 (iv_corners _ _ _ I _ _ H2))) as ND2.
  assert (D1 : p2 <> e1 /\ p2 <> e2).
  { destruct P12 as [P|P]; destruct (even4_nodup _ _ _ _ _ P ND1) as [A1 [A2 [A3 [A4 [A5 A6]]]]]; split; congruence. }
  assert (D2 : p1 <> e1 /\ p1 <> e2).
  { destruct P21 as [P|P]; destruct (even4_nodup _ _ _ _ _ P ND2) as [A1 [A2 [A3 [A4 [A5 A6]]]]]; split; congruence. }
  assert (Eq : q = p1).
  { assert (X : In p1 (points_of t3)) by (apply Q2; tauto). apply Q1 in X. destruct D2. intuition congruence. }
  assert (Er : r = p2).
  { assert (X : In p2 (points_of t3)) by (apply Q1; tauto). apply Q2 in X. destruct D1. intuition congruence. }
  subst q r.
  assert (X1 : exists h, In (e1, h) t3) by (apply points_entry, Q1; tauto). destruct X1 as [d1 Hd1].
  assert (X2 : exists h, In (e2, h) t3) by (apply points_entry, Q1; tauto). destruct X2 as [d2 Hd2].
  pose proof (three_to_two_run s I i1 i2 i3 p1 p2 z e1 e2 t1 t2 t3 g1 a1' a2' f1 g2 b1' b2' c2 d1 d2
    H1 H2 H3 N12 (not_eq_sym N31) (not_eq_sym N32) Hg1 Ha1 Ha2 Hp1 Hg2 Hb1 Hb2 Hc2 Hd1 Hd2 (eq_sym Ec2)) as RUN.
  rewrite Ec2 in RUN.
  destruct (flipped f1) eqn:Efl; cbn [negb] in E1, E2, RUN, Fl; rewrite Fl in Y1, Y2; subst y1 y2.
  - assert (OZ : even4 [e2; e1; p1; p2] (points_of t3)).
    { apply (neighbour3 s i2 t2 z g2 i3 t3 p2 c2 e1 e2 p1 I H2 Hg2); auto. eapply even4_trans; [|exact E2]. even. }
    destruct (flip32_core s I i1 i2 i2 i1 i3 p1 p2 z e1 e2 t2 t1 t3 true (face g2) (face g1)
      f1 g2 b1' b2' f2 g1 a1' a2' c1 c2 d1 d2 H2 H1 H3 (not_eq_sym N12) (not_eq_sym N32) (not_eq_sym N31)
      (or_introl (conj eq_refl eq_refl)) (or_introl (conj eq_refl eq_refl)) Hp1 Hg2 Hb1 Hb2 Hp2 Hg1 Ha1 Ha2 Hc1 Hc2 Hd1 Hd2
      Ef Ec2 Ec1 E2 E1 OZ Hp) as [s1 [s' [F1 [F2 [F3 [F4 [F5 F6]]]]]]].
    cbn [negb] in F1, F2, F4. rewrite F1 in RUN. cbn [bind] in RUN. rewrite F2 in RUN. cbn [bind] in RUN.
    match type of F4 with replaced _ _ _ [(?n1, ?T1); (?n2, ?T2)] => exists s', [(n1, T1); (n2, T2)], n1, n2, T1, T2 end.
    split; [exact RUN|]. split; [exact F3|]. split; [exact F4|].
    split; [intro e; cbn; intuition congruence|]. split; [even_to E1|]. split; [even_to E2|]. split; [even_to OZ|].
    split; [even|]. split; [even|]. exact F5.
  - assert (OZ : even4 [e2; e1; p2; p1] (points_of t3)).
    { apply (neighbour3 s i1 t1 z g1 i3 t3 p1 c1 e1 e2 p2 I H1 Hg1); auto. eapply even4_trans; [|exact E1]. even. }
    destruct (flip32_core s I i1 i2 i1 i2 i3 p2 p1 z e1 e2 t1 t2 t3 false (face g2) (face g1)
      f2 g1 a1' a2' f1 g2 b1' b2' c2 c1 d1 d2 H1 H2 H3 N12 (not_eq_sym N31) (not_eq_sym N32)
      (or_intror (conj eq_refl eq_refl)) (or_intror (conj eq_refl eq_refl)) Hp2 Hg1 Ha1 Ha2 Hp1 Hg2 Hb1 Hb2 Hc2 Hc1 Hd1 Hd2
      (eq_sym Ef) Ec1 Ec2 E1 E2 OZ (not_eq_sym Hp)) as [s1 [s' [F1 [F2 [F3 [F4 [F5 F6]]]]]]].
    rewrite Ef in F1. cbn [negb] in F1, F2, F4. rewrite F1 in RUN. cbn [bind] in RUN. rewrite F2 in RUN. cbn [bind] in RUN.
    match type of F4 with replaced _ _ _ [(?n1, ?T1); (?n2, ?T2)] => exists s', [(n1, T1); (n2, T2)], n2, n1, T2, T1 end.
    split; [exact RUN|]. split; [exact F3|]. split; [exact F4|].
    split; [intro e; cbn; intuition congruence|]. split; [even_to E1|]. split; [even_to E2|]. split; [even_to OZ|].
    split; [even|]. split; [even|]. exact F5.
Qed.
