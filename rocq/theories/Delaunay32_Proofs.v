(** The flip of three tetrahedra around an edge into two. *)
From Coq Require Import List Arith Lia Bool Permutation.
From Verif Require Import Geometry_Model Delaunay_Model Delaunay_Spec DelaunayBuild_Proofs DelaunaySurgery_Proofs DelaunayPlan_Proofs
  Delaunay2_Proofs Delaunay3_Proofs Delaunay23_Proofs.
Import ListNotations.

(** A face has at most two owners. *)
Lemma two_owners s j t x fi k u y gi i w z hi : inv3 s -> In (j, t) (tetras s) -> In (x, fi) t ->
  In (k, u) (tetras s) -> In (y, gi) u -> j <> k -> In (i, w) (tetras s) -> In (z, hi) w ->
  face gi = face fi -> face hi = face fi -> i = j \/ i = k.
Proof.
  intros I Ht Hx Hu Hy Hne Hw Hz E1 E2. destruct (Nat.eq_dec i j) as [->|Ni]; [now left|]. right.
  assert (A : opposing fi = Some (Conn k y)).
  { apply (iv_opp _ _ _ I j t x fi Ht Hx). split; [congruence|]. exists u, gi. auto. }
  assert (B : opposing fi = Some (Conn i z)).
  { apply (iv_opp _ _ _ I j t x fi Ht Hx). split; [exact Ni|]. exists w, hi. auto. }
  congruence.
Qed.
(** Faces of different tetras differ if one has a corner that the other tetra does not have. *)
Lemma face_diff s j t x fi k u y gi r : inv3 s -> In (j, t) (tetras s) -> In (x, fi) t ->
  In (k, u) (tetras s) -> In (y, gi) u -> In r (points_of t) -> x <> r -> ~ In r (points_of u) -> face fi <> face gi.
Proof.
  intros I Ht Hx Hu Hy Hr Hne Hn D.
  destruct (iv_faces _ _ _ I j t x fi Ht Hx) as [ps [P1 P2]]. apply face_ok3_perm in P2.
  destruct (iv_faces _ _ _ I k u y gi Hu Hy) as [ps' [Q1 Q2]]. apply face_ok3_perm in Q2.
  rewrite <- D in Q1. rewrite <- (NoDup_ids_eq _ _ _ _ (iv_fids _ _ _ I) P1 Q1) in Q2.
  apply Hn, (Permutation_in _ Q2). right.
  apply (Permutation_in _ (Permutation_sym P2)) in Hr. destruct Hr as [Hr|Hr]; [congruence|exact Hr].
Qed.
Lemma In_remove3 {A} (a : arena A) i1 i2 i3 j v : In (j, v) a -> ~ In j [i1; i2; i3] ->
  In (j, v) (arena_remove (arena_remove (arena_remove a i1) i2) i3).
Proof. intros H N. cbn in N. repeat apply In_remove; try exact H; intro; apply N; subst; tauto. Qed.
Lemma arena_remove_remove3 {A} (a : arena A) i j k :
  arena_remove (arena_remove (arena_remove a i) j) k = filter (fun e => negb (existsb (Nat.eqb (fst e)) [i; j; k])) a.
Proof.
  unfold arena_remove. rewrite !filter_filter. apply filter_ext. intro e. cbn [existsb]. rewrite orb_false_r.
  now rewrite !negb_orb, andb_assoc.
Qed.

Section Flip32.
  Variable s : triangulation.
  Hypothesis I : inv3 s.
  Variables (i1 i2 jx jy jz X Y z e1 e2 : nat) (tX tY tZ : tetra) (fl : bool) (r1 r2 : nat).
  Variables (xx xz x1 x2 yy yz y1 y2 zx zy z1 z2 : face_info).
  Hypothesis HX : In (jx, tX) (tetras s).
  Hypothesis HY : In (jy, tY) (tetras s).
  Hypothesis HZ : In (jz, tZ) (tetras s).
  Hypothesis Nxy : jx <> jy.
  Hypothesis Nxz : jx <> jz.
  Hypothesis Nyz : jy <> jz.
  Hypothesis HR : (i1 = jy /\ i2 = jx) \/ (i1 = jx /\ i2 = jy).
  Hypothesis HG : (r1 = face xz /\ r2 = face yz) \/ (r1 = face yz /\ r2 = face xz).
  Hypothesis Hxx : In (X, xx) tX.
  Hypothesis Hxz : In (z, xz) tX.
  Hypothesis Hx1 : In (e1, x1) tX.
  Hypothesis Hx2 : In (e2, x2) tX.
  Hypothesis Hyy : In (Y, yy) tY.
  Hypothesis Hyz : In (z, yz) tY.
  Hypothesis Hy1 : In (e1, y1) tY.
  Hypothesis Hy2 : In (e2, y2) tY.
  Hypothesis Hzx : In (X, zx) tZ.
  Hypothesis Hzy : In (Y, zy) tZ.
  Hypothesis Hz1 : In (e1, z1) tZ.
  Hypothesis Hz2 : In (e2, z2) tZ.
  Hypothesis Exy : face yy = face xx.
  Hypothesis Exz : face zy = face xz.
  Hypothesis Eyz : face zx = face yz.
  Hypothesis OX : even4 [e1; z; e2; X] (points_of tX).
  Hypothesis OY : even4 [z; e1; e2; Y] (points_of tY).
  Hypothesis OZ : even4 [e2; e1; X; Y] (points_of tZ).
  Hypothesis HXY : X <> Y.
  Let n1 := next_tetra s.
  Let n2 := S n1.
  Let m := next_face s.
  Let F : arena (list nat) := [(m, if fl then [X; Y; z] else [Y; X; z])].
  Let TA : tetra := [(X, y2); (Y, x2); (z, z2); (e1, new_face m (negb fl))].
  Let TB : tetra := [(Y, x1); (X, y1); (z, z1); (e2, new_face m fl)].
  Let N : arena tetra := [(n1, TA); (n2, TB)].
  Let L : list event := [(n1, m, Conn n2 e2); (n2, m, Conn n1 e1)].
  Let OB : list (nat * nat * nat * nat * face_info) :=
    [(jy, e2, n1, X, y2); (jx, e2, n1, Y, x2); (jz, e2, n1, z, z2);
     (jx, e1, n2, Y, x1); (jy, e1, n2, X, y1); (jz, e1, n2, z, z1)].
  Let PR : list (nat * (nat * nat) * (nat * nat)) := [(m, (n1, e1), (n2, e2))].
  Let G : list nat := [r1; r2; face xx].
  Let base : triangulation :=
    Triangulation (arena_remove (arena_remove (arena_remove (tetras s) i1) i2) jz) n1
      (arena_remove (arena_remove (arena_remove (faces s) r1) r2) (face xx) ++ F)
      (S m) (num_points s) (last_insertion s).

  Lemma flip32_distinct : (X <> z /\ X <> e1 /\ X <> e2) /\ (Y <> z /\ Y <> e1 /\ Y <> e2) /\ (z <> e1 /\ z <> e2 /\ e1 <> e2).
  Proof.
    destruct (even4_nodup _ _ _ _ _ OX (proj1 (proj2 (iv_corners _ _ _ I _ _ HX)))) as [A1 [A2 [A3 [A4 [A5 A6]]]]].
    destruct (even4_nodup _ _ _ _ _ OY (proj1 (proj2 (iv_corners _ _ _ I _ _ HY)))) as [B1 [B2 [B3 [B4 [B5 B6]]]]].
    repeat split; auto.
  Qed.
  Lemma flip32_X x fi : In (x, fi) tX -> (x, fi) = (X, xx) \/ (x, fi) = (z, xz) \/ (x, fi) = (e1, x1) \/ (x, fi) = (e2, x2).
  Proof.
    intro H. pose proof (proj1 (proj2 (iv_corners _ _ _ I _ _ HX))) as ND.
    pose proof (entry_point _ _ _ H) as P. apply (even4_in _ _ _ _ _ _ OX) in P.
    destruct P as [->|[->|[->| ->]]].
    - rewrite (NoDup_ids_eq tX _ _ _ ND H Hx1). auto.
    - rewrite (NoDup_ids_eq tX _ _ _ ND H Hxz). auto.
    - rewrite (NoDup_ids_eq tX _ _ _ ND H Hx2). auto.
    - rewrite (NoDup_ids_eq tX _ _ _ ND H Hxx). auto.
  Qed.
  Lemma flip32_Y x fi : In (x, fi) tY -> (x, fi) = (Y, yy) \/ (x, fi) = (z, yz) \/ (x, fi) = (e1, y1) \/ (x, fi) = (e2, y2).
  Proof.
    intro H. pose proof (proj1 (proj2 (iv_corners _ _ _ I _ _ HY))) as ND.
    pose proof (entry_point _ _ _ H) as P. apply (even4_in _ _ _ _ _ _ OY) in P.
    destruct P as [->|[->|[->| ->]]].
    - rewrite (NoDup_ids_eq tY _ _ _ ND H Hyz). auto.
    - rewrite (NoDup_ids_eq tY _ _ _ ND H Hy1). auto.
    - rewrite (NoDup_ids_eq tY _ _ _ ND H Hy2). auto.
    - rewrite (NoDup_ids_eq tY _ _ _ ND H Hyy). auto.
  Qed.
  Lemma flip32_Z x fi : In (x, fi) tZ -> (x, fi) = (X, zx) \/ (x, fi) = (Y, zy) \/ (x, fi) = (e1, z1) \/ (x, fi) = (e2, z2).
  Proof.
    intro H. pose proof (proj1 (proj2 (iv_corners _ _ _ I _ _ HZ))) as ND.
    pose proof (entry_point _ _ _ H) as P. apply (even4_in _ _ _ _ _ _ OZ) in P.
    destruct P as [->|[->|[->| ->]]].
    - rewrite (NoDup_ids_eq tZ _ _ _ ND H Hz2). auto.
    - rewrite (NoDup_ids_eq tZ _ _ _ ND H Hz1). auto.
    - rewrite (NoDup_ids_eq tZ _ _ _ ND H Hzx). auto.
    - rewrite (NoDup_ids_eq tZ _ _ _ ND H Hzy). auto.
  Qed.
  Lemma flip32_faces :
    (exists ps, In (face x1, ps) (faces s) /\ turns X e2 z ps (flipped x1)) /\
    (exists ps, In (face x2, ps) (faces s) /\ turns z e1 X ps (flipped x2)) /\
    (exists ps, In (face y1, ps) (faces s) /\ turns e2 Y z ps (flipped y1)) /\
    (exists ps, In (face y2, ps) (faces s) /\ turns e1 z Y ps (flipped y2)) /\
    (exists ps, In (face z1, ps) (faces s) /\ turns X Y e2 ps (flipped z1)) /\
    (exists ps, In (face z2, ps) (faces s) /\ turns Y X e1 ps (flipped z2)).
  Proof.
    repeat split.
    - eapply (face3 s jx tX e1 x1); eauto. eapply even4_trans; [|exact OX]. even.
    - eapply (face3 s jx tX e2 x2); eauto. eapply even4_trans; [|exact OX]. even.
    - eapply (face3 s jy tY e1 y1); eauto. eapply even4_trans; [|exact OY]. even.
    - eapply (face3 s jy tY e2 y2); eauto. eapply even4_trans; [|exact OY]. even.
    - eapply (face3 s jz tZ e1 z1); eauto. eapply even4_trans; [|exact OZ]. even.
    - eapply (face3 s jz tZ e2 z2); eauto. eapply even4_trans; [|exact OZ]. even.
  Qed.
  Lemma flip32_neq : NoDup [face xx; face xz; face yz; face y2; face x2; face z2; face x1; face y1; face z1].
  Proof.
    destruct flip32_distinct as [[D1 [D2 D3]] [[D4 [D5 D6]] [D7 [D8 D9]]]].
    assert (XX : forall x fi y gi, In (x, fi) tX -> In (y, gi) tX -> x <> y -> face fi <> face gi).
    { intros x fi y gi A B C D. apply C. now destruct (inv_entry_unique _ _ face_ok3_perm s jx tX x fi y gi I HX A B D). }
    assert (YY : forall x fi y gi, In (x, fi) tY -> In (y, gi) tY -> x <> y -> face fi <> face gi).
    { intros x fi y gi A B C D. apply C. now destruct (inv_entry_unique _ _ face_ok3_perm s jy tY x fi y gi I HY A B D). }
    assert (ZZ : forall x fi y gi, In (x, fi) tZ -> In (y, gi) tZ -> x <> y -> face fi <> face gi).
    { intros x fi y gi A B C D. apply C. now destruct (inv_entry_unique _ _ face_ok3_perm s jz tZ x fi y gi I HZ A B D). }
    assert (XY : forall x fi y gi, In (x, fi) tX -> In (y, gi) tY -> x <> X -> face fi <> face gi).
    { intros x fi y gi A B C. apply (face_diff s jx tX x fi jy tY y gi X I HX A HY B (entry_point _ _ _ Hxx) C).
      intro E. apply (even4_in _ _ _ _ _ _ OY) in E. intuition congruence. }
    assert (XZ : forall x fi y gi, In (x, fi) tX -> In (y, gi) tZ -> x <> z -> face fi <> face gi).
    { intros x fi y gi A B C. apply (face_diff s jx tX x fi jz tZ y gi z I HX A HZ B (entry_point _ _ _ Hxz) C).
      intro E. apply (even4_in _ _ _ _ _ _ OZ) in E. intuition congruence. }
    assert (YX : forall x fi y gi, In (x, fi) tY -> In (y, gi) tX -> x <> Y -> face fi <> face gi).
    { intros x fi y gi A B C. apply (face_diff s jy tY x fi jx tX y gi Y I HY A HX B (entry_point _ _ _ Hyy) C).
      intro E. apply (even4_in _ _ _ _ _ _ OX) in E. intuition congruence. }
    assert (YZ : forall x fi y gi, In (x, fi) tY -> In (y, gi) tZ -> x <> z -> face fi <> face gi).
    { intros x fi y gi A B C. apply (face_diff s jy tY x fi jz tZ y gi z I HY A HZ B (entry_point _ _ _ Hyz) C).
      intro E. apply (even4_in _ _ _ _ _ _ OZ) in E. intuition congruence. }
    assert (ZX : forall x fi y gi, In (x, fi) tZ -> In (y, gi) tX -> x <> Y -> face fi <> face gi).
    { intros x fi y gi A B C. apply (face_diff s jz tZ x fi jx tX y gi Y I HZ A HX B (entry_point _ _ _ Hzy) C).
      intro E. apply (even4_in _ _ _ _ _ _ OX) in E. intuition congruence. }
    assert (ZY : forall x fi y gi, In (x, fi) tZ -> In (y, gi) tY -> x <> X -> face fi <> face gi).
    { intros x fi y gi A B C. apply (face_diff s jz tZ x fi jy tY y gi X I HZ A HY B (entry_point _ _ _ Hzx) C).
      intro E. apply (even4_in _ _ _ _ _ _ OY) in E. intuition congruence. }
    assert (W : forall (f : nat) l, (forall g, In g l -> f <> g) -> ~ In f l) by (intros f l A B; exact (A f B eq_refl)).
    Ltac neq32 H1 H2 H3 H4 H5 H6 H7 H8 H9 :=
      first [solve [eapply H1; [eassumption|eassumption|congruence]]|solve [eapply H2; [eassumption|eassumption|congruence]]
            |solve [eapply H3; [eassumption|eassumption|congruence]]|solve [eapply H4; [eassumption|eassumption|congruence]]
            |solve [eapply H5; [eassumption|eassumption|congruence]]|solve [eapply H6; [eassumption|eassumption|congruence]]
            |solve [eapply H7; [eassumption|eassumption|congruence]]|solve [eapply H8; [eassumption|eassumption|congruence]]
            |solve [eapply H9; [eassumption|eassumption|congruence]]].
    repeat (apply NoDup_cons; [apply W; cbn [In]; intros g V;
      repeat (destruct V as [<-|V]; [first [neq32 XX YY ZZ XY XZ YX YZ ZX ZY|apply not_eq_sym; neq32 XX YY ZZ XY XZ YX YZ ZX ZY]|]); contradiction|]).
    apply NoDup_nil.
  Qed.

  Lemma flip32_G f : In f G <-> f = face xx \/ f = face xz \/ f = face yz.
  Proof. unfold G. cbn. destruct HG as [[-> ->]|[-> ->]]; intuition congruence. Qed.

  Lemma flip32_plan : plan 3 face_ok3 s base [i1; i2; jz] G F N L OB PR.
  Proof.
    destruct flip32_distinct as [[D1 [D2 D3]] [[D4 [D5 D6]] [D7 [D8 D9]]]].
    pose proof flip32_neq as ND. inversion ND as [|? ? ND1 NDa]; subst. inversion NDa as [|? ? ND2 NDb]; subst.
    inversion NDb as [|? ? ND3 NDc]; subst. clear ND NDa NDb. cbn [In] in ND1, ND2, ND3.
    destruct flip32_faces as [P1 [P2 [P3 [P4 [P5 P6]]]]].
    assert (LX : forall x fi, In (x, fi) tX -> face fi < m) by (intros x fi; apply (face_lt _ _ s I jx tX x fi HX)).
    assert (LY : forall x fi, In (x, fi) tY -> face fi < m) by (intros x fi; apply (face_lt _ _ s I jy tY x fi HY)).
    assert (LZ : forall x fi, In (x, fi) tZ -> face fi < m) by (intros x fi; apply (face_lt _ _ s I jz tZ x fi HZ)).
    pose proof (LX _ _ Hx1) as L1. pose proof (LX _ _ Hx2) as L2. pose proof (LY _ _ Hy1) as L3.
    pose proof (LY _ _ Hy2) as L4. pose proof (LZ _ _ Hz1) as L5. pose proof (LZ _ _ Hz2) as L6. clear LX LY LZ.
    assert (NP : X < num_points s /\ Y < num_points s /\ z < num_points s /\ e1 < num_points s /\ e2 < num_points s).
    { pose proof (proj2 (proj2 (iv_corners _ _ _ I _ _ HX))) as A. pose proof (proj2 (proj2 (iv_corners _ _ _ I _ _ HY))) as B.
      repeat split; [apply A|apply B|apply A|apply A|apply A]; eapply entry_point; eassumption. }
    assert (NG : ~ In (face x1) G /\ ~ In (face x2) G /\ ~ In (face y1) G /\ ~ In (face y2) G /\ ~ In (face z1) G /\ ~ In (face z2) G).
    { repeat split; intro E; apply flip32_G in E; destruct E as [E|[E|E]];
        ((apply ND1; auto 12; fail) || (apply ND2; auto 12; fail) || (apply ND3; auto 12; fail)). }
    clear ND1 ND2 ND3. destruct NG as [G1 [G2 [G3 [G4 [G5 G6]]]]].
    assert (HRR : forall r x fi, inR s [i1; i2; jz] r x fi ->
              (r = jx /\ In (x, fi) tX) \/ (r = jy /\ In (x, fi) tY) \/ (r = jz /\ In (x, fi) tZ)).
    { intros r x fi [Hr [w [Hw Hx]]].
      assert (Hr' : r = jx \/ r = jy \/ r = jz).
      { cbn in Hr. destruct HR as [[-> ->]|[-> ->]]; intuition congruence. }
      destruct Hr' as [->|[->| ->]]; [left|right; left|right; right]; (split; [reflexivity|]).
      - now rewrite (NoDup_ids_eq _ _ _ _ (iv_ids _ _ _ I) Hw HX) in Hx.
      - now rewrite (NoDup_ids_eq _ _ _ _ (iv_ids _ _ _ I) Hw HY) in Hx.
      - now rewrite (NoDup_ids_eq _ _ _ _ (iv_ids _ _ _ I) Hw HZ) in Hx. }
    assert (Hjx : forall x, x = jx -> In x [i1; i2; jz]) by (intros x ->; cbn; destruct HR as [[-> ->]|[-> ->]]; tauto).
    assert (Hjy : forall x, x = jy -> In x [i1; i2; jz]) by (intros x ->; cbn; destruct HR as [[-> ->]|[-> ->]]; tauto).
    assert (Hjz : forall x, x = jz -> In x [i1; i2; jz]) by (intros x ->; cbn; tauto).
    constructor.
    - apply arena_remove_remove3.
    - cbn [faces base]. now rewrite arena_remove_remove3.
    - exists jx, tX. auto.
    - reflexivity.
    - cbn. unfold m. clear. lia.
    - cbn. clear. lia.
    - reflexivity.
    - reflexivity.
    - intros r x k x' fi E. unfold OB in E. crunch;
        (split; [split; [auto|eexists; split; [eassumption|assumption]]|]);
        (split; [|assumption]).
      + exists TA; cbn; tauto.
      + exists TA; cbn; tauto.
      + exists TA; cbn; tauto.
      + exists TB; cbn; tauto.
      + exists TB; cbn; tauto.
      + exists TB; cbn; tauto.
    - exact NDc.
    - intros k x fi [w [A B]] Hlt. unfold N in A.
      crunch; (unfold TA in B || unfold TB in B); crunch;
        try (exfalso; unfold m in Hlt; cbn in Hlt; clear - Hlt; lia); do 2 eexists; cbn; eauto 10.
    - intros r x fi E NG. apply HRR in E. rewrite flip32_G in NG. destruct E as [[-> E]|[[-> E]|[-> E]]].
      + apply flip32_X in E. destruct E as [E|[E|[E|E]]]; crunch; [exfalso; apply NG; now auto|exfalso; apply NG; now auto| |];
          do 2 eexists; cbn; eauto 10.
      + apply flip32_Y in E. destruct E as [E|[E|[E|E]]]; crunch; [exfalso; apply NG; now auto|exfalso; apply NG; now auto| |];
          do 2 eexists; cbn; eauto 10.
      + apply flip32_Z in E. destruct E as [E|[E|[E|E]]]; crunch; [exfalso; apply NG; now auto|exfalso; apply NG; now auto| |];
          do 2 eexists; cbn; eauto 10.
    - intros i w x fi Hi Hx E. apply flip32_G in E. destruct E as [E|[E|E]].
      + destruct (two_owners s jx tX X xx jy tY Y yy i w x fi I HX Hxx HY Hyy Nxy Hi Hx Exy E); auto.
      + destruct (two_owners s jx tX z xz jz tZ Y zy i w x fi I HX Hxz HZ Hzy Nxz Hi Hx Exz E); auto.
      + destruct (two_owners s jy tY z yz jz tZ X zx i w x fi I HY Hyz HZ Hzx Nyz Hi Hx Eyz E); auto.
    - cbn. repeat constructor; cbn; tauto.
    - intros f k x k' x' E. unfold PR in E. crunch; (split; [unfold m; clear; lia|]; split; [unfold n2; clear; lia|]; split; [|cbn; tauto]).
      exists (new_face m (negb fl)), (new_face m fl). split; [exists TA; cbn; tauto|]. split; [reflexivity|].
      split; [exists TB; cbn; tauto|]. split; [reflexivity|]. cbn. now rewrite negb_involutive.
    - intros k x fi [w [A B]] Hge. unfold N in A.
      crunch; (unfold TA in B || unfold TB in B); crunch; try (exfalso; fold m in Hge; clear - Hge L1 L2 L3 L4 L5 L6; lia);
        (split; [reflexivity|]); do 2 eexists; cbn; eauto 10.
    - intros i f e E. unfold L in E. crunch; do 4 eexists; (split; [cbn; eauto 6|eauto]).
    - intros k w A. unfold N in A. destruct NP as [NP1 [NP2 [NP3 [NP4 NP5]]]].
      crunch; (split; [reflexivity|]); cbn; (split; [apply NoDup4; repeat split; auto|intros x [<-|[<-|[<-|[<-|[]]]]]; assumption]).
    - assert (FB : forall fi ps, In (face fi, ps) (faces s) -> ~ In (face fi) G -> In (face fi, ps) (faces base)).
      { intros fi ps A B. cbn [faces base]. apply in_or_app. left. now apply In_remove3. }
      assert (FN : forall f ps, In (f, ps) F -> In (f, ps) (faces base)).
      { intros f ps E. cbn [faces base]. apply in_or_app. now right. }
      assert (OK : forall fi a b c w pts, (exists ps, In (face fi, ps) (faces s) /\ turns a b c ps (flipped fi)) ->
                     ~ In (face fi) G -> even4 [a; b; c; w] pts ->
                     exists ps, In (face fi, ps) (faces base) /\ face_ok3 pts w ps (flipped fi)).
      { intros fi a b c w pts [ps [A B]] C D. exists ps. split; [now apply FB|]. eapply turns_face_ok3; eauto. }
      intros k w x fi A B. unfold N in A. crunch; (unfold TA in B || unfold TB in B); crunch; unfold TA, TB; cbn [face flipped new_face points_of map fst].
      all: try (eapply OK; [eassumption|assumption|even]).
      all: match goal with
        | |- context [negb fl] => eexists; split; [apply FN; cbn; solve [eauto 6]|eapply turns_face_ok3; [|apply turns_new']; even]
        | |- _ => eexists; split; [apply FN; cbn; solve [eauto 6]|eapply turns_face_ok3; [|apply turns_new]; even]
        end.
    - intros f ps E. unfold F in E. crunch. exists n1, e1, (new_face m (negb fl)). split; [exists TA; cbn; tauto|reflexivity].
    - intros r w x Hr Hw Hx. assert (Hx' : x = X \/ x = Y \/ x = z \/ x = e1 \/ x = e2).
      { unfold points_of in Hx. apply in_map_iff in Hx. destruct Hx as [[x' fi] [<- Hx]]. cbn [fst].
        destruct (HRR r x' fi) as [[-> V]|[[-> V]|[-> V]]]; [split; [exact Hr|eauto]| | |];
          apply entry_point in V; [apply (even4_in _ _ _ _ _ _ OX) in V|apply (even4_in _ _ _ _ _ _ OY) in V|apply (even4_in _ _ _ _ _ _ OZ) in V]; tauto. }
      destruct Hx' as [->|[->|[->|[->| ->]]]]; [exists n1, TA|exists n1, TA|exists n1, TA|exists n1, TA|exists n2, TB]; cbn; tauto.
    - intros x Hx. cbn in Hx. clear - Hx. lia.
    - exists n1. split; [now left|]. cbn. intros k [<-|[<-|[]]]; [now left|]; right; do 3 eexists; cbn; eauto 10.
  Qed.

  Lemma flip32_core : exists s1 s', insert_all base [TA; TB] = Some s1 /\ set_all s1 L = Some s' /\
    inv3 s' /\ replaced s s' [i1; i2; jz] N /\ num_points s' = num_points s /\ length (faces s') + 2 = length (faces s).
  Proof.
    destruct (run_plan_ok 3 face_ok3 face_ok3_perm s base [i1; i2; jz] G F N L OB PR I flip32_plan)
      as [s1 [s' [H1 [H2 [H3 [H4 [H5 H6]]]]]]].
    - destruct HR as [[-> ->]|[-> ->]]; repeat (apply NoDup_cons; [cbn; intuition congruence|]); apply NoDup_nil.
    - assert (A : In jx (map fst (tetras s))) by (change jx with (fst (jx, tX)); now apply in_map).
      assert (B : In jy (map fst (tetras s))) by (change jy with (fst (jy, tY)); now apply in_map).
      assert (C : In jz (map fst (tetras s))) by (change jz with (fst (jz, tZ)); now apply in_map).
      destruct HR as [[-> ->]|[-> ->]]; intros r [<-|[<-|[<-|[]]]]; assumption.
    - pose proof flip32_neq as ND. inversion ND as [|? ? ND1 NDa]; subst. inversion NDa as [|? ? ND2 NDb]; subst.
      cbn [In] in ND1, ND2. unfold G.
      destruct HG as [[-> ->]|[-> ->]]; repeat (apply NoDup_cons; [cbn; intros V; repeat destruct V as [V|V]; try contradiction; clear - V ND1 ND2; intuition congruence|]); apply NoDup_nil.
    - intros g E. apply flip32_G in E.
      assert (FF : forall j t q fi, In (j, t) (tetras s) -> In (q, fi) t -> In (face fi) (map fst (faces s))).
      { intros j t q fi A B. destruct (iv_faces _ _ _ I j t q fi A B) as [ps [P1 _]]. apply (in_map fst) in P1. exact P1. }
      destruct E as [->|[->| ->]]; [exact (FF jx tX X xx HX Hxx)|exact (FF jx tX z xz HX Hxz)|exact (FF jy tY z yz HY Hyz)].
    - reflexivity.
    - exists s1, s'. split; [exact H1|]. split; [exact H2|]. split; [exact H3|]. split; [exact H4|]. split; [exact H5|].
      clear - H6. cbn in H6. lia.
  Qed.
End Flip32.

(** The code performs this replacement.  [t1] does not have the corner p1, [t2] not p2 and [t3] not p3. *)
Section Run32.
  Variable s : triangulation.
  Hypothesis I : inv3 s.
  Variables (i1 i2 i3 p1 p2 p3 e1 e2 : nat) (t1 t2 t3 : tetra).
  Variables (a3 a1' a2' b1 b3 b1' b2' c2 c1' c2' : face_info).
  Hypothesis H1 : In (i1, t1) (tetras s).
  Hypothesis H2 : In (i2, t2) (tetras s).
  Hypothesis H3 : In (i3, t3) (tetras s).
  Hypothesis N12 : i1 <> i2.
  Hypothesis N13 : i1 <> i3.
  Hypothesis N23 : i2 <> i3.
  Hypothesis Ha3 : In (p3, a3) t1.
  Hypothesis Ha1 : In (e1, a1') t1.
  Hypothesis Ha2 : In (e2, a2') t1.
  Hypothesis Hb1 : In (p1, b1) t2.
  Hypothesis Hb3 : In (p3, b3) t2.
  Hypothesis Hb1' : In (e1, b1') t2.
  Hypothesis Hb2' : In (e2, b2') t2.
  Hypothesis Hc2 : In (p2, c2) t3.
  Hypothesis Hc1' : In (e1, c1') t3.
  Hypothesis Hc2' : In (e2, c2') t3.
  Hypothesis Ebc : face b3 = face c2.
  Let fl := flipped b1.
  Let n1 := next_tetra s.
  Let n2 := S n1.
  Let m := next_face s.
  Let F : arena (list nat) := [(m, [p1; p2; p3])].
  Let mk (sw : bool) (fa fb fc : face_info) (x : nat * face_info) : tetra :=
    if sw then [(p2, fb); (p1, fa); (p3, fc); x] else [(p1, fa); (p2, fb); (p3, fc); x].
  Let TA : tetra := mk (negb fl) a2' b2' c2' (e1, new_face m (negb fl)).
  Let TB : tetra := mk fl a1' b1' c1' (e2, new_face m fl).
  Let L : list event := [(n1, m, Conn n2 e2); (n2, m, Conn n1 e1)].
  Let base : triangulation :=
    Triangulation (arena_remove (arena_remove (arena_remove (tetras s) i1) i2) i3) n1
      (arena_remove (arena_remove (arena_remove (faces s) (face c2)) (face a3)) (face b1) ++ F)
      (S m) (num_points s) (last_insertion s).

  Lemma three_to_two_run :
    three_to_two_flip s i1 i2 i3 p1 p2 p3 e1 e2 =
    do s1 <- insert_all base [TA; TB]; do s' <- set_all s1 L; Some ([n1; n2], s').
  Proof.
    pose proof (proj1 (proj2 (iv_corners _ _ _ I _ _ H1))) as ND1.
    pose proof (proj1 (proj2 (iv_corners _ _ _ I _ _ H2))) as ND2.
    pose proof (proj1 (proj2 (iv_corners _ _ _ I _ _ H3))) as ND3.
    unfold three_to_two_flip, remove_tetra. rewrite (In_arena_get _ _ _ (iv_ids _ _ _ I) H1). cbn [bind].
    cbn [with_tetras faces tetras].
    rewrite (In_arena_get (arena_remove (tetras s) i1) i2 t2); [|apply NoDup_remove_ids, I|apply In_remove; auto].
    cbn [bind]. cbn [with_tetras faces tetras].
    rewrite (In_arena_get (arena_remove (arena_remove (tetras s) i1) i2) i3 t3);
      [|apply NoDup_remove_ids, NoDup_remove_ids, I|apply In_remove; [apply In_remove|]; auto].
    cbn [bind].
    rewrite (find_face_opposite_in t3 p2 c2 ND3 Hc2), (find_face_opposite_in t1 p3 a3 ND1 Ha3),
      (find_face_opposite_in t2 p1 b1 ND2 Hb1), (find_face_opposite_in t2 p3 b3 ND2 Hb3). cbn [bind].
    rewrite Ebc, Nat.eqb_refl. cbn [guard bind].
    cbv zeta. cbn [with_tetras with_faces push_face drop_face next_tetra faces next_face num_points last_insertion tetras].
    match goal with |- context [make_tetra32 ?b] => change b with base end.
    fold m fl.
    assert (MK : forall st co op fb' f1 f2 f3, find_face_opposite t1 op = Some f1 -> find_face_opposite t2 op = Some f2 ->
      find_face_opposite t3 op = Some f3 ->
      make_tetra32 st t1 t2 t3 p1 p2 p3 m co op fb' = insert_tetra st (mk fb' f1 f2 f3 (co, new_face m fb'))).
    { intros st co op fb' f1 f2 f3 E1 E2 E3. unfold make_tetra32. rewrite E1, E2, E3. cbn [bind]. unfold mk. destruct fb'; reflexivity. }
    rewrite (MK base e1 e2 (negb fl) a2' b2' c2' (find_face_opposite_in t1 e2 a2' ND1 Ha2) (find_face_opposite_in t2 e2 b2' ND2 Hb2')
               (find_face_opposite_in t3 e2 c2' ND3 Hc2')).
    fold TA. cbn [insert_all].
    destruct (insert_tetra base TA) as [[k1 s1]|] eqn:X1; cbn [bind]; [|reflexivity].
    apply insert_tetra_id in X1. destruct X1 as [-> [X1 _]].
    rewrite (MK s1 e2 e1 fl a1' b1' c1' (find_face_opposite_in t1 e1 a1' ND1 Ha1) (find_face_opposite_in t2 e1 b1' ND2 Hb1')
               (find_face_opposite_in t3 e1 c1' ND3 Hc1')).
    fold TB.
    destruct (insert_tetra s1 TB) as [[k2 s2]|] eqn:X2; cbn [bind]; [|reflexivity].
    apply insert_tetra_id in X2. destruct X2 as [-> _].
    rewrite X1. cbn [next_tetra base]. change (S n1) with n2. unfold L. cbn [set_all].
    repeat match goal with |- bind ?a _ = bind (bind ?a _) _ => destruct a; cbn [bind]; [|reflexivity] end.
    reflexivity.
  Qed.
End Run32.

(** [t1] and [t2] share the face {z, e1, e2} (in this orientation, seen from one side) and both have
    the same neighbour across their faces opposite to z. *)
Theorem three_to_two_ok s i1 i2 i3 t1 t2 t3 p1 p2 z e1 e2 f2 f1 g1 g2 ps q r :
  inv3 s -> In (i1, t1) (tetras s) -> In (i2, t2) (tetras s) -> In (i3, t3) (tetras s) -> i1 <> i2 ->
  In (p2, f2) t1 -> In (p1, f1) t2 -> face f2 = face f1 -> p1 <> p2 ->
  In (face f1, ps) (faces s) -> turned z e1 e2 ps ->
  In (z, g1) t1 -> In (z, g2) t2 -> opposing g1 = Some (Conn i3 q) -> opposing g2 = Some (Conn i3 r) ->
  exists s' N, three_to_two_flip s i1 i2 i3 p1 p2 z e1 e2 = Some (map fst N, s') /\ inv3 s' /\ replaced s s' [i1; i2; i3] N /\
    length N = 2 /\ (forall i t, In (i, t) N -> In p1 (points_of t) /\ In p2 (points_of t)) /\
    num_points s' = num_points s /\ length (faces s') + 2 = length (faces s).
Proof.
  intros I H1 H2 H3 N12 Hp2 Hp1 Ef Hp Hps Htu Hg1 Hg2 O1 O2.
  apply (iv_opp _ _ _ I i1 t1 z g1 H1 Hg1) in O1. destruct O1 as [N31 [u [c1 [Hu [Hc1 Ec1]]]]].
  rewrite (NoDup_ids_eq _ _ _ _ (iv_ids _ _ _ I) Hu H3) in Hc1. clear u Hu.
  apply (iv_opp _ _ _ I i2 t2 z g2 H2 Hg2) in O2. destruct O2 as [N32 [u [c2 [Hu [Hc2 Ec2]]]]].
  rewrite (NoDup_ids_eq _ _ _ _ (iv_ids _ _ _ I) Hu H3) in Hc2. clear u Hu.
  assert (Hps2 : In (face f2, ps) (faces s)) by now rewrite Ef.
  pose proof (iv_flip _ _ _ I i2 t2 p1 f1 i1 t1 p2 f2 H2 Hp1 H1 Hp2 (eq_sym Ef) (not_eq_sym N12)) as Fl.
  (* the two tetras in terms of z, e1, e2 *)
  assert (EN : forall j t p f, In (j, t) (tetras s) -> In (p, f) t -> In (face f, ps) (faces s) ->
    even4 (if flipped f then [e1; z; e2; p] else [z; e1; e2; p]) (points_of t) /\
    exists h1 h2, In (e1, h1) t /\ In (e2, h2) t).
  { intros j t p f Hj Hf Hfp. destruct Htu as [-> |[-> | ->]].
    - destruct (face_entries s j t p f _ _ _ I Hj Hf Hfp) as [E [ga [gb [gc [A [B C]]]]]]. split; [exact E|eauto].
    - destruct (face_entries s j t p f _ _ _ I Hj Hf Hfp) as [E [ga [gb [gc [A [B C]]]]]]. split; [|eauto].
      destruct (flipped f); (eapply even4_trans; [|exact E]); even.
    - destruct (face_entries s j t p f _ _ _ I Hj Hf Hfp) as [E [ga [gb [gc [A [B C]]]]]]. split; [|eauto].
      destruct (flipped f); (eapply even4_trans; [|exact E]); even. }
  destruct (EN i1 t1 p2 f2 H1 Hp2 Hps2) as [E1 [a1' [a2' [Ha1 Ha2]]]].
  destruct (EN i2 t2 p1 f1 H2 Hp1 Hps) as [E2 [b1' [b2' [Hb1 Hb2]]]]. clear EN.
  rewrite Fl in E1.
  (* the corners of the third *)
  assert (P12 : even4 [e1; e2; p2; z] (points_of t1) \/ even4 [e2; e1; p2; z] (points_of t1)).
  { destruct (flipped f1); cbn [negb] in E1; [right|left]; (eapply even4_trans; [|exact E1]); even. }
  assert (P21 : even4 [e1; e2; p1; z] (points_of t2) \/ even4 [e2; e1; p1; z] (points_of t2)).
  { destruct (flipped f1); cbn [negb] in E2; [left|right]; (eapply even4_trans; [|exact E2]); even. }
  assert (Q1 : forall x, In x (points_of t3) <-> x = e1 \/ x = e2 \/ x = p2 \/ x = q).
  { intro x. destruct P12 as [P|P]; pose proof (neighbour3 s i1 t1 z g1 i3 t3 q c1 _ _ _ I H1 Hg1 P H3 Hc1 Ec1 (not_eq_sym N31)) as Z;
      rewrite (even4_in _ _ _ _ _ _ Z); tauto. }
  assert (Q2 : forall x, In x (points_of t3) <-> x = e1 \/ x = e2 \/ x = p1 \/ x = r).
  { intro x. destruct P21 as [P|P]; pose proof (neighbour3 s i2 t2 z g2 i3 t3 r c2 _ _ _ I H2 Hg2 P H3 Hc2 Ec2 (not_eq_sym N32)) as Z;
      rewrite (even4_in _ _ _ _ _ _ Z); tauto. }
  pose proof (proj1 (proj2 (iv_corners _ _ _ I _ _ H1))) as ND1.
  pose proof (proj1 (proj2 (iv_corners _ _ _ I _ _ H2))) as ND2.
  assert (D1 : p2 <> e1 /\ p2 <> e2).
  { destruct P12 as [P|P]; destruct (even4_nodup _ _ _ _ _ P ND1) as [A1 [A2 [A3 [A4 [A5 A6]]]]]; split; congruence. }
  assert (D2 : p1 <> e1 /\ p1 <> e2).
  { destruct P21 as [P|P]; destruct (even4_nodup _ _ _ _ _ P ND2) as [A1 [A2 [A3 [A4 [A5 A6]]]]]; split; congruence. }
  assert (Eq : q = p1).
  { assert (X : In p1 (points_of t3)) by (apply Q2; tauto). apply Q1 in X. destruct D2. intuition congruence. }
  assert (Er : r = p2).
  { assert (X : In p2 (points_of t3)) by (apply Q1; tauto). apply Q2 in X. destruct D1. intuition congruence. }
  subst q r.
  assert (X1 : exists h, In (e1, h) t3) by (apply points_entry, Q1; tauto). destruct X1 as [d1 Hd1].
  assert (X2 : exists h, In (e2, h) t3) by (apply points_entry, Q1; tauto). destruct X2 as [d2 Hd2].
  pose proof (three_to_two_run s I i1 i2 i3 p1 p2 z e1 e2 t1 t2 t3 g1 a1' a2' f1 g2 b1' b2' c2 d1 d2
    H1 H2 H3 N12 (not_eq_sym N31) (not_eq_sym N32) Hg1 Ha1 Ha2 Hp1 Hg2 Hb1 Hb2 Hc2 Hd1 Hd2 (eq_sym Ec2)) as RUN.
  rewrite Ec2 in RUN.
  destruct (flipped f1) eqn:Efl; cbn [negb] in E1, E2, RUN.
  - assert (OZ : even4 [e2; e1; p1; p2] (points_of t3)).
    { apply (neighbour3 s i2 t2 z g2 i3 t3 p2 c2 e1 e2 p1 I H2 Hg2); auto. eapply even4_trans; [|exact E2]. even. }
    destruct (flip32_core s I i1 i2 i2 i1 i3 p1 p2 z e1 e2 t2 t1 t3 true (face g2) (face g1)
      f1 g2 b1' b2' f2 g1 a1' a2' c1 c2 d1 d2 H2 H1 H3 (not_eq_sym N12) (not_eq_sym N32) (not_eq_sym N31)
      (or_introl (conj eq_refl eq_refl)) (or_introl (conj eq_refl eq_refl)) Hp1 Hg2 Hb1 Hb2 Hp2 Hg1 Ha1 Ha2 Hc1 Hc2 Hd1 Hd2
      Ef Ec2 Ec1 E2 E1 OZ Hp) as [s1 [s' [F1 [F2 [F3 [F4 [F5 F6]]]]]]].
    cbn [negb] in F1, F2, F4. rewrite F1 in RUN. cbn [bind] in RUN. rewrite F2 in RUN. cbn [bind] in RUN.
    match type of F4 with replaced _ _ _ ?N => exists s', N end. split; [exact RUN|]. split; [exact F3|]. split; [exact F4|].
    split; [reflexivity|]. split; [|auto].
    intros i t [X|[X|[]]]; injection X as <- <-; cbn; tauto.
  - assert (OZ : even4 [e2; e1; p2; p1] (points_of t3)).
    { apply (neighbour3 s i1 t1 z g1 i3 t3 p1 c1 e1 e2 p2 I H1 Hg1); auto. eapply even4_trans; [|exact E1]. even. }
    destruct (flip32_core s I i1 i2 i1 i2 i3 p2 p1 z e1 e2 t1 t2 t3 false (face g2) (face g1)
      f2 g1 a1' a2' f1 g2 b1' b2' c2 c1 d1 d2 H1 H2 H3 N12 (not_eq_sym N31) (not_eq_sym N32)
      (or_intror (conj eq_refl eq_refl)) (or_intror (conj eq_refl eq_refl)) Hp2 Hg1 Ha1 Ha2 Hp1 Hg2 Hb1 Hb2 Hc2 Hc1 Hd1 Hd2
      (eq_sym Ef) Ec1 Ec2 E1 E2 OZ (not_eq_sym Hp)) as [s1 [s' [F1 [F2 [F3 [F4 [F5 F6]]]]]]].
    rewrite Ef in F1. cbn [negb] in F1, F2, F4. rewrite F1 in RUN. cbn [bind] in RUN. rewrite F2 in RUN. cbn [bind] in RUN.
    match type of F4 with replaced _ _ _ ?N => exists s', N end. split; [exact RUN|]. split; [exact F3|]. split; [exact F4|].
    split; [reflexivity|]. split; [|auto].
    intros i t [X|[X|[]]]; injection X as <- <-; cbn; tauto.
Qed.
