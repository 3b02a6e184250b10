(** Splits and flips in space. *)
From Coq Require Import List Arith Lia Bool Permutation.
From Verif Require Import Geometry_Model Delaunay_Model Delaunay_Spec DelaunayBuild_Proofs DelaunaySurgery_Proofs DelaunayPlan_Proofs
  Delaunay2_Proofs.
Import ListNotations.

(** [l'] is an even permutation of [l]. *)
Definition even4 (l l' : list nat) : Prop := exists a b c d, l = [a; b; c; d] /\
  In l' [[a; b; c; d]; [a; c; d; b]; [a; d; b; c]; [b; a; d; c]; [b; c; a; d]; [b; d; c; a];
         [c; a; b; d]; [c; b; d; a]; [c; d; a; b]; [d; a; c; b]; [d; b; a; c]; [d; c; b; a]].
Ltac even := do 4 eexists; split; [reflexivity|cbn; tauto].
Lemma even4_refl a b c d : even4 [a; b; c; d] [a; b; c; d].
Proof. even. Qed.
Lemma even4_sym l l' : even4 l l' -> even4 l' l.
Proof.
  intros [a [b [c [d [-> H]]]]]. cbn in H.
  repeat destruct H as [<-|H]; try destruct H; even.
Qed.
Lemma even4_trans l1 l2 l3 : even4 l1 l2 -> even4 l2 l3 -> even4 l1 l3.
Proof.
  intros [a [b [c [d [-> H]]]]] [a' [b' [c' [d' [E K]]]]]. subst l2. exists a, b, c, d. split; [reflexivity|].
  cbn [In] in H. repeat destruct H as [E|H]; try destruct H; injection E as <- <- <- <-;
    cbn in K; repeat destruct K as [<-|K]; try destruct K; cbn; tauto.
Qed.
Ltac perm := repeat match goal with
  | |- Permutation [] [] => constructor
  | |- Permutation (?x :: _) (?x :: _) => apply perm_skip
  | |- Permutation (?x :: _) (?y :: ?x :: ?r) => refine (Permutation_cons_app [y] r x _); cbn [app]
  | |- Permutation (?x :: _) (?y :: ?z :: ?x :: ?r) => refine (Permutation_cons_app [y; z] r x _); cbn [app]
  | |- Permutation (?x :: _) (?y :: ?z :: ?w :: ?x :: ?r) => refine (Permutation_cons_app [y; z; w] r x _); cbn [app]
  end.
Lemma even4_perm l l' : even4 l l' -> Permutation l l'.
Proof.
  intros [a [b [c [d [-> H]]]]]. cbn in H. repeat destruct H as [<-|H]; try destruct H; perm.
Qed.
Lemma even4_in l a b c d p : even4 [a; b; c; d] l -> (In p l <-> p = a \/ p = b \/ p = c \/ p = d).
Proof.
  intro H. apply even4_perm in H. split.
  - intro K. apply (Permutation_in _ (Permutation_sym H)) in K. cbn in K. intuition congruence.
  - intro K. apply (Permutation_in _ H). cbn. intuition congruence.
Qed.
Lemma NoDup4 (a b c d : nat) : NoDup [a; b; c; d] <->
  (a <> b /\ a <> c /\ a <> d /\ b <> c /\ b <> d /\ c <> d).
Proof.
  split.
  - intro ND. inversion ND as [|? ? X1 X2]; subst. inversion X2 as [|? ? Y1 Y2]; subst. inversion Y2 as [|? ? Z1 Z2]; subst.
    cbn in X1, Y1, Z1. repeat split; intro; subst; tauto.
  - intros. repeat constructor; cbn; intuition congruence.
Qed.
Lemma even4_nodup l a b c d : even4 [a; b; c; d] l -> NoDup l ->
  a <> b /\ a <> c /\ a <> d /\ b <> c /\ b <> d /\ c <> d.
Proof.
  intros H ND. apply even4_perm in H. apply (Permutation_NoDup (Permutation_sym H)) in ND. now apply NoDup4.
Qed.

(** The face [ps] with its mark, seen from a corner for which a, b, c turn in the positive sense. *)
Definition turns (a b c : nat) (ps : list nat) (fl : bool) : Prop :=
  exists x y z, ps = (if fl then [y; x; z] else [x; y; z]) /\
    ((x = a /\ y = b /\ z = c) \/ (x = b /\ y = c /\ z = a) \/ (x = c /\ y = a /\ z = b)).
Definition face_ok3 (pts : list nat) (q : nat) (ps : list nat) (fl : bool) : Prop :=
  exists x y z, ps = (if fl then [y; x; z] else [x; y; z]) /\ even4 [x; y; z; q] pts.
Lemma face_ok3_perm pts q ps b : face_ok3 pts q ps b -> Permutation (q :: ps) pts.
Proof.
  intros [x [y [z [-> H]]]]. rewrite <- (even4_perm _ _ H). destruct b; perm.
Qed.
Notation inv3 := (inv 3 face_ok3).

Lemma turns_in a b c ps fl p : turns a b c ps fl -> (In p ps <-> p = a \/ p = b \/ p = c).
Proof.
  intros [x [y [z [-> H]]]].
  destruct H as [[-> [-> ->]]|[[-> [-> ->]]|[-> [-> ->]]]]; destruct fl; cbn; intuition congruence.
Qed.
Lemma turns_flip a b c ps fl : turns a b c ps fl -> turns b a c ps (negb fl).
Proof.
  intros [x [y [z [-> H]]]]. exists y, x, z. split; [destruct fl; reflexivity|]. tauto.
Qed.
Lemma turns_rot a b c ps fl : turns a b c ps fl -> turns b c a ps fl.
Proof. intros [x [y [z [-> H]]]]. exists x, y, z. split; [reflexivity|]. tauto. Qed.
Lemma face_ok3_turns a b c q pts ps fl : NoDup pts -> even4 [a; b; c; q] pts -> face_ok3 pts q ps fl -> turns a b c ps fl.
Proof.
  intros ND H [x [y [z [-> K]]]]. exists x, y, z. split; [reflexivity|].
  destruct (even4_nodup _ _ _ _ _ H ND) as [D1 [D2 [D3 [D4 [D5 D6]]]]].
  pose proof (even4_trans _ _ _ H (even4_sym _ _ K)) as [a' [b' [c' [d' [E F]]]]].
  injection E as <- <- <- <-. cbn in F.
  repeat destruct F as [F|F]; try contradiction; injection F; intros; subst; try congruence; tauto.
Qed.
Lemma turns_face_ok3 a b c q pts ps fl : even4 [a; b; c; q] pts -> turns a b c ps fl -> face_ok3 pts q ps fl.
Proof.
  intros H [x [y [z [-> K]]]]. exists x, y, z. split; [reflexivity|].
  destruct K as [[-> [-> ->]]|[[-> [-> ->]]|[-> [-> ->]]]]; [exact H| |]; (eapply even4_trans; [|exact H]); even.
Qed.
Lemma turns_even4 a b c q pts ps fl : turns a b c ps fl -> face_ok3 pts q ps fl -> even4 [a; b; c; q] pts.
Proof.
  intros [x [y [z [E K]]]] [x' [y' [z' [E' H]]]].
  assert (x' = x /\ y' = y /\ z' = z) as [-> [-> ->]].
  { rewrite E in E'. destruct fl; injection E'; auto. }
  destruct K as [[-> [-> ->]]|[[-> [-> ->]]|[-> [-> ->]]]]; [exact H| |]; (eapply even4_trans; [|exact H]); even.
Qed.

(** A face of a tetra of known orientation. *)
Lemma face3 s i t q fi a b c : inv3 s -> In (i, t) (tetras s) -> In (q, fi) t -> even4 [a; b; c; q] (points_of t) ->
  exists ps, In (face fi, ps) (faces s) /\ turns a b c ps (flipped fi).
Proof.
  intros I Ht Hq E. destruct (iv_faces _ _ _ I i t q fi Ht Hq) as [ps [P1 P2]]. exists ps. split; [exact P1|].
  eapply face_ok3_turns; eauto. apply (iv_corners _ _ _ I _ _ Ht).
Qed.
(** The neighbour across a face has the opposite orientation. *)
Lemma neighbour3 s i t q fi j u r gi a b c : inv3 s -> In (i, t) (tetras s) -> In (q, fi) t ->
  even4 [a; b; c; q] (points_of t) -> In (j, u) (tetras s) -> In (r, gi) u -> face gi = face fi -> i <> j ->
  even4 [b; a; c; r] (points_of u).
Proof.
  intros I Ht Hq E Hu Hr Ef Hne. destruct (face3 s i t q fi a b c I Ht Hq E) as [ps [P1 P2]].
  destruct (iv_faces _ _ _ I j u r gi Hu Hr) as [ps' [Q1 Q2]]. rewrite Ef in Q1.
  rewrite <- (NoDup_ids_eq _ _ _ _ (iv_fids _ _ _ I) P1 Q1) in Q2.
  rewrite (iv_flip _ _ _ I i t q fi j u r gi Ht Hq Hu Hr (eq_sym Ef) Hne) in Q2.
  exact (turns_even4 _ _ _ _ _ _ _ (turns_flip _ _ _ _ _ P2) Q2).
Qed.
Lemma face_neq s f g ps ps' v : inv3 s -> In (f, ps) (faces s) -> In (g, ps') (faces s) -> In v ps -> ~ In v ps' -> f <> g.
Proof.
  intros I H K Hv Hn E. subst g. rewrite (NoDup_ids_eq _ _ _ _ (iv_fids _ _ _ I) H K) in Hv. contradiction.
Qed.

Section Split3.
  Variable s : triangulation.
  Hypothesis I : inv3 s.
  Variables (old q1 q2 q3 q4 : nat) (g1 g2 g3 g4 : face_info).
  Let T0 : tetra := [(q1, g1); (q2, g2); (q3, g3); (q4, g4)].
  Hypothesis H : In (old, T0) (tetras s).
  Let p := num_points s.
  Let n := next_tetra s.
  Let m := next_face s.
  Let f12 := m.
  Let f13 := S m.
  Let f14 := S (S m).
  Let f23 := S (S (S m)).
  Let f24 := S (S (S (S m))).
  Let f34 := S (S (S (S (S m)))).
  Let n1 := n.
  Let n2 := S n.
  Let n3 := S (S n).
  Let n4 := S (S (S n)).
  Let F : arena (list nat) := [(f12, [p; q1; q2]); (f13, [p; q1; q3]); (f14, [p; q1; q4]);
                               (f23, [p; q2; q3]); (f24, [p; q2; q4]); (f34, [p; q3; q4])].
  Let T1 : tetra := [(q3, new_face f24 true); (q2, new_face f34 false); (q4, new_face f23 false); (p, g1)].
  Let T2 : tetra := [(q1, new_face f34 true); (q3, new_face f14 false); (q4, new_face f13 true); (p, g2)].
  Let T3 : tetra := [(q2, new_face f14 true); (q1, new_face f24 false); (q4, new_face f12 false); (p, g3)].
  Let T4 : tetra := [(q1, new_face f23 true); (q2, new_face f13 false); (q3, new_face f12 true); (p, g4)].
  Let N : arena tetra := [(n1, T1); (n2, T2); (n3, T3); (n4, T4)].
  Let L : list event := [(n1, f34, Conn n2 q1); (n1, f24, Conn n3 q1); (n1, f23, Conn n4 q1);
    (n2, f34, Conn n1 q2); (n2, f14, Conn n3 q2); (n2, f13, Conn n4 q2);
    (n3, f24, Conn n1 q3); (n3, f14, Conn n2 q3); (n3, f12, Conn n4 q3);
    (n4, f23, Conn n1 q4); (n4, f13, Conn n2 q4); (n4, f12, Conn n3 q4)].
  Let OB : list (nat * nat * nat * nat * face_info) :=
    [(old, q1, n1, p, g1); (old, q2, n2, p, g2); (old, q3, n3, p, g3); (old, q4, n4, p, g4)].
  Let PR : list (nat * (nat * nat) * (nat * nat)) :=
    [(f12, (n3, q4), (n4, q3)); (f13, (n2, q4), (n4, q2)); (f14, (n2, q3), (n3, q2));
     (f23, (n1, q4), (n4, q1)); (f24, (n1, q3), (n3, q1)); (f34, (n1, q2), (n2, q1))].
  Let base : triangulation :=
    Triangulation (arena_remove (tetras s) old) n (faces s ++ F) (S f34) (S p) (last_insertion s).

  Lemma split3_facts :
    NoDup [q1; q2; q3; q4] /\ (q1 < p /\ q2 < p /\ q3 < p /\ q4 < p) /\
    (face g1 < m /\ face g2 < m /\ face g3 < m /\ face g4 < m) /\
    NoDup [face g1; face g2; face g3; face g4] /\
    (exists ps, In (face g1, ps) (faces s) /\ turns q3 q2 q4 ps (flipped g1)) /\
    (exists ps, In (face g2, ps) (faces s) /\ turns q1 q3 q4 ps (flipped g2)) /\
    (exists ps, In (face g3, ps) (faces s) /\ turns q2 q1 q4 ps (flipped g3)) /\
    (exists ps, In (face g4, ps) (faces s) /\ turns q1 q2 q3 ps (flipped g4)).
  Proof.
    destruct (iv_corners _ _ _ I _ _ H) as [_ [ND LT]]. cbn in ND, LT.
    split; [exact ND|]. split; [repeat split; apply LT; tauto|].
    split; [repeat split; eapply (face_lt _ _ s I old); try exact H; cbn; eauto|].
    split.
    { apply NoDup4. apply NoDup4 in ND. destruct ND as [D1 [D2 [D3 [D4 [D5 D6]]]]].
      assert (U : forall q fi q' fi', In (q, fi) T0 -> In (q', fi') T0 -> face fi = face fi' -> q = q').
      { intros q fi q' fi' A B C. now destruct (inv_entry_unique _ _ face_ok3_perm s old _ q fi q' fi' I H A B C). }
      repeat split; intro E.
      - apply D1. apply (U q1 g1 q2 g2); cbn; auto.
      - apply D2. apply (U q1 g1 q3 g3); cbn; auto.
      - apply D3. apply (U q1 g1 q4 g4); cbn; auto.
      - apply D4. apply (U q2 g2 q3 g3); cbn; auto.
      - apply D5. apply (U q2 g2 q4 g4); cbn; auto.
      - apply D6. apply (U q3 g3 q4 g4); cbn; auto 6. }
    split; [|split; [|split]].
    - eapply (face3 s old T0 q1 g1 _ _ _ I H); [cbn; auto|even].
    - eapply (face3 s old T0 q2 g2 _ _ _ I H); [cbn; auto|even].
    - eapply (face3 s old T0 q3 g3 _ _ _ I H); [cbn; auto|even].
    - eapply (face3 s old T0 q4 g4 _ _ _ I H); [cbn; auto 6|even].
  Qed.

  Lemma split3_plan : plan 3 face_ok3 s base [old] [] F N L OB PR.
  Proof.
    destruct split3_facts as [ND [[L1 [L2 [L3 L4]]] [[F1 [F2 [F3 F4]]] [NF [P1 [P2 [P3 P4]]]]]]].
    apply NoDup4 in ND. destruct ND as [D1 [D2 [D3 [D4 [D5 D6]]]]].
    assert (HR : forall r q fi, inR s [old] r q fi -> r = old /\ In (q, fi) T0).
    { intros r q fi [[<-|[]] [t [Ht Hq]]]. split; [reflexivity|].
      rewrite (NoDup_ids_eq _ _ _ _ (iv_ids _ _ _ I) Ht H) in Hq. exact Hq. }
    constructor.
    - apply arena_remove_filter.
    - cbn [faces base]. now rewrite filter_none.
    - exists old, T0. split; [now left|exact H].
    - reflexivity.
    - cbn. unfold f34. fold m. lia.
    - cbn. lia.
    - reflexivity.
    - reflexivity.
    - intros r q k q' fi X. unfold OB in X.
      crunch; (split; [split; [now left|exists T0; split; [exact H|cbn; tauto]]|split; [|tauto]]);
        [exists T1|exists T2|exists T3|exists T4]; cbn; tauto.
    - exact NF.
    - intros k q' fi [t [A B]] Hlt. unfold N in A.
      crunch; unfold T1, T2, T3, T4 in *; crunch; cbn in Hlt; unfold f12, f13, f14, f23, f24, f34 in Hlt; fold m in Hlt; try lia;
        do 2 eexists; cbn; eauto 6.
    - intros r q fi X _. apply HR in X. destruct X as [-> X]. unfold T0 in X. crunch; do 2 eexists; cbn; eauto 6.
    - intros i t q fi _ _ [].
    - cbn. unfold f12, f13, f14, f23, f24, f34. repeat constructor; cbn; intuition lia.
    - intros f k q k' q' X. unfold PR in X.
      crunch; (split; [unfold f12, f13, f14, f23, f24, f34; fold m; lia|]; split; [unfold n1, n2, n3, n4; lia|]; split; [|cbn; tauto]);
        do 2 eexists; (split; [eexists; split; [cbn; eauto 6|cbn; eauto 6]|]; split; [reflexivity|];
                       split; [eexists; split; [cbn; eauto 6|cbn; eauto 6]|]; split; reflexivity).
    - intros k q fi [t [A B]] Hge. unfold N in A.
      crunch; unfold T1, T2, T3, T4 in *; crunch; cbn in Hge; fold m in Hge; try lia;
        (split; [reflexivity|]); do 2 eexists; cbn; eauto 12.
    - intros i f c X. unfold L in X. crunch; do 4 eexists; (split; [cbn; eauto 10|eauto]).
    - intros k t A. unfold N in A.
      crunch; (split; [reflexivity|]); cbn; (split; [apply NoDup4; repeat split; auto; lia|intros x [<-|[<-|[<-|[<-|[]]]]]; lia]).
    - assert (FN : forall f ps, In (f, ps) F -> In (f, ps) (faces base)).
      { intros f ps X. cbn [faces base]. apply in_or_app. now right. }
      assert (FO : forall f ps, In (f, ps) (faces s) -> In (f, ps) (faces base)).
      { intros f ps X. cbn [faces base]. apply in_or_app. now left. }
      intros k t q fi A B. unfold N in A.
      crunch; unfold T1, T2, T3, T4 in *; crunch; cbn [face flipped new_face points_of map fst];
        try (eexists; split; [apply FN; cbn; solve [eauto 8]|do 3 eexists; split; [reflexivity|even]]).
      + destruct P1 as [ps [X Y]]. exists ps. split; [auto|]. eapply turns_face_ok3; [|exact Y]. even.
      + destruct P2 as [ps [X Y]]. exists ps. split; [auto|]. eapply turns_face_ok3; [|exact Y]. even.
      + destruct P3 as [ps [X Y]]. exists ps. split; [auto|]. eapply turns_face_ok3; [|exact Y]. even.
      + destruct P4 as [ps [X Y]]. exists ps. split; [auto|]. eapply turns_face_ok3; [|exact Y]. even.
    - intros f ps X. unfold F in X. crunch;
        [exists n3, q4, (new_face f12 false)|exists n2, q4, (new_face f13 true)|exists n2, q3, (new_face f14 false)|
         exists n1, q4, (new_face f23 false)|exists n1, q3, (new_face f24 true)|exists n1, q2, (new_face f34 false)];
        (split; [|reflexivity]);
        [exists T3|exists T2|exists T2|exists T1|exists T1|exists T1]; cbn; tauto.
    - intros r t x [<-|[]] Ht Hx. rewrite (NoDup_ids_eq _ _ _ _ (iv_ids _ _ _ I) Ht H) in Hx. cbn in Hx.
      destruct Hx as [<-|[<-|[<-|[<-|[]]]]]; [exists n2, T2|exists n1, T1|exists n1, T1|exists n1, T1]; cbn; tauto.
    - intros x Hx. cbn in Hx. assert (x = p) by (fold p in Hx; lia). subst x. exists n1, T1. cbn. tauto.
    - exists n1. split; [now left|]. cbn. intros k [<-|[<-|[<-|[<-|[]]]]]; [now left| | |]; right; do 3 eexists; cbn; eauto 12.
  Qed.

  Lemma split3_run :
    split3 (push_point s) old p =
    do s1 <- insert_all base [T1; T2; T3; T4]; do s' <- set_all s1 L; Some ([n1; n2; n3; n4], s').
  Proof.
    unfold split3, remove_tetra. cbn [tetras push_point]. rewrite (In_arena_get _ _ _ (iv_ids _ _ _ I) H).
    cbn [bind]. unfold T0. cbv zeta.
    cbn [with_tetras push_point next_tetra faces next_face num_points last_insertion tetras push_face].
    match goal with |- context [insert_split_tetra3 ?b] => assert (EB : b = base) end.
    { unfold push_face, with_tetras, push_point. cbn. rewrite <- !app_assoc. reflexivity. }
    rewrite EB. fold m.
    change (S (S (S (S (S m))))) with f34. change (S (S (S (S m)))) with f24. change (S (S (S m))) with f23.
    change (S (S m)) with f14. change (S m) with f13. change m with f12.
    unfold insert_split_tetra3. fold T1 T2 T3 T4.
    cbn [insert_all].
    destruct (insert_tetra base T1) as [[i1 s1]|] eqn:X1; cbn [bind]; [|reflexivity].
    apply insert_tetra_id in X1. destruct X1 as [-> [X1 _]].
    destruct (insert_tetra s1 T2) as [[i2 s2]|] eqn:X2; cbn [bind]; [|reflexivity].
    apply insert_tetra_id in X2. destruct X2 as [-> [X2 _]].
    destruct (insert_tetra s2 T3) as [[i3 s3]|] eqn:X3; cbn [bind]; [|reflexivity].
    apply insert_tetra_id in X3. destruct X3 as [-> [X3 _]].
    destruct (insert_tetra s3 T4) as [[i4 s4]|] eqn:X4; cbn [bind]; [|reflexivity].
    apply insert_tetra_id in X4. destruct X4 as [-> _].
    rewrite X3, X2, X1. cbn [next_tetra base].
    change (S (S (S n))) with n4. change (S (S n)) with n3. change (S n) with n2. change n with n1. unfold L. cbn [set_all].
    repeat match goal with |- bind ?a _ = bind (bind ?a _) _ => destruct a; cbn [bind]; [|reflexivity] end.
    reflexivity.
  Qed.

  Theorem split3_ok : exists s', split3 (push_point s) old p = Some ([n1; n2; n3; n4], s') /\
    inv3 s' /\ replaced s s' [old] N /\ num_points s' = S p /\ length (faces s') = length (faces s) + 6.
  Proof.
    destruct (run_plan_ok 3 face_ok3 face_ok3_perm s base [old] [] F N L OB PR I split3_plan) as [s1 [s' [H1 [H2 [H3 [H4 [H5 H6]]]]]]].
    - repeat constructor. tauto.
    - intros r [<-|[]]. change old with (fst (old, T0)). now apply in_map.
    - constructor.
    - intros g [].
    - reflexivity.
    - exists s'. rewrite split3_run. cbn [map snd N] in H1. rewrite H1. cbn [bind]. rewrite H2. cbn [bind].
      split; [reflexivity|]. split; [exact H3|]. split; [exact H4|]. split; [exact H5|]. cbn in H6. lia.
  Qed.
End Split3.
