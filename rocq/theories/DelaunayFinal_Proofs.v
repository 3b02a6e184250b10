(** The results for whole constructions. *)
From Coq Require Import List Arith Lia Bool Permutation.
From Verif Require Import Geometry_Model Delaunay_Model Delaunay_Spec DelaunayBuild_Proofs DelaunaySurgery_Proofs DelaunayPlan_Proofs
  Delaunay2_Proofs DelaunayInsert_Proofs Delaunay2Insert_Proofs Delaunay3_Proofs Delaunay3Insert_Proofs.
Import ListNotations.

Section Two.
  Variables (in_circle inside : list nat -> nat -> option bool) (pop : nat -> list nat -> nat).
  Hypothesis corners : corners_not_inside in_circle.
  Notation insert := (insert split2 flip2 in_circle inside pop).

  Lemma built2_inv n s : built2 in_circle inside pop n s -> inv2 s /\ last_ok s /\ count2 s /\ num_points s = 3 + n.
  Proof.
    intros [s0 [E0 E]]. destruct inv2_start as [s0' [E0' [I [L [C P]]]]]. rewrite E0 in E0'. injection E0' as <-.
    pose proof (insert_many_ok 2 face_ok2 face_ok2_perm split2 flip2 in_circle inside pop count2 count2_last
      flip_spec2 split_spec2 corners n s0 s I L C E) as [A1 [A2 [A3 A4]]]. rewrite P in A4. auto.
  Qed.
  Lemma built2_consistent n s : built2 in_circle inside pop n s -> consistent 2 s /\ oriented2 s /\ connected s.
  Proof.
    intro H. destruct (built2_inv n s H) as [I _]. split; [exact (inv_consistent _ _ face_ok2_perm s I)|].
    split; [exact (inv2_oriented s I)|exact (iv_conn _ _ _ I)].
  Qed.
  Lemma built2_counts n s : built2 in_circle inside pop n s ->
    num_points s = n + 3 /\ length (tetras s) = 2 * n + 1 /\ length (faces s) = 3 * n + 3.
  Proof. intro H. destruct (built2_inv n s H) as [_ [_ [[C1 C2] P]]]. lia. Qed.
  Lemma built2_step n s p new s' : built2 in_circle inside pop n s -> insert s = Some (p, new, s') ->
    p = num_points s /\
    (forall i t, In (i, t) (tetras s') -> (In i new <-> In p (points_of t))) /\
    (forall i t fi j q, In (i, t) (tetras s') -> In (p, fi) t -> opposing fi = Some (Conn j q) ->
       In q (points_of t) \/ in_circle (points_of t) q = Some false).
  Proof.
    intros H E. destruct (built2_inv n s H) as [I [L _]].
    pose proof (insert_ok 2 face_ok2 face_ok2_perm split2 flip2 in_circle inside pop count2 count2_last
      flip_spec2 split_spec2 corners s p new s' I L E) as [a1 a2 a3 a4 a5 a6 a7].
    split; [exact a3|].
    assert (X : forall i t, In (i, t) (tetras s') -> (In i new <-> In p (points_of t))).
    { intros i t Ht. rewrite (a6 i); [|apply in_ids; eauto]. split.
      - intros [t' [Ht' Hp]]. now rewrite (NoDup_ids_eq _ _ _ _ (iv_ids _ _ _ a1) Ht Ht').
      - intro Hp. exists t. auto. }
    split; [exact X|]. intros i t fi j q Ht Hp Ho.
    apply (a7 flip_moves2 i t fi j q); auto. apply (X i t Ht). unfold points_of. apply in_map_iff. exists (p, fi). auto.
  Qed.
  Lemma built2_total n s : built2 in_circle inside pop n s -> (forall ps q, in_circle ps q <> None) ->
    (forall i t, In (i, t) (tetras s) -> inside (points_of t) (num_points s) <> None) ->
    (exists i t, In (i, t) (tetras s) /\ inside (points_of t) (num_points s) = Some true) ->
    exists new s', insert s = Some (num_points s, new, s').
  Proof.
    intros H. destruct (built2_inv n s H) as [I [L _]].
    exact (insert_total 2 face_ok2 face_ok2_perm split2 flip2 in_circle inside pop count2
      flip_spec2 split_spec2 corners split_total2 flip_total2 s I L).
  Qed.
  Lemma built2_rounds n s old t new1 s1 fuel : built2 in_circle inside pop n s -> In (old, t) (tetras s) ->
    split2 (push_point s) old (num_points s) = Some (new1, s1) ->
    length new1 + 3 * length (tetras s1) <= fuel ->
    perform_flip_checks flip2 in_circle fuel s1 (num_points s) [] new1 =
    perform_flip_checks flip2 in_circle (length new1 + 3 * length (tetras s1)) s1 (num_points s) [] new1.
  Proof.
    intros H. destruct (built2_inv n s H) as [I [L _]].
    exact (insert_rounds 2 face_ok2 face_ok2_perm split2 flip2 in_circle inside pop count2
      flip_spec2 split_spec2 corners s old t new1 s1 fuel I).
  Qed.
  Lemma built2_locate n s p : built2 in_circle inside pop n s ->
    match find_containing_tetra inside pop s p with
    | Some (Some i) => exists t, In (i, t) (tetras s) /\ inside (points_of t) p = Some true
    | Some None => forall i t, In (i, t) (tetras s) -> inside (points_of t) p = Some false
    | None => exists i t, In (i, t) (tetras s) /\ inside (points_of t) p = None
    end.
  Proof.
    intros H. destruct (built2_inv n s H) as [I [L _]]. exact (find_containing_ok 2 face_ok2 inside pop s p I L).
  Qed.
End Two.

Section Three.
  Variable crossing : list nat -> nat -> nat -> option intersection_type.
  Variables (in_circle inside : list nat -> nat -> option bool) (pop : nat -> list nat -> nat).
  Hypothesis corners : corners_not_inside in_circle.
  Notation insert := (insert split3 (flip3 crossing) in_circle inside pop).

  Lemma built3_inv n s : built3 crossing in_circle inside pop n s -> inv3 s /\ last_ok s /\ count3 s /\ num_points s = 4 + n.
  Proof.
    intros [s0 [E0 E]]. destruct inv3_start as [s0' [E0' [I [L [C P]]]]]. rewrite E0 in E0'. injection E0' as <-.
    pose proof (insert_many_ok 3 face_ok3 face_ok3_perm split3 (flip3 crossing) in_circle inside pop count3 count3_last
      (flip_spec3 crossing) split_spec3 corners n s0 s I L C E) as [A1 [A2 [A3 A4]]]. rewrite P in A4. auto.
  Qed.
  Lemma built3_consistent n s : built3 crossing in_circle inside pop n s -> consistent 3 s /\ oriented3 s /\ connected s.
  Proof.
    intro H. destruct (built3_inv n s H) as [I _]. split; [exact (inv_consistent _ _ face_ok3_perm s I)|].
    split; [exact (inv3_oriented s I)|exact (iv_conn _ _ _ I)].
  Qed.
  Lemma built3_counts n s : built3 crossing in_circle inside pop n s ->
    num_points s = n + 4 /\ length (faces s) = 2 * length (tetras s) + 2.
  Proof. intro H. destruct (built3_inv n s H) as [_ [_ [C P]]]. unfold count3 in C. lia. Qed.
  Lemma built3_step n s p new s' : built3 crossing in_circle inside pop n s -> insert s = Some (p, new, s') ->
    p = num_points s /\
    (forall i t, In (i, t) (tetras s') -> (In i new <-> In p (points_of t))).
  Proof.
    intros H E. destruct (built3_inv n s H) as [I [L _]].
    pose proof (insert_ok 3 face_ok3 face_ok3_perm split3 (flip3 crossing) in_circle inside pop count3 count3_last
      (flip_spec3 crossing) split_spec3 corners s p new s' I L E) as [a1 a2 a3 a4 a5 a6 a7].
    split; [exact a3|].
    intros i t Ht. rewrite (a6 i); [|apply in_ids; eauto]. split.
    - intros [t' [Ht' Hp]]. now rewrite (NoDup_ids_eq _ _ _ _ (iv_ids _ _ _ a1) Ht Ht').
    - intro Hp. exists t. auto.
  Qed.
  Lemma built3_rounds n s old t new1 s1 fuel : built3 crossing in_circle inside pop n s -> In (old, t) (tetras s) ->
    split3 (push_point s) old (num_points s) = Some (new1, s1) ->
    length new1 + 3 * length (tetras s1) <= fuel ->
    perform_flip_checks (flip3 crossing) in_circle fuel s1 (num_points s) [] new1 =
    perform_flip_checks (flip3 crossing) in_circle (length new1 + 3 * length (tetras s1)) s1 (num_points s) [] new1.
  Proof.
    intros H. destruct (built3_inv n s H) as [I [L _]].
    exact (insert_rounds 3 face_ok3 face_ok3_perm split3 (flip3 crossing) in_circle inside pop count3
      (flip_spec3 crossing) split_spec3 corners s old t new1 s1 fuel I).
  Qed.
  Lemma built3_locate n s p : built3 crossing in_circle inside pop n s ->
    match find_containing_tetra inside pop s p with
    | Some (Some i) => exists t, In (i, t) (tetras s) /\ inside (points_of t) p = Some true
    | Some None => forall i t, In (i, t) (tetras s) -> inside (points_of t) p = Some false
    | None => exists i t, In (i, t) (tetras s) /\ inside (points_of t) p = None
    end.
  Proof.
    intros H. destruct (built3_inv n s H) as [I [L _]]. exact (find_containing_ok 3 face_ok3 inside pop s p I L).
  Qed.
  (** The split never fails, and a flip fails only if the test of the line fails or one of the two
      faces opposite to the corner beyond the crossed edge lies on the boundary. *)
  Lemma built3_split_total n s old t : built3 crossing in_circle inside pop n s -> In (old, t) (tetras s) ->
    split3 (push_point s) old (num_points s) <> None.
  Proof. intros H. destruct (built3_inv n s H) as [I _]. exact (split_total3 s old t I). Qed.
  Lemma built3_flip_fails n s ct t c fc oj q : built3 crossing in_circle inside pop n s ->
    In (ct, t) (tetras s) -> In (c, fc) t -> opposing fc = Some (Conn oj q) -> ~ In q (points_of t) ->
    flip3 crossing s ct (face fc) = None ->
    exists ps, In (face fc, ps) (faces s) /\
      (crossing ps c q = None \/
       exists e u o e1 e2 g1 g2, crossing ps c q = Some (OutsideOneEdge e) /\ In (oj, u) (tetras s) /\ turned o e1 e2 ps /\
         In (o, g1) t /\ In (o, g2) u /\ (opposing g1 = None \/ opposing g2 = None)).
  Proof.
    intros H Ht Hc Ho Hq F. destruct (built3_inv n s H) as [I _].
    destruct (iv_faces _ _ _ I ct t c fc Ht Hc) as [ps [P1 P2]]. exists ps. split; [exact P1|].
    destruct (flip3_cases crossing s ct t c fc oj q ps I Ht Hc Ho Hq P1) as [A|[A|[A|A]]].
    - left. apply A.
    - destruct A as [e [f [_ X]]]. congruence.
    - destruct A as [_ [s1 [N [X _]]]]. congruence.
    - destruct A as [e [u' [o [e1 [e2 [g1 [g2 [B1 [B2 [B3 [B4 [B5 A]]]]]]]]]]]]. destruct A as [A|[A|A]].
      + right. exists e, u', o, e1, e2, g1, g2. repeat (split; [assumption|]). apply A.
      + destruct A as [c1 [c2 [_ [_ [_ X]]]]]. congruence.
      + destruct A as [c1 [c2 [_ [_ [_ [s1 [N [X _]]]]]]]]. congruence.
  Qed.
End Three.
