(** An insertion as a sequence of steps: the split of a tetra that contains the point, followed by
    flips, each of which is asked for by the circumcircle test. *)
From Coq Require Import List Arith Lia Bool Permutation.
From Verif Require Import Delaunay_Model Delaunay_Spec DelaunayBuild_Proofs DelaunaySurgery_Proofs DelaunayPlan_Proofs
  DelaunayInsert_Proofs.
Import ListNotations.

Section Path.
  Variable d : nat.
  Variable face_ok : list nat -> nat -> list nat -> bool -> Prop.
  Hypothesis face_ok_perm : forall pts q ps b, face_ok pts q ps b -> Permutation (q :: ps) pts.
  Notation inv := (inv d face_ok).
  Variable split : triangulation -> nat -> nat -> option (list nat * triangulation).
  Variable flip : triangulation -> nat -> nat -> option (list nat * triangulation).
  Variable in_circle : list nat -> nat -> option bool.
  Variable inside : list nat -> nat -> option bool.
  Variable pop : nat -> list nat -> nat.
  Variable K : triangulation -> Prop.
  Hypothesis K_last : forall s i, K s -> K (set_last s i).
  Hypothesis flip_spec : forall s ct t c fc oj q new s',
    inv s -> In (ct, t) (tetras s) -> In (c, fc) t -> opposing fc = Some (Conn oj q) -> ~ In q (points_of t) ->
    flip s ct (face fc) = Some (new, s') -> flip_effect d face_ok K s s' ct c new.
  Hypothesis split_spec : forall s old t new s', inv s -> In (old, t) (tetras s) ->
    split (push_point s) old (num_points s) = Some (new, s') ->
    exists N, new = map fst N /\ N <> [] /\ replaced s s' [old] N /\ inv s' /\ num_points s' = S (num_points s) /\
      (forall i t, In (i, t) N -> In (num_points s) (points_of t)) /\ (K s -> K s').
  Hypothesis corners : corners_not_inside in_circle.
  Notation stack_inv := (stack_inv d face_ok).

  Inductive flips (p : nat) : triangulation -> triangulation -> Prop :=
  | flips_none s : inv s -> flips p s s
  | flips_last s i s' : inv s -> flips p (set_last s i) s' -> flips p s s'
  | flips_flip s i t fi j q new s1 s' : inv s -> In (i, t) (tetras s) -> In (p, fi) t ->
      opposing fi = Some (Conn j q) -> in_circle (points_of t) q = Some true ->
      flip s i (face fi) = Some (new, s1) -> flips p s1 s' -> flips p s s'.

  Lemma reachable_unlast s i a b : reachable (set_last s i) a b -> reachable s a b.
  Proof.
    intro H. induction H as [a|a b c H IH Hc]; [constructor|].
    eapply reach_step; [exact IH|]. exact Hc.
  Qed.
  Lemma inv_unlast s i : inv (set_last s i) -> inv s.
  Proof.
    intros [a1 a2 a3 a4 a5 a6 a7 a7' a8 a9 a10]. constructor; auto.
    intros x y t u Hx Hy. apply (reachable_unlast s i). exact (a10 x y t u Hx Hy).
  Qed.

  Lemma loop_path p fuel : forall s done todo new s', stack_inv p s (done ++ todo) ->
    perform_flip_checks flip in_circle fuel s p done todo = Some (new, s') -> flips p s s'.
  Proof.
    induction fuel as [|fuel IH]; intros s done todo new s' SI H; destruct todo as [|i rest]; cbn [perform_flip_checks] in H.
    - injection H as <- <-. constructor. apply SI.
    - discriminate.
    - injection H as <- <-. constructor. apply SI.
    - destruct (arena_get (tetras s) i) as [t|] eqn:Et.
      + pose proof (arena_get_In _ _ _ Et) as Ht.
        assert (Hp : In p (points_of t)).
        { apply (si_star _ _ _ _ _ SI i t); [|exact Ht]. apply in_or_app. right. now left. }
        destruct (find_face_opposite_some t p Hp) as [fi [Hfi Efi]]. rewrite Efi in H. cbn [bind] in H.
        destruct (flip_check flip in_circle s i (face fi)) as [[new1 s1]|] eqn:Ef; cbn [bind] in H; [|discriminate].
        destruct (loop_step d face_ok face_ok_perm flip in_circle inside pop K flip_spec corners p s done i rest t fi new1 s1 SI Et Efi Ef) as [S1 _].
        apply IH in H; [|exact S1].
        unfold flip_check, face_is_invalid in Ef.
        rewrite Et, (find_face_inv d face_ok face_ok_perm s i t p fi (si_inv _ _ _ _ _ SI) Ht Hfi) in Ef. cbn [bind] in Ef.
        assert (I1 : inv s1) by exact (inv_unlast s1 i (si_inv _ _ _ _ _ S1)).
        destruct (opposing fi) as [[oj q]|] eqn:Eo; cbn [bind conn_point] in Ef.
        * destruct (in_circle (points_of t) q) as [[|]|] eqn:Ec; cbn [bind] in Ef; [| |discriminate].
          -- refine (flips_flip p s i t fi oj q new1 s1 s' _ Ht Hfi Eo Ec Ef _); [apply SI|].
             now apply (flips_last p s1 i).
          -- injection Ef as <- <-. now apply (flips_last p s i).
        * injection Ef as <- <-. now apply (flips_last p s i).
      + apply IH in H; [exact H|]. revert SI. apply stack_inv_same. intro x. rewrite !in_app_iff. cbn. tauto.
  Qed.

  Lemma insert_path s p new s' : inv s -> last_ok s -> insert split flip in_circle inside pop s = Some (p, new, s') ->
    p = num_points s /\ exists old t new1 s1, In (old, t) (tetras s) /\ inside (points_of t) p = Some true /\
      split (push_point s) old p = Some (new1, s1) /\ flips p s1 s'.
  Proof.
    intros I LO H. unfold insert in H. rewrite find_containing_push in H.
    pose proof (find_containing_ok d face_ok inside pop s (num_points s) I LO) as FC.
    destruct (find_containing_tetra inside pop s (num_points s)) as [[old|]|]; cbn [bind] in H; try discriminate.
    destruct FC as [t [Ht Hin]].
    destruct (split (push_point s) old (num_points s)) as [[new1 s1]|] eqn:Es; cbn [bind] in H; [|discriminate].
    destruct (split_spec s old t new1 s1 I Ht Es) as [N [-> [NE [RP [I1 [NP [HN HK]]]]]]].
    destruct (split_stack d face_ok s old t N s1 I Ht RP I1 HN NE) as [SI SA].
    destruct (perform_flip_checks flip in_circle _ s1 (num_points s) [] (map fst N)) as [[new2 s2]|] eqn:El; cbn [bind] in H; [|discriminate].
    injection H as <- <- <-. split; [reflexivity|]. exists old, t, (map fst N), s1.
    split; [exact Ht|]. split; [exact Hin|]. split; [exact Es|]. exact (loop_path (num_points s) _ s1 [] (map fst N) new2 s2 SI El).
  Qed.

  (** Tetras that do not contain the new point have been there before. *)
  Lemma flips_old p s s' : flips p s s' -> forall i t', In (i, t') (tetras s') -> ~ In p (points_of t') ->
    exists t, In (i, t) (tetras s) /\ points_of t = points_of t'.
  Proof.
    induction 1 as [s I|s j s' I F IH|s j t fi oj q new s1 s' I Ht Hp Ho Hc Hf F IH]; intros i t' Ht' Hn.
    - eauto.
    - exact (IH i t' Ht' Hn).
    - destruct (IH i t' Ht' Hn) as [t1 [Ht1 E1]].
      destruct (flip_spec s j t p fi oj q new s1 I Ht Hp Ho (fun X => corners _ _ X Hc) Hf)
        as [[-> ->]|[R [N [o [_ [_ [_ [RP [_ [_ [_ [_ [_ [HN _]]]]]]]]]]]]]]; [eauto|].
      destruct (rp_old _ _ _ _ RP i t1 Ht1) as [[u [Hu [_ E]]]|[u [Hu E]]].
      + exists u. split; [exact Hu|]. rewrite (skel_points u t1 E). exact E1.
      + exfalso. apply Hn. rewrite <- E1, <- (skel_points u t1 E). exact (HN i u Hu).
  Qed.
  Lemma insert_old s p new s' : inv s -> last_ok s -> insert split flip in_circle inside pop s = Some (p, new, s') ->
    forall i t', In (i, t') (tetras s') -> ~ In p (points_of t') ->
    exists t, In (i, t) (tetras s) /\ points_of t = points_of t'.
  Proof.
    intros I LO H i t' Ht' Hn. destruct (insert_path s p new s' I LO H) as [-> [old [t [new1 [s1 [Ht [_ [Es F]]]]]]]].
    destruct (flips_old _ _ _ F i t' Ht' Hn) as [t1 [Ht1 E1]].
    destruct (split_spec s old t new1 s1 I Ht Es) as [N [_ [_ [RP [_ [_ [HN _]]]]]]].
    destruct (rp_old _ _ _ _ RP i t1 Ht1) as [[u [Hu [_ E]]]|[u [Hu E]]].
    + exists u. split; [exact Hu|]. rewrite (skel_points u t1 E). exact E1.
    + exfalso. apply Hn. rewrite <- E1, <- (skel_points u t1 E). exact (HN i u Hu).
  Qed.
  (** Tetra ids are never used again. *)
  Lemma flips_next p s s' : flips p s s' -> next_tetra s <= next_tetra s'.
  Proof.
    induction 1 as [s I|s j s' I F IH|s j t fi oj q new s1 s' I Ht Hp Ho Hc Hf F IH]; [lia|exact IH|].
    destruct (flip_spec s j t p fi oj q new s1 I Ht Hp Ho (fun X => corners _ _ X Hc) Hf)
      as [[-> ->]|[R [N [o [_ [_ [_ [RP _]]]]]]]]; [exact IH|]. rewrite (rp_next _ _ _ _ RP) in IH. lia.
  Qed.
  Lemma flips_lt p s s' : flips p s s' -> forall i t', In (i, t') (tetras s') -> i < next_tetra s ->
    exists t, In (i, t) (tetras s) /\ points_of t = points_of t'.
  Proof.
    induction 1 as [s I|s j s' I F IH|s j t fi oj q new s1 s' I Ht Hp Ho Hc Hf F IH]; intros i t' Ht' L.
    - eauto.
    - exact (IH i t' Ht' L).
    - destruct (flip_spec s j t p fi oj q new s1 I Ht Hp Ho (fun X => corners _ _ X Hc) Hf)
        as [[-> ->]|[R [N [o [_ [_ [_ [RP _]]]]]]]]; [eauto|].
      destruct (IH i t' Ht') as [t1 [Ht1 E1]]; [rewrite (rp_next _ _ _ _ RP); lia|].
      destruct (rp_lt _ _ _ _ _ _ RP Ht1 L) as [u [Hu [_ E]]].
      exists u. split; [exact Hu|]. rewrite (skel_points u t1 E). exact E1.
  Qed.
  Lemma insert_lt s p new s' : inv s -> last_ok s -> insert split flip in_circle inside pop s = Some (p, new, s') ->
    next_tetra s <= next_tetra s' /\
    forall i t', In (i, t') (tetras s') -> i < next_tetra s -> exists t, In (i, t) (tetras s) /\ points_of t = points_of t'.
  Proof.
    intros I LO H. destruct (insert_path s p new s' I LO H) as [-> [old [t [new1 [s1 [Ht [_ [Es F]]]]]]]].
    destruct (split_spec s old t new1 s1 I Ht Es) as [N [_ [_ [RP [_ [_ [HN _]]]]]]].
    split; [pose proof (flips_next _ _ _ F); rewrite (rp_next _ _ _ _ RP) in *; lia|]. intros i t' Ht' L.
    destruct (flips_lt _ _ _ F i t' Ht') as [t1 [Ht1 E1]]; [rewrite (rp_next _ _ _ _ RP); lia|].
    destruct (rp_lt _ _ _ _ _ _ RP Ht1 L) as [u [Hu [_ E]]].
    exists u. split; [exact Hu|]. rewrite (skel_points u t1 E). exact E1.
  Qed.
End Path.
