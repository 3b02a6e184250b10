(** Splits and flips in the plane. *)
From Coq Require Import List Arith Lia Bool Permutation.
From Verif Require Import Delaunay_Model Delaunay_Spec DelaunayBuild_Proofs DelaunaySurgery_Proofs DelaunayPlan_Proofs.
Import ListNotations.

Definition face_ok2 (pts : list nat) (q : nat) (ps : list nat) (fl : bool) : Prop :=
  exists x y, ps = (if fl then [y; x] else [x; y]) /\ (pts = [q; x; y] \/ pts = [y; q; x] \/ pts = [x; y; q]).
Lemma face_ok2_perm pts q ps b : face_ok2 pts q ps b -> Permutation (q :: ps) pts.
Proof.
  intros [x [y [-> [->|[->| ->]]]]]; destruct b.
  - apply perm_skip, perm_swap.
  - reflexivity.
  - apply perm_swap.
  - change [y; q; x] with ([y] ++ [q; x]). rewrite Permutation_app_comm. reflexivity.
  - apply (Permutation_rev [q; y; x]).
  - change [x; y; q] with ([x; y] ++ [q]). rewrite Permutation_app_comm. reflexivity.
Qed.
Notation inv2 := (inv 2 face_ok2).

Ltac crunch :=
  repeat match goal with
  | H : In _ (_ :: _) |- _ => destruct H as [H|H]
  | H : In _ [] |- _ => destruct H
  | H : False |- _ => destruct H
  | H : (_, _) = (_, _) |- _ => injection H; clear H; intros
  | H : _ = ?y |- _ => is_var y; subst y
  end.

Lemma arena_remove_filter {A} (a : arena A) i :
  arena_remove a i = filter (fun e => negb (existsb (Nat.eqb (fst e)) [i])) a.
Proof. unfold arena_remove. apply filter_ext. intro e. cbn. now rewrite orb_false_r. Qed.
Lemma filter_filter {A} (f g : A -> bool) l : filter f (filter g l) = filter (fun x => g x && f x) l.
Proof. induction l as [|x l IH]; cbn; [reflexivity|]. destruct (g x); cbn; [destruct (f x); cbn; congruence|exact IH]. Qed.
Lemma arena_remove_remove {A} (a : arena A) i j :
  arena_remove (arena_remove a i) j = filter (fun e => negb (existsb (Nat.eqb (fst e)) [i; j])) a.
Proof.
  unfold arena_remove. rewrite filter_filter. apply filter_ext. intro e. cbn.
  destruct (fst e =? i), (fst e =? j); reflexivity.
Qed.
Lemma filter_none {A} (a : arena A) : filter (fun e => negb (existsb (Nat.eqb (fst e)) [])) a = a.
Proof. cbn. induction a as [|x a IH]; cbn; congruence. Qed.

Lemma face_ok2_first a b c ps fl : NoDup [a; b; c] -> face_ok2 [a; b; c] a ps fl -> ps = if fl then [c; b] else [b; c].
Proof.
  intros ND [x [y [-> [E|[E|E]]]]]; injection E as; subst; [reflexivity| |];
    inversion ND as [|? ? X1 X2]; subst; exfalso; apply X1; cbn; tauto.
Qed.
Lemma face_ok2_rot a b c q ps fl : face_ok2 [a; b; c] q ps fl -> face_ok2 [b; c; a] q ps fl.
Proof.
  intros [x [y [-> [E|[E|E]]]]]; injection E as -> -> ->; exists x, y; (split; [reflexivity|tauto]).
Qed.

Section Split.
  Variable s : triangulation.
  Hypothesis I : inv2 s.
  Variables (old q1 q2 q3 : nat) (g1 g2 g3 : face_info).
  Hypothesis H : In (old, [(q1, g1); (q2, g2); (q3, g3)]) (tetras s).
  Let p := num_points s.
  Let n := next_tetra s.
  Let m := next_face s.
  Let F : arena (list nat) := [(m, [p; q1]); (S m, [p; q2]); (S (S m), [p; q3])].
  Let T1 : tetra := [(q2, new_face (S (S m)) true); (q3, new_face (S m) false); (p, g1)].
  Let T2 : tetra := [(q3, new_face m true); (q1, new_face (S (S m)) false); (p, g2)].
  Let T3 : tetra := [(q1, new_face (S m) true); (q2, new_face m false); (p, g3)].
  Let N : arena tetra := [(n, T1); (S n, T2); (S (S n), T3)].
  Let L : list event := [(n, S (S m), Conn (S n) q1); (n, S m, Conn (S (S n)) q1);
    (S n, S (S m), Conn n q2); (S n, m, Conn (S (S n)) q2);
    (S (S n), m, Conn (S n) q3); (S (S n), S m, Conn n q3)].
  Let OB : list (nat * nat * nat * nat * face_info) :=
    [(old, q1, n, p, g1); (old, q2, S n, p, g2); (old, q3, S (S n), p, g3)].
  Let PR : list (nat * (nat * nat) * (nat * nat)) :=
    [(m, (S n, q3), (S (S n), q2)); (S m, (n, q3), (S (S n), q1)); (S (S m), (n, q2), (S n, q1))].
  Let base : triangulation :=
    Triangulation (arena_remove (tetras s) old) n (faces s ++ F) (S (S (S m))) (S p) (last_insertion s).

  Lemma split_facts :
    NoDup [q1; q2; q3] /\ (q1 < p /\ q2 < p /\ q3 < p) /\
    (face g1 < m /\ face g2 < m /\ face g3 < m) /\
    (face g1 <> face g2 /\ face g1 <> face g3 /\ face g2 <> face g3) /\
    In (face g1, if flipped g1 then [q3; q2] else [q2; q3]) (faces s) /\
    In (face g2, if flipped g2 then [q1; q3] else [q3; q1]) (faces s) /\
    In (face g3, if flipped g3 then [q2; q1] else [q1; q2]) (faces s).
  Proof.
    destruct (iv_corners _ _ _ I _ _ H) as [_ [ND LT]]. cbn in ND, LT.
    split; [exact ND|]. split; [repeat split; apply LT; tauto|].
    assert (FL : forall q fi, In (q, fi) [(q1, g1); (q2, g2); (q3, g3)] -> face fi < m).
    { intros q fi Hq. exact (face_lt _ _ s I old _ q fi H Hq). }
    split; [repeat split; eapply FL; cbn; eauto|].
    assert (U : forall q fi q' fi', In (q, fi) [(q1, g1); (q2, g2); (q3, g3)] -> In (q', fi') [(q1, g1); (q2, g2); (q3, g3)] ->
                face fi = face fi' -> q = q').
    { intros q fi q' fi' A B C. destruct (inv_entry_unique _ _ face_ok2_perm s old _ q fi q' fi' I H A B C). assumption. }
    assert (q1 <> q2 /\ q1 <> q3 /\ q2 <> q3) as [D1 [D2 D3]].
    { inversion ND as [|? ? X1 X2]; subst. inversion X2 as [|? ? Y1 Y2]; subst. cbn in X1, Y1. intuition congruence. }
    split.
    { split; [|split]; intro E.
      - apply D1. apply (U q1 g1 q2 g2); cbn; auto.
      - apply D2. apply (U q1 g1 q3 g3); cbn; auto.
      - apply D3. apply (U q2 g2 q3 g3); cbn; auto. }
    assert (K : forall q fi, In (q, fi) [(q1, g1); (q2, g2); (q3, g3)] -> exists ps, In (face fi, ps) (faces s) /\
                 face_ok2 [q1; q2; q3] q ps (flipped fi)).
    { intros q fi Hq. destruct (iv_faces _ _ _ I old _ q fi H Hq) as [ps X]. now exists ps. }
    split; [|split].
    - destruct (K q1 g1) as [ps [A B]]; [cbn; auto|]. apply face_ok2_first in B; [|exact ND]. now subst ps.
    - destruct (K q2 g2) as [ps [A B]]; [cbn; auto|]. apply face_ok2_rot in B. apply face_ok2_first in B; [now subst ps|].
      constructor; [cbn; intuition congruence|]. constructor; [cbn; intuition congruence|]. constructor; [cbn; tauto|constructor].
    - destruct (K q3 g3) as [ps [A B]]; [cbn; auto|]. apply face_ok2_rot, face_ok2_rot in B. apply face_ok2_first in B; [now subst ps|].
      constructor; [cbn; intuition congruence|]. constructor; [cbn; intuition congruence|]. constructor; [cbn; tauto|constructor].
  Qed.

  Lemma split_plan : plan 2 face_ok2 s base [old] [] F N L OB PR.
  Proof.
    destruct split_facts as [ND [[L1 [L2 L3]] [[F1 [F2 F3]] [[E12 [E13 E23]] [P1 [P2 P3]]]]]].
    assert (q1 <> q2 /\ q1 <> q3 /\ q2 <> q3) as [D1 [D2 D3]].
    { inversion ND as [|? ? X1 X2]; subst. inversion X2 as [|? ? Y1 Y2]; subst. cbn in X1, Y1. intuition congruence. }
    assert (HR : forall r q fi, inR s [old] r q fi -> r = old /\ In (q, fi) [(q1, g1); (q2, g2); (q3, g3)]).
    { intros r q fi [[<-|[]] [t [Ht Hq]]]. split; [reflexivity|].
      rewrite (NoDup_ids_eq _ _ _ _ (iv_ids _ _ _ I) Ht H) in Hq. exact Hq. }
    assert (IN : forall e t k, In (k, t) N -> In e t -> inN N k (fst e) (snd e)).
    { intros [a b] t k A B. exists t. auto. }
    constructor.
    - apply arena_remove_filter.
    - cbn [faces base]. now rewrite filter_none.
    - exists old, [(q1, g1); (q2, g2); (q3, g3)]. split; [now left|exact H].
    - reflexivity.
    - cbn. lia.
    - cbn. lia.
    - reflexivity.
    - reflexivity.
    - intros r q k q' fi X. unfold OB in X. crunch; (split; [split; [now left|exists [(q1, g1); (q2, g2); (q3, g3)]; split; [exact H|cbn; tauto]]|split; [|tauto]]).
      + exists T1. cbn. tauto.
      + exists T2. cbn. tauto.
      + exists T3. cbn. tauto.
    - cbn. repeat constructor; cbn; intuition congruence.
    - intros k q' fi [t [A B]] Hlt. unfold N in A. crunch; unfold T1, T2, T3 in *; crunch; cbn in Hlt; fold m in Hlt; try lia.
      + exists old, q1. cbn. tauto.
      + exists old, q2. cbn. tauto.
      + exists old, q3. cbn. tauto.
    - intros r q fi X _. apply HR in X. destruct X as [-> X]. crunch; do 2 eexists; cbn; eauto.
    - intros i t q fi _ _ [].
    - cbn. repeat constructor; cbn; intuition lia.
    - intros f k q k' q' X. unfold PR in X. crunch; fold m n; (split; [lia|]; split; [lia|]; split; [|cbn; tauto]);
        do 2 eexists; (split; [eexists; split; [cbn; eauto|cbn; eauto]|]; split; [reflexivity|]; split; [eexists; split; [cbn; eauto|cbn; eauto]|]; split; reflexivity).
    - intros k q fi [t [A B]] Hge. unfold N in A. crunch; unfold T1, T2, T3 in *; crunch; cbn in Hge; fold m in Hge; try lia;
        (split; [reflexivity|]); do 2 eexists; cbn; eauto 10.
    - intros i f c X. unfold L in X. crunch; do 4 eexists; (split; [cbn; eauto|eauto]).
    - intros k t A. unfold N in A. crunch; (split; [reflexivity|]); cbn.
      + split; [|intros; crunch; lia]. repeat constructor; cbn; intuition (try congruence; try lia).
      + split; [|intros; crunch; lia]. repeat constructor; cbn; intuition (try congruence; try lia).
      + split; [|intros; crunch; lia]. repeat constructor; cbn; intuition (try congruence; try lia).
    - intros k t q fi A B. unfold N in A. crunch; unfold T1, T2, T3 in *; crunch; cbn [face flipped new_face faces base];
        try (eexists; split; [apply in_or_app; right; unfold F; cbn; solve [eauto]|cbn; unfold face_ok2; do 2 eexists; split; [reflexivity|tauto]]);
        eexists; (split; [apply in_or_app; left; eassumption|]).
      + exists q2, q3. cbn. tauto.
      + exists q3, q1. cbn. tauto.
      + exists q1, q2. cbn. tauto.
    - intros f ps X. unfold F in X. crunch.
      + exists (S n), q3, (new_face m true). split; [exists T2; cbn; tauto|reflexivity].
      + exists n, q3, (new_face (S m) false). split; [exists T1; cbn; tauto|reflexivity].
      + exists n, q2, (new_face (S (S m)) true). split; [exists T1; cbn; tauto|reflexivity].
    - intros r t x [<-|[]] Ht Hx. rewrite (NoDup_ids_eq _ _ _ _ (iv_ids _ _ _ I) Ht H) in Hx. cbn in Hx.
      destruct Hx as [<-|[<-|[<-|[]]]].
      + exists (S n), T2. cbn. tauto.
      + exists n, T1. cbn. tauto.
      + exists n, T1. cbn. tauto.
    - intros x Hx. cbn in Hx. assert (x = p) by (fold p in Hx; lia). subst x. exists n, T1. cbn. tauto.
    - exists n. split; [now left|]. cbn. intros k [<-|[<-|[<-|[]]]]; [now left| |]; right; do 3 eexists; cbn; eauto 10.
  Qed.

  Lemma split2_run :
    split2 (push_point s) old p =
    do s1 <- insert_all base [T1; T2; T3]; do s' <- set_all s1 L; Some ([n; S n; S (S n)], s').
  Proof.
    unfold split2, remove_tetra. cbn [tetras push_point]. rewrite (In_arena_get _ _ _ (iv_ids _ _ _ I) H).
    cbn [bind with_tetras push_point next_tetra faces next_face num_points last_insertion tetras push_face].
    assert (EB : push_face (push_face (push_face (with_tetras (push_point s) (arena_remove (tetras s) old)) [p; q1]) [p; q2]) [p; q3] = base).
    { unfold push_face, with_tetras, push_point. cbn. rewrite <- !app_assoc. reflexivity. }
    rewrite EB. fold m.
    unfold insert_split_tetra2. fold T1 T2 T3.
    cbn [insert_all].
    destruct (insert_tetra base T1) as [[i1 s1]|] eqn:X1; cbn [bind]; [|reflexivity].
    apply insert_tetra_id in X1. destruct X1 as [-> [X1 _]].
    destruct (insert_tetra s1 T2) as [[i2 s2]|] eqn:X2; cbn [bind]; [|reflexivity].
    apply insert_tetra_id in X2. destruct X2 as [-> [X2 _]].
    destruct (insert_tetra s2 T3) as [[i3 s3]|] eqn:X3; cbn [bind]; [|reflexivity].
    apply insert_tetra_id in X3. destruct X3 as [-> _].
    rewrite X2, X1. cbn [next_tetra base]. unfold L. cbn [set_all].
    repeat match goal with |- bind ?a _ = bind (bind ?a _) _ => destruct a; cbn [bind]; [|reflexivity] end.
    reflexivity.
  Qed.

  Theorem split2_ok : exists s', split2 (push_point s) old p = Some ([n; S n; S (S n)], s') /\
    inv2 s' /\ replaced s s' [old] N /\ num_points s' = S p /\ length (faces s') = length (faces s) + 3.
  Proof.
    destruct (run_plan_ok 2 face_ok2 face_ok2_perm s base [old] [] F N L OB PR I split_plan) as [s1 [s' [H1 [H2 [H3 [H4 [H5 H6]]]]]]].
    - repeat constructor. tauto.
    - intros r [<-|[]]. change old with (fst (old, [(q1, g1); (q2, g2); (q3, g3)])). now apply in_map.
    - constructor.
    - intros g [].
    - reflexivity.
    - exists s'. rewrite split2_run. cbn [map snd N] in H1. rewrite H1. cbn [bind]. rewrite H2. cbn [bind].
      split; [reflexivity|]. split; [exact H3|]. split; [exact H4|]. split; [exact H5|]. cbn in H6. lia.
  Qed.
End Split.

Definition rot3 (pts : list nat) (x y z : nat) : Prop := pts = [x; y; z] \/ pts = [z; x; y] \/ pts = [y; z; x].
Lemma rot3_face_ok2 pts x y z q ps fl : rot3 pts x y z -> face_ok2 pts q ps fl -> face_ok2 [x; y; z] q ps fl.
Proof.
  intros [->|[->| ->]] K.
  - exact K.
  - now apply face_ok2_rot.
  - now apply face_ok2_rot, face_ok2_rot.
Qed.
Lemma rot3_in pts x y z p : rot3 pts x y z -> (In p pts <-> p = x \/ p = y \/ p = z).
Proof. intros [->|[->| ->]]; cbn; intuition congruence. Qed.
Lemma rot3_nodup pts x y z : rot3 pts x y z -> NoDup pts -> x <> y /\ x <> z /\ y <> z.
Proof.
  intros [->|[->| ->]] ND; inversion ND as [|? ? X1 X2]; clear ND; subst; inversion X2 as [|? ? Y1 Y2]; clear X2; subst;
    cbn in X1, Y1; repeat split; intro; subst; tauto.
Qed.
Lemma NoDup3 (x y z : nat) : x <> y -> x <> z -> y <> z -> NoDup [x; y; z].
Proof.
  intros. constructor; [cbn; intuition congruence|]. constructor; [cbn; intuition congruence|].
  constructor; [cbn; tauto|constructor].
Qed.

Lemma points_entry (t : tetra) p : In p (points_of t) -> exists fi, In (p, fi) t.
Proof. unfold points_of. intro H. apply in_map_iff in H. destruct H as [[q fi] [E H]]. cbn in E. subst q. now exists fi. Qed.
Lemma entry_point (t : tetra) p fi : In (p, fi) t -> In p (points_of t).
Proof. intro H. change p with (fst (p, fi)). now apply in_map. Qed.
Lemma find_face_opposite_in (t : tetra) p fi : NoDup (points_of t) -> In (p, fi) t -> find_face_opposite t p = Some fi.
Proof. exact (In_arena_get t p fi). Qed.
Lemma find_point_opposite_in (t : tetra) p fi :
  (forall q' fi', In (q', fi') t -> face fi' = face fi -> q' = p) -> In (p, fi) t -> find_point_opposite t (face fi) = Some p.
Proof.
  unfold find_point_opposite. intros U H. destruct (find _ t) as [[q' fi']|] eqn:E.
  - apply find_some in E. destruct E as [A B]. cbn in B. apply Nat.eqb_eq in B. cbn. f_equal. eapply U; eauto.
  - exfalso. apply (find_none _ _ E) in H. cbn in H. rewrite Nat.eqb_refl in H. discriminate.
Qed.

Section Flip.
  Variable s : triangulation.
  Hypothesis I : inv2 s.
  Variables (ct oj c q x y : nat) (t u : tetra) (fc fx fy gc gx gy : face_info).
  Hypothesis Ht : In (ct, t) (tetras s).
  Hypothesis Hu : In (oj, u) (tetras s).
  Hypothesis Hne : ct <> oj.
  Hypothesis Hc : In (c, fc) t.
  Hypothesis Hx : In (x, fx) t.
  Hypothesis Hy : In (y, fy) t.
  Hypothesis Kq : In (q, gc) u.
  Hypothesis Kx : In (x, gx) u.
  Hypothesis Ky : In (y, gy) u.
  Hypothesis Ef : face gc = face fc.
  Hypothesis Efl : flipped gc = negb (flipped fc).
  Hypothesis Rt : rot3 (points_of t) c x y.
  Hypothesis Ru : rot3 (points_of u) q y x.
  Hypothesis Hps : In (face fc, if flipped fc then [y; x] else [x; y]) (faces s).
  Hypothesis Hopp : opposing fc = Some (Conn oj q).
  Hypothesis Hq : ~ In q (points_of t).
  Let n := next_tetra s.
  Let m := next_face s.
  Let F : arena (list nat) := [(m, [c; q])].
  Let T1 : tetra := [(c, gy); (x, new_face m true); (q, fy)].
  Let T2 : tetra := [(y, new_face m false); (c, gx); (q, fx)].
  Let N : arena tetra := [(n, T1); (S n, T2)].
  Let L : list event := [(n, m, Conn (S n) y); (S n, m, Conn n x)].
  Let OB : list (nat * nat * nat * nat * face_info) :=
    [(ct, y, n, q, fy); (oj, y, n, c, gy); (ct, x, S n, q, fx); (oj, x, S n, c, gx)].
  Let PR : list (nat * (nat * nat) * (nat * nat)) := [(m, (n, x), (S n, y))].
  Let base : triangulation :=
    Triangulation (arena_remove (arena_remove (tetras s) ct) oj) n (arena_remove (faces s) (face fc) ++ F)
                  (S m) (num_points s) (last_insertion s).

  Lemma flip_distinct : c <> x /\ c <> y /\ x <> y /\ c <> q /\ q <> x /\ q <> y.
  Proof.
    destruct (rot3_nodup _ _ _ _ Rt (proj1 (proj2 (iv_corners _ _ _ I _ _ Ht)))) as [A [B C]].
    pose proof (rot3_in _ _ _ _ q Rt) as D. repeat split; auto; intro; subst; tauto.
  Qed.
  Lemma flip_entries_t q' fi : In (q', fi) t -> (q', fi) = (c, fc) \/ (q', fi) = (x, fx) \/ (q', fi) = (y, fy).
  Proof.
    intro H. pose proof (proj1 (proj2 (iv_corners _ _ _ I _ _ Ht))) as ND.
    pose proof (entry_point _ _ _ H) as P. apply (rot3_in _ _ _ _ _ Rt) in P.
    destruct P as [->|[->| ->]].
    - rewrite (NoDup_ids_eq t _ _ _ ND H Hc). auto.
    - rewrite (NoDup_ids_eq t _ _ _ ND H Hx). auto.
    - rewrite (NoDup_ids_eq t _ _ _ ND H Hy). auto.
  Qed.
  Lemma flip_entries_u q' fi : In (q', fi) u -> (q', fi) = (q, gc) \/ (q', fi) = (x, gx) \/ (q', fi) = (y, gy).
  Proof.
    intro H. pose proof (proj1 (proj2 (iv_corners _ _ _ I _ _ Hu))) as ND.
    pose proof (entry_point _ _ _ H) as P. apply (rot3_in _ _ _ _ _ Ru) in P.
    destruct P as [->|[->| ->]].
    - rewrite (NoDup_ids_eq u _ _ _ ND H Kq). auto.
    - rewrite (NoDup_ids_eq u _ _ _ ND H Ky). auto.
    - rewrite (NoDup_ids_eq u _ _ _ ND H Kx). auto.
  Qed.

  Lemma flip_edges :
    In (face fx, if flipped fx then [c; y] else [y; c]) (faces s) /\
    In (face fy, if flipped fy then [x; c] else [c; x]) (faces s) /\
    In (face gx, if flipped gx then [y; q] else [q; y]) (faces s) /\
    In (face gy, if flipped gy then [q; x] else [x; q]) (faces s).
  Proof.
    destruct flip_distinct as [D1 [D2 [D3 [D4 [D5 D6]]]]].
    split; [|split; [|split]].
    - destruct (iv_faces _ _ _ I ct t x fx Ht Hx) as [ps [A B]].
      apply (rot3_face_ok2 _ _ _ _ _ _ _ Rt), face_ok2_rot, face_ok2_first in B; [now subst ps|]. apply NoDup3; auto.
    - destruct (iv_faces _ _ _ I ct t y fy Ht Hy) as [ps [A B]].
      apply (rot3_face_ok2 _ _ _ _ _ _ _ Rt), face_ok2_rot, face_ok2_rot, face_ok2_first in B; [now subst ps|]. apply NoDup3; auto.
    - destruct (iv_faces _ _ _ I oj u x gx Hu Kx) as [ps [A B]].
      apply (rot3_face_ok2 _ _ _ _ _ _ _ Ru), face_ok2_rot, face_ok2_rot, face_ok2_first in B; [now subst ps|]. apply NoDup3; auto.
    - destruct (iv_faces _ _ _ I oj u y gy Hu Ky) as [ps [A B]].
      apply (rot3_face_ok2 _ _ _ _ _ _ _ Ru), face_ok2_rot, face_ok2_first in B; [now subst ps|]. apply NoDup3; auto.
  Qed.

  Lemma flip_faces : face fx <> face fc /\ face fy <> face fc /\ face gx <> face fc /\ face gy <> face fc /\
    face fx <> face fy /\ face fx <> face gx /\ face fx <> face gy /\ face fy <> face gx /\ face fy <> face gy /\
    face gx <> face gy.
  Proof.
    destruct flip_distinct as [D1 [D2 [D3 [D4 [D5 D6]]]]]. destruct flip_edges as [E1 [E2 [E3 E4]]].
    assert (U : forall f ps ps', In (f, ps) (faces s) -> In (f, ps') (faces s) -> ps = ps').
    { intros f ps ps' A B. exact (NoDup_ids_eq _ _ _ _ (iv_fids _ _ _ I) A B). }
    assert (X : forall fi fi' ps ps', In (face fi, ps) (faces s) -> In (face fi', ps') (faces s) -> ps <> ps' -> face fi <> face fi').
    { intros fi fi' ps ps' A B D E. rewrite E in A. apply D. eapply U; eauto. }
    repeat match goal with |- _ /\ _ => split end; eapply X; try eassumption;
      repeat match goal with |- context [if ?b then _ else _] => destruct b end; congruence.
  Qed.

  Lemma flip_plan : plan 2 face_ok2 s base [ct; oj] [face fc] F N L OB PR.
  Proof.
    destruct flip_distinct as [D1 [D2 [D3 [D4 [D5 D6]]]]]. destruct flip_edges as [E1 [E2 [E3 E4]]].
    destruct flip_faces as [N1 [N2 [N3 [N4 [N5 [N6 [N7 [N8 [N9 N10]]]]]]]]].
    assert (LT : face fx < m /\ face fy < m /\ face gx < m /\ face gy < m).
    { repeat split; [exact (face_lt _ _ s I ct t x fx Ht Hx)|exact (face_lt _ _ s I ct t y fy Ht Hy)|
                     exact (face_lt _ _ s I oj u x gx Hu Kx)|exact (face_lt _ _ s I oj u y gy Hu Ky)]. }
    destruct LT as [L1 [L2 [L3 L4]]].
    assert (NP : c < num_points s /\ x < num_points s /\ y < num_points s /\ q < num_points s).
    { pose proof (proj2 (proj2 (iv_corners _ _ _ I _ _ Ht))) as A. pose proof (proj2 (proj2 (iv_corners _ _ _ I _ _ Hu))) as B.
      repeat split; [apply A|apply A|apply A|apply B]; eapply entry_point; eassumption. }
    destruct NP as [P1 [P2 [P3 P4]]].
    assert (HR : forall r q' fi, inR s [ct; oj] r q' fi ->
               (r = ct /\ In (q', fi) t) \/ (r = oj /\ In (q', fi) u)).
    { intros r q' fi [[<-|[<-|[]]] [v [Hv Hq']]]; [left|right]; (split; [reflexivity|]).
      - now rewrite (NoDup_ids_eq _ _ _ _ (iv_ids _ _ _ I) Hv Ht) in Hq'.
      - now rewrite (NoDup_ids_eq _ _ _ _ (iv_ids _ _ _ I) Hv Hu) in Hq'. }
    constructor.
    - apply arena_remove_remove.
    - cbn [faces base]. now rewrite arena_remove_filter.
    - exists ct, t. split; [now left|exact Ht].
    - reflexivity.
    - cbn. lia.
    - cbn. lia.
    - reflexivity.
    - reflexivity.
    - intros r q' k q'' fi X. unfold OB in X. crunch.
      + split; [split; [now left|exists t; auto]|]. split; [exists T1; cbn; tauto|cbn; intuition congruence].
      + split; [split; [right; now left|exists u; auto]|]. split; [exists T1; cbn; tauto|cbn; intuition congruence].
      + split; [split; [now left|exists t; auto]|]. split; [exists T2; cbn; tauto|cbn; intuition congruence].
      + split; [split; [right; now left|exists u; auto]|]. split; [exists T2; cbn; tauto|cbn; intuition congruence].
    - cbn. repeat constructor; cbn; intuition congruence.
    - intros k q' fi [v [A B]] Hlt. unfold N in A. crunch; unfold T1, T2 in *; crunch; cbn in Hlt; fold m in Hlt; try lia;
        do 2 eexists; cbn; eauto 10.
    - intros r q' fi X NG. apply HR in X. destruct X as [[-> X]|[-> X]].
      + apply flip_entries_t in X. destruct X as [X|[X|X]]; crunch; [exfalso; apply NG; now left| |]; do 2 eexists; cbn; eauto 10.
      + apply flip_entries_u in X. destruct X as [X|[X|X]]; crunch; [exfalso; apply NG; now left| |]; do 2 eexists; cbn; eauto 10.
    - intros i v q' fi Hi Hq' [E|[]]. cbn.
      destruct (Nat.eq_dec i ct) as [->|Ni]; [now left|].
      assert (X : opposing fc = Some (Conn i q')).
      { apply (iv_opp _ _ _ I ct t c fc Ht Hc). split; [exact Ni|]. exists v, fi. auto. }
      rewrite Hopp in X. injection X as <- <-. right. now left.
    - cbn. repeat constructor; cbn; tauto.
    - intros f k q1 k' q2 X. unfold PR in X. crunch. fold m. split; [lia|]. split; [lia|]. split; [|cbn; tauto].
      exists (new_face m true), (new_face m false). split; [exists T1; cbn; tauto|]. split; [reflexivity|].
      split; [exists T2; cbn; tauto|]. split; reflexivity.
    - intros k q' fi [v [A B]] Hge. unfold N in A. crunch; unfold T1, T2 in *; crunch; cbn in Hge; fold m in Hge; try lia;
        (split; [reflexivity|]); do 2 eexists; cbn; eauto 10.
    - intros i f e X. unfold L in X. crunch; do 4 eexists; (split; [cbn; eauto|eauto]).
    - intros k v A. unfold N in A. crunch; (split; [reflexivity|]); cbn.
      + split; [apply NoDup3; auto|intros p [<-|[<-|[<-|[]]]]; assumption].
      + split; [apply NoDup3; auto|intros p [<-|[<-|[<-|[]]]]; assumption].
    - assert (FB : forall fi ps, In (face fi, ps) (faces s) -> face fi <> face fc -> In (face fi, ps) (faces base)).
      { intros fi ps A B. cbn [faces base]. apply in_or_app. left. unfold arena_remove. apply filter_In.
        split; [exact A|]. cbn. apply negb_true_iff, Nat.eqb_neq. exact B. }
      assert (FM : In (m, [c; q]) (faces base)).
      { cbn [faces base]. apply in_or_app. right. now left. }
      intros k v q' fi A B. unfold N in A. crunch; unfold T1, T2 in *; crunch; cbn [face flipped new_face].
      + eexists. split; [apply FB; eassumption|]. exists x, q. cbn. tauto.
      + eexists. split; [exact FM|]. exists q, c. cbn. tauto.
      + eexists. split; [apply FB; eassumption|]. exists c, x. cbn. tauto.
      + eexists. split; [exact FM|]. exists c, q. cbn. tauto.
      + eexists. split; [apply FB; eassumption|]. exists q, y. cbn. tauto.
      + eexists. split; [apply FB; eassumption|]. exists y, c. cbn. tauto.
    - intros f ps X. unfold F in X. crunch. exists n, x, (new_face m true). split; [exists T1; cbn; tauto|reflexivity].
    - intros r v p [<-|[<-|[]]] Hv Hp.
      + rewrite (NoDup_ids_eq _ _ _ _ (iv_ids _ _ _ I) Hv Ht) in Hp. apply (rot3_in _ _ _ _ _ Rt) in Hp.
        destruct Hp as [->|[->| ->]]; [exists n, T1|exists n, T1|exists (S n), T2]; cbn; tauto.
      + rewrite (NoDup_ids_eq _ _ _ _ (iv_ids _ _ _ I) Hv Hu) in Hp. apply (rot3_in _ _ _ _ _ Ru) in Hp.
        destruct Hp as [->|[->| ->]]; [exists n, T1|exists (S n), T2|exists n, T1]; cbn; tauto.
    - intros p Hp. cbn in Hp. lia.
    - exists n. split; [now left|]. cbn. intros k [<-|[<-|[]]]; [now left|]. right. do 3 eexists; cbn; eauto 10.
  Qed.

  Lemma flip2_run :
    flip2 s ct (face fc) =
    do s1 <- insert_all base [T1; T2]; do s' <- set_all s1 L; Some ([n; S n], s').
  Proof.
    destruct flip_distinct as [D1 [D2 [D3 [D4 [D5 D6]]]]].
    pose proof (proj1 (proj2 (iv_corners _ _ _ I _ _ Ht))) as NDt.
    pose proof (proj1 (proj2 (iv_corners _ _ _ I _ _ Hu))) as NDu.
    unfold flip2, remove_tetra, remove_face. rewrite (In_arena_get _ _ _ (iv_ids _ _ _ I) Ht). cbn [bind].
    cbn [with_tetras faces tetras]. rewrite (In_arena_get _ _ _ (iv_fids _ _ _ I) Hps). cbn [bind].
    rewrite (find_face_unique t c fc); [| |exact Hc].
    2: { intros q' fi' A B. now destruct (inv_entry_unique _ _ face_ok2_perm s ct t q' fi' c fc I Ht A Hc B). }
    cbn [bind]. rewrite Hopp. cbn [bind conn_tetra conn_point with_faces tetras with_tetras].
    rewrite (In_arena_get (arena_remove (tetras s) ct) oj u).
    2: { pose proof (iv_ids _ _ _ I) as ND. unfold arena_remove. clear -ND.
         induction (tetras s) as [|e l IH]; cbn; [constructor|]. inversion ND as [|? ? X1 X2]; subst.
         destruct (negb _); cbn; [|auto]. constructor; [|auto]. intro H. apply X1.
         apply in_map_iff in H. destruct H as [z [Ez Hz]]. apply filter_In in Hz. rewrite <- Ez. apply in_map. tauto. }
    2: { unfold arena_remove. apply filter_In. split; [exact Hu|]. cbn. apply negb_true_iff, Nat.eqb_neq. auto. }
    cbn [bind]. rewrite (find_point_opposite_in t c fc); [| |exact Hc].
    2: { intros q' fi' A B. now destruct (inv_entry_unique _ _ face_ok2_perm s ct t q' fi' c fc I Ht A Hc B). }
    cbn [bind].
    assert (Epp : (if flipped fc then [y; x] else [x; y]) =
                  [if flipped fc then y else x; if flipped fc then x else y]) by (destruct (flipped fc); reflexivity).
    rewrite Epp.
    assert (Ep1 : (if flipped fc then if flipped fc then x else y else if flipped fc then y else x) = x) by (destruct (flipped fc); reflexivity).
    assert (Ep2 : (if flipped fc then if flipped fc then y else x else if flipped fc then x else y) = y) by (destruct (flipped fc); reflexivity).
    cbv zeta. rewrite Ep1, Ep2.
    rewrite (find_face_opposite_in u y gy NDu Ky), (find_face_opposite_in t y fy NDt Hy),
            (find_face_opposite_in u x gx NDu Kx), (find_face_opposite_in t x fx NDt Hx). cbn [bind].
    cbn [next_face with_tetras with_faces].
    fold m. fold T1 T2.
    match goal with |- context [insert_tetra ?b T1] => change b with base end.
    cbn [insert_all].
    destruct (insert_tetra base T1) as [[i1 s1]|] eqn:X1; cbn [bind]; [|reflexivity].
    apply insert_tetra_id in X1. destruct X1 as [-> [X1 _]].
    destruct (insert_tetra s1 T2) as [[i2 s2]|] eqn:X2; cbn [bind]; [|reflexivity].
    apply insert_tetra_id in X2. destruct X2 as [-> _].
    rewrite X1. cbn [next_tetra base]. unfold L. cbn [set_all].
    repeat match goal with |- bind ?a _ = bind (bind ?a _) _ => destruct a; cbn [bind]; [|reflexivity] end.
    reflexivity.
  Qed.

  Lemma flip2_core : exists s', flip2 s ct (face fc) = Some ([n; S n], s') /\
    inv2 s' /\ replaced s s' [ct; oj] N /\ num_points s' = num_points s /\ length (faces s') = length (faces s).
  Proof.
    destruct (run_plan_ok 2 face_ok2 face_ok2_perm s base [ct; oj] [face fc] F N L OB PR I flip_plan)
      as [s1 [s' [H1 [H2 [H3 [H4 [H5 H6]]]]]]].
    - repeat constructor; cbn; intuition congruence.
    - intros r [<-|[<-|[]]].
      + change ct with (fst (ct, t)). now apply in_map.
      + change oj with (fst (oj, u)). now apply in_map.
    - repeat constructor. tauto.
    - intros g [<-|[]]. apply (in_map fst) in Hps. exact Hps.
    - reflexivity.
    - exists s'. rewrite flip2_run. cbn [map snd N] in H1. rewrite H1. cbn [bind]. rewrite H2. cbn [bind].
      split; [reflexivity|]. split; [exact H3|]. split; [exact H4|]. split; [exact H5|]. cbn in H6. lia.
  Qed.
End Flip.

(** The flip of an edge whose opposite point is not a corner of the triangle. *)
Theorem flip2_ok s ct t c fc oj q : inv2 s -> In (ct, t) (tetras s) -> In (c, fc) t ->
  opposing fc = Some (Conn oj q) -> ~ In q (points_of t) ->
  exists s' u x y T1 T2, flip2 s ct (face fc) = Some ([next_tetra s; S (next_tetra s)], s') /\ inv2 s' /\
    In (oj, u) (tetras s) /\ ct <> oj /\ rot3 (points_of t) c x y /\ rot3 (points_of u) q y x /\
    points_of T1 = [c; x; q] /\ points_of T2 = [y; c; q] /\
    replaced s s' [ct; oj] [(next_tetra s, T1); (S (next_tetra s), T2)] /\
    num_points s' = num_points s /\ length (faces s') = length (faces s).
Proof.
  intros I Ht Hc Hopp Hq.
  destruct (iv_faces _ _ _ I ct t c fc Ht Hc) as [ps [Hps [x [y [Eps Rt0]]]]].
  assert (Rt : rot3 (points_of t) c x y).
  { unfold rot3. intuition congruence. }
  pose proof (proj1 (iv_opp _ _ _ I ct t c fc Ht Hc oj q) Hopp) as [Hne [u [gc [Hu [Kq Ef]]]]].
  pose proof (iv_flip _ _ _ I ct t c fc oj u q gc Ht Hc Hu Kq (eq_sym Ef) (not_eq_sym Hne)) as Efl.
  destruct (iv_faces _ _ _ I oj u q gc Hu Kq) as [ps' [Hps' [x' [y' [Eps' Ru0]]]]].
  rewrite Ef in Hps'. pose proof (NoDup_ids_eq _ _ _ _ (iv_fids _ _ _ I) Hps Hps') as X. rewrite <- X in Eps'.
  assert (x' = y /\ y' = x) as [-> ->].
  { rewrite Efl, Eps in Eps'. destruct (flipped fc); cbn in Eps'; injection Eps'; auto. }
  assert (Ru : rot3 (points_of u) q y x) by (unfold rot3; intuition congruence).
  assert (Px : In x (points_of t) /\ In y (points_of t)).
  { split; apply (rot3_in _ _ _ _ _ Rt); auto. }
  assert (Qx : In x (points_of u) /\ In y (points_of u)).
  { split; apply (rot3_in _ _ _ _ _ Ru); auto. }
  destruct Px as [Px Py], Qx as [Qx Qy].
  apply points_entry in Px, Py, Qx, Qy. destruct Px as [fx Hx], Py as [fy Hy], Qx as [gx Kx], Qy as [gy Ky].
  rewrite Eps in Hps.
  destruct (flip2_core s I ct oj c q x y t u fc fx fy gc gx gy Ht Hu (not_eq_sym Hne) Hc Hx Hy Kq Kx Ky Ef Efl Rt Ru Hps Hopp Hq)
    as [s' [A [B [C [D E]]]]].
  do 6 eexists. split; [exact A|]. split; [exact B|]. split; [exact Hu|]. split; [auto|]. split; [exact Rt|].
  split; [exact Ru|]. split; [|split; [|split; [exact C|auto]]]; reflexivity.
Qed.
