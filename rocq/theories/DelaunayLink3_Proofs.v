(** The tetrahedra of the data structure as a tiling. *)
From Coq Require Import List Arith Lia Bool Permutation QArith Lqa Setoid.
From Verif Require Import Geometry_Model Geometry_Spec Delaunay_Model Delaunay_Spec DelaunayGeo_Model DelaunayBuild_Proofs DelaunaySurgery_Proofs DelaunayPlan_Proofs
  Delaunay2_Proofs DelaunayInsert_Proofs Delaunay3_Proofs Delaunay3Insert_Proofs
  GeometrySolve_Proofs Circle2_Proofs Tiling2_Proofs DelaunayGlobal2_Proofs Sphere3_Proofs Predicates3_Proofs Tiling3_Proofs.
Import ListNotations.
Local Open Scope Q_scope.

Definition tet (s : triangulation) (i a b c d : nat) : Prop := exists t, In (i, t) (tetras s) /\ even4 [a; b; c; d] (points_of t).

Lemma even4_form a b c d l : even4 [a; b; c; d] l -> exists x y z w, l = [x; y; z; w].
Proof.
  intros [a' [b' [c' [d' [_ H]]]]]. cbn [In] in H.
  repeat (destruct H as [<-|H]; [eauto|]). destruct H.
Qed.
(** The four facets of a tetrahedron. *)
Lemma four_facets (P : nat -> nat -> nat -> nat -> Prop) x y z w : (forall a b c d, P a b c d -> P b c a d) ->
  P x y z w -> P x w y z -> P x z w y -> P y w z x -> forall a b c d, even4 [x; y; z; w] [a; b; c; d] -> P a b c d.
Proof.
  intros R F1 F2 F3 F4 a b c d [x' [y' [z' [w' [E H]]]]]. injection E as <- <- <- <-. cbn [In] in H.
  repeat (destruct H as [H|H]; [injection H as <- <- <- <-; auto|]). destruct H.
Qed.
Lemma even4_last e f g p a b c : even4 [e; f; g; p] [a; b; c; p] -> e <> p -> f <> p -> g <> p ->
  (a = e /\ b = f /\ c = g) \/ (a = f /\ b = g /\ c = e) \/ (a = g /\ b = e /\ c = f).
Proof.
  intros [x' [y' [z' [w' [E H]]]]] N1 N2 N3. injection E as <- <- <- <-. cbn [In] in H.
  repeat (destruct H as [H|H]; [injection H; intros; subst; tauto || congruence|]). destruct H.
Qed.
Lemma to_last (p : nat) a b c d : (a <> p /\ b <> p /\ c <> p /\ d <> p) \/ exists x y z, even4 [a; b; c; d] [x; y; z; p].
Proof.
  destruct (Nat.eq_dec a p) as [->|Na]; [right; exists b, d, c; even|].
  destruct (Nat.eq_dec b p) as [->|Nb]; [right; exists a, c, d; even|].
  destruct (Nat.eq_dec c p) as [->|Nc]; [right; exists a, d, b; even|].
  destruct (Nat.eq_dec d p) as [->|Nd]; [right; exists a, b, c; even|]. left. auto.
Qed.

Lemma tet_even s i a b c d x y z w : tet s i a b c d -> even4 [a; b; c; d] [x; y; z; w] -> tet s i x y z w.
Proof. intros [t [H E]] K. exists t. split; [exact H|]. exact (even4_trans _ _ _ (even4_sym _ _ K) E). Qed.
Lemma tet_same s i a b c d x y z w : inv3 s -> tet s i a b c d -> tet s i x y z w -> even4 [a; b; c; d] [x; y; z; w].
Proof.
  intros I [t [H E]] [t' [H' E']]. rewrite (NoDup_ids_eq _ _ _ _ (iv_ids _ _ _ I) H' H) in E'. exact (even4_trans _ _ _ E (even4_sym _ _ E')).
Qed.
Lemma tet_replaced s s' R N : inv3 s -> inv3 s' -> replaced s s' R N -> forall i x y z w,
  tet s' i x y z w <-> (tet s i x y z w /\ ~ In i R) \/ exists t, In (i, t) N /\ even4 [x; y; z; w] (points_of t).
Proof.
  intros I I' RP i x y z w. split.
  - intros [t' [H' Rt]]. destruct (rp_old _ _ _ _ RP i t' H') as [[t [H [Hn E]]]|[t [H E]]].
    + left. split; [|exact Hn]. exists t. split; [exact H|]. now rewrite (skel_points t t' E).
    + right. exists t. split; [exact H|]. now rewrite (skel_points t t' E).
  - intros [[[t [H Rt]] Hn]|[t [H Rt]]].
    + destruct (rp_kept _ _ _ _ RP i t H Hn) as [t' [H' E]]. exists t'. split; [exact H'|]. now rewrite (skel_points t' t E).
    + destruct (rp_new _ _ _ _ RP i t H) as [t' [H' E]]. exists t'. split; [exact H'|]. now rewrite (skel_points t' t E).
Qed.
Lemma tet_changed s s' N OLD NEW : inv3 s -> inv3 s' -> replaced s s' (map fst OLD) N ->
  (forall i t, In (i, t) N -> exists a b c d, In (i, (a, b, c, d)) NEW /\ even4 [a; b; c; d] (points_of t)) ->
  (forall i a b c d, In (i, (a, b, c, d)) NEW -> exists t, In (i, t) N /\ even4 [a; b; c; d] (points_of t)) ->
  changed (tet s) (tet s') OLD NEW.
Proof.
  intros I I' RP H1 H2 i x y z w. rewrite (tet_replaced s s' _ N I I' RP). split.
  - intros [H|[t [H E]]]; [now left|]. right. destruct (H1 i t H) as [a [b [c [d [K E']]]]]. exists a, b, c, d. split; [exact K|].
    exact (even4_trans _ _ _ E' (even4_sym _ _ E)).
  - intros [H|[a [b [c [d [H E]]]]]]; [now left|]. right. destruct (H2 i a b c d H) as [t [K E']]. exists t. split; [exact K|].
    exact (even4_trans _ _ _ (even4_sym _ _ E) E').
Qed.

(** Faces on the boundary consist of corners of the big tetrahedron. *)
Definition hull3 (s : triangulation) : Prop := forall i t q fi ps x, In (i, t) (tetras s) -> In (q, fi) t -> opposing fi = None ->
  In (face fi, ps) (faces s) -> In x ps -> (x < 4)%nat.
Lemma hull3_replaced s s' R N : inv3 s -> replaced s s' R N -> hull3 s -> hull3 s'.
Proof.
  intros I RP H i t' q fi' ps x Ht' Hq Ho Hps Hx.
  destruct (rp_hull _ _ _ _ RP i t' q fi' Ht' Hq Ho) as [j [t [r [fi [Ht [Hr [Hn E]]]]]]].
  rewrite <- E in Hps. apply (H j t r fi ps x Ht Hr Hn); [|exact Hx].
  apply (rp_faces _ _ _ _ RP); [exact Hps|].
  destruct (iv_faces _ _ _ I j t r fi Ht Hr) as [ps' [P1 _]].
  apply (iv_ffresh _ _ _ I). change (face fi) with (fst (face fi, ps')). now apply in_map.
Qed.

(** What is on the other side of a facet. *)
Lemma tet_entry s i a b c d : inv3 s -> tet s i a b c d -> exists t fi ps, In (i, t) (tetras s) /\ even4 [a; b; c; d] (points_of t) /\ In (d, fi) t /\
  In (face fi, ps) (faces s) /\ turns a b c ps (flipped fi).
Proof.
  intros I [t [Ht E]]. destruct (points_entry t d) as [fi Hd]; [apply (even4_in _ _ _ _ _ d E); tauto|].
  destruct (face3 s i t d fi a b c I Ht Hd E) as [ps [P1 P2]]. exists t, fi, ps. auto.
Qed.
Lemma tet_opposing s i t a b c d fi j q : inv3 s -> In (i, t) (tetras s) -> even4 [a; b; c; d] (points_of t) -> In (d, fi) t ->
  opposing fi = Some (Conn j q) -> tet s j b a c q /\ j <> i.
Proof.
  intros I Ht E Hd Ho. pose proof (proj1 (iv_opp _ _ _ I i t d fi Ht Hd j q) Ho) as [Hne [u [gi [Hu [Hq Eg]]]]].
  split; [|exact Hne]. exists u. split; [exact Hu|]. exact (neighbour3 s i t d fi j u q gi a b c I Ht Hd E Hu Hq Eg (not_eq_sym Hne)).
Qed.
Lemma tet_nodup s i a b c d : inv3 s -> tet s i a b c d -> a <> b /\ a <> c /\ a <> d /\ b <> c /\ b <> d /\ c <> d.
Proof. intros I [t [Ht E]]. exact (even4_nodup _ _ _ _ _ E (proj1 (proj2 (iv_corners _ _ _ I _ _ Ht)))). Qed.

Section Link.
  Variable pts : nat -> point3.
  Notation O a b c d := (orient3 (pts a) (pts b) (pts c) (pts d)).

  Lemma tet_across s m i t a b c d fi v : inv3 s -> tiling3 pts (tet s) m -> hull3 s ->
    In (i, t) (tetras s) -> even4 [a; b; c; d] (points_of t) -> In (d, fi) t -> (v < m)%nat -> O a b c v < 0 ->
    exists j q, opposing fi = Some (Conn j q) /\ tet s j b a c q.
  Proof.
    intros I L H Ht E Hd Hv S.
    destruct (opposing fi) as [[j q]|] eqn:Eo; [exists j, q; split; [reflexivity|]; exact (proj1 (tet_opposing s i t a b c d fi j q I Ht E Hd Eo))|].
    exfalso. destruct (face3 s i t d fi a b c I Ht Hd E) as [ps [P1 P2]].
    assert (X : forall x, x = a \/ x = b \/ x = c -> (x < 4)%nat).
    { intros x Hx. apply (H i t d fi ps x Ht Hd Eo P1). now apply (turns_in _ _ _ _ _ x P2). }
    assert (Hi : tet s i a b c d) by (exists t; auto). destruct (t3_lts _ _ _ L _ _ _ _ _ Hi) as [_ [_ [_ Ld]]].
    exact (t3_hull pts (tet s) m L a b c d v (X a (or_introl eq_refl)) (X b (or_intror (or_introl eq_refl))) (X c (or_intror (or_intror eq_refl)))
      Ld Hv (t3_pos _ _ _ L _ _ _ _ _ Hi) S).
  Qed.
  Lemma tet_beyond s m i a b c d v : inv3 s -> tiling3 pts (tet s) m -> hull3 s -> tet s i a b c d -> (v < m)%nat -> O a b c v < 0 ->
    exists j q, tet s j b a c q.
  Proof.
    intros I L H Hi Hv S. destruct (tet_entry s i a b c d I Hi) as [t [fi [ps [Ht [E [Hd _]]]]]].
    destruct (tet_across s m i t a b c d fi v I L H Ht E Hd Hv S) as [j [q [_ K]]]. eauto.
  Qed.
  (** Tetrahedra with a common facet know of each other. *)
  Lemma tet_connected s m i t a b c d fi j q : inv3 s -> tiling3 pts (tet s) m -> hull3 s ->
    In (i, t) (tetras s) -> even4 [a; b; c; d] (points_of t) -> In (d, fi) t -> tet s j b a c q -> opposing fi = Some (Conn j q).
  Proof.
    intros I L H Ht E Hd Hj. pose proof (t3_pos _ _ _ L _ _ _ _ _ Hj) as Pj. rewrite o3_swap in Pj.
    destruct (t3_lts _ _ _ L _ _ _ _ _ Hj) as [_ [_ [_ Lq]]].
    destruct (tet_across s m i t a b c d fi q I L H Ht E Hd Lq ltac:(lra)) as [j' [q' [Eo Hj']]].
    destruct (t3_facet pts (tet s) m L _ _ _ _ _ _ _ Hj Hj') as [-> ->]. exact Eo.
  Qed.

  (** The predicates on the corners as they are stored. *)
  Lemma circle_even t a b c d v o k : even4 [a; b; c; d] (points_of t) -> 0 < O a b c d -> sph (pts a) (pts b) (pts c) (pts d) o k ->
    (circle3 pts (points_of t) v = Some true -> pow3 o k (pts v) < 0) /\
    (0 < dist2_3 (pts a) (pts v) -> 0 < dist2_3 (pts b) (pts v) -> 0 < dist2_3 (pts c) (pts v) -> 0 < dist2_3 (pts d) (pts v) ->
     circle3 pts (points_of t) v = Some false -> 0 < pow3 o k (pts v)) /\
    (~ pow3 o k (pts v) == 0 -> circle3 pts (points_of t) v <> None).
  Proof.
    intros E P0 S. destruct (even4_form _ _ _ _ _ E) as [x [y [z [w El]]]]. rewrite El in E. rewrite El.
    pose proof (even_o3 pts _ _ _ _ _ _ _ _ E) as E1. pose proof (even_sph pts _ _ _ _ _ _ _ _ o k E S) as E2.
    destruct (circle3_test _ _ _ _ o k (pts v) ltac:(rewrite E1; exact P0) E2) as [A [B C]].
    split; [exact A|]. split; [|exact C]. intros Da Db Dc Dd.
    assert (X : forall u, u = x \/ u = y \/ u = z \/ u = w -> 0 < dist2_3 (pts u) (pts v)).
    { intros u Hu. apply (proj2 (even_mem _ _ _ _ _ _ _ _ u E)) in Hu. destruct Hu as [->|[->|[->| ->]]]; assumption. }
    apply B; apply X; auto.
  Qed.
  Lemma inside_even t a b c d v : even4 [a; b; c; d] (points_of t) -> 0 < O a b c d ->
    (inside3 pts (points_of t) v = Some true <-> ins3 (pts a) (pts b) (pts c) (pts d) (pts v)).
  Proof.
    intros E P0. destruct (even4_form _ _ _ _ _ E) as [x [y [z [w El]]]]. rewrite El in E. rewrite El.
    pose proof (even_o3 pts _ _ _ _ _ _ _ _ E) as E1. cbn [inside3]. rewrite (inside3_test _ _ _ _ (pts v)); [|rewrite E1; exact P0].
    split; intro H; [exact (even_ins pts _ _ _ _ _ _ _ _ (pts v) (even4_sym _ _ E) H)|exact (even_ins pts _ _ _ _ _ _ _ _ (pts v) E H)].
  Qed.

  (** The powers of a point with respect to all circumspheres. *)
  Lemma tet_listed s v : (forall i a b c d, tet s i a b c d -> 0 < O a b c d) -> exists l : list Q, forall i a b c d o k,
    tet s i a b c d -> sph (pts a) (pts b) (pts c) (pts d) o k -> exists z, In z l /\ z == pow3 o k (pts v).
  Proof.
    intros HP.
    exists (map (fun e => match points_of (snd e) with
      | [a; b; c; d] => let o := circumcenter3 (TT (pts a) (pts b) (pts c) (pts d)) in dist2_3 o (pts v) - dist2_3 o (pts a) | _ => 0 end) (tetras s)).
    intros i a b c d o k Hi S. pose proof (HP _ _ _ _ _ Hi) as P0. destruct Hi as [t [Ht E]]. eexists. split.
    - apply in_map_iff. exists (i, t). split; [reflexivity|exact Ht].
    - cbn [snd]. destruct (even4_form _ _ _ _ _ E) as [x [y [z [w El]]]]. rewrite El in *. cbv zeta.
      pose proof (even_o3 pts _ _ _ _ _ _ _ _ E) as E1. pose proof (even_sph pts _ _ _ _ _ _ _ _ o k E S) as S1.
      assert (P1 : 0 < O x y z w) by (rewrite E1; exact P0).
      assert (N : ~ volume6 (TT (pts x) (pts y) (pts z) (pts w)) == 0) by (unfold orient3 in P1; lra).
      pose proof (sph_of_center _ _ _ _ _ (circumcenter3_ok _ N)) as S2.
      rewrite (sph_dist _ _ _ _ _ _ (pts v) S2). exact (sph_unique _ _ _ _ _ _ _ _ (pts v) P1 S2 S1).
  Qed.
End Link.
