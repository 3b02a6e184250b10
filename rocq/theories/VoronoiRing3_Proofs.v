(** The tetrahedra around a line between an inner point and another point form a ring. *)
From Coq Require Import List Arith Lia QArith Lqa Setoid Bool Permutation.
From Verif Require Cyclic_Model Cyclic_Spec Cyclic_Proofs.
From Verif Require Import Geometry_Model Geometry_Spec Circle2_Proofs Tiling2_Proofs Cone2_Proofs Delaunay_Model
  DelaunaySurgery_Proofs DelaunayBuild_Proofs Delaunay2_Proofs Delaunay3_Proofs Sphere3_Proofs Tiling3_Proofs DelaunayLink3_Proofs DelaunayGlobal3_Proofs
  Voronoi_Model Voronoi3_Model VoronoiRing_Proofs Voronoi_Proofs.
Import ListNotations.
Local Open Scope nat_scope.

(** ** Looking along a line *)
Local Open Scope Q_scope.
Lemma flatten p q : 0 < dist2_3 p q -> exists (f : point3 -> point2) c, 0 < c /\
  forall u v, orient (f p) (f u) (f v) == c * orient3 p q u v.
Proof.
  intro D. set (nx := x3 q - x3 p). set (ny := y3 q - y3 p). set (nz := z3 q - z3 p).
  assert (SQ : forall x, ~ x == 0 -> 0 < x * x).
  { intros x N. destruct (Qlt_le_dec x 0); nra. }
  destruct (Qeq_dec nz 0) as [Zz|Nz]; [destruct (Qeq_dec ny 0) as [Zy|Ny]; [destruct (Qeq_dec nx 0) as [Zx|Nx]|]|].
  - exfalso. unfold dist2_3 in D. assert (E : (x3 p - x3 q) * (x3 p - x3 q) + (y3 p - y3 q) * (y3 p - y3 q) + (z3 p - z3 q) * (z3 p - z3 q) == nx * nx + ny * ny + nz * nz)
      by (unfold nx, ny, nz; ring). rewrite Zx, Zy, Zz in E. lra.
  - exists (fun u => P2 (nx * (y3 u * nx - x3 u * ny)) (z3 u * nx - x3 u * nz)), (nx * nx). split; [auto|]. intros u v.
    unfold orient, area2, orient3, volume6, triple, nx, ny, nz. cbn. ring.
  - exists (fun u => P2 (ny * (z3 u * ny - y3 u * nz)) (x3 u * ny - y3 u * nx)), (ny * ny). split; [auto|]. intros u v.
    unfold orient, area2, orient3, volume6, triple, nx, ny, nz. cbn. ring.
  - exists (fun u => P2 (nz * (x3 u * nz - z3 u * nx)) (y3 u * nz - z3 u * ny)), (nz * nz). split; [auto|]. intros u v.
    unfold orient, area2, orient3, volume6, triple, nx, ny, nz. cbn. ring.
Qed.
(** A tetrahedron [p q a b] with the direction of [x] between [a] and [b] contains the points near the middle of [pq] in this direction. *)
Lemma wedge_cls p q a b x : 0 < orient3 p q a b -> 0 <= orient3 p q a x -> 0 <= orient3 p q x b ->
  exists e, 0 < e /\ forall e', 0 < e' -> e' <= e -> cls3 p q a b (mix3 e' (mix3 (1#2) p q) x).
Proof.
  intros P0 H1 H2.
  destruct (small1 (orient3 p q a b) (orient3 p a b x) P0) as [e1 [A1 [A2 A3]]].
  assert (SM : forall y, exists e, 0 < e /\ forall e', 0 < e' -> e' <= e -> 0 <= (1 - e') * ((1#2) * orient3 p q a b) + e' * y).
  { intro y. set (v := orient3 p q a b) in *. destruct (Qlt_le_dec y 0) as [N|N].
    - exists ((1#2) * v / ((1#2) * v - y)). split; [apply Qlt_shift_div_l; lra|]. intros e' E1 E2.
      apply (Qmult_le_r _ _ ((1#2) * v - y)) in E2; [|lra].
      setoid_replace ((1 # 2) * v / ((1 # 2) * v - y) * ((1 # 2) * v - y)) with ((1#2) * v) in E2 by (field; lra). nra.
    - exists 1. split; [lra|]. intros e' E1 E2. assert (0 <= (1 - e') * ((1#2) * v)) by nra. nra. }
  destruct (SM (orient3 p a b x)) as [e2 [B1 B2]]. destruct (SM (orient3 q b a x)) as [e3 [C1 C2]].
  assert (W : exists e, 0 < e /\ e <= e2 /\ e <= e3) by (destruct (Qlt_le_dec e2 e3); [exists e2|exists e3]; lra).
  destruct W as [e [W1 [W2 W3]]]. exists e. split; [exact W1|]. intros e' E1 E2.
  specialize (B2 e' E1 ltac:(lra)). specialize (C2 e' E1 ltac:(lra)). unfold cls3. rewrite !o3_mix.
  assert (Z1 : orient3 p q a p == 0) by apply o3_same. assert (Z2 : orient3 p q a q == 0) by apply o3_same.
  assert (Z3 : orient3 p b q p == 0) by apply o3_same. assert (Z4 : orient3 p b q q == 0) by apply o3_same.
  assert (Z5 : orient3 p a b p == 0) by apply o3_same. assert (Z6 : orient3 q b a q == 0) by apply o3_same.
  assert (Z7 : orient3 p a b q == orient3 p q a b) by (coords3; ring). assert (Z8 : orient3 q b a p == orient3 p q a b) by (coords3; ring).
  assert (Z9 : orient3 p b q x == orient3 p q x b) by (coords3; ring).
  rewrite Z1, Z2, Z3, Z4, Z5, Z6, Z7, Z8, Z9. repeat split; nra.
Qed.
Lemma wedge_ins p q a b : 0 < orient3 p q a b -> let x := mix3 (1#2) a b in
  0 < orient3 p q a x /\ forall e, 0 < e -> e < 1 -> ins3 p q a b (mix3 e (mix3 (1#2) p q) x).
Proof.
  intros P0 x. split.
  - unfold x. rewrite o3_mix. assert (Z : orient3 p q a a == 0) by apply o3_same. rewrite Z. lra.
  - intros e E1 E2. unfold ins3, x. rewrite !o3_mix.
    assert (Z1 : orient3 p q a p == 0) by apply o3_same. assert (Z2 : orient3 p q a q == 0) by apply o3_same.
    assert (Z3 : orient3 p b q p == 0) by apply o3_same. assert (Z4 : orient3 p b q q == 0) by apply o3_same.
    assert (Z5 : orient3 p a b p == 0) by apply o3_same. assert (Z6 : orient3 q b a q == 0) by apply o3_same.
    assert (Z7 : orient3 p a b q == orient3 p q a b) by (coords3; ring). assert (Z8 : orient3 q b a p == orient3 p q a b) by (coords3; ring).
    assert (Y1 : orient3 p q a a == 0) by apply o3_same. assert (Y2 : orient3 p b q b == 0) by apply o3_same.
    assert (Y3 : orient3 p b q a == orient3 p q a b) by (coords3; ring).
    assert (Y4 : orient3 p a b a == 0) by apply o3_same. assert (Y5 : orient3 p a b b == 0) by apply o3_same.
    assert (Y6 : orient3 q b a a == 0) by apply o3_same. assert (Y7 : orient3 q b a b == 0) by apply o3_same.
    rewrite Z1, Z2, Z3, Z4, Z5, Z6, Z7, Z8, Y1, Y2, Y3, Y4, Y5, Y6, Y7. repeat split; nra.
Qed.
Local Open Scope nat_scope.

Lemma around_snd_first {A B} (f g : A -> B) l : (forall i j, In (i, j) (Cyclic_Spec.around l) -> f j = g i) ->
  Cyclic_Spec.around (map f l) = map (fun i => (f i, g i)) l.
Proof.
  intro H. rewrite around_map. transitivity (map (fun i => (f i, g i)) (map fst (Cyclic_Spec.around l))).
  - rewrite map_map. apply map_ext_in. intros [i j] I. cbn. now rewrite (H i j I).
  - f_equal. apply (Cyclic_Proofs.around_once l).
Qed.

(** ** The tetrahedra with two given corners *)
Section Edge.
  Variable pts : nat -> point3.
  Variable s : triangulation.
  Variables p q : nat.
  Hypothesis G : good3 pts s.
  Hypothesis inner : 4 <= p < num_points s.

  Let I := g3_inv _ _ G.
  Let L := g3_tiling _ _ G.
  Notation items := (tetras_with_both s p q).
  Notation n := (length items).
  Notation item := (fun k => nth k items no_tetra).
  Definition edge3 (k a b : nat) : Prop := tet s (fst (item k)) p q a b.

  Lemma star_items x e : In e (point_to_tetras s x) <-> In e (tetras s) /\ In x (points_of (snd e)).
  Proof.
    unfold point_to_tetras. rewrite in_flat_map. split.
    - intros [e' [H K]]. apply in_map_iff in K. destruct K as [q' [<- K]]. apply filter_In in K. destruct K as [K E].
      apply Nat.eqb_eq in E. subst q'. auto.
    - intros [H K]. exists e. split; [exact H|]. apply in_map_iff. exists x. split; [reflexivity|]. apply filter_In. split; [exact K|]. apply Nat.eqb_refl.
  Qed.
  Lemma items_in3 e : In e items <-> In e (tetras s) /\ In p (points_of (snd e)) /\ In q (points_of (snd e)).
  Proof.
    unfold tetras_with_both. rewrite filter_In, star_items, existsb_exists. split.
    - intros [[H K] [q' [Q E]]]. apply Nat.eqb_eq in E. subst q'. auto.
    - intros [H [K Q]]. split; [auto|]. exists q. split; [exact Q|apply Nat.eqb_refl].
  Qed.
  Lemma star_ids x : NoDup (map fst (point_to_tetras s x)).
  Proof.
    assert (X : forall l, incl l (tetras s) -> NoDup (map fst l) ->
      NoDup (map fst (flat_map (fun e => map (fun _ => e) (filter (Nat.eqb x) (points_of (snd e)))) l))).
    { induction l as [|e l IH]; cbn [flat_map map]; intros HI ND; [constructor|]. inversion ND as [|? ? N1 N2]; subst.
      assert (IL : incl l (tetras s)) by (intros z Hz; apply HI; now right). specialize (IH IL N2).
      assert (NP : NoDup (filter (Nat.eqb x) (points_of (snd e)))).
      { apply NoDup_filter. destruct e as [i t]. apply (proj1 (proj2 (iv_corners _ _ _ I i t (HI _ (or_introl eq_refl))))). }
      assert (AE : forall q, In q (filter (Nat.eqb x) (points_of (snd e))) -> q = x) by (intros q' Hq; apply filter_In in Hq; symmetry; now apply Nat.eqb_eq).
      destruct (filter (Nat.eqb x) (points_of (snd e))) as [|y [|y' m]]; cbn; [exact IH| |].
      - constructor; [|exact IH]. intro Z. apply N1. apply in_map_iff in Z. destruct Z as [z [<- Z]]. apply in_flat_map in Z.
        destruct Z as [z' [Z1 Z2]]. apply in_map_iff in Z2. destruct Z2 as [_ [<- _]]. now apply in_map.
      - exfalso. inversion NP as [|? ? M1 _]; subst. apply M1. left. rewrite (AE y), (AE y'); auto; cbn; auto. }
    apply X; [apply incl_refl|exact (iv_ids _ _ _ I)].
  Qed.
  Lemma items_ids3 : NoDup (map fst items).
  Proof.
    unfold tetras_with_both. generalize (star_ids p). generalize (point_to_tetras s p). induction l as [|e l IH]; cbn; intro ND; [constructor|].
    inversion ND as [|? ? N1 N2]; subst. destruct (existsb _ _); [|auto]. cbn. constructor; [|auto].
    intro Z. apply N1. apply in_map_iff in Z. destruct Z as [z [<- Z]]. apply filter_In in Z. apply in_map. tauto.
  Qed.
  Lemma item_eq3 k l : k < n -> l < n -> fst (item k) = fst (item l) -> k = l.
  Proof.
    intros Hk Hl E. pose proof items_ids3 as ND. apply (proj1 (NoDup_nth (map fst items) 0)) with (i := k) (j := l) in ND; auto; try (now rewrite map_length).
    change 0 with (fst no_tetra). now rewrite !map_nth.
  Qed.
  Lemma item_in3 k : k < n -> In (item k) (tetras s) /\ In p (points_of (snd (item k))) /\ In q (points_of (snd (item k))).
  Proof. intro Hk. apply items_in3. now apply nth_In. Qed.

  Lemma four_two x y a b c d : a <> b -> a <> c -> a <> d -> b <> c -> b <> d -> c <> d -> x <> y ->
    x = a \/ x = b \/ x = c \/ x = d -> y = a \/ y = b \/ y = c \/ y = d -> exists u v, even4 [x; y; u; v] [a; b; c; d].
  Proof.
    intros _ _ _ _ _ _ N [->|[->|[->| ->]]] [->|[->|[->| ->]]]; try congruence;
    (exists c, d; now even) || (exists d, c; now even) || (exists b, d; now even) || (exists d, b; now even) || (exists b, c; now even) || (exists c, b; now even)
    || (exists a, d; now even) || (exists d, a; now even) || (exists a, c; now even) || (exists c, a; now even) || (exists a, b; now even) || (exists b, a; now even).
  Qed.
  Lemma both_tet i t x y : In (i, t) (tetras s) -> In x (points_of t) -> In y (points_of t) -> x <> y -> exists a b, tet s i x y a b.
  Proof.
    intros H K Q N. destruct (iv_corners _ _ _ I i t H) as [Len [ND _]].
    destruct (points_of t) as [|a [|b [|c [|d [|? ?]]]]] eqn:E; unfold points_of in E; apply (f_equal (@length _)) in E as E'; rewrite map_length in E'; cbn in E'; try lia.
    destruct (proj1 (NoDup4 a b c d) ND) as [N1 [N2 [N3 [N4 [N5 N6]]]]].
    destruct (four_two x y a b c d) as [u [v EV]]; auto.
    - cbn in K. intuition.
    - cbn in Q. intuition.
    - exists u, v, t. split; [exact H|]. unfold points_of. now rewrite E.
  Qed.
  Hypothesis pq : p <> q.
  Lemma edge_ex3 k : k < n -> exists ab, edge3 k (fst ab) (snd ab).
  Proof.
    intro Hk. destruct (item_in3 k Hk) as [H [K Q]]. unfold edge3. destruct (nth k items no_tetra) as [i t]. cbn [fst snd] in *.
    destruct (both_tet i t p q H K Q pq) as [a [b X]]. exists (a, b). exact X.
  Qed.
  Lemma edge_idx3 i a b : tet s i p q a b -> exists k, k < n /\ fst (item k) = i.
  Proof.
    intros [t [Ht R]]. assert (H : In (i, t) items).
    { apply items_in3. split; [exact Ht|]. split; apply (even4_in _ _ _ _ _ _ R); auto. }
    destruct (In_nth _ _ no_tetra H) as [k [Hk E]]. exists k. rewrite E. auto.
  Qed.
  Lemma tet_unique i a b c d : tet s i p q a b -> tet s i p q c d -> a = c /\ b = d.
  Proof.
    intros H K. destruct (tet_nodup _ _ _ _ _ _ I K) as [N1 [N2 [N3 [N4 [N5 N6]]]]]. pose proof (tet_same _ _ _ _ _ _ _ _ _ _ I H K) as R.
    destruct R as [x [y [z [w [E R]]]]]. injection E as <- <- <- <-. cbn [In] in R.
    repeat (destruct R as [Z|R]; [injection Z as; try (split; congruence); exfalso; congruence|]). destruct R.
  Qed.
  Lemma tet_facet i j a b c : tet s i p q a b -> tet s j p q a c -> i = j /\ b = c.
  Proof. intros H K. exact (t3_facet pts (tet s) _ L _ _ _ _ _ _ _ H K). Qed.
  Lemma tet_facet2 i j a b c : tet s i p q b a -> tet s j p q c a -> i = j /\ b = c.
  Proof.
    intros H K. apply (t3_facet pts (tet s) _ L i j q p a b c); [apply (tet_even _ _ p q b a)|apply (tet_even _ _ p q c a)]; auto; even.
  Qed.
  Lemma tet_turned i j a b : tet s i p q a b -> tet s j p q b a -> False.
  Proof.
    intros H K. pose proof (t3_pos _ _ _ L _ _ _ _ _ H) as A. pose proof (t3_pos _ _ _ L _ _ _ _ _ K) as B. rewrite o3_last in B. lra.
  Qed.
  (** Across the facet [p q b] that is opposite to [a]. *)
  Lemma tet_side3 i a b : tet s i p q a b -> exists j c t u fi gi, tet s j p q b c /\ j <> i /\
    In (i, t) (tetras s) /\ In (j, u) (tetras s) /\ In (a, fi) t /\ In (c, gi) u /\ face fi = face gi.
  Proof.
    intro H. assert (H' : tet s i p b q a) by (apply (tet_even _ _ _ _ _ _ _ _ _ _ H); even).
    destruct (tet_entry s i p b q a I H') as [t [fi [ps [Ht [R [Hc [F T]]]]]]].
    destruct (opposing fi) as [[j c]|] eqn:Eo.
    - pose proof (tet_opposing s i t p b q a fi j c I Ht R Hc Eo) as [Hj Ne]. apply (iv_opp _ _ _ I i t a fi Ht Hc) in Eo.
      destruct Eo as [_ [u [gi [Hu [Hq Eg]]]]]. exists j, c, t, u, fi, gi.
      split; [apply (tet_even _ _ _ _ _ _ _ _ _ _ Hj); even|]. repeat (split; [assumption|]). congruence.
    - exfalso. assert (p < 4); [|lia]. apply (g3_hull _ _ G i t a fi ps p Ht Hc Eo F). apply (turns_in _ _ _ _ _ p T). auto.
  Qed.
  Lemma edge_pred i a b : tet s i p q a b -> exists j c, tet s j p q c a.
  Proof.
    intro H. destruct (tet_entry s i p q a b I H) as [t [fi [ps [Ht [R [Hc [F T]]]]]]].
    destruct (opposing fi) as [[j c]|] eqn:Eo.
    - exists j, c. pose proof (tet_opposing s i t p q a b fi j c I Ht R Hc Eo) as [Hj Ne]. apply (tet_even _ _ _ _ _ _ _ _ _ _ Hj); even.
    - exfalso. assert (p < 4); [|lia]. apply (g3_hull _ _ G i t b fi ps p Ht Hc Eo F). apply (turns_in _ _ _ _ _ p T). auto.
  Qed.

  (** The next tetrahedron in the positive direction. *)
  Definition Succ3 (k l : nat) : Prop := k < n /\ l < n /\ exists a b c, edge3 k a b /\ edge3 l b c.
  Lemma succ_fun3 i j k : Succ3 i j -> Succ3 i k -> j = k.
  Proof.
    intros [Hi [Hj [a [b [c [E1 E2]]]]]] [_ [Hk [a' [b' [c' [E3 E4]]]]]]. destruct (tet_unique _ _ _ _ _ E1 E3) as [<- <-].
    apply item_eq3; auto. exact (proj1 (tet_facet _ _ _ _ _ E2 E4)).
  Qed.
  Lemma succ_inj3 i j k : Succ3 j i -> Succ3 k i -> j = k.
  Proof.
    intros [Hj [Hi [a [b [c [E1 E2]]]]]] [Hk [_ [a' [b' [c' [E3 E4]]]]]]. destruct (tet_unique _ _ _ _ _ E2 E4) as [<- <-].
    apply item_eq3; auto. exact (proj1 (tet_facet2 _ _ _ _ _ E1 E3)).
  Qed.
  Lemma succ_irrefl3 i : ~ Succ3 i i.
  Proof.
    intros [_ [_ [a [b [c [E1 E2]]]]]]. destruct (tet_unique _ _ _ _ _ E1 E2) as [E _]. destruct (tet_nodup _ _ _ _ _ _ I E1) as [_ [_ [_ [_ [_ N]]]]]. auto.
  Qed.
  Lemma succ_asym3 i j : Succ3 i j -> Succ3 j i -> False.
  Proof.
    intros [_ [_ [a [b [c [E1 E2]]]]]] [_ [_ [a' [b' [c' [E3 E4]]]]]]. destruct (tet_unique _ _ _ _ _ E2 E3) as [-> ->].
    destruct (tet_unique _ _ _ _ _ E1 E4) as [-> ->]. exact (tet_turned _ _ _ _ E1 E2).
  Qed.
  Lemma succ_ex3 k : k < n -> exists l, Succ3 k l.
  Proof.
    intro Hk. destruct (edge_ex3 k Hk) as [[a b] E]. cbn [fst snd] in E. destruct (tet_side3 _ _ _ E) as [j [c [_ [_ [_ [_ [Hj _]]]]]]].
    destruct (edge_idx3 _ _ _ Hj) as [l [Hl El]]. exists l. split; [exact Hk|]. split; [exact Hl|]. exists a, b, c. split; [exact E|].
    unfold edge3. cbn beta. rewrite El. exact Hj.
  Qed.
  Lemma pred_ex3 k : k < n -> exists l, Succ3 l k.
  Proof.
    intro Hk. destruct (edge_ex3 k Hk) as [[a b] E]. cbn [fst snd] in E. destruct (edge_pred _ _ _ E) as [j [c Hj]].
    destruct (edge_idx3 _ _ _ Hj) as [l [Hl El]]. exists l. split; [exact Hl|]. split; [exact Hk|]. exists c, a, b. split; [|exact E].
    unfold edge3. cbn beta. rewrite El. exact Hj.
  Qed.
  (** A facet that is opposite to [x] cannot be shared by another tetrahedron with the same line. *)
  Lemma tet_mirror i j a b x y r u v : x = p /\ y = q \/ x = q /\ y = p -> tet s i a b y x -> tet s j b a y r -> tet s j p q u v -> False.
  Proof.
    intros XY H K E. destruct (tet_nodup _ _ _ _ _ _ I H) as [N1 [N2 [N3 [N4 [N5 N6]]]]].
    assert (X : x = b \/ x = a \/ x = y \/ x = r).
    { destruct K as [t [Ht R]]. destruct E as [t' [Ht' R']]. rewrite (NoDup_ids_eq _ _ _ _ (iv_ids _ _ _ I) Ht' Ht) in R'.
      apply (even4_in _ _ _ _ _ x R). apply (even4_in _ _ _ _ _ x R'). destruct XY as [[-> _]|[-> _]]; auto. }
    destruct X as [->|[->|[->| ->]]]; try congruence.
    pose proof (t3_pos _ _ _ L _ _ _ _ _ H) as A. pose proof (t3_pos _ _ _ L _ _ _ _ _ K) as B. rewrite o3_swap in B. lra.
  Qed.
  Lemma common_succ k l f : k < n -> l < n -> k <> l -> get_common_face_with (snd (item k)) (snd (item l)) = Some f -> Succ3 k l \/ Succ3 l k.
  Proof.
    intros Hk Hl N E. destruct (edge_ex3 k Hk) as [[a b] E1]. destruct (edge_ex3 l Hl) as [[c d] E2]. cbn [fst snd] in *.
    assert (Ne : fst (item k) <> fst (item l)) by (intro Z; apply N; exact (item_eq3 _ _ Hk Hl Z)).
    destruct (item_in3 k Hk) as [Ik _]. destruct (item_in3 l Hl) as [Il _]. unfold Succ3, edge3 in *.
    destruct (nth k items no_tetra) as [i t]. destruct (nth l items no_tetra) as [j u]. cbn [fst snd] in *.
    apply common_some in E. destruct E as [x [fi [r [gi [Hq [Hr [F1 F2]]]]]]].
    assert (Eo : opposing fi = Some (Conn j r)).
    { apply (iv_opp _ _ _ I i t x fi Ik Hq). split; [congruence|]. exists u, gi. split; [exact Il|]. split; [exact Hr|congruence]. }
    pose proof E1 as E1'. destruct E1 as [t' [Ht' R]]. rewrite (NoDup_ids_eq _ _ _ _ (iv_ids _ _ _ I) Ht' Ik) in R. clear t' Ht'.
    assert (TO : forall y z w, even4 [p; q; a; b] [y; z; w; x] -> tet s i y z w x /\ tet s j z y w r).
    { intros y z w EV. split; [exact (tet_even _ _ _ _ _ _ _ _ _ _ E1' EV)|].
      exact (proj1 (tet_opposing s i t y z w x fi j r I Ik (even4_trans _ _ _ (even4_sym _ _ EV) R) Hq Eo)). }
    pose proof (entry_point _ _ _ Hq) as Pq. apply (even4_in _ _ _ _ _ x R) in Pq. destruct Pq as [->|[->|[->| ->]]].
    - exfalso. destruct (TO b a q) as [X Y]; [even|]. exact (tet_mirror i j b a p q r c d (or_introl (conj eq_refl eq_refl)) X Y E2).
    - exfalso. destruct (TO a b p) as [X Y]; [even|]. exact (tet_mirror i j a b q p r c d (or_intror (conj eq_refl eq_refl)) X Y E2).
    - left. destruct (TO p b q) as [X Y]; [even|]. split; [exact Hk|]. split; [exact Hl|]. exists a, b, r. split; [exact E1'|].
      apply (tet_even _ _ _ _ _ _ _ _ _ _ Y). even.
    - right. destruct (TO p q a) as [X Y]; [even|]. split; [exact Hl|]. split; [exact Hk|]. exists r, a, b. split; [|exact E1'].
      apply (tet_even _ _ _ _ _ _ _ _ _ _ Y). even.
  Qed.
  Lemma succ_common3 k l : Succ3 k l -> exists f, get_common_face_with (snd (item k)) (snd (item l)) = Some f.
  Proof.
    intros [Hk [Hl [a [b [c [E1 E2]]]]]]. destruct (item_in3 k Hk) as [Ik _]. destruct (item_in3 l Hl) as [Il _]. unfold edge3 in *.
    destruct (tet_side3 _ a b E1) as [j [c' [t [u [fi [gi [Hj [_ [Ht [Hu [Ha [Hc Ef]]]]]]]]]]]].
    destruct (tet_facet _ _ _ _ _ E2 Hj) as [E _]. subst j.
    destruct (nth k items no_tetra) as [i t']. destruct (nth l items no_tetra) as [j u']. cbn [fst snd] in *.
    rewrite <- (NoDup_ids_eq _ _ _ _ (iv_ids _ _ _ I) Ht Ik), <- (NoDup_ids_eq _ _ _ _ (iv_ids _ _ _ I) Hu Il).
    apply (common_exists t u a fi c' gi Ha Hc Ef).
  Qed.
  Definition related3 (i j : nat) : bool := tetras_are_neighbours (snd (item i)) (snd (item j)).
  Lemma related_iff3 i j : i < n -> j < n -> i <> j -> (related3 i j = true <-> Succ3 i j \/ Succ3 j i).
  Proof.
    intros Hi Hj N. split.
    - unfold related3, tetras_are_neighbours. destruct (get_common_face_with _ _) as [f|] eqn:E; [intros _|discriminate].
      exact (common_succ i j f Hi Hj N E).
    - intros [X|X]; [|unfold related3; rewrite common_sym]; unfold related3, tetras_are_neighbours; destruct (succ_common3 _ _ X) as [f F]; cbn beta in F; now rewrite F.
  Qed.
  Lemma edge_two : Cyclic_Spec.two_related (fun i j => related3 i j = true) n.
  Proof.
    intros i Hi. destruct (succ_ex3 i Hi) as [a Ha]. destruct (pred_ex3 i Hi) as [b Hb]. exists a, b.
    assert (a <> b) by (intros ->; exact (succ_asym3 _ _ Ha Hb)).
    assert (a <> i) by (intros ->; exact (succ_irrefl3 _ Ha)). assert (b <> i) by (intros ->; exact (succ_irrefl3 _ Hb)).
    repeat (split; [assumption||apply Ha||apply Hb|]). intros j Hj N. rewrite related_iff3 by auto. split.
    - intros [X|X]; [left; exact (succ_fun3 _ _ _ X Ha)|right; exact (succ_inj3 _ _ _ X Hb)].
    - intros [->| ->]; auto.
  Qed.
  Hypothesis nbr : exists i a b, tet s i p q a b.
  Lemma edge_some : 0 < n.
  Proof. destruct nbr as [i [a [b H]]]. destruct (edge_idx3 _ _ _ H) as [k [Hk _]]. lia. Qed.
  Lemma edge_apart : (0 < dist2_3 (pts p) (pts q))%Q.
  Proof.
    destruct nbr as [i [a [b H]]]. pose proof (t3_pos _ _ _ L _ _ _ _ _ H) as P0.
    destruct (Qlt_le_dec 0 (dist2_3 (pts p) (pts q))) as [D|D]; [exact D|exfalso].
    pose proof (dist3_nonneg (pts p) (pts q)) as D'. assert (Z : (dist2_3 (pts p) (pts q) == 0)%Q) by lra.
    apply dist3_zero in Z. destruct Z as [Z1 [Z2 Z3]].
    assert (orient3 (pts p) (pts q) (pts a) (pts b) == 0)%Q; [|lra]. unfold orient3, volume6, triple. cbn. rewrite Z1, Z2, Z3. ring.
  Qed.
  (** A part of the ring that is closed under successors is the whole ring. *)
  Lemma edge_closed (M : list nat) : M <> [] -> (forall k, In k M -> k < n) -> (forall k, In k M -> exists l, Succ3 k l /\ In l M) ->
    forall k, k < n -> In k M.
  Proof.
    intros NO LO CO k Hk. destruct (finite_choice (0, 0) (fun k ab => edge3 k (fst ab) (snd ab)) n edge_ex3) as [g Hg].
    pose proof (Hg k Hk) as Ek. set (a := fst (g k)) in *. set (b := snd (g k)) in *. pose proof (t3_pos _ _ _ L _ _ _ _ _ Ek) as Pk.
    destruct (wedge_ins (pts p) (pts q) (pts a) (pts b) Pk) as [X0 X1]. set (x := mix3 (1#2) (pts a) (pts b)) in *.
    destruct (flatten (pts p) (pts q) edge_apart) as [F [c [C0 CF]]].
    assert (FP : forall u v, (0 < orient3 (pts p) (pts q) u v -> 0 < orient (F (pts p)) (F u) (F v))%Q) by (intros u v X; rewrite CF; now apply qmul_pos).
    assert (PF : forall u v, (0 <= orient (F (pts p)) (F u) (F v) -> 0 <= orient3 (pts p) (pts q) u v)%Q).
    { intros u v X. rewrite CF in X. apply (qmul_nonneg_inv c); assumption. }
    destruct (cone (fun v => F (pts v)) (F (pts p)) (F x) (map g M)) as [a' [b' [HI [C1 C2]]]].
    - specialize (FP _ _ X0). assert (Y : (0 < orient (F (pts p)) (F x) (F (pts a)) \/ 0 < orient (F (pts p)) (F (pts a)) (F x))%Q) by now right.
      assert (R : (orient (F x) (F (pts p)) (F (pts a)) == orient (F (pts p)) (F (pts a)) (F x))%Q) by (unfold orient, area2; cbn; ring).
      rewrite <- R in FP. exact (orient_pos_dist _ _ _ FP).
    - intros u v H. apply in_map_iff in H. destruct H as [l [El Hl]]. pose proof (Hg l (LO l Hl)) as E. rewrite El in E. apply FP. exact (t3_pos _ _ _ L _ _ _ _ _ E).
    - intros u v H. apply in_map_iff in H. destruct H as [l [El Hl]]. destruct (CO l Hl) as [m [[_ [Hm [u' [v' [w [E1 E2]]]]]] Im]].
      pose proof (Hg l (LO l Hl)) as E. rewrite El in E. destruct (tet_unique _ _ _ _ _ E E1) as [_ V]. cbn [fst snd] in V. subst v'.
      exists w. apply in_map_iff. exists m. split; [|exact Im]. destruct (tet_unique _ _ _ _ _ (Hg m Hm) E2) as [V1 V2].
      rewrite (surjective_pairing (g m)). congruence.
    - destruct M; [congruence|discriminate].
    - apply in_map_iff in HI. destruct HI as [l [El Hl]]. pose proof (Hg l (LO l Hl)) as E. rewrite El in E. cbn [fst snd] in E.
      pose proof (t3_pos _ _ _ L _ _ _ _ _ E) as Pl. destruct (wedge_cls _ _ _ _ _ Pl (PF _ _ C1) (PF _ _ C2)) as [e [E0 E1]].
      assert (W : exists e', (0 < e' /\ e' < 1 /\ e' <= e)%Q).
      { destruct (Qlt_le_dec e (1#2)); [exists e|exists (1#2)%Q]; lra. }
      destruct W as [e' [W1 [W2 W3]]].
      pose proof (t3_disj_cls _ _ _ L _ _ _ _ _ _ _ _ _ _ _ Ek E (X1 e' W1 W2) (E1 e' W1 W3)) as FF.
      rewrite (item_eq3 k l Hk (LO l Hl) FF). exact Hl.
  Qed.
  Lemma edge_connected : Cyclic_Spec.connected (fun i j => related3 i j = true) n.
  Proof.
    intros P P0 PS i Hi. destruct (finite_choice 0 Succ3 n succ_ex3) as [f Hf].
    assert (Lf : forall i, i < n -> f i < n) by (intros j Hj; apply (Hf j Hj)).
    set (M := map (fun i => iter f i 0) (seq 0 n)).
    assert (OP : forall k, k < n -> P (iter f k 0)).
    { intros k _. induction k as [|k IH]; [exact P0|]. cbn. pose proof (iter_lt f n 0 k Lf edge_some) as Lk.
      pose proof (Hf _ Lk) as S1. assert (N : iter f k 0 <> f (iter f k 0)) by (intro Z; rewrite <- Z in S1; exact (succ_irrefl3 _ S1)).
      apply (PS (iter f k 0)); auto. apply related_iff3; auto. }
    assert (IO : In i M).
    { apply edge_closed; auto.
      - unfold M. pose proof edge_some. destruct n; [lia|discriminate].
      - intros k Hk. apply in_map_iff in Hk. destruct Hk as [m [<- _]]. apply iter_lt; auto. exact edge_some.
      - intros k Hk. exists (f k). split; [|apply orbit; auto; exact edge_some]. apply Hf. apply in_map_iff in Hk. destruct Hk as [m [<- _]]. apply iter_lt; auto. exact edge_some. }
    apply in_map_iff in IO. destruct IO as [m [<- Hm]]. apply OP. apply in_seq in Hm. lia.
  Qed.
  Lemma around_apart (r : list nat) i j : NoDup r -> 3 <= length r -> In (i, j) (Cyclic_Spec.around r) -> i <> j.
  Proof.
    intros ND L3 H ->. destruct r as [|x r]; [cbn in L3; lia|].
    destruct (In_nth _ _ (0, 0) H) as [k [Lk Ek]].
    unfold Cyclic_Spec.around in *. rewrite combine_length, app_length in Lk. cbn [length] in Lk. rewrite combine_nth in Ek by (rewrite app_length; cbn; lia).
    injection Ek as E1 E2. destruct (Nat.eq_dec (S k) (length (x :: r))) as [Z|Z].
    - rewrite app_nth2 in E2 by (cbn [length] in *; lia). replace (k - length r) with 0 in E2 by (cbn [length] in *; lia). cbn [nth] in E2.
      assert (E3 : nth k (x :: r) 0 = nth 0 (x :: r) 0) by (cbn [nth] in *; congruence). 
      apply (proj1 (NoDup_nth _ 0) ND) in E3; cbn [length] in *; lia.
    - rewrite app_nth1 in E2 by (cbn [length] in *; lia). change (nth k r 0) with (nth (S k) (x :: r) 0) in E2. rewrite <- E2 in E1.
      apply (proj1 (NoDup_nth _ 0) ND) in E1; cbn [length] in *; lia.
  Qed.

  Theorem edge_ring : exists ring, Cyclic_Model.arrange_cyclic_by related3 n = Some (Cyclic_Spec.around ring) /\ Permutation ring (seq 0 n) /\ 3 <= length ring /\
    ((forall i j, In (i, j) (Cyclic_Spec.around ring) -> Succ3 i j) \/ (forall i j, In (i, j) (Cyclic_Spec.around ring) -> Succ3 j i)).
  Proof.
    destruct (Cyclic_Proofs.arrange_spec related3 n) as [ring [E [PE R]]].
    - intros. apply common_sym.
    - exact edge_two.
    - exact edge_connected.
    - exact edge_some.
    - exists (0 :: ring). split; [exact E|]. split; [exact PE|].
      pose proof (Permutation_length PE) as LE. rewrite seq_length in LE.
      assert (L3 : 3 <= length (0 :: ring)).
      { rewrite LE. apply (Cyclic_Proofs.n_ge_3 related3 n); [exact edge_two|]. exact edge_some. }
      assert (ND : NoDup (0 :: ring)) by (apply (Permutation_NoDup (Permutation_sym PE)), seq_NoDup).
      split; [exact L3|]. apply ring_oriented; auto; [exact succ_fun3|exact succ_inj3|].
      intros i j H. assert (LT : forall k, In k (0 :: ring) -> k < n) by (intros k Hk; apply (Permutation_in _ PE) in Hk; apply in_seq in Hk; lia).
      destruct (Cyclic_Proofs.around_once (0 :: ring)) as [A1 A2].
      assert (Hi : i < n) by (apply LT; rewrite <- A1; change i with (fst (i, j)); now apply in_map).
      assert (Hj : j < n) by (apply LT; apply (Permutation_in _ A2); change j with (snd (i, j)); now apply in_map).
      apply related_iff3; auto. exact (around_apart _ _ _ ND L3 H).
  Qed.
End Edge.
