(** The tetrahedra around the particles of a rank are those with empty circumspheres among all particles and their images. *)
From Coq Require Import List Arith QArith Lqa Lia Permutation Setoid.
From Verif Require Geometry_Model Box_Proofs.
From Verif Require Import Geometry_Spec Box_Model Box_Spec Tree_Model Circle2_Proofs Tiling2_Proofs Delaunay_Model Delaunay_Spec DelaunayGeo_Model
  DelaunayGlobal3_Spec Halo_Model Halo_Spec HaloGeo_Model HaloGeo_Spec DelaunayRemap3_Model HaloDelaunay3_Model HaloDelaunay3_Spec
  Sphere3_Proofs Tiling3_Proofs Delaunay3_Proofs DelaunayInsert_Proofs Delaunay3Insert_Proofs DelaunayLink3_Proofs DelaunayGlobal3_Proofs DelaunayUnique3_Proofs DelaunayRemap3_Proofs
  DelaunayStar3_Proofs VoronoiConstruct3_Proofs Halo_Proofs HaloGeo_Proofs HaloFinal_Proofs DelaunayFinal_Proofs DelaunayGeo_Proofs Geometry_Proofs HaloDelaunay_Proofs.
Import ListNotations.
Local Open Scope nat_scope.

(** ** Only the positions of the points matter *)
Section Ext.
  Variables pts pts' : nat -> Geometry_Model.point3.
  Variable s : triangulation.
  Hypothesis agree : forall v, v < num_points s -> pts v = pts' v.
  Lemma good_ext3 : DelaunayGlobal3_Proofs.good3 pts s -> DelaunayGlobal3_Proofs.good3 pts' s.
  Proof.
    intros [g1 g2 L g4 g5 g6 g7 g8]. pose proof L as [l1 l2 l3 l4 l5 l6 l7 l8].
    assert (E : forall i a b c d, tet s i a b c d -> pts a = pts' a /\ pts b = pts' b /\ pts c = pts' c /\ pts d = pts' d).
    { intros i a b c d H. destruct (t3_lts pts _ _ L _ _ _ _ _ H) as [? [? [? ?]]]. repeat split; now apply agree. }
    assert (E0 : pts 0 = pts' 0 /\ pts 1 = pts' 1 /\ pts 2 = pts' 2 /\ pts 3 = pts' 3) by (repeat split; apply agree; lia).
    destruct E0 as [E0 [E1 [E2 E3]]].
    constructor; auto; [constructor; auto| | |].
    - intros i a b c d H. destruct (E _ _ _ _ _ H) as [<- [<- [<- <-]]]. eauto.
    - intros i j a b c d x y z w v H K. destruct (E _ _ _ _ _ H) as [<- [<- [<- <-]]]. destruct (E _ _ _ _ _ K) as [<- [<- [<- <-]]]. eauto.
    - intros i a b c d v H Hv. destruct (E _ _ _ _ _ H) as [<- [<- [<- <-]]]. rewrite <- agree by exact Hv. eauto.
    - intros v Hv. rewrite <- E0, <- E1, <- E2, <- E3, <- agree by exact Hv. auto.
    - intros x. rewrite <- E0, <- E1, <- E2, <- E3. intro Hx. destruct (l8 x Hx) as [i [a [b [c [d [H K]]]]]].
      exists i, a, b, c, d. destruct (E _ _ _ _ _ H) as [<- [<- [<- <-]]]. auto.
    - intros i a b c d o k v H. destruct (E _ _ _ _ _ H) as [<- [<- [<- <-]]]. intros C Hv. rewrite <- agree by exact Hv. exact (g6 i a b c d o k v H C Hv).
    - rewrite <- E0, <- E1, <- E2, <- E3. exact g7.
    - intros v Hv. rewrite <- E0, <- E1, <- E2, <- E3, <- agree by lia. auto.
  Qed.
End Ext.

(** ** The triangulation of every rank *)
Section Three.
  Variables (ranks : nat) (cfg : config) (build_fuel search_fuel : nat) (pop : nat -> list nat -> nat).
  Variables (box : extent3) (particles : nat -> list (nat * vec3)) (remap : vec3 -> Geometry_Model.point3).
  Variables (circumcircle : list vec3 -> vec3 * Q) (characteristic_length : Q) (chunk_size : nat).
  Variable outer : list vec3.
  Hypothesis D : distributed3 ranks box particles.
  Hypothesis F : max_depth cfg < build_fuel.
  Hypothesis four : length outer = 4.
  Hypothesis turn : (0 < orient3 (positions3 remap outer 0) (positions3 remap outer 1) (positions3 remap outer 2) (positions3 remap outer 3))%Q.
  Notation rank_state := (rank_state vec3 wrap3).
  Notation tri := (Halo_Model.tri vec3 wrap3). Notation points := (Halo_Model.points vec3 wrap3).
  Notation kinds := (Halo_Model.kinds vec3 wrap3). Notation haloes := (Halo_Model.haloes vec3 wrap3).

  Record rank_delaunay3 (r : nat) (s : rank_state) : Prop := {
    rd3_good : DelaunayGlobal3_Proofs.good3 (positions3 remap (points s)) (tri s);
    rd3_points : length (points s) = num_points (tri s);
    rd3_kinds : length (kinds s) = num_points (tri s);
    rd3_outer : exists l, points s = outer ++ l;
    rd3_kind : forall i, i < num_points (tri s) -> i < 4 \/ (4 <= i /\ nth_error (kinds s) i = Some Inner /\
        exists x pos, nth_error (points s) i = Some pos /\ In (x, pos) (particles r)) \/
      (exists q k, nth_error (kinds s) i = Some (Halo q) /\ In (k, i) (haloes s));
    rd3_inner : forall i, nth_error (kinds s) i = Some Inner -> 4 <= i /\ exists x pos, nth_error (points s) i = Some pos /\ In (x, pos) (particles r)
  }.
  Lemma positions_app3 l x v : v < length l -> positions3 remap (l ++ x) v = positions3 remap l v.
  Proof. intro H. unfold positions3. now rewrite app_nth1. Qed.
  Lemma insert_rank3 l s x p new s' : DelaunayGlobal3_Proofs.good3 (positions3 remap l) s -> length l = num_points s ->
    insert3 pop remap (l ++ [x]) s = Some (p, new, s') ->
    DelaunayGlobal3_Proofs.good3 (positions3 remap (l ++ [x])) s' /\ p = length l /\ num_points s' = S (length l).
  Proof.
    intros G L E.
    assert (G1 : DelaunayGlobal3_Proofs.good3 (positions3 remap (l ++ [x])) s).
    { apply (good_ext3 (positions3 remap l)); [|exact G]. intros v Hv. symmetry. apply positions_app3. lia. }
    split; [exact (insert_good3 _ pop s p new s' G1 E)|].
    destruct (insert3_good pop remap (l ++ [x]) s p new s') as [_ [A [B _]]]; [split; [exact (g3_inv _ _ G)|exact (g3_last _ _ G)]|exact E|].
    lia.
  Qed.
  Lemma rd3_same r s s' : tri s' = tri s -> points s' = points s -> kinds s' = kinds s -> haloes s' = haloes s -> rank_delaunay3 r s -> rank_delaunay3 r s'.
  Proof. intros E1 E2 E3 E4 [a b c d e f]. constructor; rewrite ?E1, ?E2, ?E3, ?E4; assumption. Qed.
  Lemma rd3_insert_inner r s x s' : In x (map snd (particles r)) -> haloes s = [] -> rank_delaunay3 r s ->
    insert_inner vec3 wrap3 (insert3 pop remap) s x = Done s' -> rank_delaunay3 r s' /\ haloes s' = [].
  Proof.
    intros Hx HH [a b c [l d] e f] H. unfold insert_inner in H.
    destruct (insert3 pop remap (points s ++ [x]) (tri s)) as [[[p new] t]|] eqn:E; [|discriminate]. injection H as <-.
    destruct (insert_rank3 _ _ _ _ _ _ a b E) as [G [-> N]]. split; [|exact HH].
    apply in_map_iff in Hx. destruct Hx as [[id pos] [Ex Hx]]. cbn in Ex. subst x.
    assert (K : forall i, nth_error (kinds s ++ [Inner]) i = Some Inner -> 4 <= i /\ exists x pos0, nth_error (points s ++ [pos]) i = Some pos0 /\ In (x, pos0) (particles r)).
    { intros i Hi. destruct (Nat.lt_ge_cases i (length (kinds s))) as [Li|Li].
      - rewrite nth_error_app1 in Hi by exact Li. destruct (f i Hi) as [Y0 [y [q [Y1 Y2]]]]. split; [exact Y0|]. exists y, q. split; [|exact Y2].
        rewrite nth_error_app1; [exact Y1|lia].
      - rewrite nth_error_app2 in Hi by exact Li. destruct (i - length (kinds s)) as [|k] eqn:Ek; [|destruct k; discriminate].
        split; [pose proof (g3_four _ _ a); lia|]. exists id, pos. split; [|exact Hx]. rewrite nth_error_app2 by lia. replace (i - length (points s)) with 0 by lia. reflexivity. }
    constructor; cbn [Halo_Model.tri Halo_Model.points Halo_Model.kinds Halo_Model.haloes]; auto.
    - rewrite app_length. cbn. lia.
    - rewrite app_length. cbn. lia.
    - rewrite d, <- app_assoc. eauto.
    - intros i Hi. destruct (Nat.lt_ge_cases i (length (points s))) as [Li|Li].
      + destruct (e i ltac:(lia)) as [X|[[X1 [X2 X3]]|[q [k [X1 X2]]]]]; [now left| |rewrite HH in X2; destruct X2].
        right; left. split; [exact X1|]. assert (Y : nth_error (kinds s ++ [Inner]) i = Some Inner) by (rewrite nth_error_app1; [exact X2|lia]).
        split; [exact Y|]. exact (proj2 (K i Y)).
      + right; left. pose proof (g3_four _ _ a). split; [lia|].
        assert (Y : nth_error (kinds s ++ [Inner]) i = Some Inner).
        { rewrite nth_error_app2 by lia. replace (i - length (kinds s)) with 0 by lia. reflexivity. }
        split; [exact Y|]. exact (proj2 (K i Y)).
  Qed.
  Lemma rd3_import r s x s' : rank_delaunay3 r s -> import_halo vec3 wrap3 wrap3_eqb is_periodic3 (insert3 pop remap) r s x = Done s' -> rank_delaunay3 r s'.
  Proof.
    intros [a b c [l d] e f] H. destruct x as [q x]. unfold import_halo in H. destruct (existsb _ (haloes s)) in H; [discriminate|].
    destruct (insert3 pop remap (points s ++ [r_point vec3 wrap3 x]) (tri s)) as [[[p new] t]|] eqn:E; [|discriminate]. injection H as <-.
    destruct (insert_rank3 _ _ _ _ _ _ a b E) as [G [-> N]]. set (pos := r_point vec3 wrap3 x) in *.
    assert (K : forall i, nth_error (kinds s ++ [Halo q]) i = Some Inner -> nth_error (kinds s) i = Some Inner).
    { intros i Hi. destruct (Nat.lt_ge_cases i (length (kinds s))) as [Li|Li]; [now rewrite nth_error_app1 in Hi|].
      rewrite nth_error_app2 in Hi by exact Li. destruct (i - length (kinds s)) as [|k]; [discriminate|destruct k; discriminate]. }
    assert (K2 : forall i y, nth_error (points s) i = Some y -> nth_error (points s ++ [pos]) i = Some y).
    { intros i y H. rewrite nth_error_app1; [exact H|]. apply nth_error_Some. congruence. }
    constructor; cbn [Halo_Model.tri Halo_Model.points Halo_Model.kinds Halo_Model.haloes]; auto.
    - rewrite app_length. cbn. lia.
    - rewrite app_length. cbn. lia.
    - rewrite d, <- app_assoc. eauto.
    - intros i Hi. destruct (Nat.lt_ge_cases i (length (points s))) as [Li|Li].
      + destruct (e i ltac:(lia)) as [X|[[X1 [X2 [y [py [X3 X4]]]]]|[q' [k [X1 X2]]]]]; [now left| |].
        * right; left. split; [exact X1|]. split; [rewrite nth_error_app1; [exact X2|lia]|]. exists y, py. auto.
        * right; right. exists q', k. split; [rewrite nth_error_app1; [exact X1|lia]|]. apply in_or_app. now left.
      + right; right. exists q, (halo_type vec3 wrap3 is_periodic3 r q x). split.
        * rewrite nth_error_app2 by lia. replace (i - length (kinds s)) with 0 by lia. reflexivity.
        * apply in_or_app. right. left. f_equal. lia.
    - intros i Hi. destruct (f i (K i Hi)) as [Y0 [y [py [X1 X2]]]]. split; [exact Y0|]. exists y, py. auto.
  Qed.
  Lemma rd3_start w : starts_from3 ranks pop particles remap outer w -> everywhere vec3 wrap3 rank_delaunay3 w.
  Proof.
    intros [L H] r s Hr. destruct (H r s Hr) as [start [local [E1 [E2 E3]]]]. unfold initial in E3.
    set (s0 := Build_rank_state _ _ _ _ _ _ _ _) in E3.
    assert (R0 : rank_delaunay3 r s0 /\ haloes s0 = []).
    { split; [|reflexivity]. destruct inv3_start as [t0 [E0 [I [LO [_ NP]]]]]. rewrite E1 in E0. injection E0 as <-.
      constructor; cbn.
      - apply start_good3; auto.
      - lia.
      - rewrite map_length. lia.
      - exists []. now rewrite app_nil_r.
      - intros i Hi. left. lia.
      - intros i Hi. exfalso. apply nth_error_In in Hi. apply in_map_iff in Hi. destruct Hi as [y [Y _]]. discriminate. }
    assert (SUB : forall x, In x local -> In x (map snd (particles r))) by (intros x Hx; apply (Permutation_in _ E2 Hx)).
    clearbody s0. revert s0 E3 R0. clear E2. induction local as [|x local IH]; cbn [fold_outcome]; intros s0 E3 [R0 H0].
    - cbn [andthen] in E3. injection E3 as <-. revert R0. apply rd3_same; reflexivity.
    - destruct (insert_inner vec3 wrap3 (insert3 pop remap) s0 x) as [s1|] eqn:E; cbn [andthen] in E3; [|discriminate].
      apply (IH (fun y Hy => SUB y (or_intror Hy)) s1 E3). apply (rd3_insert_inner r s0 x s1); auto. apply SUB. now left.
  Qed.
  Lemma starts_from_starts3 w : starts_from3 ranks pop particles remap outer w -> starts3 ranks pop particles remap w.
  Proof.
    intros [L H]. split; [exact L|]. intros r s Hr. destruct (H r s Hr) as [start [local [E1 [E2 E3]]]]. exists start, outer, local. auto.
  Qed.
  Notation run3 := (run3 ranks cfg build_fuel search_fuel pop box particles remap circumcircle characteristic_length chunk_size).
  Theorem rank_good3 fuel w w' r s : starts_from3 ranks pop particles remap outer w -> run3 fuel w = Some (Done w') ->
    nth_error w' r = Some s -> rank_delaunay3 r s /\ complete vec3 wrap3 is_periodic3 (images3 box) closer3 circumcircle particles r s /\
    (forall i, i < num_points (tri s) -> i < 4 \/ exists pos q x wr, nth_error (points s) i = Some pos /\
       ((exists pos0, In (x, pos0) (particles q) /\ pos = pos0) \/ image_of vec3 wrap3 (images3 box) particles q x wr pos)).
  Proof.
    intros ST H Hr. pose proof (starts_from_starts3 w ST) as ST2.
    destruct (run_keeps vec3 wrap3 wrap3_eqb is_periodic3 (images3 box) closer3 _ _ circumcircle (insert3 pop remap) characteristic_length chunk_size
      rank_delaunay3 rd3_same rd3_import fuel w w' (rd3_start w ST) H) as [A SS].
    pose proof (A r s Hr) as R. split; [exact R|].
    split; [exact (complete3 ranks cfg build_fuel search_fuel pop box particles remap circumcircle characteristic_length chunk_size D F fuel w w' r s ST2 H Hr)|].
    destruct (sound3 ranks cfg build_fuel search_fuel pop box particles remap circumcircle characteristic_length chunk_size D F w w' r s ST2 SS Hr) as [_ SO].
    intros i Hi. destruct (rd3_kind _ _ R i Hi) as [X|[[_ [_ [x [pos [X1 X2]]]]]|[q [k [_ X]]]]]; [now left| |].
    - right. exists pos, r, x, (NoWrap, NoWrap, NoWrap). split; [exact X1|]. left. eauto.
    - right. destruct (SO k i X) as [q' [x [wr [p [_ [_ [Y1 Y2]]]]]]]. exists p, q', x, wr. auto.
  Qed.
  (** ** All sites *)
  Hypothesis remap_same : forall p q, same_position3 p q <-> same_point3 (remap p) (remap q).
  Hypothesis spheres : covers_spheres3 remap circumcircle.
  Notation site := (site3 box particles outer).
  Definition at_site (y : Geometry_Model.point3) : Prop := exists v, site v /\ same_point3 (remap v) y.
  Lemma unwrapped3 x pos q : In (x, pos) (particles q) ->
    exists p, image_of vec3 wrap3 (images3 box) particles q x (NoWrap, NoWrap, NoWrap) p /\ same_position3 pos p.
  Proof.
    intro H. exists (V3 (x3 pos + x3 (sides3 box) * 0) (y3 pos + y3 (sides3 box) * 0) (z3 pos + z3 (sides3 box) * 0)). split.
    - exists pos. split; [exact H|]. apply in_images3. reflexivity.
    - repeat split; cbn; ring.
  Qed.
  Lemma nowrap_same3 p pos w : In (w, p) (images3 box pos) -> is_periodic3 w = false -> same_position3 pos p.
  Proof.
    intros H E. unfold is_periodic3 in E. rewrite negb_false_iff, wrap3_eqb_spec in E. subst w.
    apply in_images3 in H. subst p. repeat split; cbn; ring.
  Qed.
  Lemma positions_nth3 pos v x : nth_error pos v = Some x -> positions3 remap pos v = remap x.
  Proof. intro H. unfold positions3. f_equal. now apply nth_error_nth. Qed.

  Variables (fuel : nat) (w w' : list rank_state) (r : nat) (s : rank_state).
  Hypothesis start : starts_from3 ranks pop particles remap outer w.
  Hypothesis ended : run3 fuel w = Some (Done w').
  Hypothesis here : nth_error w' r = Some s.
  Notation pts := (positions3 remap (points s)).

  Lemma rank_point3 v : v < num_points (tri s) -> exists x, nth_error (points s) v = Some x /\ pts v = remap x.
  Proof.
    intro H. destruct (rank_good3 fuel w w' r s start ended here) as [R _].
    destruct (nth_error (points s) v) as [x|] eqn:E; [|apply nth_error_None in E; rewrite (rd3_points _ _ R) in E; lia].
    exists x. split; [reflexivity|]. now apply positions_nth3.
  Qed.
  (** All points of a rank are sites. *)
  Lemma rank_site3 v x : v < num_points (tri s) -> nth_error (points s) v = Some x -> exists y, site y /\ same_position3 x y.
  Proof.
    intros H Hx. destruct (rank_good3 fuel w w' r s start ended here) as [R [_ SO]].
    destruct (SO v H) as [X|[pos [q [id [wr [X1 X2]]]]]].
    - exists x. split; [|repeat split; reflexivity]. left. destruct (rd3_outer _ _ R) as [m E]. rewrite E in Hx.
      rewrite nth_error_app1 in Hx by lia. exact (nth_error_In _ _ Hx).
    - rewrite Hx in X1. injection X1 as <-. destruct X2 as [[pos0 [Y1 <-]]|Y].
      + destruct (unwrapped3 _ _ _ Y1) as [p [Z1 Z2]]. exists p. split; [|exact Z2]. right. eauto.
      + exists x. split; [|repeat split; reflexivity]. right. eauto.
  Qed.
  Lemma own_site3 v : v < num_points (tri s) -> exists y, at_site y /\ same_point3 (pts v) y.
  Proof.
    intro H. destruct (rank_point3 v H) as [x [E1 E2]]. destruct (rank_site3 v x H E1) as [y [Y1 Y2]].
    exists (remap y). split; [exists y; split; [exact Y1|reflexivity]|]. rewrite E2. now apply remap_same.
  Qed.

  Variable p : nat.
  Hypothesis inner : nth_error (kinds s) p = Some Inner.
  Lemma inner_lt3 : 4 <= p < num_points (tri s).
  Proof.
    destruct (rank_good3 fuel w w' r s start ended here) as [R _]. split; [apply (rd3_inner _ _ R p inner)|].
    rewrite <- (rd3_kinds _ _ R). apply nth_error_Some. congruence.
  Qed.
  (** Every site on or in the circumsphere of a tetrahedron with a local corner is a point of the rank. *)
  Lemma rank_found3 i a b c o k y : tet (tri s) i p a b c -> sph (pts p) (pts a) (pts b) (pts c) o k -> at_site y -> (pow3 o k y <= 0)%Q ->
    exists v, v < num_points (tri s) /\ same_point3 (pts v) y.
  Proof.
    intros T C [x [SX EX]] LE. destruct (rank_good3 fuel w w' r s start ended here) as [R [CO SO]]. pose proof (rd3_good _ _ R) as G.
    pose proof (g3_tiling _ _ G) as L.
    assert (K : exists v, v < num_points (tri s) /\ same_point3 (pts v) (remap x)).
    { destruct SX as [SX|[q [id [wr IM]]]].
      - apply In_nth_error in SX. destruct SX as [v Ev]. assert (Lv : v < length outer) by (apply nth_error_Some; congruence).
        exists v. pose proof (g3_four _ _ G). split; [lia|]. destruct (rd3_outer _ _ R) as [m E].
        assert (E' : nth_error (points s) v = Some x) by (rewrite E, nth_error_app1; assumption).
        rewrite (positions_nth3 _ _ _ E'). reflexivity.
      - destruct T as [t [Ht TU]]. destruct (even4_form _ _ _ _ _ TU) as [e [f [g [h Et]]]]. rewrite Et in TU.
        assert (T' : tet (tri s) i e f g h) by (exists t; rewrite Et; split; [exact Ht|even]).
        pose proof (even_sph pts _ _ _ _ _ _ _ _ _ _ TU C) as C'. pose proof (t3_pos _ _ _ L _ _ _ _ _ T') as P0.
        destruct (t3_lts pts _ _ L _ _ _ _ _ T') as [Le [Lf [Lg Lh]]].
        destruct (rank_point3 e Le) as [xe [Ee Pe]]. destruct (rank_point3 f Lf) as [xf [Ef Pf]].
        destruct (rank_point3 g Lg) as [xg [Eg Pg]]. destruct (rank_point3 h Lh) as [xh [Eh Ph]].
        rewrite Pe, Pf, Pg, Ph in C', P0.
        destruct (circumcircle (corner_positions vec3 wrap3 s t)) as [center radius] eqn:CC.
        assert (CLO : closer3 center x (radius * search_safety_factor) = true).
        { unfold corner_positions in CC. rewrite Et in CC. cbn [flat_map] in CC. rewrite Ee, Ef, Eg, Eh in CC. cbn [app] in CC.
          apply (spheres xe xf xg xh o x center radius); auto.
          - intro Z. unfold orient3 in P0. rewrite Z in P0. exact (Qlt_irrefl _ P0).
          - exact (sph_center _ _ _ _ _ _ C').
          - pose proof (sph_dist _ _ _ _ _ _ (remap x) C') as X. rewrite EX in X at 2. lra. }
        assert (INN : exists c0, In c0 (points_of t) /\ nth_error (kinds s) c0 = Some Inner).
        { exists p. split; [|exact inner]. rewrite Et. apply even4_perm in TU. apply (Permutation_in p TU). now left. }
        destruct (CO i t Ht INN center radius CC q id wr x IM CLO) as [K1 K2].
        assert (IM3 : forall v, nth_error (points s) v = Some x -> exists v, v < num_points (tri s) /\ same_point3 (pts v) (remap x)).
        { intros v Ev. exists v. rewrite (positions_nth3 _ _ _ Ev). split; [|reflexivity].
          rewrite <- (rd3_points _ _ R). apply nth_error_Some. congruence. }
        destruct (is_periodic3 wr) eqn:EW; [|destruct (Nat.eq_dec q r) as [EQ|NE]].
        + destruct K1 as [v [_ Ev]]; [now right|]. exact (IM3 v Ev).
        + destruct (K2 EQ) as [pos [_ [Z1 Z2]]]. apply In_nth_error in Z2. destruct Z2 as [v Ev]. exists v.
          rewrite (positions_nth3 _ _ _ Ev). split; [|apply remap_same; exact (nowrap_same3 _ _ _ Z1 EW)].
          rewrite <- (rd3_points _ _ R). apply nth_error_Some. congruence.
        + destruct K1 as [v [_ Ev]]; [now left|]. exact (IM3 v Ev). }
    destruct K as [v [Lv Ev]]. exists v. split; [exact Lv|]. now rewrite Ev.
  Qed.

  Theorem star3 x : nth_error (points s) p = Some x -> tetras_around remap site (points s) (tri s) p x.
  Proof.
    intro Ex. destruct (rank_good3 fuel w w' r s start ended here) as [R _]. pose proof (rd3_good _ _ R) as G.
    pose proof (g3_tiling _ _ G) as L. pose proof inner_lt3 as IL. pose proof (positions_nth3 _ _ _ Ex) as Px.
    split.
    - assert (FW : forall i b c d, tet (tri s) i p b c d -> exists y z v, site y /\ site z /\ site v /\
        (exists y', nth_error (points s) b = Some y' /\ same_position3 y' y) /\ (exists y', nth_error (points s) c = Some y' /\ same_position3 y' z) /\
        (exists y', nth_error (points s) d = Some y' /\ same_position3 y' v) /\ delaunay_tetra remap site x y z v).
      { intros i b c d T. destruct (t3_lts pts _ _ L _ _ _ _ _ T) as [Lp [Lb [Lc Ld]]].
        destruct (rank_point3 b Lb) as [xb [Eb Pb]]. destruct (rank_point3 c Lc) as [xc [Ec Pc]]. destruct (rank_point3 d Ld) as [xd [Ed Pd]].
        destruct (rank_site3 b xb Lb Eb) as [y [Sy Xy]]. destruct (rank_site3 c xc Lc Ec) as [z [Sz Xz]]. destruct (rank_site3 d xd Ld Ed) as [v [Sv Xv]].
        exists y, z, v. split; [exact Sy|]. split; [exact Sz|]. split; [exact Sv|]. split; [now exists xb|]. split; [now exists xc|]. split; [now exists xd|].
        assert (My : same_point3 (pts b) (remap y)) by (rewrite Pb; now apply remap_same).
        assert (Mz : same_point3 (pts c) (remap z)) by (rewrite Pc; now apply remap_same).
        assert (Mv : same_point3 (pts d) (remap v)) by (rewrite Pd; now apply remap_same).
        pose proof (t3_pos _ _ _ L _ _ _ _ _ T) as P0. destruct (sph_exists _ _ _ _ P0) as [o [k C]].
        rewrite My, Mz, Mv, Px in P0. split; [intro Z; unfold orient3 in P0; rewrite Z in P0; exact (Qlt_irrefl _ P0)|].
        pose proof (sph_proper _ _ _ _ _ _ _ _ o k (reflexivity _) My Mz Mv C) as C'. rewrite Px in C'.
        exists o. split; [exact (sph_center _ _ _ _ _ _ C')|]. intros u Su.
        assert (A : at_site (remap u)) by (exists u; split; [exact Su|reflexivity]).
        destruct (star_empty pts (tri s) G p IL at_site rank_found3 i b c d o k (remap u) T C A) as [K|K].
        + left. pose proof (sph_dist _ _ _ _ _ _ (remap u) C') as X. lra.
        + right. rewrite My, Mz, Mv, Px in K. rewrite <- !remap_same in K. exact K. }
      intros b c d H. apply (is_tetra_tet (tri s) p b c d (g3_inv _ _ G)) in H. destruct H as [i [T|T]]; [exact (FW i b c d T)|].
      destruct (FW i b d c) as [y [v [z [Sy [Sv [Sz [Ay [Av [Az [NZ [o [C H]]]]]]]]]]]]; [apply (tet_even _ _ _ _ _ _ _ _ _ _ T); even|].
      exists y, z, v. do 6 (split; [assumption|]). split.
      + intro Z. apply NZ. change (orient3 (remap x) (remap y) (remap v) (remap z) == 0)%Q. rewrite o3_last. unfold orient3. rewrite Z. reflexivity.
      + exists o. split.
        * destruct C as [C1 [C2 C3]]. repeat split; assumption.
        * intros u Su. destruct (H u Su) as [K|K]; [now left|right]. tauto.
    - assert (BW : forall y z v, site y -> site z -> site v -> (0 < orient3 (remap x) (remap y) (remap z) (remap v))%Q -> delaunay_tetra remap site x y z v ->
        exists i b c d, tet (tri s) i p b c d /\ same_point3 (pts b) (remap y) /\ same_point3 (pts c) (remap z) /\ same_point3 (pts d) (remap v)).
      { intros y z v Sy Sz Sv P0 [NZ [o [C H]]].
        apply (star_found pts (tri s) G p IL at_site own_site3 rank_found3).
        - exists y. split; [exact Sy|reflexivity].
        - exists z. split; [exact Sz|reflexivity].
        - exists v. split; [exact Sv|reflexivity].
        - rewrite Px. exact P0.
        - rewrite Px. intros o' k' u C' [u' [Su Eu]].
          assert (exists k, sph (remap x) (remap y) (remap z) (remap v) o k) as [k C''] by (eexists; exact (sph_of_center _ _ _ _ _ C)). rewrite (sph_unique _ _ _ _ o' k' o k u P0 C' C''). rewrite <- Eu.
          destruct (H u' Su) as [K|K].
          + pose proof (sph_dist _ _ _ _ _ _ (remap u') C'') as X. lra.
          + rewrite !remap_same in K. destruct C'' as [D1 [D2 [D3 D4]]].
            destruct K as [K|[K|[K|K]]]; rewrite K; lra. }
      assert (BACK : forall v y, v < num_points (tri s) -> same_point3 (pts v) (remap y) -> exists y', nth_error (points s) v = Some y' /\ same_position3 y' y).
      { intros v y Lv E. destruct (rank_point3 v Lv) as [xv [Ev Pv]]. exists xv. split; [exact Ev|]. rewrite Pv in E. now apply remap_same. }
      intros y z v Sy Sz Sv DT. destruct (Q_dec (orient3 (remap x) (remap y) (remap z) (remap v)) 0) as [[N|P]|Z].
      + assert (DT' : delaunay_tetra remap site x y v z).
        { destruct DT as [NZ [o [C H]]]. split.
          - intro Z. apply NZ. change (orient3 (remap x) (remap y) (remap z) (remap v) == 0)%Q. rewrite o3_last. unfold orient3. rewrite Z. reflexivity.
          - exists o. split; [destruct C as [C1 [C2 C3]]; repeat split; assumption|]. intros u Su. destruct (H u Su) as [K|K]; [now left|right]. tauto. }
        destruct (BW y v z Sy Sv Sz) as [i [b [d [c [T [E1 [E2 E3]]]]]]]; [rewrite o3_last; lra|exact DT'|].
        destruct (t3_lts pts _ _ L _ _ _ _ _ T) as [_ [Lb [Ld Lc]]].
        exists b, c, d. split; [|auto]. apply (is_tetra_tet (tri s) p b c d (g3_inv _ _ G)). exists i. right. apply (tet_even _ _ _ _ _ _ _ _ _ _ T). even.
      + destruct (BW y z v Sy Sz Sv P DT) as [i [b [c [d [T [E1 [E2 E3]]]]]]]. destruct (t3_lts pts _ _ L _ _ _ _ _ T) as [_ [Lb [Lc Ld]]].
        exists b, c, d. split; [|auto]. apply (is_tetra_tet (tri s) p b c d (g3_inv _ _ G)). exists i. now left.
      + exfalso. destruct DT as [NZ _]. exact (NZ Z).
  Qed.
End Three.

(** ** The box of the simulation *)
Section Box.
  Variable box : extent3.
  Hypothesis proper : proper3 box.
  Lemma box_extent_wide3 : exists min max, box_extent3 box = (min, max) /\ (Geometry_Model.x3 max - Geometry_Model.x3 min == 3 * (x3 (max3 box) - x3 (min3 box)))%Q /\
    (Geometry_Model.y3 max - Geometry_Model.y3 min == 3 * (y3 (max3 box) - y3 (min3 box)))%Q /\
    (Geometry_Model.z3 max - Geometry_Model.z3 min == 3 * (z3 (max3 box) - z3 (min3 box)))%Q /\
    (Geometry_Model.x3 min < Geometry_Model.x3 max)%Q /\ (Geometry_Model.y3 min < Geometry_Model.y3 max)%Q /\ (Geometry_Model.z3 min < Geometry_Model.z3 max)%Q.
  Proof.
    destruct proper as [Px [Py Pz]]. unfold box_extent3, including_periodic_images3. do 2 eexists. split; [reflexivity|]. cbn.
    repeat split; try ring; lra.
  Qed.
  Lemma box_remap_eq3 : exists min max emin emax, box_extent3 box = (min, max) /\
    tetra_extent3 (Geometry_Model.all_encompassing3 min max) = (emin, emax) /\
    (forall v, box_remap3 box v = remap3 emin emax (to_point3 v)) /\
    (Geometry_Model.x3 emin < Geometry_Model.x3 emax)%Q /\ (Geometry_Model.y3 emin < Geometry_Model.y3 emax)%Q /\ (Geometry_Model.z3 emin < Geometry_Model.z3 emax)%Q /\
    (Geometry_Model.x3 emax - Geometry_Model.x3 emin == (936#100) * (x3 (max3 box) - x3 (min3 box)))%Q /\
    (Geometry_Model.y3 emax - Geometry_Model.y3 emin == (936#100) * (y3 (max3 box) - y3 (min3 box)))%Q /\
    (Geometry_Model.z3 emax - Geometry_Model.z3 emin == (936#100) * (z3 (max3 box) - z3 (min3 box)))%Q.
  Proof.
    destruct box_extent_wide3 as [min [max [E [A [B [C [Dx [Dy Dz]]]]]]]]. destruct (outer_extent3 min max Dx Dy Dz) as [emin [emax [E' [A' [B' C']]]]].
    exists min, max, emin, emax. split; [exact E|]. split; [exact E'|]. split.
    - intro v. unfold box_remap3. rewrite E, E'. reflexivity.
    - destruct proper as [Px [Py Pz]]. repeat split; lra.
  Qed.
  Lemma box_positions3 l v min max : box_extent3 box = (min, max) ->
    positions3 (box_remap3 box) (box_outer3 box ++ l) v = remapped_table3 min max (map to_point3 l) v.
  Proof.
    intro E. unfold positions3, remapped_table3, box_remap3, box_outer3, table3. rewrite E.
    destruct (tetra_extent3 (Geometry_Model.all_encompassing3 min max)) as [emin emax]. f_equal.
    set (t := Geometry_Model.all_encompassing3 min max).
    assert (RT : forall p, to_point3 (of_point3 p) = p) by (intros []; reflexivity).
    destruct v as [|[|[|[|v]]]]; cbn [app nth]; try apply RT.
    change (Geometry_Model.P3 0 0 0) with (to_point3 (V3 0 0 0)). symmetry. apply map_nth.
  Qed.
  Lemma box_whole3 pop l whole : whole3 box pop l = Some whole ->
    DelaunayGlobal3_Proofs.good3 (positions3 (box_remap3 box) (box_outer3 box ++ l)) whole /\ num_points whole = 4 + length l.
  Proof.
    unfold whole3. destruct box_extent_wide3 as [min [max [E [_ [_ [_ [Dx [Dy Dz]]]]]]]]. rewrite E. intro H. split.
    - apply (good_ext3 (remapped_table3 min max (map to_point3 l))); [|exact (construct3_good min max pop _ whole Dx Dy Dz H)].
      intros v _. symmetry. now apply box_positions3.
    - rewrite (construct3_points min max pop _ whole H), map_length. lia.
  Qed.
  Lemma box_turn3 : (0 < orient3 (positions3 (box_remap3 box) (box_outer3 box) 0) (positions3 (box_remap3 box) (box_outer3 box) 1)
    (positions3 (box_remap3 box) (box_outer3 box) 2) (positions3 (box_remap3 box) (box_outer3 box) 3))%Q.
  Proof.
    destruct box_extent_wide3 as [min [max [E [_ [_ [_ [Dx [Dy Dz]]]]]]]].
    rewrite <- (app_nil_r (box_outer3 box)), !(box_positions3 [] _ min max E). apply (proj2 (remapped3_pos min max _ Dx Dy Dz 0 1 2 3)). now apply outer_pos3.
  Qed.
  Lemma box_same3 p q : same_position3 p q <-> same_point3 (box_remap3 box p) (box_remap3 box q).
  Proof.
    destruct box_remap_eq3 as [min [max [emin [emax [_ [_ [E [A [B [C _]]]]]]]]]]. rewrite !E. unfold same_position3, same_point3. cbn.
    split; intros [H1 [H2 H3]].
    - rewrite H1, H2, H3. repeat split; reflexivity.
    - assert (K : forall a b m d, (0 < d -> 1 + (a - m) * (1 / d) == 1 + (b - m) * (1 / d) -> a == b)%Q).
      { intros a b m d Hd HE. assert (X : ((1 + (a - m) * (1 / d) - 1) * d == (1 + (b - m) * (1 / d) - 1) * d)%Q) by (now rewrite HE).
        assert (Y : forall a, ((1 + (a - m) * (1 / d) - 1) * d == a - m)%Q) by (intro; field; lra). rewrite !Y in X. lra. }
      split; [|split]; [apply (K _ _ (Geometry_Model.x3 emin) (Geometry_Model.x3 emax - Geometry_Model.x3 emin)%Q)|
              apply (K _ _ (Geometry_Model.y3 emin) (Geometry_Model.y3 emax - Geometry_Model.y3 emin)%Q)|
              apply (K _ _ (Geometry_Model.z3 emin) (Geometry_Model.z3 emax - Geometry_Model.z3 emin)%Q)]; try assumption; lra.
  Qed.
  Hypothesis cube : (x3 (max3 box) - x3 (min3 box) == y3 (max3 box) - y3 (min3 box))%Q /\ (x3 (max3 box) - x3 (min3 box) == z3 (max3 box) - z3 (min3 box))%Q.
  (** In a cube, the remapping only scales distances. *)
  Lemma box_scale3 : exists g k k', (0 < k)%Q /\ (0 < k')%Q /\ (forall o v, dist2_3 o (box_remap3 box v) == k * dist2_3 (g o) (to_point3 v))%Q /\
    (forall o, exists o', forall v, dist2_3 o' (box_remap3 box v) == k * dist2_3 o (to_point3 v))%Q /\
    (forall a b c d, orient3 (box_remap3 box a) (box_remap3 box b) (box_remap3 box c) (box_remap3 box d) ==
      k' * orient3 (to_point3 a) (to_point3 b) (to_point3 c) (to_point3 d))%Q.
  Proof.
    destruct box_remap_eq3 as [min [max [emin [emax [_ [_ [E [A [B [C [W1 [W2 W3]]]]]]]]]]]]. destruct cube as [Q1 Q2].
    exists (unmap3 emin emax), (/ ((Geometry_Model.x3 emax - Geometry_Model.x3 emin) * (Geometry_Model.x3 emax - Geometry_Model.x3 emin)))%Q, (/ ((Geometry_Model.x3 emax - Geometry_Model.x3 emin) * (Geometry_Model.y3 emax - Geometry_Model.y3 emin) * (Geometry_Model.z3 emax - Geometry_Model.z3 emin)))%Q.
    split; [apply Qinv_lt_0_compat; apply qmul_pos; lra|]. split; [exact (remap3_pos emin emax A B C)|]. split; [|split].
    - intros o v. rewrite E. rewrite <- (remap3_dist emin emax A) by lra.
      destruct (remap3_inverse emin emax A B C o) as [Y1 [Y2 Y3]]. unfold dist2_3. rewrite Y1, Y2, Y3. reflexivity.
    - intro o. exists (remap3 emin emax o). intro v. rewrite E. apply remap3_dist; lra.
    - intros a b c d. rewrite !E. now apply remap3_orient.
  Qed.
  Lemma box_spheres3 circumcircle : covers_spheres3 to_point3 circumcircle -> covers_spheres3 (box_remap3 box) circumcircle.
  Proof.
    intros H a b c d o p center radius t NZ [C1 [C2 C3]] EC LE. subst t. cbn [Geometry_Model.ttp1 Geometry_Model.ttp2 Geometry_Model.ttp3 Geometry_Model.ttp4] in C1, C2, C3.
    destruct box_scale3 as [g [k [k' [Kp [Kp' [D1 [D2 D3]]]]]]]. rewrite !D1 in C1, C2, C3, LE.
    apply (H a b c d (g o) p center radius); auto.
    - intro Z. apply NZ. change (orient3 (box_remap3 box a) (box_remap3 box b) (box_remap3 box c) (box_remap3 box d) == 0)%Q. rewrite D3. unfold orient3. rewrite Z. ring.
    - split; [|split]; cbn [Geometry_Model.ttp1 Geometry_Model.ttp2 Geometry_Model.ttp3 Geometry_Model.ttp4]; apply (Qmult_inj_l _ _ k); lra.
    - now apply (Qmult_le_l _ _ k).
  Qed.
  Lemma box_delaunay3 site a b c d : delaunay_tetra (box_remap3 box) site a b c d <-> delaunay_tetra to_point3 site a b c d.
  Proof.
    destruct box_scale3 as [g [k [k' [Kp [Kp' [D1 [D2 D3]]]]]]]. unfold delaunay_tetra.
    assert (EQ : (volume6 (Geometry_Model.TT (box_remap3 box a) (box_remap3 box b) (box_remap3 box c) (box_remap3 box d)) == 0 <->
      volume6 (Geometry_Model.TT (to_point3 a) (to_point3 b) (to_point3 c) (to_point3 d)) == 0)%Q).
    { pose proof (D3 a b c d) as X. unfold orient3 in X. rewrite X. split; intro Z; [|rewrite Z; ring]. apply (Qmult_inj_l _ _ k'); lra. }
    rewrite EQ. split; (intros [NZ [o [[C1 [C2 C3]] H]]]; split; [exact NZ|]);
      cbn [Geometry_Model.ttp1 Geometry_Model.ttp2 Geometry_Model.ttp3 Geometry_Model.ttp4] in C1, C2, C3.
    - exists (g o). rewrite !D1 in C1, C2, C3. split.
      + split; [|split]; cbn [Geometry_Model.ttp1 Geometry_Model.ttp2 Geometry_Model.ttp3 Geometry_Model.ttp4]; apply (Qmult_inj_l _ _ k); lra.
      + intros y Hy. destruct (H y Hy) as [K|K]; [left|now right]. rewrite !D1 in K. now apply (Qmult_lt_l _ _ k).
    - destruct (D2 o) as [o' D2']. exists o'. split.
      + split; [|split]; cbn [Geometry_Model.ttp1 Geometry_Model.ttp2 Geometry_Model.ttp3 Geometry_Model.ttp4]; rewrite !D2', ?C1, ?C2, ?C3; reflexivity.
      + intros y Hy. destruct (H y Hy) as [K|K]; [left|now right]. rewrite !D2'. now apply (Qmult_lt_l _ _ k).
  Qed.
End Box.

Theorem star_box3 ranks cfg build_fuel search_fuel pop box particles circumcircle characteristic_length chunk_size fuel w w' r s p x :
  distributed3 ranks box particles -> max_depth cfg < build_fuel ->
  (x3 (max3 box) - x3 (min3 box) == y3 (max3 box) - y3 (min3 box))%Q /\ (x3 (max3 box) - x3 (min3 box) == z3 (max3 box) - z3 (min3 box))%Q ->
  covers_spheres3 to_point3 circumcircle ->
  starts_from3 ranks pop particles (box_remap3 box) (box_outer3 box) w ->
  run3 ranks cfg build_fuel search_fuel pop box particles (box_remap3 box) circumcircle characteristic_length chunk_size fuel w = Some (Done w') ->
  nth_error w' r = Some s -> nth_error (kinds vec3 wrap3 s) p = Some Inner -> nth_error (points vec3 wrap3 s) p = Some x ->
  tetras_around to_point3 (site3 box particles (box_outer3 box)) (points vec3 wrap3 s) (Halo_Model.tri vec3 wrap3 s) p x.
Proof.
  intros D F CU CC ST RU HR IN EX. pose proof (di3_box _ _ _ D) as PB.
  assert (four : length (box_outer3 box) = 4) by (unfold box_outer3; destruct (box_extent3 box); reflexivity).
  destruct (star3 ranks cfg build_fuel search_fuel pop box particles (box_remap3 box) circumcircle characteristic_length chunk_size (box_outer3 box)
    D F four (box_turn3 box PB) (box_same3 box PB) (box_spheres3 box PB CU circumcircle CC) fuel w w' r s ST RU HR p IN x EX) as [A B].
  split.
  - intros b c d H. destruct (A b c d H) as [y [z [v [S1 [S2 [S3 [A1 [A2 [A3 K]]]]]]]]]. exists y, z, v.
    do 6 (split; [assumption|]). exact (proj1 (box_delaunay3 box PB CU _ x y z v) K).
  - intros y z v S1 S2 S3 K. apply (B y z v S1 S2 S3). exact (proj2 (box_delaunay3 box PB CU _ x y z v) K).
Qed.

(** The exact center with a radius that is too small by less than the safety factor covers the sphere. *)
Lemma exact_covers3 circumcircle :
  (forall a b c d center radius, ~ (volume6 (Geometry_Model.TT (to_point3 a) (to_point3 b) (to_point3 c) (to_point3 d)) == 0)%Q ->
     circumcircle [a; b; c; d] = (center, radius) ->
     circumscribed3 (Geometry_Model.TT (to_point3 a) (to_point3 b) (to_point3 c) (to_point3 d)) (to_point3 center) /\ (0 < radius)%Q /\
     (dist2_3 (to_point3 center) (to_point3 a) < (radius * search_safety_factor) * (radius * search_safety_factor))%Q) ->
  covers_spheres3 to_point3 circumcircle.
Proof.
  intros H a b c d o p center radius t NZ C EC LE. subst t. set (t := Geometry_Model.TT _ _ _ _) in *.
  destruct (H a b c d center radius NZ EC) as [C' [RP LT]].
  pose proof (sphere_dist_eq t o (to_point3 center) (to_point3 p) NZ C C') as E1. pose proof (sphere_dist_eq t o (to_point3 center) (to_point3 a) NZ C C') as E2.
  unfold closer3. apply andb_true_iff. split; apply Box_Proofs.Qltb_true.
  - unfold search_safety_factor. lra.
  - rewrite E1, E2 in LE. unfold length_sq3. unfold dist2_3 in *. cbn [x3 y3 z3 to_point3 Geometry_Model.x3 Geometry_Model.y3 Geometry_Model.z3] in *. lra.
Qed.

(** ** Two ranks *)
Lemma same_position3_sym p q : same_position3 p q -> same_position3 q p.
Proof. intros [A [B C]]. repeat split; symmetry; assumption. Qed.
Lemma same_position3_trans p q r : same_position3 p q -> same_position3 q r -> same_position3 p r.
Proof. intros [A [B C]] [D [E F]]. repeat split; etransitivity; eassumption. Qed.
Lemma same_position3_point p q : same_position3 p q -> same_point3 (to_point3 p) (to_point3 q).
Proof. intro H. exact H. Qed.

Section Agree.
  Variable remap : vec3 -> Geometry_Model.point3.
  Hypothesis remap_same : forall p q, same_position3 p q <-> same_point3 (remap p) (remap q).
  Variable site : vec3 -> Prop.
  Lemma dist_same3 o p q : same_point3 p q -> (dist2_3 o p == dist2_3 o q)%Q.
  Proof. intros [E1 [E2 E3]]. unfold dist2_3. rewrite E1, E2, E3. reflexivity. Qed.
  Lemma delaunay_tetra_proper a b c d a' b' c' d' : same_position3 a a' -> same_position3 b b' -> same_position3 c c' -> same_position3 d d' ->
    delaunay_tetra remap site a b c d -> delaunay_tetra remap site a' b' c' d'.
  Proof.
    intros A B C D [NZ [o [[C1 [C2 C3]] H]]].
    assert (A' := proj1 (remap_same _ _) A). assert (B' := proj1 (remap_same _ _) B). assert (C' := proj1 (remap_same _ _) C). assert (D' := proj1 (remap_same _ _) D).
    cbn [Geometry_Model.ttp1 Geometry_Model.ttp2 Geometry_Model.ttp3 Geometry_Model.ttp4] in C1, C2, C3.
    split.
    - intro Z. apply NZ. change (orient3 (remap a) (remap b) (remap c) (remap d) == 0)%Q. rewrite A', B', C', D'. exact Z.
    - exists o. split.
      + split; [|split]; cbn [Geometry_Model.ttp1 Geometry_Model.ttp2 Geometry_Model.ttp3 Geometry_Model.ttp4];
          rewrite <- (dist_same3 o _ _ A'), <- ?(dist_same3 o _ _ B'), <- ?(dist_same3 o _ _ C'), <- ?(dist_same3 o _ _ D'); assumption.
      + intros y Hy. rewrite <- (dist_same3 o _ _ A'). destruct (H y Hy) as [K|[K|[K|[K|K]]]]; [now left|right..].
        * left. exact (same_position3_trans _ _ _ K A).
        * right; left. exact (same_position3_trans _ _ _ K B).
        * right; right; left. exact (same_position3_trans _ _ _ K C).
        * right; right; right. exact (same_position3_trans _ _ _ K D).
  Qed.
  Lemma delaunay_tetra_swap a b c d : delaunay_tetra remap site a b c d -> delaunay_tetra remap site b a c d.
  Proof.
    intros [NZ [o [[C1 [C2 C3]] H]]]. cbn [Geometry_Model.ttp1 Geometry_Model.ttp2 Geometry_Model.ttp3 Geometry_Model.ttp4] in C1, C2, C3. split.
    - intro Z. apply NZ. change (orient3 (remap a) (remap b) (remap c) (remap d) == 0)%Q. rewrite o3_swap. unfold orient3. rewrite Z. reflexivity.
    - exists o. split.
      + split; [|split]; cbn [Geometry_Model.ttp1 Geometry_Model.ttp2 Geometry_Model.ttp3 Geometry_Model.ttp4]; lra.
      + intros y Hy. destruct (H y Hy) as [K|K]; [left; lra|right; tauto].
  Qed.
  Lemma stars_agree pos1 s1 p1 x1 pos2 s2 p2 x2 : nth_error pos1 p1 = Some x1 -> nth_error pos2 p2 = Some x2 ->
    (exists y, site y /\ same_position3 x1 y) ->
    tetras_around remap site pos1 s1 p1 x1 -> tetras_around remap site pos2 s2 p2 x2 ->
    let same v u := exists x x', nth_error pos1 v = Some x /\ nth_error pos2 u = Some x' /\ same_position3 x x' in
    forall q1 c1 d1, is_tetra s1 p1 q1 c1 d1 -> same q1 p2 -> exists q2 c2 d2, is_tetra s2 p2 q2 c2 d2 /\ same p1 q2 /\ same c1 c2 /\ same d1 d2.
  Proof.
    intros E1 E2 [y1 [Y1 Y2]] [FW _] [_ BW] same q1 c1 d1 T [u [u' [U1 [U2 U3]]]]. subst same. cbv beta.
    destruct (FW q1 c1 d1 T) as [y [z [v [Sy [Sz [Sv [[ya [A1 A2]] [[za [B1 B2]] [[va [C1 C2]] DT]]]]]]]]].
    rewrite E2 in U2. injection U2 as <-. rewrite U1 in A1. injection A1 as <-.
    assert (DT' : delaunay_tetra remap site x2 y1 z v).
    { apply (delaunay_tetra_proper y x1 z v); [|exact Y2|repeat split; reflexivity|repeat split; reflexivity|now apply delaunay_tetra_swap].
      apply (same_position3_trans _ u); [now apply same_position3_sym|exact U3]. }
    destruct (BW y1 z v Y1 Sz Sv DT') as [q2 [c2 [d2 [T2 [[a [F1 F2]] [[b [G1 G2]] [c [H1 H2]]]]]]]].
    exists q2, c2, d2. split; [exact T2|]. split; [|split].
    - exists x1, a. split; [exact E1|]. split; [exact F1|]. apply (same_position3_trans _ y1); [exact Y2|now apply same_position3_sym].
    - exists za, b. split; [exact B1|]. split; [exact G1|]. apply (same_position3_trans _ z); [exact B2|now apply same_position3_sym].
    - exists va, c. split; [exact C1|]. split; [exact H1|]. apply (same_position3_trans _ v); [exact C2|now apply same_position3_sym].
  Qed.
End Agree.

Theorem ranks_agree3 ranks cfg build_fuel search_fuel pop box particles remap circumcircle characteristic_length chunk_size outer fuel w w' r1 s1 r2 s2 p1 q1 c1 d1 p2 :
  distributed3 ranks box particles -> max_depth cfg < build_fuel -> length outer = 4 ->
  (0 < volume6 (shape3 (positions3 remap outer) 0 1 2 3))%Q -> (forall p q, same_position3 p q <-> same_point3 (remap p) (remap q)) ->
  covers_spheres3 remap circumcircle -> starts_from3 ranks pop particles remap outer w ->
  run3 ranks cfg build_fuel search_fuel pop box particles remap circumcircle characteristic_length chunk_size fuel w = Some (Done w') ->
  nth_error w' r1 = Some s1 -> nth_error w' r2 = Some s2 ->
  nth_error (kinds vec3 wrap3 s1) p1 = Some Inner -> nth_error (kinds vec3 wrap3 s2) p2 = Some Inner ->
  let same v u := exists x x', nth_error (points vec3 wrap3 s1) v = Some x /\ nth_error (points vec3 wrap3 s2) u = Some x' /\ same_position3 x x' in
  is_tetra (Halo_Model.tri vec3 wrap3 s1) p1 q1 c1 d1 -> same q1 p2 ->
  exists q2 c2 d2, is_tetra (Halo_Model.tri vec3 wrap3 s2) p2 q2 c2 d2 /\ same p1 q2 /\ same c1 c2 /\ same d1 d2.
Proof.
  intros D F four turn RS CC ST RU H1 H2 I1 I2 same T SM.
  destruct (inner_lt3 ranks cfg build_fuel search_fuel pop box particles remap circumcircle characteristic_length chunk_size outer D F four turn fuel w w' r1 s1 ST RU H1 p1 I1) as [_ L1].
  destruct (inner_lt3 ranks cfg build_fuel search_fuel pop box particles remap circumcircle characteristic_length chunk_size outer D F four turn fuel w w' r2 s2 ST RU H2 p2 I2) as [_ L2].
  destruct (rank_point3 ranks cfg build_fuel search_fuel pop box particles remap circumcircle characteristic_length chunk_size outer D F four turn fuel w w' r1 s1 ST RU H1 p1 L1) as [x1 [E1 _]].
  destruct (rank_point3 ranks cfg build_fuel search_fuel pop box particles remap circumcircle characteristic_length chunk_size outer D F four turn fuel w w' r2 s2 ST RU H2 p2 L2) as [x2 [E2 _]].
  pose proof (star3 ranks cfg build_fuel search_fuel pop box particles remap circumcircle characteristic_length chunk_size outer D F four turn RS CC fuel w w' r1 s1 ST RU H1 p1 I1 x1 E1) as A1.
  pose proof (star3 ranks cfg build_fuel search_fuel pop box particles remap circumcircle characteristic_length chunk_size outer D F four turn RS CC fuel w w' r2 s2 ST RU H2 p2 I2 x2 E2) as A2.
  exact (stars_agree remap RS _ _ _ p1 x1 _ _ p2 x2 E1 E2
    (rank_site3 ranks cfg build_fuel search_fuel pop box particles remap circumcircle characteristic_length chunk_size outer D F four turn fuel w w' r1 s1 ST RU H1 p1 x1 L1 E1) A1 A2 q1 c1 d1 T SM).
Qed.

(** ** A single rank *)
Lemma all_images_list3 ranks box particles : distributed3 ranks box particles ->
  forall l, (forall p, In p l <-> In p (flat_map (fun r => flat_map (fun x => map snd (images3 box (snd x))) (particles r)) (seq 0 ranks))) ->
  all_images3 box particles l.
Proof.
  intros D l P p. split.
  - intro H. apply P in H. apply in_flat_map in H. destruct H as [r [_ H]]. apply in_flat_map in H. destruct H as [[id pos] [H1 H2]].
    apply in_map_iff in H2. destruct H2 as [[wr q] [E H2]]. cbn in E. subst q. exists r, id, wr, pos. auto.
  - intros [r [id [wr [pos [H1 H2]]]]]. apply P. apply in_flat_map. exists r. split.
    + apply in_seq. assert (particles r <> []) as N by (intro E; rewrite E in H1; destruct H1). apply (di3_ranks _ _ _ D) in N. lia.
    + apply in_flat_map. exists (id, pos). split; [exact H1|]. apply in_map_iff. exists (wr, p). auto.
Qed.
Section Whole.
  Variable remap : vec3 -> Geometry_Model.point3.
  Hypothesis remap_same : forall p q, same_position3 p q <-> same_point3 (remap p) (remap q).
  Variables (box : extent3) (particles : nat -> list (nat * vec3)) (outer l : list vec3) (whole : triangulation).
  Hypothesis four : length outer = 4.
  Hypothesis all : all_images3 box particles l.
  Hypothesis whole_good : DelaunayGlobal3_Proofs.good3 (positions3 remap (outer ++ l)) whole.
  Hypothesis count : num_points whole = 4 + length l.
  Notation site := (site3 box particles outer).
  Notation pts := (positions3 remap (outer ++ l)).
  Lemma whole_site v x : v < num_points whole -> nth_error (outer ++ l) v = Some x -> site x.
  Proof.
    intros Lv E. destruct (Nat.lt_ge_cases v 4) as [K|K].
    - left. rewrite nth_error_app1 in E by lia. exact (nth_error_In _ _ E).
    - right. rewrite nth_error_app2 in E by lia. apply all. exact (nth_error_In _ _ E).
  Qed.
  Lemma site_whole y : site y -> exists v, v < num_points whole /\ nth_error (outer ++ l) v = Some y.
  Proof.
    intro H. assert (I : In y (outer ++ l)) by (apply in_or_app; destruct H as [H|H]; [now left|right; now apply all]).
    apply In_nth_error in I. destruct I as [v E]. exists v. split; [|exact E].
    assert (v < length (outer ++ l)) as K by (apply nth_error_Some; congruence). rewrite app_length in K. lia.
  Qed.
  Lemma whole_point v : v < num_points whole -> exists x, nth_error (outer ++ l) v = Some x /\ pts v = remap x.
  Proof.
    intro Lv. destruct (nth_error (outer ++ l) v) as [x|] eqn:E; [|apply nth_error_None in E; rewrite app_length in E; lia].
    exists x. split; [reflexivity|]. now apply positions_nth3.
  Qed.
  Lemma whole_around p x : nth_error (outer ++ l) p = Some x -> tetras_around remap site (outer ++ l) whole p x.
  Proof.
    intro Ep. pose proof (positions_nth3 remap _ _ _ Ep) as Pp.
    assert (Lp : p < num_points whole). { assert (p < length (outer ++ l)) as K by (apply nth_error_Some; congruence). rewrite app_length in K. lia. }
    destruct (good_delaunay3 _ _ whole_good (g3_start _ _ whole_good)) as [_ EM]. pose proof (g3_tiling _ _ whole_good) as L.
    split.
    - intros b c d H. destruct (EM p b c d H) as [o [[C1 [C2 C3]] HE]]. cbn [shape3 Geometry_Model.ttp1 Geometry_Model.ttp2 Geometry_Model.ttp3 Geometry_Model.ttp4] in C1, C2, C3.
      assert (LS : b < num_points whole /\ c < num_points whole /\ d < num_points whole /\ ~ (orient3 (pts p) (pts b) (pts c) (pts d) == 0)%Q).
      { apply (is_tetra_tet whole p b c d (g3_inv _ _ whole_good)) in H. destruct H as [i [T|T]];
          pose proof (t3_pos _ _ _ L _ _ _ _ _ T) as P0; destruct (t3_lts pts _ _ L _ _ _ _ _ T) as [? [? [? ?]]].
        - repeat split; try assumption. lra.
        - rewrite o3_swap in P0. repeat split; try assumption. lra. }
      destruct LS as [Lb [Lc [Ld NZ]]].
      destruct (whole_point b Lb) as [y [E1 P1]]. destruct (whole_point c Lc) as [z [E2 P2]]. destruct (whole_point d Ld) as [v [E3 P3]].
      assert (RF : forall x, same_position3 x x) by (repeat split; reflexivity).
      exists y, z, v. split; [exact (whole_site b y Lb E1)|]. split; [exact (whole_site c z Lc E2)|]. split; [exact (whole_site d v Ld E3)|].
      split; [exists y; auto|]. split; [exists z; auto|]. split; [exists v; auto|].
      rewrite Pp, P1, P2, P3 in NZ. rewrite Pp, P1 in C1. rewrite Pp, P2 in C2. rewrite Pp, P3 in C3. split; [exact NZ|]. exists o. split; [split; [|split]; assumption|].
      intros u Hu. destruct (site_whole u Hu) as [k [Lk Ek]]. pose proof (positions_nth3 remap _ _ _ Ek) as Pk.
      destruct (Nat.eq_dec k p) as [->|N1]; [right; left; replace u with x by congruence; apply RF|].
      destruct (Nat.eq_dec k b) as [->|N2]; [right; right; left; replace u with y by congruence; apply RF|].
      destruct (Nat.eq_dec k c) as [->|N3]; [right; right; right; left; replace u with z by congruence; apply RF|].
      destruct (Nat.eq_dec k d) as [->|N4]; [right; right; right; right; replace u with v by congruence; apply RF|].
      left. pose proof (HE k Lk N1 N2 N3 N4) as K. rewrite Pk, Pp in K. exact K.
    - intros y z v Sy Sz Sv [NZ [o [C H]]].
      destruct (site_whole y Sy) as [b [Lb Eb]]. destruct (site_whole z Sz) as [c [Lc Ec]]. destruct (site_whole v Sv) as [d [Ld Ed]].
      pose proof (positions_nth3 remap _ _ _ Eb) as Pb. pose proof (positions_nth3 remap _ _ _ Ec) as Pc. pose proof (positions_nth3 remap _ _ _ Ed) as Pd.
      exists b, c, d. split; [|split; [|split]; eexists; (split; [eassumption|repeat split; reflexivity])].
      assert (IND : forall k k', k < num_points whole -> k' < num_points whole -> same_point3 (pts k) (pts k') -> k = k').
      { intros k k' Lk Lk' E. destruct (t3_cover _ _ _ L (pts k) (t3_big _ _ _ L k Lk)) as [i [e [f [g [h [T K]]]]]].
        pose proof (t3_corner _ _ _ L _ _ _ _ _ k T Lk K) as M. rewrite E in K. pose proof (t3_corner _ _ _ L _ _ _ _ _ k' T Lk' K) as M'.
        pose proof (t3_pos _ _ _ L _ _ _ _ _ T) as P0.
        assert (A : forall a b c d, (0 < orient3 (pts a) (pts b) (pts c) (pts d))%Q -> ~ same_point3 (pts a) (pts b) /\ ~ same_point3 (pts a) (pts c) /\ ~ same_point3 (pts a) (pts d) /\
          ~ same_point3 (pts b) (pts c) /\ ~ same_point3 (pts b) (pts d) /\ ~ same_point3 (pts c) (pts d)).
        { clear. intros a b c d P0. generalize dependent (pts a). generalize (pts b), (pts c), (pts d). clear. intros B C D A P0.
          repeat split; intro S; [rewrite S in P0; assert (orient3 B B C D == 0)%Q by (apply o3_first)|
            rewrite S in P0; assert (orient3 C B C D == 0)%Q by (apply o3_outer)|rewrite S in P0; assert (orient3 D B C D == 0)%Q by (apply o3_same)|
            rewrite S in P0; assert (orient3 A C C D == 0)%Q by (apply o3_inner)|rewrite S in P0; assert (orient3 A D C D == 0)%Q by (apply o3_same)|
            rewrite S in P0; assert (orient3 A B D D == 0)%Q by (apply o3_same)]; lra. }
        destruct (A _ _ _ _ P0) as [N1 [N2 [N3 [N4 [N5 N6]]]]]. assert (E' := symmetry E).
        destruct M as [->|[->|[->| ->]]]; destruct M' as [->|[->|[->| ->]]]; try reflexivity; contradiction. }
      apply (good_complete3 pts whole p b c d whole_good Lp Lb Lc Ld); [unfold shape3; rewrite Pp, Pb, Pc, Pd; exact NZ|].
      exists o. split; [unfold shape3; rewrite Pp, Pb, Pc, Pd; exact C|]. intros k Lk N1 N2 N3 N4.
      destruct (whole_point k Lk) as [u [Eu Pu]]. rewrite Pp, Pu. destruct (H u (whole_site k u Lk Eu)) as [K|K]; [exact K|exfalso].
      rewrite !remap_same in K. rewrite <- Pu, <- Pp, <- Pb, <- Pc, <- Pd in K.
      destruct K as [K|[K|[K|K]]]; [apply N1|apply N2|apply N3|apply N4]; now apply IND.
  Qed.
End Whole.
Lemma stars_same remap site pos s p x pos' s' p' x' : (forall p q, same_position3 p q <-> same_point3 (remap p) (remap q)) -> same_position3 x x' ->
  tetras_around remap site pos s p x -> tetras_around remap site pos' s' p' x' -> same_tetras_around pos s p pos' s' p'.
Proof.
  intros RS E. assert (RF : forall x, same_position3 x x) by (repeat split; reflexivity).
  assert (HALF : forall pos s p x pos' s' p' x', same_position3 x x' -> tetras_around remap site pos s p x -> tetras_around remap site pos' s' p' x' ->
    forall b c d, is_tetra s p b c d -> exists b' c' d', is_tetra s' p' b' c' d' /\
      (exists u v, nth_error pos b = Some u /\ nth_error pos' b' = Some v /\ same_position3 u v) /\
      (exists u v, nth_error pos c = Some u /\ nth_error pos' c' = Some v /\ same_position3 u v) /\
      (exists u v, nth_error pos d = Some u /\ nth_error pos' d' = Some v /\ same_position3 u v)).
  { clear - RS RF. intros pos s p x pos' s' p' x' E [FW _] [_ BW] b c d T.
    destruct (FW b c d T) as [y [z [v [Sy [Sz [Sv [[ya [A1 A2]] [[za [B1 B2]] [[va [C1 C2]] DT]]]]]]]]].
    destruct (BW y z v Sy Sz Sv (delaunay_tetra_proper remap RS site _ _ _ _ _ _ _ _ E (RF y) (RF z) (RF v) DT)) as [b' [c' [d' [T' [[yb [D1 D2]] [[zb [E1 E2]] [vb [F1 F2]]]]]]]].
    exists b', c', d'. split; [exact T'|]. split; [|split].
    - exists ya, yb. split; [exact A1|]. split; [exact D1|]. apply (same_position3_trans _ y); [exact A2|now apply same_position3_sym].
    - exists za, zb. split; [exact B1|]. split; [exact E1|]. apply (same_position3_trans _ z); [exact B2|now apply same_position3_sym].
    - exists va, vb. split; [exact C1|]. split; [exact F1|]. apply (same_position3_trans _ v); [exact C2|now apply same_position3_sym]. }
  intros A B. split.
  - exact (HALF pos s p x pos' s' p' x' E A B).
  - intros b' c' d' T. destruct (HALF pos' s' p' x' pos s p x (same_position3_sym _ _ E) B A b' c' d' T) as [b [c [d [T' [[u [v [H1 [H2 H3]]]] [[u' [v' [I1 [I2 I3]]]] [u'' [v'' [J1 [J2 J3]]]]]]]]]].
    exists b, c, d. split; [exact T'|]. split; [|split]; eexists _, _; (split; [eassumption|]; split; [eassumption|]); now apply same_position3_sym.
Qed.
Theorem single_rank3 ranks cfg build_fuel search_fuel pop box particles circumcircle characteristic_length chunk_size pop' l whole fuel w w' r s p p' :
  distributed3 ranks box particles -> max_depth cfg < build_fuel ->
  (x3 (max3 box) - x3 (min3 box) == y3 (max3 box) - y3 (min3 box))%Q /\ (x3 (max3 box) - x3 (min3 box) == z3 (max3 box) - z3 (min3 box))%Q ->
  covers_spheres3 to_point3 circumcircle -> all_images3 box particles l -> whole3 box pop' l = Some whole ->
  starts_from3 ranks pop particles (box_remap3 box) (box_outer3 box) w ->
  run3 ranks cfg build_fuel search_fuel pop box particles (box_remap3 box) circumcircle characteristic_length chunk_size fuel w = Some (Done w') ->
  nth_error w' r = Some s -> nth_error (kinds vec3 wrap3 s) p = Some Inner ->
  (exists x x', nth_error (points vec3 wrap3 s) p = Some x /\ nth_error (box_outer3 box ++ l) p' = Some x' /\ same_position3 x x') ->
  same_tetras_around (points vec3 wrap3 s) (Halo_Model.tri vec3 wrap3 s) p (box_outer3 box ++ l) whole p'.
Proof.
  intros D F CU CC AL W ST RU HR IN [x [x' [E1 [E2 E3]]]]. pose proof (di3_box _ _ _ D) as PB.
  assert (four : length (box_outer3 box) = 4) by (unfold box_outer3; destruct (box_extent3 box); reflexivity).
  destruct (box_whole3 box PB pop' l whole W) as [GW CW].
  apply (stars_same (box_remap3 box) (site3 box particles (box_outer3 box)) _ _ p x _ _ p' x' (box_same3 box PB) E3).
  - exact (star3 ranks cfg build_fuel search_fuel pop box particles (box_remap3 box) circumcircle characteristic_length chunk_size (box_outer3 box)
      D F four (box_turn3 box PB) (box_same3 box PB) (box_spheres3 box PB CU circumcircle CC) fuel w w' r s ST RU HR p IN x E1).
  - exact (whole_around (box_remap3 box) (box_same3 box PB) box particles (box_outer3 box) l whole four AL GW CW p' x' E2).
Qed.
