(** The triangles around the particles of a rank are those of the triangulation of all particles. *)
From Coq Require Import List Arith QArith Lqa Lia Permutation Setoid.
From Verif Require Geometry_Model Box_Proofs.
From Verif Require Import Geometry_Spec Box_Model Box_Spec Tree_Model Circle2_Proofs Tiling2_Proofs Delaunay_Model Delaunay_Spec DelaunayGeo_Model
  DelaunayGlobal_Spec Halo_Model Halo_Spec HaloGeo_Model HaloGeo_Spec HaloDelaunay_Spec DelaunayRemap_Model HaloDelaunay_Model DelaunayRemap_Proofs
  DelaunayInsert_Proofs Delaunay2Insert_Proofs DelaunayGlobal2_Proofs DelaunayUnique2_Proofs Halo_Proofs HaloGeo_Proofs HaloFinal_Proofs
  DelaunayFinal_Proofs DelaunayGeo_Proofs Geometry_Proofs.
Import ListNotations.
Local Open Scope nat_scope.

(** ** Only the positions of the points matter *)
Section Ext.
  Variables pts pts' : nat -> Geometry_Model.point2.
  Variable s : triangulation.
  Hypothesis agree : forall v, v < num_points s -> pts v = pts' v.
  Lemma good_ext : good pts s -> good pts' s.
  Proof.
    intros [g1 g2 L g4 g5 g6]. pose proof L as [l1 l2 l3 l4 l5 l6 l7 l8].
    assert (E : forall i a b c, DelaunayGlobal2_Proofs.tri s i a b c -> pts a = pts' a /\ pts b = pts' b /\ pts c = pts' c).
    { intros i a b c H. pose proof (l1 _ _ _ _ H) as H2. pose proof (l1 _ _ _ _ H2) as H3.
      repeat split; apply agree; eapply l4; eassumption. }
    assert (E0 : pts 0 = pts' 0 /\ pts 1 = pts' 1 /\ pts 2 = pts' 2) by (repeat split; apply agree; lia).
    destruct E0 as [E0 [E1 E2]].
    constructor; auto; [constructor; auto|].
    - intros i a b c H. destruct (E _ _ _ _ H) as [<- [<- <-]]. eauto.
    - intros i j a b c d e f x H K. destruct (E _ _ _ _ H) as [<- [<- <-]]. destruct (E _ _ _ _ K) as [<- [<- <-]]. eauto.
    - intros i a b c v H Hv. destruct (E _ _ _ _ H) as [<- [<- <-]]. rewrite <- agree by exact Hv. eauto.
    - intros v Hv. rewrite <- E0, <- E1, <- E2, <- agree by exact Hv. auto.
    - intros x. rewrite <- E0, <- E1, <- E2. intro Hx. destruct (l8 x Hx) as [i [a [b [c [H K]]]]].
      exists i, a, b, c. destruct (E _ _ _ _ H) as [<- [<- <-]]. auto.
    - intros i j a b c q o k H K. destruct (E _ _ _ _ H) as [<- [<- <-]].
      destruct (E _ _ _ _ (l1 _ _ _ _ (l1 _ _ _ _ K))) as [<- _]. eauto.
  Qed.
End Ext.

(** ** Invariants of the iteration *)
Section Keep.
  Variables P W : Type.
  Variable wrap_eqb : W -> W -> bool.
  Variable is_periodic : W -> bool.
  Variable images : P -> list (W * P).
  Variable closer : P -> P -> Q -> bool.
  Variable search_tree : nat -> P -> Q -> option (list (nat * P)).
  Variable owns_part : nat -> P -> Q -> bool.
  Variable circumcircle : list P -> P * Q.
  Variable insert : list P -> triangulation -> option (nat * list nat * triangulation).
  Variable characteristic_length : Q.
  Variable chunk_size : nat.
  Notation rank_state := (rank_state P W).
  Notation tri := (Halo_Model.tri P W). Notation points := (points P W). Notation kinds := (kinds P W). Notation haloes := (haloes P W).
  Notation deliveries := (deliveries P W wrap_eqb is_periodic images closer search_tree owns_part circumcircle characteristic_length chunk_size).
  Notation round := (round P W wrap_eqb is_periodic images closer search_tree owns_part circumcircle insert characteristic_length chunk_size).
  Notation run := (run P W wrap_eqb is_periodic images closer search_tree owns_part circumcircle insert characteristic_length chunk_size).
  Variable J : nat -> rank_state -> Prop.
  Hypothesis J_same : forall r s s', tri s' = tri s -> points s' = points s -> kinds s' = kinds s -> haloes s' = haloes s -> J r s -> J r s'.
  Hypothesis J_import : forall r s x s', J r s -> import_halo P W wrap_eqb is_periodic insert r s x = Done s' -> J r s'.

  Lemma fold_keeps r l : forall s s', J r s -> fold_outcome (import_halo P W wrap_eqb is_periodic insert r) l s = Done s' -> J r s'.
  Proof.
    induction l as [|x l IH]; cbn [fold_outcome]; intros s s' H E; [injection E as <-; exact H|].
    destruct (import_halo P W wrap_eqb is_periodic insert r s x) as [s1|] eqn:E1; cbn [andthen] in E; [|discriminate]. eauto.
  Qed.
  Lemma deliveries_keep w ds : deliveries w = Done ds -> length ds = length w /\
    forall r s, nth_error w r = Some s -> exists s1 recv, nth_error ds r = Some (s1, recv) /\
      tri s1 = tri s /\ points s1 = points s /\ kinds s1 = kinds s /\ haloes s1 = haloes s.
  Proof.
    intro H. unfold Halo_Model.deliveries in H.
    destruct (map_outcome _ w) as [searched|] eqn:E1; cbn [andthen] in H; [|discriminate].
    destruct (map_outcome _ (combine (seq 0 (length searched)) searched)) as [answered|] eqn:E2; cbn [andthen] in H; [|discriminate].
    injection H as <-.
    destruct (map_outcome_nth _ _ _ E1) as [L1 X1]. destruct (map_outcome_nth _ _ _ E2) as [L2 X2].
    rewrite combine_seq_length in L2.
    split; [rewrite map_length, combine_seq_length; congruence|].
    intros r s Hr. destruct (X1 r s Hr) as [[l s'] [Hs Es]].
    destruct (X2 r (r, (l, s'))) as [[[own out] s2] [Ha Ea]]; [now rewrite combine_seq_nth, Hs|]. cbn [fst snd] in Ea.
    destruct (local_periodic_haloes _ _ _ _ _ _ _ _ _ _) as [[own' c1]|] in Ea; cbn [andthen] in Ea; [|discriminate].
    destruct (outgoing_results _ _ _ _ _ _ _ _ _ _) as [[out' c2]|] in Ea; cbn [andthen] in Ea; [|discriminate].
    injection Ea as <- <- <-.
    unfold Halo_Model.get_radius_search_data in Es.
    destruct (map_outcome _ _) as [ll|] in Es; cbn [andthen] in Es; [|discriminate]. injection Es as <- <-.
    eexists _, _. split; [rewrite nth_error_map', combine_seq_nth, Ha; reflexivity|]. auto.
  Qed.
  Definition everywhere (w : list rank_state) : Prop := forall r s, nth_error w r = Some s -> J r s.
  Lemma round_keeps w w' : everywhere w -> round w = Done w' -> everywhere w'.
  Proof.
    unfold Halo_Model.round. intros A H. destruct (deliveries w) as [ds|] eqn:E; cbn [andthen] in H; [|discriminate].
    destruct (deliveries_keep w ds E) as [L X]. intros r s' Hr.
    destruct (map_outcome_nth' _ _ _ r s' H Hr) as [[r' [s1 recv]] [H1 H2]]. rewrite combine_seq_nth in H1.
    destruct (nth_error ds r) as [[s1' recv']|] eqn:E1; [|discriminate]. cbn in H1. injection H1 as <- <- <-. cbn [fst snd] in H2.
    destruct (nth_error w r) as [s|] eqn:E2.
    - destruct (X r s E2) as [s2 [recv2 [Y1 [Y2 [Y3 [Y4 Y5]]]]]]. rewrite E1 in Y1. injection Y1 as <- <-.
      unfold Halo_Model.import in H2. eapply fold_keeps; [|exact H2]. eapply J_same; eauto.
    - apply nth_error_None in E2. assert (nth_error ds r <> None) as N by congruence. apply nth_error_Some in N. lia.
  Qed.
  Lemma run_keeps fuel : forall w w', everywhere w -> run fuel w = Some (Done w') ->
    everywhere w' /\ steps round w w'.
  Proof.
    induction fuel as [|fuel IH]; cbn [Halo_Model.run]; intros w w' A H; destruct (everyone_finished P W w).
    - injection H as <-. split; [exact A|constructor].
    - discriminate.
    - injection H as <-. split; [exact A|constructor].
    - destruct (round w) as [w1|] eqn:E; [|discriminate]. destruct (IH w1 w' (round_keeps w w1 A E) H) as [B1 B2].
      split; [exact B1|]. econstructor; eauto.
  Qed.
End Keep.

(** ** The triangulation of every rank *)
Section Two.
  Variables (ranks : nat) (cfg : config) (build_fuel search_fuel : nat) (pop : nat -> list nat -> nat).
  Variables (box : extent2) (particles : nat -> list (nat * vec2)) (remap : vec2 -> Geometry_Model.point2).
  Variables (circumcircle : list vec2 -> vec2 * Q) (characteristic_length : Q) (chunk_size : nat).
  Variable outer : list vec2.
  Hypothesis D : distributed2 ranks box particles.
  Hypothesis F : max_depth cfg < build_fuel.
  Hypothesis three : length outer = 3.
  Hypothesis turn : (0 < orient (positions2 remap outer 0) (positions2 remap outer 1) (positions2 remap outer 2))%Q.
  Notation rank_state := (rank_state vec2 wrap2).
  Notation tri := (Halo_Model.tri vec2 wrap2). Notation points := (Halo_Model.points vec2 wrap2).
  Notation kinds := (Halo_Model.kinds vec2 wrap2). Notation haloes := (Halo_Model.haloes vec2 wrap2).

  Record rank_delaunay (r : nat) (s : rank_state) : Prop := {
    rd_good : good (positions2 remap (points s)) (tri s);
    rd_points : length (points s) = num_points (tri s);
    rd_kinds : length (kinds s) = num_points (tri s);
    rd_outer : exists l, points s = outer ++ l;
    rd_kind : forall i, i < num_points (tri s) -> i < 3 \/ (3 <= i /\ nth_error (kinds s) i = Some Inner /\
        exists x pos, nth_error (points s) i = Some pos /\ In (x, pos) (particles r)) \/
      (exists q k, nth_error (kinds s) i = Some (Halo q) /\ In (k, i) (haloes s));
    rd_inner : forall i, nth_error (kinds s) i = Some Inner -> exists x pos, nth_error (points s) i = Some pos /\ In (x, pos) (particles r)
  }.
  Lemma positions_app l x v : v < length l -> positions2 remap (l ++ x) v = positions2 remap l v.
  Proof. intro H. unfold positions2. now rewrite app_nth1. Qed.
  Lemma insert_rank l s x p new s' : good (positions2 remap l) s -> length l = num_points s ->
    insert2 pop remap (l ++ [x]) s = Some (p, new, s') ->
    good (positions2 remap (l ++ [x])) s' /\ p = length l /\ num_points s' = S (length l).
  Proof.
    intros G L E.
    assert (G1 : good (positions2 remap (l ++ [x])) s).
    { apply (good_ext (positions2 remap l)); [|exact G]. intros v Hv. symmetry. apply positions_app. lia. }
    split; [exact (insert_good _ pop s p new s' G1 E)|].
    destruct (insert2_good pop remap (l ++ [x]) s p new s') as [_ [A [B _]]]; [split; [exact (gd_inv _ _ G)|exact (gd_last _ _ G)]|exact E|].
    lia.
  Qed.
  Lemma rd_same r s s' : tri s' = tri s -> points s' = points s -> kinds s' = kinds s -> haloes s' = haloes s -> rank_delaunay r s -> rank_delaunay r s'.
  Proof. intros E1 E2 E3 E4 [a b c d e f]. constructor; rewrite ?E1, ?E2, ?E3, ?E4; assumption. Qed.
  Lemma rd_insert_inner r s x s' : In x (map snd (particles r)) -> haloes s = [] -> rank_delaunay r s ->
    insert_inner vec2 wrap2 (insert2 pop remap) s x = Done s' -> rank_delaunay r s' /\ haloes s' = [].
  Proof.
    intros Hx HH [a b c [l d] e f] H. unfold insert_inner in H.
    destruct (insert2 pop remap (points s ++ [x]) (tri s)) as [[[p new] t]|] eqn:E; [|discriminate]. injection H as <-.
    destruct (insert_rank _ _ _ _ _ _ a b E) as [G [-> N]]. split; [|exact HH].
    apply in_map_iff in Hx. destruct Hx as [[id pos] [Ex Hx]]. cbn in Ex. subst x.
    assert (K : forall i, nth_error (kinds s ++ [Inner]) i = Some Inner -> exists x pos0, nth_error (points s ++ [pos]) i = Some pos0 /\ In (x, pos0) (particles r)).
    { intros i Hi. destruct (Nat.lt_ge_cases i (length (kinds s))) as [Li|Li].
      - rewrite nth_error_app1 in Hi by exact Li. destruct (f i Hi) as [y [q [Y1 Y2]]]. exists y, q. split; [|exact Y2].
        rewrite nth_error_app1; [exact Y1|lia].
      - rewrite nth_error_app2 in Hi by exact Li. destruct (i - length (kinds s)) as [|k] eqn:Ek; [|destruct k; discriminate].
        exists id, pos. split; [|exact Hx]. rewrite nth_error_app2 by lia. replace (i - length (points s)) with 0 by lia. reflexivity. }
    constructor; cbn [Halo_Model.tri Halo_Model.points Halo_Model.kinds Halo_Model.haloes]; auto.
    - rewrite app_length. cbn. lia.
    - rewrite app_length. cbn. lia.
    - rewrite d, <- app_assoc. eauto.
    - intros i Hi. destruct (Nat.lt_ge_cases i (length (points s))) as [Li|Li].
      + destruct (e i ltac:(lia)) as [X|[[X1 [X2 X3]]|[q [k [X1 X2]]]]]; [now left| |rewrite HH in X2; destruct X2].
        right; left. split; [exact X1|]. assert (Y : nth_error (kinds s ++ [Inner]) i = Some Inner) by (rewrite nth_error_app1; [exact X2|lia]).
        split; [exact Y|]. exact (K i Y).
      + right; left. pose proof (gd_three _ _ a). split; [lia|].
        assert (Y : nth_error (kinds s ++ [Inner]) i = Some Inner).
        { rewrite nth_error_app2 by lia. replace (i - length (kinds s)) with 0 by lia. reflexivity. }
        split; [exact Y|]. exact (K i Y).
  Qed.
  Lemma rd_import r s x s' : rank_delaunay r s -> import_halo vec2 wrap2 wrap2_eqb is_periodic2 (insert2 pop remap) r s x = Done s' -> rank_delaunay r s'.
  Proof.
    intros [a b c [l d] e f] H. destruct x as [q x]. unfold import_halo in H. destruct (existsb _ (haloes s)) in H; [discriminate|].
    destruct (insert2 pop remap (points s ++ [r_point vec2 wrap2 x]) (tri s)) as [[[p new] t]|] eqn:E; [|discriminate]. injection H as <-.
    destruct (insert_rank _ _ _ _ _ _ a b E) as [G [-> N]]. set (pos := r_point vec2 wrap2 x) in *.
    assert (K : forall i, nth_error (kinds s ++ [Halo q]) i = Some Inner -> nth_error (kinds s) i = Some Inner).
    { intros i Hi. destruct (Nat.lt_ge_cases i (length (kinds s))) as [Li|Li]; [now rewrite nth_error_app1 in Hi|].
      rewrite nth_error_app2 in Hi by exact Li. destruct (i - length (kinds s)) as [|k]; [discriminate|destruct k; discriminate]. }
    assert (K2 : forall i y, nth_error (points s) i = Some y -> nth_error (points s ++ [pos]) i = Some y).
    { intros i y H. rewrite nth_error_app1; [exact H|]. apply nth_error_Some. congruence. }
    constructor; cbn [Halo_Model.tri Halo_Model.points Halo_Model.kinds Halo_Model.haloes]; auto.
    - rewrite app_length. cbn. lia.
    - rewrite app_length. cbn. lia.
    - rewrite d, <- app_assoc. eauto.
    - intros i Hi. destruct (Nat.lt_ge_cases i (length (points s))) as [Li|Li].
      + destruct (e i ltac:(lia)) as [X|[[X1 [X2 [y [py [X3 X4]]]]]|[q' [k [X1 X2]]]]]; [now left| |].
        * right; left. split; [exact X1|]. split; [rewrite nth_error_app1; [exact X2|lia]|]. exists y, py. auto.
        * right; right. exists q', k. split; [rewrite nth_error_app1; [exact X1|lia]|]. apply in_or_app. now left.
      + right; right. exists q, (halo_type vec2 wrap2 is_periodic2 r q x). split.
        * rewrite nth_error_app2 by lia. replace (i - length (kinds s)) with 0 by lia. reflexivity.
        * apply in_or_app. right. left. f_equal. lia.
    - intros i Hi. destruct (f i (K i Hi)) as [y [py [X1 X2]]]. exists y, py. auto.
  Qed.
  Lemma rd_start w : starts_from2 ranks pop particles remap outer w -> everywhere vec2 wrap2 rank_delaunay w.
  Proof.
    intros [L H] r s Hr. destruct (H r s Hr) as [start [local [E1 [E2 E3]]]]. unfold initial in E3.
    set (s0 := Build_rank_state _ _ _ _ _ _ _ _) in E3.
    assert (R0 : rank_delaunay r s0 /\ haloes s0 = []).
    { split; [|reflexivity]. destruct inv2_start as [t0 [E0 [I [LO [_ NP]]]]]. rewrite E1 in E0. injection E0 as <-.
      constructor; cbn.
      - apply start_good; auto.
      - lia.
      - rewrite map_length. lia.
      - exists []. now rewrite app_nil_r.
      - intros i Hi. left. lia.
      - intros i Hi. exfalso. apply nth_error_In in Hi. apply in_map_iff in Hi. destruct Hi as [y [Y _]]. discriminate. }
    assert (SUB : forall x, In x local -> In x (map snd (particles r))) by (intros x Hx; apply (Permutation_in _ E2 Hx)).
    clearbody s0. revert s0 E3 R0. clear E2. induction local as [|x local IH]; cbn [fold_outcome]; intros s0 E3 [R0 H0].
    - cbn [andthen] in E3. injection E3 as <-. revert R0. apply rd_same; reflexivity.
    - destruct (insert_inner vec2 wrap2 (insert2 pop remap) s0 x) as [s1|] eqn:E; cbn [andthen] in E3; [|discriminate].
      apply (IH (fun y Hy => SUB y (or_intror Hy)) s1 E3). apply (rd_insert_inner r s0 x s1); auto. apply SUB. now left.
  Qed.
  Lemma starts_from_starts w : starts_from2 ranks pop particles remap outer w -> starts2 ranks pop particles remap w.
  Proof.
    intros [L H]. split; [exact L|]. intros r s Hr. destruct (H r s Hr) as [start [local [E1 [E2 E3]]]]. exists start, outer, local. auto.
  Qed.
  Notation run2 := (run2 ranks cfg build_fuel search_fuel pop box particles remap circumcircle characteristic_length chunk_size).
  Theorem rank_good fuel w w' r s : starts_from2 ranks pop particles remap outer w -> run2 fuel w = Some (Done w') ->
    nth_error w' r = Some s -> rank_delaunay r s /\ complete vec2 wrap2 is_periodic2 (images2 box) closer2 circumcircle particles r s /\
    (forall i, i < num_points (tri s) -> i < 3 \/ exists pos q x wr, nth_error (points s) i = Some pos /\
       ((exists pos0, In (x, pos0) (particles q) /\ pos = pos0) \/ image_of vec2 wrap2 (images2 box) particles q x wr pos)).
  Proof.
    intros ST H Hr. pose proof (starts_from_starts w ST) as ST2.
    destruct (run_keeps vec2 wrap2 wrap2_eqb is_periodic2 (images2 box) closer2 _ _ circumcircle (insert2 pop remap) characteristic_length chunk_size
      rank_delaunay rd_same rd_import fuel w w' (rd_start w ST) H) as [A SS].
    pose proof (A r s Hr) as R. split; [exact R|].
    split; [exact (complete2 ranks cfg build_fuel search_fuel pop box particles remap circumcircle characteristic_length chunk_size D F fuel w w' r s ST2 H Hr)|].
    destruct (sound2 ranks cfg build_fuel search_fuel pop box particles remap circumcircle characteristic_length chunk_size D F w w' r s ST2 SS Hr) as [_ SO].
    intros i Hi. destruct (rd_kind _ _ R i Hi) as [X|[[_ [_ [x [pos [X1 X2]]]]]|[q [k [_ X]]]]]; [now left| |].
    - right. exists pos, r, x, (NoWrap, NoWrap). split; [exact X1|]. left. eauto.
    - right. destruct (SO k i X) as [q' [x [wr [p [_ [_ [Y1 Y2]]]]]]]. exists p, q', x, wr. auto.
  Qed.
  (** ** The triangulation of everything *)
  Hypothesis remap_same : forall p q, same_position p q <-> same_point (remap p) (remap q).
  Hypothesis circles : covers_circles2 remap circumcircle.
  Variables (l : list vec2) (whole : triangulation).
  Hypothesis all : all_images2 box particles l.
  Hypothesis whole_good : good (positions2 remap (outer ++ l)) whole /\ num_points whole = 3 + length l.
  Lemma unwrapped x pos q : In (x, pos) (particles q) -> exists p, image_of vec2 wrap2 (images2 box) particles q x (NoWrap, NoWrap) p /\ same_position pos p.
  Proof.
    intro H. exists (V2 (x2 pos + x2 (sides2 box) * 0) (y2 pos + y2 (sides2 box) * 0)). split.
    - exists pos. split; [exact H|]. left. reflexivity.
    - split; cbn; ring.
  Qed.
  Lemma nowrap_same p pos w : In (w, p) (images2 box pos) -> is_periodic2 w = false -> same_position pos p.
  Proof.
    intros H E. unfold is_periodic2 in E. rewrite negb_false_iff, wrap2_eqb_spec in E. subst w.
    cbn in H. repeat (destruct H as [H|H]; [try discriminate H|]); [|destruct H].
    injection H as <-. split; cbn; ring.
  Qed.
  Lemma positions_nth pos v x : nth_error pos v = Some x -> positions2 remap pos v = remap x.
  Proof. intro H. unfold positions2. f_equal. now apply nth_error_nth. Qed.
  Lemma in_whole p : In p l -> exists v, v < num_points whole /\ nth_error (outer ++ l) v = Some p.
  Proof.
    intro H. apply In_nth_error in H. destruct H as [k Hk]. exists (3 + k).
    assert (k < length l) by (apply nth_error_Some; congruence). destruct whole_good as [_ N]. split; [lia|].
    rewrite nth_error_app2 by lia. rewrite <- Hk. f_equal. lia.
  Qed.

  Variables (fuel : nat) (w w' : list rank_state) (r : nat) (s : rank_state).
  Hypothesis start : starts_from2 ranks pop particles remap outer w.
  Hypothesis ended : run2 fuel w = Some (Done w').
  Hypothesis here : nth_error w' r = Some s.
  Notation pts := (positions2 remap (points s)).
  Notation pts' := (positions2 remap (outer ++ l)).

  Lemma outer_same v : v < 3 -> pts v = pts' v.
  Proof.
    intro H. destruct (rank_good fuel w w' r s start ended here) as [R _]. destruct (rd_outer _ _ R) as [m E]. rewrite E.
    rewrite !positions_app by lia. reflexivity.
  Qed.
  Lemma rank_sub v : v < num_points (tri s) -> exists v', v' < num_points whole /\ same_point (pts v) (pts' v').
  Proof.
    intro H. destruct (rank_good fuel w w' r s start ended here) as [R [_ SO]]. destruct whole_good as [GW N].
    destruct (SO v H) as [X|[pos [q [x [wr [X1 X2]]]]]].
    - exists v. split; [lia|]. rewrite outer_same by exact X. split; reflexivity.
    - assert (K : exists p, In p l /\ same_position pos p).
      { destruct X2 as [[pos0 [Y1 <-]]|Y].
        - destruct (unwrapped _ _ _ Y1) as [p [Z1 Z2]]. exists p. split; [|exact Z2]. apply all. eauto.
        - exists pos. split; [|split; reflexivity]. apply all. eauto. }
      destruct K as [p [K1 K2]]. destruct (in_whole p K1) as [v' [Lv Ev]]. exists v'. split; [exact Lv|].
      rewrite (positions_nth _ _ _ X1), (positions_nth _ _ _ Ev). now apply remap_same.
  Qed.
  Lemma dist_same o p q : same_point p q -> (dist2_2 o p == dist2_2 o q)%Q.
  Proof. intros [E1 E2]. unfold dist2_2. rewrite E1, E2. reflexivity. Qed.

  Variable p : nat.
  Hypothesis inner : nth_error (kinds s) p = Some Inner.

  Lemma rank_turn : (0 < orient (pts 0) (pts 1) (pts 2))%Q.
  Proof. rewrite !outer_same by lia. rewrite !positions_app by lia. exact turn. Qed.
  (** The circumcircles of triangles with a local corner contain no image at all. *)
  Lemma rank_free b c o v' : is_triangle (tri s) p b c -> circumscribed2 (shape2 pts p b c) o -> v' < num_points whole ->
    (dist2_2 o (pts p) <= dist2_2 o (pts' v'))%Q.
  Proof.
    intros HT HC Hv. destruct (rank_good fuel w w' r s start ended here) as [R [CO SO]]. pose proof (rd_good _ _ R) as G.
    destruct (good_delaunay _ _ G rank_turn) as [TL EM].
    destruct (tt_corners _ _ TL p b c HT) as [Lp [Lb Lc]]. pose proof (tt_ccw _ _ TL p b c HT) as PO.
    (* points of the rank *)
    assert (OWN : forall v, v < num_points (tri s) -> (dist2_2 o (pts p) <= dist2_2 o (pts v))%Q).
    { intros v Lv. destruct (EM p b c HT) as [o' [C' E']].
      assert (NZ : ~ (area2 (shape2 pts p b c) == 0)%Q) by lra.
      destruct (circumcenter2_unique _ o NZ HC) as [U1 U2]. destruct (circumcenter2_unique _ o' NZ C') as [V1 V2].
      assert (SO' : same_point o o') by (split; [rewrite U1, V1|rewrite U2, V2]; reflexivity).
      destruct HC as [C1 C2]. cbn [shape2 Geometry_Model.t2p1 Geometry_Model.t2p2 Geometry_Model.t2p3] in C1, C2.
      destruct (Nat.eq_dec v p) as [->|N1]; [lra|]. destruct (Nat.eq_dec v b) as [->|N2]; [lra|]. destruct (Nat.eq_dec v c) as [->|N3]; [lra|].
      specialize (E' v Lv N1 N2 N3). destruct SO' as [S1 S2]. unfold dist2_2 in *. rewrite <- S1, <- S2 in E'. lra. }
    destruct (Nat.lt_ge_cases v' 3) as [L3|L3].
    - rewrite <- outer_same by exact L3. apply OWN. pose proof (gd_three _ _ G). lia.
    - destruct whole_good as [_ N].
      destruct (nth_error (outer ++ l) v') as [x|] eqn:Ex; [|apply nth_error_None in Ex; rewrite app_length in Ex; lia].
      assert (IX : In x l). { rewrite nth_error_app2 in Ex by lia. exact (nth_error_In _ _ Ex). }
      apply all in IX. destruct IX as [q [id [wr IM]]].
      rewrite (positions_nth _ _ _ Ex).
      destruct (Qlt_le_dec (dist2_2 o (remap x)) (dist2_2 o (pts p))) as [LT|]; [exfalso|assumption].
      destruct HT as [i [t [Ht TU]]].
      destruct (nth_error (points s) p) as [xp|] eqn:Ep; [|apply nth_error_None in Ep; rewrite (rd_points _ _ R) in Ep; lia].
      destruct (nth_error (points s) b) as [xb|] eqn:Eb; [|apply nth_error_None in Eb; rewrite (rd_points _ _ R) in Eb; lia].
      destruct (nth_error (points s) c) as [xc|] eqn:Ec; [|apply nth_error_None in Ec; rewrite (rd_points _ _ R) in Ec; lia].
      assert (CLO : forall center radius, circumcircle (corner_positions vec2 wrap2 s t) = (center, radius) -> closer2 center x (radius * search_safety_factor) = true).
      { intros center radius CC. unfold shape2 in PO, HC. rewrite (positions_nth _ _ _ Ep), (positions_nth _ _ _ Eb), (positions_nth _ _ _ Ec) in PO, HC.
        rewrite (positions_nth _ _ _ Ep) in LT. destruct HC as [C1 C2]. cbn [Geometry_Model.t2p1 Geometry_Model.t2p2 Geometry_Model.t2p3] in C1, C2.
        unfold corner_positions in CC. pose proof (orient_rot (remap xp) (remap xb) (remap xc)) as O1.
        pose proof (orient_rot (remap xb) (remap xc) (remap xp)) as O2. unfold orient in O1, O2.
        destruct TU as [E|[E|E]]; rewrite E in CC; cbn [flat_map] in CC; rewrite Ep, Eb, Ec in CC; cbn [app] in CC.
        - apply (circles xp xb xc o x center radius); auto. split; assumption.
        - apply (circles xb xc xp o x center radius); auto; [lra| |lra].
          split; cbn [Geometry_Model.t2p1 Geometry_Model.t2p2 Geometry_Model.t2p3]; lra.
        - apply (circles xc xp xb o x center radius); auto; [lra| |lra].
          split; cbn [Geometry_Model.t2p1 Geometry_Model.t2p2 Geometry_Model.t2p3]; lra. }
      destruct (circumcircle (corner_positions vec2 wrap2 s t)) as [center radius] eqn:CC.
      assert (INN : exists c0, In c0 (points_of t) /\ nth_error (kinds s) c0 = Some Inner).
      { exists p. split; [|exact inner]. destruct TU as [->|[->| ->]]; cbn; auto. }
      destruct (CO i t Ht INN center radius CC q id wr x IM (CLO _ _ eq_refl)) as [K1 K2].
      assert (K : exists v, v < num_points (tri s) /\ same_point (pts v) (remap x)).
      { destruct (is_periodic2 wr) eqn:EW; [|destruct (Nat.eq_dec q r) as [EQ|NE]].
        - destruct K1 as [v [_ Ev]]; [now right|]. exists v. rewrite (positions_nth _ _ _ Ev). split; [|split; reflexivity].
          rewrite <- (rd_points _ _ R). apply nth_error_Some. congruence.
        - destruct (K2 EQ) as [pos [_ [Z1 Z2]]]. apply In_nth_error in Z2. destruct Z2 as [v Ev]. exists v.
          rewrite (positions_nth _ _ _ Ev). split; [|apply remap_same; exact (nowrap_same _ _ _ Z1 EW)].
          rewrite <- (rd_points _ _ R). apply nth_error_Some. congruence.
        - destruct K1 as [v [_ Ev]]; [now left|]. exists v. rewrite (positions_nth _ _ _ Ev). split; [|split; reflexivity].
          rewrite <- (rd_points _ _ R). apply nth_error_Some. congruence. }
      destruct K as [v [Lv Ev]]. pose proof (OWN v Lv) as Y. rewrite (dist_same o _ _ Ev) in Y. lra.
  Qed.

  Theorem star_whole p' : same_point (pts p) (pts' p') -> p' < num_points whole ->
    same_triangles_around (points s) (tri s) p (outer ++ l) whole p'.
  Proof.
    intros EP LP'. destruct (rank_good fuel w w' r s start ended here) as [R _]. pose proof (rd_good _ _ R) as G. destruct whole_good as [GW N].
    assert (LP : p < num_points (tri s)) by (rewrite <- (rd_kinds _ _ R); apply nth_error_Some; congruence).
    assert (BACK : forall v v', v < num_points (tri s) -> v' < num_points whole -> same_point (pts v) (pts' v') ->
      exists x x', nth_error (points s) v = Some x /\ nth_error (outer ++ l) v' = Some x' /\ same_position x x').
    { intros v v' Lv Lv' E.
      destruct (nth_error (points s) v) as [x|] eqn:Ex; [|apply nth_error_None in Ex; rewrite (rd_points _ _ R) in Ex; lia].
      destruct (nth_error (outer ++ l) v') as [x'|] eqn:Ex'; [|apply nth_error_None in Ex'; rewrite app_length in Ex'; lia].
      rewrite (positions_nth _ _ _ Ex), (positions_nth _ _ _ Ex') in E. exists x, x'. split; [reflexivity|]. split; [reflexivity|]. now apply remap_same. }
    pose proof (good_delaunay _ _ G rank_turn) as [TL _].
    assert (TW : delaunay2 pts' whole). { apply good_delaunay; [exact GW|]. rewrite <- !outer_same by lia. exact rank_turn. }
    destruct TW as [TW _].
    assert (FR : forall b c o v', is_triangle (tri s) p b c -> circumscribed2 (shape2 pts p b c) o -> v' < num_points whole ->
       (dist2_2 o (pts p) <= dist2_2 o (pts' v'))%Q) by exact rank_free.
    assert (OS : forall v, v < 3 -> same_point (pts v) (pts' v)) by (intros v Hv; rewrite outer_same by exact Hv; split; reflexivity).
    split.
    - intros b c H. destruct (star_forward pts pts' (tri s) whole G GW rank_sub p p' EP LP' FR b c H) as [b' [c' [K [E1 E2]]]].
      exists b', c'. split; [exact K|]. destruct (tt_corners _ _ TL _ _ _ H) as [_ [? ?]]. destruct (tt_corners _ _ TW _ _ _ K) as [_ [? ?]]. auto.
    - intros b' c' H. destruct (star_backward pts pts' (tri s) whole G GW OS rank_sub p p' LP EP LP' FR b' c' H) as [b [c [K [E1 E2]]]].
      exists b, c. split; [exact K|]. destruct (tt_corners _ _ TL _ _ _ K) as [_ [? ?]]. destruct (tt_corners _ _ TW _ _ _ H) as [_ [? ?]]. auto.
  Qed.
End Two.

(** ** Triangulations that are built from all points at once *)
Lemma built_whole remap outer l pop' whole : length outer = 3 ->
  (0 < orient (positions2 remap outer 0) (positions2 remap outer 1) (positions2 remap outer 2))%Q ->
  built2 (circle2 (positions2 remap (outer ++ l))) (inside2 (positions2 remap (outer ++ l))) pop' (length l) whole ->
  good (positions2 remap (outer ++ l)) whole /\ num_points whole = 3 + length l.
Proof.
  intros three turn built.
  assert (T : (0 < orient (positions2 remap (outer ++ l) 0) (positions2 remap (outer ++ l) 1) (positions2 remap (outer ++ l) 2))%Q).
  { unfold positions2. rewrite !app_nth1 by lia. exact turn. }
  split; [exact (built2_good _ pop' (length l) whole T built)|].
  destruct (built2_inv _ _ pop' (circle2_corners _) (length l) whole built) as [_ [_ [_ N]]]. exact N.
Qed.
Theorem star_built ranks cfg build_fuel search_fuel pop box particles remap circumcircle characteristic_length chunk_size outer pop' l whole fuel w w' r s p p' :
  distributed2 ranks box particles -> max_depth cfg < build_fuel -> length outer = 3 ->
  (0 < area2 (shape2 (positions2 remap outer) 0 1 2))%Q -> (forall p q, same_position p q <-> same_point (remap p) (remap q)) ->
  covers_circles2 remap circumcircle -> all_images2 box particles l ->
  built2 (circle2 (positions2 remap (outer ++ l))) (inside2 (positions2 remap (outer ++ l))) pop' (length l) whole ->
  starts_from2 ranks pop particles remap outer w ->
  run2 ranks cfg build_fuel search_fuel pop box particles remap circumcircle characteristic_length chunk_size fuel w = Some (Done w') ->
  nth_error w' r = Some s -> nth_error (kinds vec2 wrap2 s) p = Some Inner ->
  (exists x x', nth_error (points vec2 wrap2 s) p = Some x /\ nth_error (outer ++ l) p' = Some x' /\ same_position x x') ->
  same_triangles_around (points vec2 wrap2 s) (Halo_Model.tri vec2 wrap2 s) p (outer ++ l) whole p'.
Proof.
  intros D F three turn RS CC AL B ST RU HR IN [x [x' [E1 [E2 E3]]]].
  pose proof (built_whole remap outer l pop' whole three turn B) as WG.
  eapply star_whole; eauto.
  - unfold positions2. rewrite (nth_error_nth _ _ _ E1), (nth_error_nth _ _ _ E2). now apply RS.
  - assert (p' < length (outer ++ l)) as L by (apply nth_error_Some; congruence). rewrite app_length in L. lia.
Qed.

(** ** The box of the simulation *)
Section Box.
  Variable box : extent2.
  Hypothesis proper : proper2 box.
  Lemma box_extent_wide : exists min max, box_extent2 box = (min, max) /\ (Geometry_Model.x2 max - Geometry_Model.x2 min == 3 * (x2 (max2 box) - x2 (min2 box)))%Q /\
    (Geometry_Model.y2 max - Geometry_Model.y2 min == 3 * (y2 (max2 box) - y2 (min2 box)))%Q /\
    (Geometry_Model.x2 min < Geometry_Model.x2 max)%Q /\ (Geometry_Model.y2 min < Geometry_Model.y2 max)%Q.
  Proof.
    destruct proper as [Px Py]. unfold box_extent2, including_periodic_images2. do 2 eexists. split; [reflexivity|]. cbn.
    repeat split; try ring; lra.
  Qed.
  Lemma box_remap_eq : exists min max emin emax, box_extent2 box = (min, max) /\
    triangle_extent2 (Geometry_Model.all_encompassing2 min max) = (emin, emax) /\
    (forall v, box_remap2 box v = remap2 emin emax (to_point2 v)) /\
    (Geometry_Model.x2 emin < Geometry_Model.x2 emax)%Q /\ (Geometry_Model.y2 emin < Geometry_Model.y2 emax)%Q /\
    (Geometry_Model.x2 emax - Geometry_Model.x2 emin == 12 * (x2 (max2 box) - x2 (min2 box)))%Q /\
    (Geometry_Model.y2 emax - Geometry_Model.y2 emin == 12 * (y2 (max2 box) - y2 (min2 box)))%Q.
  Proof.
    destruct box_extent_wide as [min [max [E [A [B [C Dd]]]]]]. destruct (outer_extent min max C Dd) as [emin [emax [E' [A' B']]]].
    exists min, max, emin, emax. split; [exact E|]. split; [exact E'|]. split.
    - intro v. unfold box_remap2. rewrite E, E'. reflexivity.
    - destruct proper as [Px Py]. repeat split; lra.
  Qed.
  Lemma box_positions l v min max : box_extent2 box = (min, max) ->
    positions2 (box_remap2 box) (box_outer2 box ++ l) v = remapped_table2 min max (map to_point2 l) v.
  Proof.
    intro E. unfold positions2, remapped_table2, box_remap2, box_outer2, table2. rewrite E.
    destruct (triangle_extent2 (Geometry_Model.all_encompassing2 min max)) as [emin emax]. f_equal.
    set (t := Geometry_Model.all_encompassing2 min max).
    assert (RT : forall p, to_point2 (of_point2 p) = p) by (intros []; reflexivity).
    destruct v as [|[|[|v]]]; cbn [app nth]; try apply RT.
    change (Geometry_Model.P2 0 0) with (to_point2 (V2 0 0)). symmetry. apply map_nth.
  Qed.
  Lemma box_whole pop l whole : whole2 box pop l = Some whole ->
    good (positions2 (box_remap2 box) (box_outer2 box ++ l)) whole /\ num_points whole = 3 + length l.
  Proof.
    unfold whole2. destruct box_extent_wide as [min [max [E [_ [_ [C Dd]]]]]]. rewrite E. intro H. split.
    - apply (good_ext (remapped_table2 min max (map to_point2 l))); [|exact (construct2_good min max pop _ whole C Dd H)].
      intros v _. symmetry. now apply box_positions.
    - rewrite (construct2_points min max pop _ whole H), map_length. lia.
  Qed.
  Lemma box_turn : (0 < orient (positions2 (box_remap2 box) (box_outer2 box) 0) (positions2 (box_remap2 box) (box_outer2 box) 1)
    (positions2 (box_remap2 box) (box_outer2 box) 2))%Q.
  Proof.
    destruct box_extent_wide as [min [max [E [_ [_ [C Dd]]]]]].
    rewrite <- (app_nil_r (box_outer2 box)), !(box_positions [] _ min max E). apply remapped_pos; auto. now apply outer_pos.
  Qed.
  Lemma box_same p q : same_position p q <-> same_point (box_remap2 box p) (box_remap2 box q).
  Proof.
    destruct box_remap_eq as [min [max [emin [emax [_ [_ [E [A [B _]]]]]]]]]. rewrite !E. unfold same_position, same_point. cbn.
    split; intros [H1 H2].
    - rewrite H1, H2. split; reflexivity.
    - assert (K : forall a b m d, (0 < d -> 1 + (a - m) * (1 / d) == 1 + (b - m) * (1 / d) -> a == b)%Q).
      { intros a b m d Hd HE. assert (X : ((1 + (a - m) * (1 / d) - 1) * d == (1 + (b - m) * (1 / d) - 1) * d)%Q) by (now rewrite HE).
        assert (Y : forall a, ((1 + (a - m) * (1 / d) - 1) * d == a - m)%Q) by (intro; field; lra). rewrite !Y in X. lra. }
      split; [apply (K _ _ (Geometry_Model.x2 emin) (Geometry_Model.x2 emax - Geometry_Model.x2 emin)%Q)|
              apply (K _ _ (Geometry_Model.y2 emin) (Geometry_Model.y2 emax - Geometry_Model.y2 emin)%Q)]; try assumption; lra.
  Qed.
  Lemma box_circles circumcircle : (x2 (max2 box) - x2 (min2 box) == y2 (max2 box) - y2 (min2 box))%Q ->
    covers_circles2 to_point2 circumcircle -> covers_circles2 (box_remap2 box) circumcircle.
  Proof.
    intros SQ H a b c o p center radius t P0 [C1 C2] EC LT. subst t. cbn [Geometry_Model.t2p1 Geometry_Model.t2p2 Geometry_Model.t2p3] in C1, C2.
    destruct box_remap_eq as [min [max [emin [emax [_ [_ [E [A [B [W1 W2]]]]]]]]]]. rewrite !E in *.
    assert (SE : (Geometry_Model.x2 emax - Geometry_Model.x2 emin == Geometry_Model.y2 emax - Geometry_Model.y2 emin)%Q) by lra.
    set (o' := unmap2 emin emax o). set (k := (/ ((Geometry_Model.x2 emax - Geometry_Model.x2 emin) * (Geometry_Model.x2 emax - Geometry_Model.x2 emin)))%Q) in *.
    assert (Kp : (0 < k)%Q) by (apply Qinv_lt_0_compat; apply qmul_pos; lra).
    assert (DI : forall v, (dist2_2 o (remap2 emin emax v) == k * dist2_2 o' v)%Q).
    { intro v. pose proof (remap_dist emin emax o' v A SE) as X. fold k in X. rewrite <- X.
      destruct (remap_inverse emin emax o A B) as [Y1 Y2]. fold o' in Y1, Y2. unfold dist2_2. rewrite Y1, Y2. reflexivity. }
    rewrite !DI in C1, C2, LT. apply (H a b c o' p center radius); auto.
    - apply (stretch_pos (remap2 emin emax) (/ ((Geometry_Model.x2 emax - Geometry_Model.x2 emin) * (Geometry_Model.y2 emax - Geometry_Model.y2 emin)))%Q).
      + apply Qinv_lt_0_compat. apply qmul_pos; lra.
      + intros. now apply remap_orient.
      + exact P0.
    - split; cbn [Geometry_Model.t2p1 Geometry_Model.t2p2 Geometry_Model.t2p3]; apply (Qmult_inj_l _ _ k); lra.
    - now apply (Qmult_lt_l _ _ k).
  Qed.
End Box.

Theorem star_box ranks cfg build_fuel search_fuel pop box particles circumcircle characteristic_length chunk_size pop' l whole fuel w w' r s p p' :
  distributed2 ranks box particles -> max_depth cfg < build_fuel ->
  (x2 (max2 box) - x2 (min2 box) == y2 (max2 box) - y2 (min2 box))%Q ->
  covers_circles2 to_point2 circumcircle -> all_images2 box particles l -> whole2 box pop' l = Some whole ->
  starts_from2 ranks pop particles (box_remap2 box) (box_outer2 box) w ->
  run2 ranks cfg build_fuel search_fuel pop box particles (box_remap2 box) circumcircle characteristic_length chunk_size fuel w = Some (Done w') ->
  nth_error w' r = Some s -> nth_error (kinds vec2 wrap2 s) p = Some Inner ->
  (exists x x', nth_error (points vec2 wrap2 s) p = Some x /\ nth_error (box_outer2 box ++ l) p' = Some x' /\ same_position x x') ->
  same_triangles_around (points vec2 wrap2 s) (Halo_Model.tri vec2 wrap2 s) p (box_outer2 box ++ l) whole p'.
Proof.
  intros D F SQ CC AL B ST RU HR IN [x [x' [E1 [E2 E3]]]]. pose proof (di2_box _ _ _ D) as PB.
  assert (three : length (box_outer2 box) = 3) by (unfold box_outer2; destruct (box_extent2 box); reflexivity).
  pose proof (box_whole box PB pop' l whole B) as WG.
  pose proof (box_circles box PB circumcircle SQ CC) as CC'. clear CC.
  eapply (star_whole ranks cfg build_fuel search_fuel pop box particles (box_remap2 box)); eauto.
  - exact (box_turn box PB).
  - exact (box_same box PB).
  - unfold positions2. rewrite (nth_error_nth _ _ _ E1), (nth_error_nth _ _ _ E2). now apply box_same.
  - assert (p' < length (box_outer2 box ++ l)) as L by (apply nth_error_Some; congruence). rewrite app_length in L. lia.
Qed.

(** The exact center with a radius that is too small by less than the safety factor covers the circle. *)
Lemma exact_covers circumcircle :
  (forall a b c center radius, ~ (area2 (Geometry_Model.T2 (to_point2 a) (to_point2 b) (to_point2 c)) == 0)%Q ->
     circumcircle [a; b; c] = (center, radius) ->
     circumscribed2 (Geometry_Model.T2 (to_point2 a) (to_point2 b) (to_point2 c)) (to_point2 center) /\ (0 < radius)%Q /\
     (dist2_2 (to_point2 center) (to_point2 a) <= (radius * search_safety_factor) * (radius * search_safety_factor))%Q) ->
  covers_circles2 to_point2 circumcircle.
Proof.
  intros H a b c o p center radius t P0 C EC LT. subst t. set (t := Geometry_Model.T2 _ _ _) in *.
  assert (NZ : ~ (area2 t == 0)%Q) by lra. destruct (H a b c center radius NZ EC) as [C' [RP LE]].
  destruct (circumcenter2_unique t o NZ C) as [U1 U2]. destruct (circumcenter2_unique t _ NZ C') as [V1 V2].
  unfold closer2. apply andb_true_iff. split; apply Box_Proofs.Qltb_true.
  - unfold search_safety_factor. lra.
  - unfold length_sq2, dist2_2 in *. cbn [x2 y2 to_point2 Geometry_Model.x2 Geometry_Model.y2] in *.
    rewrite <- V1 in U1. rewrite <- V2 in U2. rewrite U1, U2 in LT. lra.
Qed.

(** ** Two ranks *)
Lemma same_position_sym p q : same_position p q -> same_position q p.
Proof. intros [A B]. split; symmetry; assumption. Qed.
Lemma same_position_trans p q r : same_position p q -> same_position q r -> same_position p r.
Proof. intros [A B] [C D]. split; etransitivity; eassumption. Qed.
Lemma is_triangle_rot s a b c : is_triangle s a b c -> is_triangle s b c a.
Proof. intros [i [t [H T]]]. exists i, t. split; [exact H|]. unfold turned in *. tauto. Qed.

Theorem ranks_agree ranks cfg build_fuel search_fuel pop box particles circumcircle characteristic_length chunk_size pop' l whole fuel w w'
    r1 s1 r2 s2 p1 q1 c1 p2 :
  distributed2 ranks box particles -> max_depth cfg < build_fuel ->
  (x2 (max2 box) - x2 (min2 box) == y2 (max2 box) - y2 (min2 box))%Q ->
  covers_circles2 to_point2 circumcircle -> all_images2 box particles l -> whole2 box pop' l = Some whole ->
  starts_from2 ranks pop particles (box_remap2 box) (box_outer2 box) w ->
  run2 ranks cfg build_fuel search_fuel pop box particles (box_remap2 box) circumcircle characteristic_length chunk_size fuel w = Some (Done w') ->
  nth_error w' r1 = Some s1 -> nth_error w' r2 = Some s2 ->
  nth_error (kinds vec2 wrap2 s1) p1 = Some Inner -> nth_error (kinds vec2 wrap2 s2) p2 = Some Inner ->
  let same v u := exists x x', nth_error (points vec2 wrap2 s1) v = Some x /\ nth_error (points vec2 wrap2 s2) u = Some x' /\ same_position x x' in
  is_triangle (Halo_Model.tri vec2 wrap2 s1) p1 q1 c1 -> same q1 p2 ->
  exists c2 q2, is_triangle (Halo_Model.tri vec2 wrap2 s2) p2 c2 q2 /\ same c1 c2 /\ same p1 q2.
Proof.
  intros D F SQ CC AL B ST RU H1 H2 I1 I2 same T [x [x' [X1 [X2 X3]]]]. subst same. cbv beta.
  pose proof (di2_box _ _ _ D) as PB.
  (* the image of the first particle *)
  assert (K : exists y p', nth_error (points vec2 wrap2 s1) p1 = Some y /\ exists y', nth_error (box_outer2 box ++ l) p' = Some y' /\ same_position y y').
  { assert (three : length (box_outer2 box) = 3) by (unfold box_outer2; destruct (box_extent2 box); reflexivity).
    destruct (rank_good ranks cfg build_fuel search_fuel pop box particles (box_remap2 box) circumcircle characteristic_length chunk_size
      (box_outer2 box) D F three (box_turn box PB) fuel w w' r1 s1 ST RU H1) as [R _].
    destruct (rd_inner _ _ _ _ _ R p1 I1) as [id [pos [Y1 Y2]]].
    destruct (unwrapped box particles id pos r1 Y2) as [y' [Z1 Z2]].
    assert (IY : In y' l) by (apply AL; eauto). apply In_nth_error in IY. destruct IY as [k Hk].
    exists pos, (3 + k). split; [exact Y1|]. exists y'. split; [|exact Z2].
    rewrite nth_error_app2 by lia. rewrite <- Hk. f_equal. lia. }
  destruct K as [y [p' [Y1 [y' [Y2 Y3]]]]].
  assert (S1 : exists x x', nth_error (points vec2 wrap2 s1) p1 = Some x /\ nth_error (box_outer2 box ++ l) p' = Some x' /\ same_position x x') by eauto.
  destruct (star_box ranks cfg build_fuel search_fuel pop box particles circumcircle characteristic_length chunk_size pop' l whole fuel w w' r1 s1 p1 p'
    D F SQ CC AL B ST RU H1 I1 S1) as [FW _].
  destruct (FW q1 c1 T) as [q' [c' [T' [[u [u' [U1 [U2 U3]]]] [v [v' [V1 [V2 V3]]]]]]]].
  assert (S2 : exists x x', nth_error (points vec2 wrap2 s2) p2 = Some x /\ nth_error (box_outer2 box ++ l) q' = Some x' /\ same_position x x').
  { exists x', u'. split; [exact X2|]. split; [exact U2|]. rewrite X1 in U1. injection U1 as <-.
    eapply same_position_trans; [apply same_position_sym; exact X3|exact U3]. }
  destruct (star_box ranks cfg build_fuel search_fuel pop box particles circumcircle characteristic_length chunk_size pop' l whole fuel w w' r2 s2 p2 q'
    D F SQ CC AL B ST RU H2 I2 S2) as [_ BW].
  destruct (BW c' p' (is_triangle_rot _ _ _ _ T')) as [c2 [q2 [T2 [[a [a' [A1 [A2 A3]]]] [b [b' [B1 [B2 B3]]]]]]]].
  exists c2, q2. split; [exact T2|]. split.
  - exists v, a. split; [exact V1|]. split; [exact A1|]. rewrite V2 in A2. injection A2 as <-.
    eapply same_position_trans; [exact V3|]. now apply same_position_sym.
  - exists y, b. split; [exact Y1|]. split; [exact B1|]. rewrite Y2 in B2. injection B2 as <-.
    eapply same_position_trans; [exact Y3|]. now apply same_position_sym.
Qed.
Lemma all_images_list ranks box particles : distributed2 ranks box particles ->
  forall l, (forall p, In p l <-> In p (flat_map (fun r => flat_map (fun x => map snd (images2 box (snd x))) (particles r)) (seq 0 ranks))) ->
  all_images2 box particles l.
Proof.
  intros D l P p. split.
  - intro H. apply P in H. apply in_flat_map in H. destruct H as [r [_ H]]. apply in_flat_map in H. destruct H as [[id pos] [H1 H2]].
    apply in_map_iff in H2. destruct H2 as [[wr q] [E H2]]. cbn in E. subst q. exists r, id, wr, pos. auto.
  - intros [r [id [wr [pos [H1 H2]]]]]. apply P. apply in_flat_map. exists r. split.
    + apply in_seq. assert (particles r <> []) as N by (intro E; rewrite E in H1; destruct H1). apply (di2_ranks _ _ _ D) in N. lia.
    + apply in_flat_map. exists (id, pos). split; [exact H1|]. apply in_map_iff. exists (wr, p). auto.
Qed.
