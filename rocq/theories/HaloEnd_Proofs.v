(** The halo iteration ends: a round either imports a halo, of which there are finitely many, or brings the
    search radii closer to the radii of the circumspheres. *)
From Coq Require Import List Arith ZArith QArith Qround Lia Lqa Permutation.
From Verif Require Geometry_Model.
From Verif Require Import Box_Model Box_Spec Tree_Model Tree_Spec Tree_Proofs TreeFuel_Proofs Box_Proofs Delaunay_Model DelaunayInsert_Proofs Delaunay2Insert_Proofs Delaunay3Insert_Proofs
  Halo_Model Halo_Spec Halo_Proofs HaloGeo_Model HaloGeo_Spec HaloGeo_Proofs HaloFinal_Proofs.
Import ListNotations.
Local Open Scope nat_scope.

(** ** Sums over lists *)
Definition total {A} (f : A -> nat) (l : list A) : nat := fold_right (fun a n => f a + n) 0 l.
Lemma total_app {A} (f : A -> nat) l1 l2 : total f (l1 ++ l2) = total f l1 + total f l2.
Proof. induction l1 as [|a l IH]; cbn; [reflexivity|]. unfold total in *. lia. Qed.
Lemma total_bound {A} (f : A -> nat) k l : (forall a, In a l -> f a <= k) -> total f l <= length l * k.
Proof.
  induction l as [|a l IH]; cbn; intro H; [lia|]. pose proof (H a (or_introl eq_refl)).
  specialize (IH (fun b Hb => H b (or_intror Hb))). unfold total in *. lia.
Qed.
Lemma total_le {A} (f : A -> nat) : forall l l', length l = length l' ->
  (forall i a b, nth_error l i = Some a -> nth_error l' i = Some b -> f a <= f b) -> total f l <= total f l'.
Proof.
  induction l as [|a l IH]; intros [|b l'] L H; try discriminate L; cbn; [lia|].
  pose proof (H 0 a b eq_refl eq_refl). injection L as L.
  specialize (IH l' L (fun i x y => H (S i) x y)). unfold total in *. lia.
Qed.
Lemma total_lt {A} (f : A -> nat) : forall l l', length l = length l' ->
  (forall i a b, nth_error l i = Some a -> nth_error l' i = Some b -> f a <= f b) ->
  (exists i a b, nth_error l i = Some a /\ nth_error l' i = Some b /\ f a < f b) -> total f l < total f l'.
Proof.
  induction l as [|a l IH]; intros [|b l'] L H [i [x [y [H1 [H2 H3]]]]]; try discriminate L; [destruct i; discriminate|].
  cbn. injection L as L. pose proof (H 0 a b eq_refl eq_refl) as H0. destruct i as [|i]; cbn in H1, H2.
  - injection H1 as <-. injection H2 as <-.
    pose proof (total_le f l l' L (fun i x y => H (S i) x y)). unfold total in *. lia.
  - specialize (IH l' L (fun i x y => H (S i) x y) (ex_intro _ i (ex_intro _ x (ex_intro _ y (conj H1 (conj H2 H3)))))).
    unfold total in *. lia.
Qed.

Lemma ceiling_drop m x y d : (0 < d)%Q -> (y < m)%Q -> (x + d <= y)%Q ->
  Z.to_nat (Qceiling ((m - y) / d)) < Z.to_nat (Qceiling ((m - x) / d)).
Proof.
  intros D Y X.
  assert (N : ~ d == 0) by (intro E; rewrite E in D; exact (Qlt_irrefl 0 D)).
  assert (A : ((m - y) / d + 1 <= (m - x) / d)%Q).
  { setoid_replace ((m - y) / d + 1)%Q with ((m - y + d) / d)%Q by (field; exact N).
    unfold Qdiv. apply Qmult_le_compat_r; [lra|]. apply Qlt_le_weak, Qinv_lt_0_compat, D. }
  assert (B : (0 < (m - y) / d)%Q).
  { unfold Qdiv. apply Qmult_lt_0_compat; [lra|]. now apply Qinv_lt_0_compat. }
  assert (C : (Qceiling ((m - y) / d) < Qceiling ((m - x) / d))%Z).
  { pose proof (Qceiling_lt ((m - y) / d)) as C1. pose proof (Qle_ceiling ((m - x) / d)) as C2.
    unfold Z.sub in C1. rewrite inject_Z_plus in C1. change (inject_Z (- (1))) with (- (1))%Q in C1. rewrite Zlt_Qlt. lra. }
  assert (P : (0 < Qceiling ((m - y) / d))%Z).
  { pose proof (Qle_ceiling ((m - y) / d)) as Q. rewrite Zlt_Qlt. change (inject_Z 0) with 0%Q. lra. }
  lia.
Qed.

Section End.
  Variables P W : Type.
  Variable wrap_eqb : W -> W -> bool.
  Hypothesis wrap_eqb_spec : forall a b, wrap_eqb a b = true <-> a = b.
  Variable is_periodic : W -> bool.
  Hypothesis one_unwrapped : forall a b, is_periodic a = false -> is_periodic b = false -> a = b.
  Variable images : P -> list (W * P).
  Variable closer : P -> P -> Q -> bool.
  Variable search_tree : nat -> P -> Q -> option (list (nat * P)).
  Variable owns_part : nat -> P -> Q -> bool.
  Variable circumcircle : list P -> P * Q.
  Variable insert : list P -> triangulation -> option (nat * list nat * triangulation).
  Variable characteristic_length : Q.
  Variable chunk_size : nat.
  Variable particles : nat -> list (nat * P).
  Hypothesis exact_search : tree_search_exact P W images closer search_tree particles.
  Hypothesis extents : extents_sound P W images closer owns_part particles.
  Hypothesis closer_mono : forall c p a b, (a <= b)%Q -> closer c p a = true -> closer c p b = true.
  Variable good : triangulation -> Prop.
  Hypothesis good_ids : forall s, good s -> NoDup (map fst (tetras s)).
  Hypothesis good_lt : forall s i t, good s -> In (i, t) (tetras s) -> i < next_tetra s.
  Hypothesis good_corner : forall s i t p, good s -> In (i, t) (tetras s) -> In p (points_of t) -> p < num_points s.
  Hypothesis insert_good : forall pos s p new s', good s -> insert pos s = Some (p, new, s') ->
    good s' /\ p = num_points s /\ num_points s' = S (num_points s) /\ next_tetra s <= next_tetra s' /\
    (forall i t, In (i, t) (tetras s') -> In p (points_of t) -> In i new) /\
    (forall i t, In (i, t) (tetras s') -> ~ In p (points_of t) -> exists t0, In (i, t0) (tetras s) /\ points_of t0 = points_of t) /\
    (forall i t, In (i, t) (tetras s') -> i < next_tetra s -> exists t0, In (i, t0) (tetras s) /\ points_of t0 = points_of t).
  Hypothesis length_positive : (0 < characteristic_length)%Q.
  Hypothesis chunk_positive : 0 < chunk_size.

  Notation rank_state := (rank_state P W).
  Notation tri := (tri P W). Notation points := (points P W). Notation haloes := (haloes P W).
  Notation undecided := (undecided P W). Notation s_radius := (s_radius P).
  Notation result := (result P W).
  Notation get_radius_search_data := (get_radius_search_data P W circumcircle characteristic_length chunk_size).
  Notation search_entry := (search_entry P W circumcircle characteristic_length).
  Notation deliveries := (deliveries P W wrap_eqb is_periodic images closer search_tree owns_part circumcircle characteristic_length chunk_size).
  Notation round := (round P W wrap_eqb is_periodic images closer search_tree owns_part circumcircle insert characteristic_length chunk_size).
  Notation run := (run P W wrap_eqb is_periodic images closer search_tree owns_part circumcircle insert characteristic_length chunk_size).
  Notation import_halo := (import_halo P W wrap_eqb is_periodic insert).
  Notation world_ok := (world_ok P W is_periodic images closer circumcircle particles good).
  Notation incoming := (incoming P W).

  (** How many searches an undecided tetra can still need. *)
  Definition step : Q := ((6 # 10) * characteristic_length)%Q.
  Lemma step_positive : (0 < step)%Q.
  Proof. unfold step. apply Qmult_lt_0_compat; [reflexivity|exact length_positive]. Qed.
  Definition cost (s : rank_state) (e : nat * option Q) : nat :=
    match arena_get (tetras (tri s)) (fst e) with
    | None => 1
    | Some t => S (Z.to_nat (Qceiling ((snd (circumcircle (corner_positions P W s t)) * search_safety_factor
                                         - match snd e with Some x => x | None => 0 end) / step)))
    end.
  Definition work (s : rank_state) : nat := total (cost s) (undecided s).
  Definition radii_ok (s : rank_state) : Prop := forall i x, In (i, Some x) (undecided s) -> (characteristic_length <= x)%Q.

  Lemma entry_cost s e d e' b : search_entry s e = Done (d, (e', b)) ->
    (forall x, snd e = Some x -> (characteristic_length <= x)%Q) -> b = false ->
    cost s e' < cost s e /\ forall x, snd e' = Some x -> (characteristic_length <= x)%Q.
  Proof.
    unfold Halo_Model.search_entry. intros H R B.
    destruct (arena_get (tetras (tri s)) (fst e)) as [t|] eqn:Et; [|discriminate].
    destruct (new_search P W circumcircle characteristic_length s t (snd e)) as [d0|] eqn:En; cbn [andthen] in H; [|discriminate].
    injection H as -> <- HB. rewrite B in HB. clear B b. unfold cost. cbn [fst snd]. rewrite Et.
    unfold large_enough in HB. unfold new_search in En.
    destruct (circumcircle (corner_positions P W s t)) as [center r]. cbn [snd] in *. cbv zeta in En.
    set (m := (r * search_safety_factor)%Q) in *.
    assert (L : (s_radius d < m)%Q).
    { apply Qnot_le_lt. intro X. apply Qle_bool_iff in X. congruence. }
    assert (K : s_radius d = match snd e with
                  | Some x => Qminb (x * search_radius_increase_factor) m
                  | None => Qminb m characteristic_length end).
    { destruct (Qle_bool m _); [injection En as <-; reflexivity|].
      destruct (find _ _) as [p|]; [|discriminate]. destruct (nth_error _ p); [|discriminate]. injection En as <-. reflexivity. }
    assert (Lc := length_positive). assert (Sp := step_positive).
    destruct (snd e) as [x|] eqn:Ee; unfold Qminb in K.
    - specialize (R x eq_refl).
      destruct (Qle_bool (x * search_radius_increase_factor) m); [|rewrite K in L; exfalso; exact (Qlt_irrefl _ L)].
      rewrite K in *. unfold search_radius_increase_factor in *. split.
      + apply -> Nat.succ_lt_mono. apply ceiling_drop; [exact Sp|exact L|]. unfold step. lra.
      + intros y Hy. injection Hy as <-. lra.
    - destruct (Qle_bool m characteristic_length); [rewrite K in L; exfalso; exact (Qlt_irrefl _ L)|].
      rewrite K in *. split.
      + apply -> Nat.succ_lt_mono. apply ceiling_drop; [exact Sp|exact L|]. unfold step. lra.
      + intros y Hy. injection Hy as <-. lra.
  Qed.

  Lemma filtered_cost s l : forall r, map_outcome (search_entry s) l = Done r ->
    (forall e x, In e l -> snd e = Some x -> (characteristic_length <= x)%Q) ->
    let u := map fst (filter (fun x => negb (snd x)) (map snd r)) in
    total (cost s) u + length l <= total (cost s) l /\
    forall e x, In e u -> snd e = Some x -> (characteristic_length <= x)%Q.
  Proof.
    induction l as [|e l IH]; intros r H R; cbn [map_outcome] in H.
    - injection H as <-. cbn. split; [lia|contradiction].
    - destruct (search_entry s e) as [[d [e' b]]|] eqn:Ee; cbn [andthen] in H; [|discriminate].
      destruct (map_outcome (search_entry s) l) as [r0|]; cbn [andthen] in H; [|discriminate]. injection H as <-.
      destruct (IH r0 eq_refl (fun e0 x He => R e0 x (or_intror He))) as [A B].
      assert (C : 1 <= cost s e) by (unfold cost; destruct (arena_get _ _); lia).
      cbn [map filter snd fst]. destruct b; cbn [negb map filter fst snd].
      + cbn in A |- *. unfold total in *. split; [lia|exact B].
      + destruct (entry_cost s e d e' false Ee (fun x => R e x (or_introl eq_refl)) eq_refl) as [D F].
        cbn in A |- *. unfold total in *. split; [lia|]. intros e0 x [<-|H0]; [apply F|now apply B].
  Qed.
  Lemma dead_cost s (l : list (nat * option Q)) :
    total (cost s) (filter (fun e => arena_contains (tetras (tri s)) (fst e)) l) + length l
    <= total (cost s) l + length (filter (fun e => arena_contains (tetras (tri s)) (fst e)) l).
  Proof.
    induction l as [|e l IH]; cbn [filter]; [cbn; lia|].
    assert (C : 1 <= cost s e) by (unfold cost; destruct (arena_get _ _); lia).
    destruct (arena_contains _ _); cbn in IH |- *; unfold total in *; lia.
  Qed.

  (** The searches of a rank that has something left to decide bring it closer to the end. *)
  Lemma search_work s l s' : get_radius_search_data s = Done (l, s') -> radii_ok s ->
    radii_ok s' /\ work s' <= work s /\ (undecided s <> [] -> work s' < work s) /\
    tri s' = tri s /\ points s' = points s /\ haloes s' = haloes s.
  Proof.
    unfold Halo_Model.get_radius_search_data. intros H R.
    set (n := Nat.min chunk_size (length (undecided s))) in *.
    set (live := filter (fun e => arena_contains (tetras (tri s)) (fst e)) (firstn n (undecided s))) in *.
    destruct (map_outcome (search_entry s) live) as [r|] eqn:E; cbn [andthen] in H; [|discriminate]. injection H as _ <-.
    assert (IN : forall e, In e (undecided s) <-> In e (firstn n (undecided s)) \/ In e (skipn n (undecided s))).
    { intro e. rewrite <- in_app_iff, firstn_skipn. tauto. }
    destruct (filtered_cost s live r E) as [A B].
    { intros [i o] x He Ho. cbn in Ho. subst o. apply filter_In in He. apply (R i x). apply IN. tauto. }
    cbv zeta in A, B. set (u := map fst (filter (fun x => negb (snd x)) (map snd r))) in *.
    pose proof (dead_cost s (firstn n (undecided s))) as D. fold live in D.
    assert (T : work s = total (cost s) (firstn n (undecided s)) + total (cost s) (skipn n (undecided s))).
    { unfold work. now rewrite <- total_app, firstn_skipn. }
    assert (T' : work (set_undecided P W s (skipn n (undecided s) ++ u)) = total (cost s) (skipn n (undecided s)) + total (cost s) u).
    { unfold work. cbn [Halo_Model.undecided set_undecided]. now rewrite total_app. }
    assert (LN : length (firstn n (undecided s)) = n) by (rewrite firstn_length; unfold n; lia).
    split; [|split; [|split; [|now repeat split]]].
    - intros i x Hx. cbn [Halo_Model.undecided set_undecided] in Hx. apply in_app_or in Hx. destruct Hx as [Hx|Hx].
      + apply (R i x). apply IN. now right.
      + exact (B (i, Some x) x Hx eq_refl).
    - rewrite T, T'. lia.
    - intro NE. rewrite T, T'. assert (0 < n); [|lia]. unfold n.
      destruct (undecided s); [congruence|]. cbn [length]. lia.
  Qed.

  (** What the exchange leaves of the state of a rank. *)
  Lemma deliveries_shape w ds : deliveries w = Done ds -> forall r s, nth_error w r = Some s ->
    exists s1 recv l s', nth_error ds r = Some (s1, recv) /\ get_radius_search_data s = Done (l, s') /\
      undecided s1 = undecided s' /\ tri s1 = tri s' /\ points s1 = points s' /\ haloes s1 = haloes s'.
  Proof.
    unfold Halo_Model.deliveries. intros H r s Hr.
    destruct (map_outcome get_radius_search_data w) as [searched|] eqn:E1; cbn [andthen] in H; [|discriminate].
    destruct (map_outcome _ (combine (seq 0 (length searched)) searched)) as [answered|] eqn:E2; cbn [andthen] in H; [|discriminate].
    injection H as <-.
    destruct (map_outcome_nth _ _ _ E1) as [L1 X1]. destruct (map_outcome_nth _ _ _ E2) as [L2 X2].
    destruct (X1 r s Hr) as [[l s'] [Hs Es]].
    destruct (X2 r (r, (l, s'))) as [b [Hb Eb]]; [now rewrite combine_seq_nth, Hs|]. cbn [fst snd] in Eb.
    match type of Eb with andthen ?a _ = _ => destruct a as [[own c1]|]; cbn [andthen] in Eb; [|discriminate] end.
    match type of Eb with andthen ?a _ = _ => destruct a as [[out c2]|]; cbn [andthen] in Eb; [|discriminate] end.
    injection Eb as <-.
    eexists _, _, l, s'. split; [rewrite nth_error_map', combine_seq_nth, Hb; reflexivity|]. split; [exact Es|]. now repeat split.
  Qed.
  Lemma work_same s s' : undecided s = undecided s' -> tri s = tri s' -> points s = points s' -> work s = work s'.
  Proof.
    intros H1 H2 H3. unfold work. rewrite H1. unfold cost, corner_positions. rewrite H2, H3. reflexivity.
  Qed.
  Lemma import_radii r l : forall s s', fold_outcome (import_halo r) l s = Done s' -> radii_ok s -> radii_ok s'.
  Proof.
    induction l as [|[q x] l IH]; intros s s' H R; cbn [fold_outcome] in H; [now injection H as <-|].
    destruct (import_halo r s (q, x)) as [s1|] eqn:E; cbn [andthen] in H; [|discriminate].
    apply (IH s1 s' H). unfold Halo_Model.import_halo in E.
    destruct (existsb _ (haloes s)); [discriminate|]. destruct (insert _ _) as [[[p new] t1]|]; [|discriminate].
    injection E as <-. intros i y Hy. cbn [Halo_Model.undecided] in Hy. apply in_app_or in Hy. destruct Hy as [Hy|Hy]; [now apply (R i y)|].
    apply in_map_iff in Hy. destruct Hy as [j [Ej _]]. discriminate.
  Qed.

  Definition all_radii (w : list rank_state) : Prop := forall r s, nth_error w r = Some s -> radii_ok s.
  Definition halo_count (w : list rank_state) : nat := total (fun s => length (haloes s)) w.

  Lemma nth_same {A B} (l : list A) (l' : list B) i a : length l' = length l -> nth_error l' i = Some a -> exists b, nth_error l i = Some b.
  Proof.
    intros L H. assert (K : i < length l) by (rewrite <- L; apply nth_error_Some; congruence).
    apply nth_error_Some in K. destruct (nth_error l i); [eauto|congruence].
  Qed.
  Lemma unfinished w : everyone_finished P W w = false -> exists r s, nth_error w r = Some s /\ undecided s <> [].
  Proof.
    unfold everyone_finished. intro H. apply Nat.eqb_neq in H. induction w as [|s w IH]; cbn in H; [lia|].
    destruct (undecided s) as [|e u] eqn:E.
    - destruct (IH H) as [r [s' [A B]]]. now exists (S r), s'.
    - exists 0, s. split; [reflexivity|]. rewrite E. discriminate.
  Qed.

  (** One round. *)
  Lemma round_progress w w' : world_ok w -> all_radii w -> round w = Done w' -> everyone_finished P W w = false ->
    world_ok w' /\ all_radii w' /\ length w' = length w /\
    (halo_count w < halo_count w' \/ halo_count w' = halo_count w /\ total work w' < total work w).
  Proof.
    intros WO RA H NF.
    destruct (round_ok P W wrap_eqb wrap_eqb_spec is_periodic one_unwrapped images closer search_tree owns_part circumcircle insert
      characteristic_length chunk_size particles exact_search extents closer_mono good good_ids good_lt good_corner insert_good w w' WO H) as [WO' LW].
    unfold Halo_Model.round in H. destruct (deliveries w) as [ds|] eqn:E; cbn [andthen] in H; [|discriminate].
    destruct (map_outcome_nth _ _ _ H) as [L X].
    assert (R : forall r s, nth_error w r = Some s -> exists s', nth_error w' r = Some s' /\ radii_ok s' /\
      (length (haloes s) < length (haloes s') \/
       length (haloes s') = length (haloes s) /\ work s' <= work s /\ (undecided s <> [] -> work s' < work s))).
    { intros r s Hr. destruct (deliveries_shape w ds E r s Hr) as [s1 [recv [l [s0 [E1 [E2 [U1 [U2 [U3 U4]]]]]]]]].
      destruct (search_work s l s0 E2 (RA r s Hr)) as [A1 [A2 [A3 [A4 [A5 A6]]]]].
      destruct (X r (r, (s1, recv))) as [s' [Hs' Fs']]; [now rewrite combine_seq_nth, E1|]. cbn [fst snd] in Fs'.
      destruct (received_ok P W wrap_eqb wrap_eqb_spec is_periodic one_unwrapped images closer search_tree owns_part circumcircle
        characteristic_length chunk_size particles exact_search extents good good_ids w ds r s1 recv WO E E1) as [O [F [N DJ]]].
      rewrite import_incoming in Fs'.
      pose proof (proj2 (import_list P W wrap_eqb wrap_eqb_spec is_periodic images insert particles good good_ids good_lt good_corner insert_good
        r (incoming recv) s1 O F N DJ) s' Fs') as G.
      exists s'. split; [exact Hs'|]. split.
      { apply (import_radii r (incoming recv) s1 s' Fs'). intros i x Hx. rewrite U1 in Hx. exact (A1 i x Hx). }
      pose proof (f_equal (@length _) (gr_haloes _ _ _ _ _ _ _ _ _ _ G)) as LG.
      rewrite app_length, !map_length, U4, A6 in LG.
      destruct (incoming recv) as [|y inc]; [right|left; cbn in LG; lia].
      cbn [fold_outcome] in Fs'. injection Fs' as <-. cbn in LG. split; [lia|].
      rewrite (work_same s1 s0 U1 U2 U3). now split. }
    split; [exact WO'|]. split.
    { intros r s' Hr. destruct (nth_same w w' r s' LW Hr) as [s Hs]. destruct (R r s Hs) as [s2 [B1 [B2 _]]]. rewrite Hr in B1. now injection B1 as <-. }
    split; [exact LW|].
    assert (HL : forall i a b, nth_error w i = Some a -> nth_error w' i = Some b -> length (haloes a) <= length (haloes b)).
    { intros i a b Ha Hb. destruct (R i a Ha) as [b' [B1 [_ B2]]]. rewrite Hb in B1. injection B1 as <-. lia. }
    destruct (Nat.eq_dec (halo_count w') (halo_count w)) as [Q|Q].
    2: { left. pose proof (total_le (fun s => length (haloes s)) w w' (eq_sym LW) HL). unfold halo_count in *. lia. }
    right. split; [exact Q|].
    assert (HE : forall i a b, nth_error w i = Some a -> nth_error w' i = Some b -> work b <= work a /\ (undecided a <> [] -> work b < work a)).
    { intros i a b Ha Hb. destruct (R i a Ha) as [b' [B1 [_ B2]]]. rewrite Hb in B1. injection B1 as <-.
      destruct B2 as [B2|[_ B2]]; [|exact B2]. exfalso.
      assert (halo_count w < halo_count w'); [|lia].
      apply total_lt; [now rewrite LW|exact HL|]. now exists i, a, b. }
    apply total_lt; [exact LW| |].
    - intros i b a Hb Ha. exact (proj1 (HE i a b Ha Hb)).
    - destruct (unfinished w NF) as [r [s [Hr NE]]]. destruct (R r s Hr) as [s' [B1 _]].
      exists r, s', s. split; [exact B1|]. split; [exact Hr|]. exact (proj2 (HE r s s' Hr B1) NE).
  Qed.

  (** There are finitely many haloes. *)
  Definition all_keys (n r : nat) : list (particle_type W) :=
    flat_map (fun q => flat_map (fun x : nat * P => map (fun wp => halo_key W is_periodic r q (fst x) (fst wp)) (images (snd x)))
      (particles q)) (seq 0 n).
  Definition num_images (n : nat) : nat := length (all_keys n 0).
  Lemma all_keys_length n r : length (all_keys n r) = num_images n.
  Proof.
    unfold num_images, all_keys. generalize (seq 0 n) as l. induction l as [|q l IH]; [reflexivity|].
    cbn [flat_map]. rewrite !app_length, IH. f_equal. induction (particles q) as [|x xs IHx]; [reflexivity|].
    cbn [flat_map]. now rewrite !app_length, !map_length, IHx.
  Qed.
  Lemma halo_bound w : world_ok w -> halo_count w <= length w * num_images (length w).
  Proof.
    intro WO. apply total_bound. intros s Hs. apply In_nth_error in Hs. destruct Hs as [r Hr].
    rewrite <- (all_keys_length (length w) r), <- (map_length fst (haloes s)).
    apply NoDup_incl_length; [exact (wo_nodup _ _ _ _ _ _ _ _ w WO r s Hr)|].
    intros k Hk. apply in_map_iff in Hk. destruct Hk as [[k' i] [Ek Hk]]. cbn in Ek. subst k'.
    destruct (wo_rank _ _ _ _ _ _ _ _ w WO r s Hr) as [RO _].
    destruct (ro_haloes _ _ _ _ _ _ r s RO k i Hk) as [q [x [wr [p [-> [_ [IM _]]]]]]].
    pose proof (wo_owner _ _ _ _ _ _ _ _ w WO q x wr p IM) as Lq. destruct IM as [pos [M1 M2]].
    apply in_flat_map. exists q. split; [apply in_seq; lia|]. apply in_flat_map. exists (x, pos). split; [exact M1|].
    apply in_map_iff. now exists (wr, p).
  Qed.

  Theorem run_ends_ok w : world_ok w -> all_radii w -> exists fuel, run fuel w <> None.
  Proof.
    remember (length w) as n eqn:Hn.
    remember (n * num_images n - halo_count w) as h eqn:Hh. revert w Hn Hh.
    induction h as [h IHh] using (well_founded_induction lt_wf). intros w.
    remember (total work w) as m eqn:Hm. revert w Hm.
    induction m as [m IHm] using (well_founded_induction lt_wf). intros w Hm Hn Hh WO RA.
    destruct (everyone_finished P W w) eqn:NF.
    { exists 0. cbn [Halo_Model.run]. rewrite NF. discriminate. }
    destruct (round w) as [w'|why] eqn:E.
    2: { exists 1. cbn [Halo_Model.run]. rewrite NF, E. discriminate. }
    destruct (round_progress w w' WO RA E NF) as [WO' [RA' [LW PR]]].
    assert (X : exists fuel, run fuel w' <> None).
    { pose proof (halo_bound w' WO') as B. rewrite LW, <- Hn in B.
      destruct PR as [PR|[P1 P2]].
      - apply (IHh (n * num_images n - halo_count w')); [lia|congruence|reflexivity|exact WO'|exact RA'].
      - apply (IHm (total work w')); [lia|reflexivity|congruence|congruence|exact WO'|exact RA']. }
    destruct X as [fuel X]. exists (S fuel). cbn [Halo_Model.run]. rewrite NF, E. exact X.
  Qed.
  Lemma started_radii w : started P W insert particles good w -> all_radii w.
  Proof.
    intros [_ ST] r s Hr. destruct (ST r s Hr) as [start [outer [local [_ [_ [_ E]]]]]]. unfold initial in E.
    match type of E with andthen ?e _ = _ => destruct e as [s0|]; cbn [andthen] in E; [|discriminate] end.
    injection E as <-. intros i x Hx. cbn [Halo_Model.undecided set_undecided] in Hx. apply in_map_iff in Hx.
    destruct Hx as [j [Ej _]]. discriminate.
  Qed.
  (** A search that always ends. *)
  Lemma from_search_ends self rank d c : (forall r p a, search_tree r p a <> None) ->
    get_haloes_from_search P W wrap_eqb images closer search_tree self rank d c <> Panic SearchFailed.
  Proof.
    intros T H. unfold Halo_Model.get_haloes_from_search in H.
    destruct (search_tree self (Halo_Model.s_point P d) (Halo_Model.s_radius P d)) as [l|] eqn:E; [|exact (T _ _ _ E)].
    destruct (map_outcome _ l) as [rs|w0] eqn:M; cbn [andthen] in H; [discriminate|]. injection H as ->.
    apply map_outcome_panic in M. destruct M as [x [Hx Fx]].
    destruct (find_wrapped_point _ _ _ _ d (snd x)) as [[w p]|w1] eqn:F; cbn [andthen] in Fx; [discriminate|]. injection Fx as ->.
    unfold Halo_Model.find_wrapped_point in F. destruct (filter _ _) as [|a [|b l0]]; discriminate.
  Qed.
  Lemma from_searches_end self rank l c : (forall r p a, search_tree r p a <> None) ->
    get_haloes_from_searches P W wrap_eqb images closer search_tree self rank l c <> Panic SearchFailed.
  Proof.
    intros T H. unfold Halo_Model.get_haloes_from_searches in H. destruct (map_state _ l c) as [[rs c1]|w0] eqn:E; cbn [andthen] in H; [discriminate|].
    injection H as ->. apply map_state_panic in E. destruct E as [d [c' [_ F]]]. exact (from_search_ends _ _ _ _ T F).
  Qed.
  Lemma deliveries_end w : (forall r p a, search_tree r p a <> None) -> world_ok w -> deliveries w <> Panic SearchFailed.
  Proof.
    intros T WO H. unfold Halo_Model.deliveries in H.
    destruct (map_outcome _ w) as [searched|w0] eqn:E1; cbn [andthen] in H.
    - destruct (map_outcome _ (combine (seq 0 (length searched)) searched)) as [answered|w1] eqn:E2; cbn [andthen] in H; [discriminate|].
      injection H as ->. apply map_outcome_panic in E2. destruct E2 as [x [_ F]].
      destruct (local_periodic_haloes _ _ _ _ _ _ _ _ _ _) as [[own c1]|w2] eqn:G1; cbn [andthen] in F.
      + destruct (outgoing_results _ _ _ _ _ _ _ _ _ c1) as [[out c2]|w3] eqn:G2; cbn [andthen] in F; [discriminate|].
        injection F as ->. unfold Halo_Model.outgoing_results in G2. apply map_state_panic in G2. destruct G2 as [y [c' [_ F]]].
        cbn in F. destruct (fst y =? _); [discriminate|]. exact (from_searches_end _ _ _ _ T F).
      + injection F as ->. unfold Halo_Model.local_periodic_haloes in G1.
        destruct (get_haloes_from_searches _ _ _ _ _ _ _ _ _ _) as [[ra ca]|w3] eqn:G; cbn [andthen] in G1; [discriminate|].
        injection G1 as ->. exact (from_searches_end _ _ _ _ T G).
    - apply map_outcome_panic in E1. destruct E1 as [s [Hs F]]. apply In_nth_error in Hs.
      destruct Hs as [r Hr]. destruct (wo_rank _ _ _ _ _ _ _ _ w WO r s Hr) as [O D].
      destruct (searches_ok P W is_periodic images closer circumcircle characteristic_length chunk_size particles good good_ids r s O D) as [l [s' [E _]]]. congruence.
  Qed.
  Lemma run_no_search_failure fuel : (forall r p a, search_tree r p a <> None) -> forall w, world_ok w -> run fuel w <> Some (Panic SearchFailed).
  Proof.
    intro T. induction fuel as [|fuel IH]; intros w O H; cbn [Halo_Model.run] in H; destruct (everyone_finished P W w) eqn:E; try discriminate.
    destruct (round w) as [w1|why1] eqn:R.
    - refine (IH w1 _ H). exact (proj1 (round_ok P W wrap_eqb wrap_eqb_spec is_periodic one_unwrapped images closer search_tree owns_part circumcircle insert
      characteristic_length chunk_size particles exact_search extents closer_mono good good_ids good_lt good_corner insert_good w w1 O R)).
    - injection H as ->. unfold Halo_Model.round in R. destruct (deliveries w) as [ds|w0] eqn:Ed; cbn [andthen] in R.
      + apply map_outcome_panic in R. destruct R as [[r [s1 recv]] [Hx F]]. cbn [fst snd] in F.
        apply In_nth_error in Hx. destruct Hx as [i Hi]. rewrite combine_seq_nth in Hi.
        destruct (nth_error ds i) as [y|] eqn:Ey; [|discriminate]. cbn in Hi. injection Hi as <- ->.
        pose proof (import_no_duplicate P W wrap_eqb wrap_eqb_spec is_periodic one_unwrapped images closer search_tree owns_part circumcircle insert
          characteristic_length chunk_size particles exact_search extents good good_ids good_lt good_corner insert_good w ds i s1 recv O Ed Ey SearchFailed F).
        discriminate.
      + injection R as ->. exact (deliveries_end w T O Ed).
  Qed.

  Theorem run_ends w : (forall r p a, search_tree r p a <> None) -> started P W insert particles good w -> exists fuel result, run fuel w = Some result /\
    forall why, result = Panic why -> why = TwoImages \/ why = InsertFailed.
  Proof.
    intros T S. pose proof (started_ok P W is_periodic images closer circumcircle insert particles good good_ids good_lt insert_good w S) as WO.
    destruct (run_ends_ok w WO (started_radii w S)) as [fuel X].
    destruct (run fuel w) as [result|] eqn:E; [|congruence]. exists fuel, result. split; [exact E|]. intros why ->.
    pose proof (run_no_search_failure fuel T w WO) as NS.
    destruct (run_panics P W wrap_eqb wrap_eqb_spec is_periodic one_unwrapped images closer search_tree owns_part circumcircle insert
      characteristic_length chunk_size particles exact_search extents closer_mono good good_ids good_lt good_corner insert_good fuel w why WO E) as [->|R]; [congruence|exact R].
  Qed.
End End.

(** ** The search on the trees of the ranks *)
Lemma bounded (f : nat -> nat) ranks : (forall r, ranks <= r -> f r = f ranks) -> exists n, forall r, f r <= n.
Proof.
  intro H. exists (f ranks + total f (seq 0 ranks)). intro r. destruct (le_lt_dec ranks r) as [G|G].
  - rewrite (H r G). lia.
  - assert (I : In r (seq 0 ranks)) by (apply in_seq; lia). induction (seq 0 ranks) as [|a l IH]; [contradiction|].
    cbn [total fold_right]. destruct I as [->|I]; [lia|]. specialize (IH I). unfold total in IH. lia.
Qed.
Lemma search_ends2 ranks cfg build_fuel box particles : distributed2 ranks box particles -> max_depth cfg < build_fuel ->
  exists n, forall search_fuel, n <= search_fuel -> forall r p a, search_tree2 cfg build_fuel search_fuel box particles r p a <> None.
Proof.
  intros [d1 d2 d3 d4] F.
  destruct (bounded (fun r => match build2 cfg build_fuel (particles r) box with Some t => size _ _ t | None => 0 end) ranks) as [n N].
  { intros r Hr. assert (X : forall q, ranks <= q -> particles q = []).
    { intros q Hq. destruct (particles q) eqn:E; [reflexivity|]. assert (q < ranks) by (apply d3; congruence). lia. }
    now rewrite (X r Hr), (X ranks (le_n _)). }
  exists n. intros fuel Hn r p a. specialize (N r). unfold search_tree2.
  destruct (build_ok _ _ quadrants2 _ (fun e (q : nat * vec2) => contains2 e (snd q)) 4 ltac:(lia)
    (fun e q => quadrant_contains2 e (snd q)) cfg build_fuel box (particles r) F (d2 r)) as [t [B [Wf _]]].
  unfold build2 in *. rewrite B in *. unfold search2. apply iterate_within; [lia| |lia].
  exact (wf_full _ _ quadrants2 (fun e (q : nat * vec2) => contains2 e (snd q)) 4 (fun _ => eq_refl) cfg t 0 Wf).
Qed.
Lemma search_ends3 ranks cfg build_fuel box particles : distributed3 ranks box particles -> max_depth cfg < build_fuel ->
  exists n, forall search_fuel, n <= search_fuel -> forall r p a, search_tree3 cfg build_fuel search_fuel box particles r p a <> None.
Proof.
  intros [d1 d2 d3 d4] F.
  destruct (bounded (fun r => match build3 cfg build_fuel (particles r) box with Some t => size _ _ t | None => 0 end) ranks) as [n N].
  { intros r Hr. assert (X : forall q, ranks <= q -> particles q = []).
    { intros q Hq. destruct (particles q) eqn:E; [reflexivity|]. assert (q < ranks) by (apply d3; congruence). lia. }
    now rewrite (X r Hr), (X ranks (le_n _)). }
  exists n. intros fuel Hn r p a. specialize (N r). unfold search_tree3.
  destruct (build_ok _ _ quadrants3 _ (fun e (q : nat * vec3) => contains3 e (snd q)) 8 ltac:(lia)
    (fun e q => quadrant_contains3 e (snd q)) cfg build_fuel box (particles r) F (d2 r)) as [t [B [Wf _]]].
  unfold build3 in *. rewrite B in *. unfold search3. apply iterate_within; [lia| |lia].
  exact (wf_full _ _ quadrants3 (fun e (q : nat * vec3) => contains3 e (snd q)) 8 (fun _ => eq_refl) cfg t 0 Wf).
Qed.

(** ** With the box, the trees and the triangulation of the code *)
Theorem ends2 ranks cfg build_fuel pop box particles remap circumcircle characteristic_length chunk_size w :
  distributed2 ranks box particles -> max_depth cfg < build_fuel -> (0 < characteristic_length)%Q -> 0 < chunk_size ->
  starts2 ranks pop particles remap w ->
  exists n, forall search_fuel, n <= search_fuel -> exists fuel result,
    run2 ranks cfg build_fuel search_fuel pop box particles remap circumcircle characteristic_length chunk_size fuel w = Some result /\
    forall why, result = Panic why -> why = TwoImages \/ why = InsertFailed.
Proof.
  intros D F HC HS S. pose proof D as [d1 d2 d3 d4].
  destruct (search_ends2 ranks cfg build_fuel box particles D F) as [n N]. exists n. intros search_fuel Hn.
  refine (run_ends vec2 wrap2 wrap2_eqb wrap2_eqb_spec is_periodic2 one_unwrapped2 (images2 box) closer2
      (search_tree2 cfg build_fuel search_fuel box particles) (owns_part2 ranks box particles) circumcircle (insert2 pop remap)
      characteristic_length chunk_size particles _ _ closer2_mono good2 good2_ids good2_lt good2_corner (insert2_good pop remap) HC HS
      w (N search_fuel Hn) (starts2_started ranks cfg build_fuel pop box particles remap D F w S)).
  - exact (exact2 ranks cfg build_fuel search_fuel pop box particles remap d1 F d2).
  - exact (extents_sound2 ranks cfg build_fuel pop box particles remap d1 F d3).
Qed.
Theorem ends3 ranks cfg build_fuel pop box particles remap circumcircle characteristic_length chunk_size w :
  distributed3 ranks box particles -> max_depth cfg < build_fuel -> (0 < characteristic_length)%Q -> 0 < chunk_size ->
  starts3 ranks pop particles remap w ->
  exists n, forall search_fuel, n <= search_fuel -> exists fuel result,
    run3 ranks cfg build_fuel search_fuel pop box particles remap circumcircle characteristic_length chunk_size fuel w = Some result /\
    forall why, result = Panic why -> why = TwoImages \/ why = InsertFailed.
Proof.
  intros D F HC HS S. pose proof D as [d1 d2 d3 d4].
  destruct (search_ends3 ranks cfg build_fuel box particles D F) as [n N]. exists n. intros search_fuel Hn.
  refine (run_ends vec3 wrap3 wrap3_eqb wrap3_eqb_spec is_periodic3 one_unwrapped3 (images3 box) closer3
      (search_tree3 cfg build_fuel search_fuel box particles) (owns_part3 ranks box particles) circumcircle (insert3 pop remap)
      characteristic_length chunk_size particles _ _ closer3_mono good3 good3_ids good3_lt good3_corner (insert3_good pop remap) HC HS
      w (N search_fuel Hn) (starts3_started ranks cfg build_fuel pop box particles remap D F w S)).
  - exact (exact3 ranks cfg build_fuel search_fuel pop box particles remap d1 F d2).
  - exact (extents_sound3 ranks cfg build_fuel pop box particles remap d1 F d3).
Qed.

(** ** Two images in one sphere *)
Lemma square_lt (u r : Q) : (0 < r -> u * u < r * r -> - r < u /\ u < r)%Q.
Proof. intros H K. split; nra. Qed.
Lemma sign_apart wx wx' : wx <> wx' -> (1 <= as_sign wx - as_sign wx' \/ 1 <= as_sign wx' - as_sign wx)%Q.
Proof. destruct wx, wx'; cbn; intro H; try congruence; try (left; lra); right; lra. Qed.
Lemma side_short (c p s a b r : Q) : (0 < s -> 0 < r -> 1 <= a - b \/ 1 <= b - a ->
  (c - (p + s * a)) * (c - (p + s * a)) < r * r -> (c - (p + s * b)) * (c - (p + s * b)) < r * r -> s < 2 * r)%Q.
Proof.
  intros Hs Hr D A B. apply (square_lt _ _ Hr) in A. apply (square_lt _ _ Hr) in B. destruct A as [A1 A2], B as [B1 B2].
  destruct D; nra.
Qed.
Lemma two_of_filter {A} (f : A -> bool) (l : list A) : NoDup l -> forall a b l0, filter f l = a :: b :: l0 ->
  a <> b /\ In a l /\ f a = true /\ In b l /\ f b = true.
Proof.
  intros N a b l0 E. pose proof (NoDup_filter f N) as N'. rewrite E in N'. inversion N' as [|x y N1 N2]; subst.
  assert (Ia : In a (filter f l)) by (rewrite E; now left). assert (Ib : In b (filter f l)) by (rewrite E; right; now left).
  apply filter_In in Ia. apply filter_In in Ib. split; [|tauto]. intros ->. apply N1. now left.
Qed.
Lemma images2_nodup box p : NoDup (images2 box p).
Proof.
  apply (NoDup_map_inv fst). unfold images2. rewrite map_map.
  cbn. repeat (constructor; [cbn; intuition congruence|]). constructor.
Qed.
Lemma images3_nodup box p : NoDup (images3 box p).
Proof.
  apply (NoDup_map_inv fst). unfold images3. rewrite map_map.
  cbn. repeat (constructor; [cbn; intuition congruence|]). constructor.
Qed.
Theorem two_images2 box d p : proper2 box -> find_wrapped_point vec2 wrap2 (images2 box) closer2 d p = Panic TwoImages ->
  (x2 (max2 box) - x2 (min2 box) < 2 * s_radius vec2 d \/ y2 (max2 box) - y2 (min2 box) < 2 * s_radius vec2 d)%Q.
Proof.
  intros [B1 B2] H. unfold find_wrapped_point in H.
  match type of H with match ?e with [] => _ | _ => _ end = _ => destruct e as [|a [|b l]] eqn:E; try discriminate end.
  destruct (two_of_filter _ _ (images2_nodup box p) _ _ _ E) as [NE [Ia [Fa [Ib Fb]]]]. clear H E.
  destruct a as [[wx wy] v], b as [[wx' wy'] v']. apply in_images2 in Ia. apply in_images2 in Ib. subst v v'.
  unfold closer2, length_sq2, sides2 in *. cbn [snd x2 y2] in Fa, Fb, NE. rewrite andb_true_iff, !Qltb_true in Fa, Fb.
  destruct Fa as [R Fa], Fb as [_ Fb]. set (r := s_radius vec2 d) in *. set (c := s_point vec2 d) in *.
  assert (SQ : forall q : Q, (0 <= q * q)%Q) by (intro q; nra).
  assert (D : wx <> wx' \/ wy <> wy').
  { assert (DX : {wx = wx'} + {wx <> wx'}) by decide equality. assert (DY : {wy = wy'} + {wy <> wy'}) by decide equality.
    destruct DX as [<-|DX]; [|now left]. destruct DY as [<-|DY]; [|now right]. now contradiction NE. }
  destruct D as [D|D]; [left|right]; apply sign_apart in D.
  - refine (side_short (x2 c) (x2 p) _ _ _ r _ R D _ _); [lra| |].
    + pose proof (SQ (y2 c - (y2 p + (y2 (max2 box) - y2 (min2 box)) * as_sign wy))%Q). lra.
    + pose proof (SQ (y2 c - (y2 p + (y2 (max2 box) - y2 (min2 box)) * as_sign wy'))%Q). lra.
  - refine (side_short (y2 c) (y2 p) _ _ _ r _ R D _ _); [lra| |].
    + pose proof (SQ (x2 c - (x2 p + (x2 (max2 box) - x2 (min2 box)) * as_sign wx))%Q). lra.
    + pose proof (SQ (x2 c - (x2 p + (x2 (max2 box) - x2 (min2 box)) * as_sign wx'))%Q). lra.
Qed.
Theorem two_images3 box d p : proper3 box -> find_wrapped_point vec3 wrap3 (images3 box) closer3 d p = Panic TwoImages ->
  (x3 (max3 box) - x3 (min3 box) < 2 * s_radius vec3 d \/ y3 (max3 box) - y3 (min3 box) < 2 * s_radius vec3 d \/
   z3 (max3 box) - z3 (min3 box) < 2 * s_radius vec3 d)%Q.
Proof.
  intros [B1 [B2 B3]] H. unfold find_wrapped_point in H.
  match type of H with match ?e with [] => _ | _ => _ end = _ => destruct e as [|a [|b l]] eqn:E; try discriminate end.
  destruct (two_of_filter _ _ (images3_nodup box p) _ _ _ E) as [NE [Ia [Fa [Ib Fb]]]]. clear H E.
  destruct a as [[[wx wy] wz] v], b as [[[wx' wy'] wz'] v']. apply in_images3 in Ia. apply in_images3 in Ib. subst v v'.
  unfold closer3, length_sq3, sides3 in *. cbn [snd x3 y3 z3] in Fa, Fb, NE. rewrite andb_true_iff, !Qltb_true in Fa, Fb.
  destruct Fa as [R Fa], Fb as [_ Fb]. set (r := s_radius vec3 d) in *. set (c := s_point vec3 d) in *.
  assert (SQ : forall q : Q, (0 <= q * q)%Q) by (intro q; nra).
  assert (D : wx <> wx' \/ wy <> wy' \/ wz <> wz').
  { assert (DX : {wx = wx'} + {wx <> wx'}) by decide equality. assert (DY : {wy = wy'} + {wy <> wy'}) by decide equality.
    assert (DZ : {wz = wz'} + {wz <> wz'}) by decide equality.
    destruct DX as [<-|DX]; [|now left]. destruct DY as [<-|DY]; [|now right; left]. destruct DZ as [<-|DZ]; [|now right; right].
    now contradiction NE. }
  pose proof (SQ (x3 c - (x3 p + (x3 (max3 box) - x3 (min3 box)) * as_sign wx))%Q).
  pose proof (SQ (x3 c - (x3 p + (x3 (max3 box) - x3 (min3 box)) * as_sign wx'))%Q).
  pose proof (SQ (y3 c - (y3 p + (y3 (max3 box) - y3 (min3 box)) * as_sign wy))%Q).
  pose proof (SQ (y3 c - (y3 p + (y3 (max3 box) - y3 (min3 box)) * as_sign wy'))%Q).
  pose proof (SQ (z3 c - (z3 p + (z3 (max3 box) - z3 (min3 box)) * as_sign wz))%Q).
  pose proof (SQ (z3 c - (z3 p + (z3 (max3 box) - z3 (min3 box)) * as_sign wz'))%Q).
  destruct D as [D|[D|D]]; [left|right; left|right; right]; apply sign_apart in D.
  - refine (side_short (x3 c) (x3 p) _ _ _ r _ R D _ _); lra.
  - refine (side_short (y3 c) (y3 p) _ _ _ r _ R D _ _); lra.
  - refine (side_short (z3 c) (z3 p) _ _ _ r _ R D _ _); lra.
Qed.
