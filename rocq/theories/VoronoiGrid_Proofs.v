(** Proofs for [VoronoiGrid_Model]: the points of a rank and their types. *)
From Coq Require Import List Arith QArith Lqa Lia Permutation Setoid Bool.
From Verif Require Geometry_Model.
From Verif Require Import Geometry_Spec Box_Model Box_Spec Tree_Model Circle2_Proofs Tiling2_Proofs Delaunay_Model Delaunay_Spec DelaunayGeo_Model
  DelaunayGlobal_Spec Halo_Model Halo_Spec HaloGeo_Model HaloGeo_Spec HaloDelaunay_Spec DelaunayRemap_Model HaloDelaunay_Model DelaunayRemap_Proofs
  DelaunayInsert_Proofs Delaunay2Insert_Proofs DelaunayGlobal2_Proofs Halo_Proofs HaloGeo_Proofs HaloFinal_Proofs
  HaloDelaunay_Proofs Voronoi_Model Voronoi_Spec Voronoi_Proofs VoronoiConstruct_Proofs VoronoiGrid_Model VoronoiGrid_Spec.
Import ListNotations.
Local Open Scope nat_scope.

Notation rank_state := (rank_state vec2 wrap2).
Notation tri_of := (Halo_Model.tri vec2 wrap2).
Notation points := (Halo_Model.points vec2 wrap2).
Notation kinds := (Halo_Model.kinds vec2 wrap2).
Notation haloes := (Halo_Model.haloes vec2 wrap2).

Lemma order_starts ranks pop particles order remap outer w : starts_in_order2 ranks pop particles order remap outer w ->
  starts_from2 ranks pop particles remap outer w.
Proof.
  intros [L [P H]]. split; [exact L|]. intros r s Hr. destruct (H r s Hr) as [start [E1 E2]]. exists start, (map snd (order r)).
  split; [exact E1|]. split; [|exact E2]. now apply Permutation_map.
Qed.

(** ** Corners, then local particles, then haloes *)
Section Layout.
  Variables (cfg : config) (build_fuel : nat).
  Hypothesis F : max_depth cfg < build_fuel.
  Variables (pop : nat -> list nat -> nat) (particles order : nat -> list (nat * vec2)) (remap : vec2 -> Geometry_Model.point2).
  Variable outer : list vec2.
  Hypothesis three : length outer = 3.

  Record layout (n : nat) (local : list (nat * vec2)) (s : rank_state) : Prop := {
    ly_points : exists hs, points s = outer ++ map snd local ++ hs;
    ly_kinds : exists ks, kinds s = map (fun _ => Outer) outer ++ map (fun _ => Inner) local ++ ks /\ (forall k, In k ks -> exists q, k = Halo q);
    ly_haloes : map snd (haloes s) = seq (3 + length local) (length (haloes s));
    ly_count : length (points s) = 3 + length local + length (haloes s);
    ly_kind_count : length (kinds s) = length (points s)
  }.
  Definition lays (r : nat) (s : rank_state) : Prop := rank_delaunay particles remap outer r s /\ layout r (order r) s.
  Lemma lays_same r s s' : tri_of s' = tri_of s -> points s' = points s -> kinds s' = kinds s -> haloes s' = haloes s -> lays r s -> lays r s'.
  Proof.
    intros E1 E2 E3 E4 [R [a b c d e]]. split; [exact (rd_same particles remap outer r s s' E1 E2 E3 E4 R)|].
    constructor; rewrite ?E2, ?E3, ?E4; assumption.
  Qed.
  Lemma lays_import r s x s' : lays r s -> import_halo vec2 wrap2 wrap2_eqb is_periodic2 (insert2 pop remap) r s x = Done s' -> lays r s'.
  Proof.
    intros [R [[hs a] [ks [b1 b2]] c d e]] H. split; [exact (rd_import cfg build_fuel pop particles remap outer F three r s x s' R H)|].
    destruct x as [q x]. unfold import_halo in H. destruct (existsb _ (haloes s)) in H; [discriminate|].
    destruct (insert2 pop remap (points s ++ [r_point vec2 wrap2 x]) (tri_of s)) as [[[p new] t]|] eqn:E; [|discriminate]. injection H as <-.
    destruct (insert_rank cfg build_fuel pop remap outer F three _ _ _ _ _ _ (rd_good _ _ _ _ _ R) (rd_points _ _ _ _ _ R) E) as [_ [-> _]].
    constructor; cbn [Halo_Model.tri Halo_Model.points Halo_Model.kinds Halo_Model.haloes].
    - exists (hs ++ [r_point vec2 wrap2 x]). rewrite a, <- !app_assoc. reflexivity.
    - exists (ks ++ [Halo q]). split; [rewrite b1, <- !app_assoc; reflexivity|]. intros k Hk. apply in_app_or in Hk. destruct Hk as [Hk|[<-|[]]]; eauto.
    - rewrite map_app, app_length, c. cbn [map length snd]. rewrite Nat.add_1_r, seq_S, d. reflexivity.
    - rewrite !app_length. cbn. lia.
    - rewrite !app_length. cbn. lia.
  Qed.
  Lemma lays_start ranks w : starts_in_order2 ranks pop particles order remap outer w ->
    (0 < orient (positions2 remap outer 0) (positions2 remap outer 1) (positions2 remap outer 2))%Q ->
    everywhere vec2 wrap2 lays w.
  Proof.
    intros ST TU r s Hr. split.
    { exact (rd_start ranks cfg build_fuel pop particles remap outer F three TU w (order_starts _ _ _ _ _ _ _ ST) r s Hr). }
    destruct ST as [L [P H]]. destruct (H r s Hr) as [start [E1 E3]]. unfold initial in E3.
    set (s0 := Build_rank_state _ _ _ _ _ _ _ _) in E3.
    assert (L0 : layout r [] s0).
    { constructor; cbn; rewrite ?map_length; auto; [exists []; now rewrite !app_nil_r|]. exists []. split; [now rewrite app_nil_r|]. intros k []. }
    assert (H0 : haloes s0 = []) by reflexivity. clearbody s0.
    assert (X : forall rest done s1, layout r done s1 -> haloes s1 = [] ->
      andthen (fold_outcome (insert_inner vec2 wrap2 (insert2 pop remap)) (map snd rest) s1)
        (fun s2 => Done (set_undecided vec2 wrap2 s2 (map (fun i => (i, None)) (filter (should_be_checked vec2 wrap2 s2) (map fst (tetras (tri_of s2))))))) = Done s ->
      layout r (done ++ rest) s).
    { induction rest as [|x rest IH]; intros done s1 [[hs a] [ks [b1 b2]] c d e] H1 E.
      - cbn [map fold_outcome andthen] in E. injection E as <-. rewrite app_nil_r. constructor; eauto.
      - cbn [map fold_outcome] in E. destruct (insert_inner vec2 wrap2 (insert2 pop remap) s1 (snd x)) as [s2|] eqn:E2; cbn [andthen] in E; [|discriminate].
        replace (done ++ x :: rest) with ((done ++ [x]) ++ rest) by (rewrite <- app_assoc; reflexivity).
        unfold insert_inner in E2. destruct (insert2 pop remap (points s1 ++ [snd x]) (tri_of s1)) as [[[p new] t]|] eqn:E4; [|discriminate]. injection E2 as <-.
        assert (HS : hs = []). { rewrite H1 in d. rewrite a, !app_length, map_length in d. cbn in d. destruct hs; [reflexivity|cbn in d; lia]. }
        assert (KS : ks = []). { rewrite b1, a, !app_length, !map_length, HS in e. cbn in e. destruct ks; [reflexivity|cbn in e; lia]. }
        subst hs ks. rewrite app_nil_r in a, b1.
        apply (IH (done ++ [x]) _) in E; [exact E| |exact H1].
        constructor; cbn [Halo_Model.tri Halo_Model.points Halo_Model.kinds Halo_Model.haloes].
        + exists []. rewrite app_nil_r, a, map_app, <- app_assoc. reflexivity.
        + exists []. split; [|intros k []]. rewrite app_nil_r, b1, map_app, <- app_assoc. reflexivity.
        + rewrite H1. reflexivity.
        + rewrite H1 in *. rewrite !app_length. cbn in *. lia.
        + rewrite !app_length. cbn. lia. }
    exact (X (order r) [] s0 L0 H0 E3).
  Qed.
End Layout.

(** ** The points of a rank at the end of the iteration *)
Lemma find_snd {A} (m : list (A * nat)) t p : NoDup (map snd m) -> In (t, p) m -> find (fun e => snd e =? p) m = Some (t, p).
Proof.
  induction m as [|[t' p'] m IH]; cbn; intros N H; [destruct H|]. apply NoDup_cons_iff in N. destruct N as [N1 N2].
  destruct H as [H|H]; [injection H as -> ->; now rewrite Nat.eqb_refl|].
  destruct (Nat.eqb_spec p' p) as [->|]; [|now apply IH]. exfalso. apply N1. change p with (snd (t, p)). now apply in_map.
Qed.
Lemma combine_snd {A B} (l : list A) : forall (m : list B), length l = length m -> map snd (combine l m) = m.
Proof. induction l as [|a l IH]; intros [|b m] H; cbn in *; try discriminate; [reflexivity|]. f_equal. apply IH. lia. Qed.
Lemma combine_fst {A B} (l : list A) : forall (m : list B), length l = length m -> map fst (combine l m) = l.
Proof. induction l as [|a l IH]; intros [|b m] H; cbn in *; try discriminate; [reflexivity|]. f_equal. apply IH. lia. Qed.
Lemma combine_seq {A} (l : list A) : forall a x p, In (x, p) (combine l (seq a (length l))) <-> a <= p /\ nth_error l (p - a) = Some x.
Proof.
  induction l as [|y l IH]; intros a x p; cbn [length seq combine In].
  - split; [intros []|]. intros [_ H]. destruct (p - a); discriminate.
  - rewrite IH. split.
    + intros [H|[H1 H2]].
      * injection H as -> ->. rewrite Nat.sub_diag. split; [lia|reflexivity].
      * split; [lia|]. replace (p - a) with (S (p - S a)) by lia. exact H2.
    + intros [H1 H2]. destruct (Nat.eq_dec a p) as [->|N].
      * left. rewrite Nat.sub_diag in H2. cbn in H2. congruence.
      * right. split; [lia|]. replace (p - a) with (S (p - S a)) in H2 by lia. exact H2.
Qed.
Lemma nth_map {A B} (f : A -> B) : forall l k, nth_error (map f l) k = option_map f (nth_error l k).
Proof. induction l as [|a l IH]; intros [|k]; cbn; auto. Qed.
Lemma image_type_inj r q x w q' x' w' : image_type r q x w = image_type r q' x' w' -> (is_periodic2 w = false -> w = (NoWrap, NoWrap)) ->
  q = q' /\ x = x' /\ w = w'.
Proof.
  assert (U : forall v, is_periodic2 v = false -> v = (NoWrap, NoWrap)) by (intros v H; apply one_unwrapped2; auto).
  unfold image_type. intros E _. destruct (is_periodic2 w) eqn:E1; destruct (is_periodic2 w') eqn:E2;
    destruct (Nat.eqb_spec q r); destruct (Nat.eqb_spec q' r); try discriminate; injection E; intros; subst; auto;
    rewrite (U _ E1), (U _ E2); auto.
Qed.

Section Rank.
  Variables (ranks : nat) (cfg : config) (build_fuel search_fuel : nat) (pop : nat -> list nat -> nat).
  Variables (box : extent2) (particles order : nat -> list (nat * vec2)).
  Variables (circumcircle : list vec2 -> vec2 * Q) (characteristic_length : Q) (chunk_size : nat).
  Hypothesis D : distributed2 ranks box particles.
  Hypothesis F : max_depth cfg < build_fuel.
  Notation remap := (box_remap2 box). Notation outer := (box_outer2 box).
  Variables (fuel : nat) (w w' : list rank_state).
  Hypothesis start : starts_in_order2 ranks pop particles order remap outer w.
  Hypothesis ended : run2 ranks cfg build_fuel search_fuel pop box particles remap circumcircle characteristic_length chunk_size fuel w = Some (Done w').
  Notation image := (image_of vec2 wrap2 (images2 box) particles).

  Lemma three : length outer = 3.
  Proof. unfold box_outer2. destruct (box_extent2 box). reflexivity. Qed.
  Variables (r : nat) (s : rank_state).
  Hypothesis here : nth_error w' r = Some s.
  Notation local := (order r).
  Notation n := (length local).
  Notation h := (length (haloes s)).

  Lemma lays_here : lays particles order remap outer r s /\ steps (round2 ranks cfg build_fuel search_fuel pop characteristic_length chunk_size box particles remap circumcircle) w w'.
  Proof.
    destruct (run_keeps vec2 wrap2 wrap2_eqb is_periodic2 (images2 box) closer2 _ _ circumcircle (insert2 pop remap) characteristic_length chunk_size
      (lays particles order remap outer) (lays_same particles order remap outer) (lays_import cfg build_fuel F pop particles order remap outer three) fuel w w'
      (lays_start cfg build_fuel F pop particles order remap outer three ranks w start (box_turn box (di2_box _ _ _ D))) ended) as [A SS].
    split; [exact (A r s here)|exact SS].
  Qed.
  Lemma rank_is : rank_delaunay particles remap outer r s.
  Proof. apply lays_here. Qed.
  Lemma layout_is : layout outer r local s.
  Proof. apply lays_here. Qed.
  Lemma count_is : num_points (tri_of s) = 3 + n + h.
  Proof. rewrite <- (rd_points _ _ _ _ _ rank_is). apply (ly_count _ _ _ _ layout_is). Qed.
  Lemma sound_is : NoDup (map fst (haloes s)) /\ (forall k i, In (k, i) (haloes s) -> exists q x wr p, k = image_type r q x wr /\
    foreign wrap2 is_periodic2 r q wr /\ image q x wr p /\ nth_error (points s) i = Some p).
  Proof.
    pose proof (starts_from_starts ranks pop particles remap outer three w (order_starts _ _ _ _ _ _ _ start)) as ST2.
    destruct (sound2 ranks cfg build_fuel search_fuel pop box particles remap circumcircle characteristic_length chunk_size D F w w' r s ST2 (proj2 lays_here) here) as [A B].
    split; [exact A|]. intros k i Hk. destruct (B k i Hk) as [q [x [wr [p [-> [Y [Z V]]]]]]]. exists q, x, wr, p.
    split; [|auto]. unfold halo_key, image_type. destruct (Nat.eqb_spec q r) as [->|]; [|reflexivity].
    destruct Y as [Y|Y]; [congruence|]. rewrite Y. reflexivity.
  Qed.
  Lemma outer_is p : p < num_points (tri_of s) -> is_outer s p = (p <? 3).
  Proof.
    intro H. rewrite count_is in H. unfold is_outer. destruct (ly_kinds _ _ _ _ layout_is) as [ks [-> K]]. pose proof three as T.
    destruct (Nat.ltb_spec p 3) as [L|L].
    - rewrite nth_error_app1 by (rewrite map_length; lia).
      destruct (nth_error outer p) as [x|] eqn:E; [|apply nth_error_None in E; lia]. rewrite (map_nth_error _ _ _ E). reflexivity.
    - rewrite nth_error_app2 by (rewrite map_length; lia). rewrite map_length, T. destruct (nth_error _ (p - 3)) as [k|] eqn:E; [|reflexivity].
      apply nth_error_In in E. apply in_app_or in E. destruct E as [E|E].
      + apply in_map_iff in E. destruct E as [x [<- _]]. reflexivity.
      + destruct (K k E) as [q ->]. reflexivity.
  Qed.
  Notation m := (point_map local s).
  Lemma map_snds : map snd m = seq 3 (n + h).
  Proof.
    unfold point_map. rewrite map_app, combine_snd by (now rewrite map_length, seq_length).
    unfold ptype. rewrite (ly_haloes _ _ _ _ layout_is), seq_app. reflexivity.
  Qed.
  Lemma in_map_cases t p : In (t, p) m <-> (3 <= p < 3 + n /\ exists x, nth_error local (p - 3) = Some x /\ t = Local wrap2 (fst x)) \/ In (t, p) (haloes s).
  Proof.
    unfold point_map. rewrite in_app_iff.
    replace (seq 3 (length local)) with (seq 3 (length (map (fun x : nat * vec2 => Local wrap2 (fst x)) local))) by (now rewrite map_length).
    rewrite combine_seq. split.
    - intros [[H1 H2]|H]; [|now right]. left. destruct (nth_error local (p - 3)) as [x|] eqn:E.
      + assert (p - 3 < n) by (apply nth_error_Some; congruence). split; [lia|]. exists x. split; [reflexivity|].
        rewrite nth_map, E in H2. cbn in H2. congruence.
      + rewrite nth_map, E in H2. discriminate.
    - intros [[H1 [x [H2 ->]]]|H]; [|now right]. left. split; [lia|]. now rewrite nth_map, H2.
  Qed.
  Lemma cell_map_some p t : cell_of_point m p = Some t <-> In (t, p) m.
  Proof.
    unfold cell_of_point. split.
    - destruct (find _ m) as [[t' p']|] eqn:E; [|discriminate]. cbn. intro H. injection H as ->. apply find_some in E. cbn in E.
      destruct E as [E1 E2]. apply Nat.eqb_eq in E2. subst. exact E1.
    - intro H. rewrite (find_snd m t p); [reflexivity| |exact H]. rewrite map_snds. apply seq_NoDup.
  Qed.
  Definition type_at (p : nat) : ptype := if p <? 3 then Boundary wrap2 else match cell_of_point m p with Some t => t | None => Boundary wrap2 end.
  Lemma types_are q : q < num_points (tri_of s) -> if q <? 3 then type_at q = Boundary wrap2 else cell_of_point m q = Some (type_at q).
  Proof.
    intro H. unfold type_at. destruct (Nat.ltb_spec q 3) as [L|L]; [reflexivity|].
    assert (I : In q (map snd m)) by (rewrite map_snds; apply in_seq; rewrite count_is in H; lia).
    apply in_map_iff in I. destruct I as [[t p] [<- I]]. cbn [snd]. rewrite (proj2 (cell_map_some p t) I). reflexivity.
  Qed.
  Lemma type_in p : 3 <= p < num_points (tri_of s) -> In (type_at p, p) m.
  Proof.
    intros [H1 H2]. apply cell_map_some. pose proof (types_are p H2) as X. destruct (Nat.ltb_spec p 3); [lia|exact X].
  Qed.
  Lemma in_type t p : In (t, p) m -> 3 <= p < num_points (tri_of s) /\ type_at p = t.
  Proof.
    intro H. assert (I : In p (map snd m)) by (change p with (snd (t, p)); now apply in_map). rewrite map_snds, in_seq in I.
    rewrite count_is. split; [lia|]. unfold type_at. destruct (Nat.ltb_spec p 3); [lia|]. now rewrite (proj2 (cell_map_some p t) H).
  Qed.
  Lemma nth_local p x : nth_error local (p - 3) = Some x -> 3 <= p -> nth_error (points s) p = Some (snd x).
  Proof.
    intros H L. destruct (ly_points _ _ _ _ layout_is) as [hs ->]. rewrite nth_error_app2 by (rewrite three; lia). rewrite three.
    assert (p - 3 < n) by (apply nth_error_Some; congruence). rewrite nth_error_app1 by (now rewrite map_length). now apply map_nth_error.
  Qed.
  Lemma local_particles x : In x local <-> In x (particles r).
  Proof. destruct start as [_ [P _]]. split; intro H; [exact (Permutation_in _ (P r) H)|exact (Permutation_in _ (Permutation_sym (P r)) H)]. Qed.
  Lemma local_ids : NoDup (map fst local).
  Proof. destruct start as [_ [P _]]. apply (Permutation_NoDup (Permutation_map fst (Permutation_sym (P r)))). apply (di2_ids _ _ _ D). Qed.
  (** What the points stand for. *)
  Lemma point_image p : 3 <= p < num_points (tri_of s) -> exists q x wr pos pos', type_at p = image_type r q x wr /\ image q x wr pos' /\
    nth_error (points s) p = Some pos /\ same_position pos pos' /\ (p < 3 + n <-> q = r /\ is_periodic2 wr = false).
  Proof.
    intro H. pose proof (type_in p H) as I. apply in_map_cases in I. destruct I as [[L [[x pos] [X1 X2]]]|I].
    - pose proof (nth_local p _ X1 (proj1 L)) as Ep. apply nth_error_In in X1. apply local_particles in X1.
      destruct (unwrapped box particles x pos r X1) as [pos' [Y1 Y2]].
      exists r, x, (NoWrap, NoWrap), pos, pos'. split; [rewrite X2; unfold image_type; cbn; now rewrite Nat.eqb_refl|].
      split; [exact Y1|]. split; [exact Ep|]. split; [exact Y2|]. split; [auto|lia].
    - destruct (proj2 sound_is _ _ I) as [q [x [wr [pos [E [FO [IM Np]]]]]]]. exists q, x, wr, pos, pos. split; [exact E|].
      split; [exact IM|]. split; [exact Np|]. split; [split; reflexivity|].
      assert (p >= 3 + n). { apply (in_map snd) in I. unfold ptype in I. rewrite (ly_haloes _ _ _ _ layout_is), in_seq in I. cbn [snd] in I. lia. }
      split; [lia|]. intros [-> E2]. destruct FO as [FO|FO]; congruence.
  Qed.
  Lemma image_local x wr : is_periodic2 wr = false -> image_type r r x wr = Local wrap2 x.
  Proof. intro E. unfold image_type. rewrite E, Nat.eqb_refl. reflexivity. Qed.
  Lemma type_local p : 3 <= p < 3 + n <-> p < num_points (tri_of s) /\ exists x, type_at p = Local wrap2 x.
  Proof.
    rewrite count_is. split.
    - intro H. split; [lia|]. destruct (point_image p) as [q [x [wr [pos [pos' [E [_ [_ [_ K]]]]]]]]]; [rewrite count_is; lia|].
      destruct (proj1 K (proj2 H)) as [-> P]. exists x. rewrite E. now apply image_local.
    - intros [H [x E]]. assert (L : 3 <= p). { unfold type_at in E. destruct (Nat.ltb_spec p 3); [discriminate|lia]. }
      split; [exact L|]. destruct (point_image p) as [q [y [wr [pos [pos' [E' [_ [_ [_ K]]]]]]]]]; [rewrite count_is; lia|].
      apply K. rewrite E in E'. unfold image_type in E'. destruct (is_periodic2 wr); destruct (Nat.eqb_spec q r); try discriminate; auto.
  Qed.
  Lemma type_inj p q : 3 <= p < num_points (tri_of s) -> 3 <= q < num_points (tri_of s) -> type_at p = type_at q -> p = q.
  Proof.
    intros Hp Hq E. pose proof (type_in p Hp) as Ip. pose proof (type_in q Hq) as Iq. rewrite <- E in Iq.
    assert (N : NoDup (map fst m)).
    { unfold point_map. rewrite map_app, combine_fst by (now rewrite map_length, seq_length).
      pose proof local_ids as L. pose proof (proj1 sound_is) as H.
      assert (A : NoDup (map (fun x : nat * vec2 => Local wrap2 (fst x)) local)).
      { rewrite <- map_map with (f := fst) (g := fun x => Local wrap2 x). apply FinFun.Injective_map_NoDup; [|exact L]. intros a b X. now injection X. }
      revert A. induction (map (fun x : nat * vec2 => Local wrap2 (fst x)) local) as [|y ys IH] eqn:EY; [intros _; exact H|].
      intro A. clear IH. rewrite <- EY in *. clear EY. revert A.
      assert (S : forall y, In y (map (fun x : nat * vec2 => Local wrap2 (fst x)) local) -> ~ In y (map fst (haloes s))).
      { intros z Hz Hz'. apply in_map_iff in Hz. destruct Hz as [x [<- _]]. apply in_map_iff in Hz'. destruct Hz' as [[k i] [K1 K2]]. cbn in K1.
        destruct (proj2 sound_is _ _ K2) as [q0 [x0 [wr [pos [E0 [FO _]]]]]]. rewrite K1 in E0. unfold image_type in E0.
        destruct (is_periodic2 wr) eqn:EW; destruct (Nat.eqb_spec q0 r); try discriminate. destruct FO; congruence. }
      intro A. revert S A. generalize (map (fun x : nat * vec2 => Local wrap2 (fst x)) local). intros zs. induction zs as [|z zs IH]; intros S A; [exact H|].
      cbn. apply NoDup_cons_iff in A. destruct A as [A1 A2]. constructor; [|apply IH; auto; intros; apply S; now right].
      rewrite in_app_iff. intros [B|B]; [auto|]. exact (S z (or_introl eq_refl) B). }
    clear -N Ip Iq. induction m as [|[t v] l IH]; [destruct Ip|]. cbn in N. apply NoDup_cons_iff in N. destruct N as [N1 N2].
    destruct Ip as [Ip|Ip]; destruct Iq as [Iq|Iq].
    - congruence.
    - exfalso. apply N1. injection Ip as -> ->. change (type_at p) with (fst (type_at p, q)). now apply in_map.
    - exfalso. apply N1. injection Iq as -> ->. change (type_at p) with (fst (type_at p, p)). now apply in_map.
    - auto.
  Qed.
  (** ** The cells *)
  Lemma ccw_is i a b c : tri (tri_of s) i a b c -> (0 < orient (original_point s a) (original_point s b) (original_point s c))%Q.
  Proof.
    intro H. pose proof (tl_pos _ _ _ (gd_tiling _ _ (rd_good _ _ _ _ _ rank_is)) _ _ _ _ H) as P.
    destruct (box_remap_eq box (di2_box _ _ _ D)) as [min [max [emin [emax [_ [_ [E [A [B _]]]]]]]]].
    unfold positions2 in P. rewrite !E in P.
    set (k := (/ ((Geometry_Model.x2 emax - Geometry_Model.x2 emin) * (Geometry_Model.y2 emax - Geometry_Model.y2 emin)))%Q).
    assert (KP : (0 < k)%Q) by (apply Qinv_lt_0_compat; apply qmul_pos; lra).
    assert (FO : forall a b c, (orient (remap2 emin emax a) (remap2 emin emax b) (remap2 emin emax c) == k * orient a b c)%Q) by (intros; now apply remap_orient).
    exact (proj1 (stretch_pos _ k KP FO _ _ _) P).
  Qed.
  Definition cell_is (p : nat) (c : cell ptype) : Prop :=
    new_cell ptype (Boundary wrap2) (original_point s) (is_outer s) (cell_of_point m) (tri_of s) p = Some c /\ cell_of (original_point s) (tri_of s) type_at p c.
  Lemma cell_ok p : 3 <= p < num_points (tri_of s) -> exists c,
    new_cell ptype (Boundary wrap2) (original_point s) (is_outer s) (cell_of_point m) (tri_of s) p = Some c /\ cell_is p c.
  Proof.
    intro H. assert (X : exists c, new_cell ptype (Boundary wrap2) (original_point s) (is_outer s) (cell_of_point m) (tri_of s) p = Some c /\ cell_of (original_point s) (tri_of s) type_at p c);
      [|destruct X as [c [X1 X2]]; exists c; split; [exact X1|split; assumption]].
    exact (new_cell_ok ptype (Boundary wrap2) _ (original_point s) (is_outer s) (cell_of_point m) type_at (tri_of s) p
      (rd_good _ _ _ _ _ rank_is) H outer_is types_are ccw_is).
  Qed.
  Lemma outer_filter : filter (fun p => negb (is_outer s p)) (seq 0 (num_points (tri_of s))) = seq 3 (n + h).
  Proof.
    rewrite <- filter_seq_outer. replace (n + h + 3) with (num_points (tri_of s)) by (rewrite count_is; lia).
    apply filter_ext_in. intros p Hp. apply in_seq in Hp. rewrite outer_is by lia. reflexivity.
  Qed.
  Theorem rank_cells_ok : exists cells, rank_cells local s = Some cells /\ Forall2 cell_is (seq 3 (n + h)) cells.
  Proof.
    unfold rank_cells, construct_voronoi. rewrite outer_filter. apply map_option_forall. intros p Hp. apply in_seq in Hp.
    apply cell_ok. rewrite count_is. lia.
  Qed.
  Variable periodic : bool.
  Definition grid_of (c : cell ptype) : grid_cell :=
    GridCell (map (fun f => VFace (map_ptype (connection f) periodic) (normal f) (area_sq f)) (cell_faces c)) (cell_volume c).
  Definition entry (p : nat) (e : ptype * grid_cell) : Prop := exists c, cell_is p c /\ e = (map_ptype (type_at p) periodic, grid_of c).
  Lemma sweep_grid_ok : exists g, sweep_grid local s periodic = Some g /\ Forall2 entry (seq 3 (n + h)) g.
  Proof.
    destruct rank_cells_ok as [cells [E FA]]. unfold sweep_grid. rewrite E. cbn [bind].
    assert (B : forall c, In c cells -> exists p, In p (seq 3 (n + h)) /\ cell_is p c) by (intros c Hc; exact (Forall2_in_r _ _ _ _ FA Hc)).
    assert (K : forall p, In p (seq 3 (n + h)) -> get_particle_type ptype (Boundary wrap2) (is_outer s) (cell_of_point m) p = Some (type_at p)).
    { intros p Hp. apply in_seq in Hp. unfold get_particle_type. rewrite outer_is by (rewrite count_is; lia).
      pose proof (types_are p) as T. rewrite count_is in T. specialize (T ltac:(lia)). destruct (Nat.ltb_spec p 3); [lia|exact T]. }
    clear E B. revert K. induction FA as [|p c ps cs H FA IH]; intro K; cbn [map_option].
    - exists []. split; [reflexivity|constructor].
    - rewrite (cl_point _ _ _ _ _ (proj2 H)), (K p (or_introl eq_refl)). cbn [bind].
      destruct IH as [g [-> G]]; [intros; apply K; now right|]. cbn [bind]. eexists. split; [reflexivity|]. constructor; [|exact G]. exists c. auto.
  Qed.
  Lemma foreign_type p : 3 + n <= p < 3 + n + h -> forall x, map_ptype (type_at p) periodic <> Local wrap2 x.
  Proof.
    intros H x E. assert (X : exists x, type_at p = Local wrap2 x).
    { unfold map_ptype in E. destruct periodic; [eauto|]. destruct (type_at p); try discriminate; eauto. }
    assert (3 <= p < 3 + n); [|lia]. apply type_local. rewrite count_is. split; [lia|exact X].
  Qed.
  Definition local_entry (xp : (nat * vec2) * nat) (e : nat * grid_cell) : Prop :=
    fst e = fst (fst xp) /\ nth_error (points s) (snd xp) = Some (snd (fst xp)) /\ type_at (snd xp) = Local wrap2 (fst (fst xp)) /\
    exists c, cell_is (snd xp) c /\ snd e = grid_of c.
  Theorem construct_grid_ok : exists g, construct_grid local s periodic = Some g /\
    Forall2 local_entry (combine local (seq 3 n)) (local_cells g) /\
    (forall q x, In (q, x) (halo_ids g) <-> q <> r /\ exists p c wr, cell_is p c /\ 3 + n <= p < 3 + n + h /\ type_at p = image_type r q x wr /\
       (is_periodic2 wr = true -> periodic = true) /\ existsb (fun f => is_local (connection f)) (neighbours (grid_of c)) = true).
  Proof.
    destruct sweep_grid_ok as [g [E FA]]. unfold construct_grid. rewrite E. cbn [bind]. eexists. split; [reflexivity|]. cbn [local_cells halo_ids].
    rewrite seq_app in FA. apply Forall2_app_inv_l in FA. destruct FA as [g1 [g2 [F1 [F2 ->]]]]. split.
    - match goal with |- Forall2 _ _ (flat_map ?f _) => set (ff := f) end. rewrite flat_map_app.
      assert (X2 : forall ps es, Forall2 entry ps es -> (forall p, In p ps -> 3 + n <= p < 3 + n + h) ->
        flat_map ff es = []).
      { induction 1 as [|p e ps es [c [_ ->]] H IH]; intro B; [reflexivity|]. cbn [flat_map]. unfold ff at 1. cbn [fst snd].
        rewrite IH by (intros; apply B; now right). pose proof (foreign_type p (B p (or_introl eq_refl))) as FT.
        destruct (map_ptype (type_at p) periodic); try reflexivity. exfalso. now apply (FT id). }
      assert (Y : flat_map ff g2 = []) by (apply (X2 _ _ F2); intros p Hp; apply in_seq in Hp; lia).
      match goal with |- Forall2 _ _ (?a ++ ?b) => replace b with (@nil (nat * grid_cell)) by (symmetry; exact Y); rewrite app_nil_r end. clear X2 F2 E Y.
      assert (X : forall l a es, Forall2 entry (seq a (length l)) es -> 3 <= a -> (forall k x, nth_error l k = Some x -> nth_error local (a - 3 + k) = Some x) ->
        Forall2 local_entry (combine l (seq a (length l))) (flat_map ff es)).
      { induction l as [|x l IH]; intros a es F3 L H; cbn [length seq combine] in *; inversion F3; subst; [constructor|].
        match goal with X : entry a _ |- _ => destruct X as [c [C ->]] end. cbn [flat_map]. unfold ff at 1. cbn [fst snd].
        pose proof (H 0 x eq_refl) as H0. rewrite Nat.add_0_r in H0.
        assert (T : type_at a = Local wrap2 (fst x)).
        { apply in_type. apply in_map_cases. left. assert (a - 3 < n) by (apply nth_error_Some; congruence). split; [lia|]. eauto. }
        rewrite T. replace (map_ptype (Local wrap2 (fst x)) periodic) with (Local wrap2 (fst x)) by (now destruct periodic).
        cbn [app]. constructor.
        - unfold local_entry. cbn [fst snd]. split; [reflexivity|]. split; [now apply nth_local|]. split; [exact T|]. eauto.
        - apply IH; [assumption|lia|]. intros k y Hk. replace (S a - 3 + k) with (a - 3 + S k) by lia. apply H. exact Hk. }
      apply X; [exact F1|lia|]. intros k x Hk. exact Hk.
    - intros q x. rewrite in_flat_map. assert (FA : Forall2 entry (seq 3 (n + h)) (g1 ++ g2)) by (rewrite seq_app; now apply Forall2_app). split.
      + intros [e [He K]]. destruct (Forall2_in_r _ _ _ _ FA He) as [p [Hp [c [C ->]]]]. apply in_seq in Hp. cbn [fst snd] in K.
        destruct (point_image p) as [q' [x' [wr [_ [_ [T [_ [_ [_ TL]]]]]]]]]; [rewrite count_is; lia|].
        assert (Y : (q', x') = (q, x) /\ q' <> r /\ (is_periodic2 wr = true -> periodic = true) /\ existsb (fun f => is_local (connection f)) (neighbours (grid_of c)) = true).
        { rewrite T in K. unfold image_type, map_ptype, add_halo in K.
          destruct (is_periodic2 wr); destruct (Nat.eqb_spec q' r); destruct periodic; cbn [In] in K; try contradiction;
            destruct (existsb (fun f => is_local (connection f)) (neighbours (grid_of c))); cbn [In] in K; try contradiction; destruct K as [K|K]; try contradiction; auto. }
        destruct Y as [Y1 [Y2 [Y3 Y4]]]. injection Y1 as -> ->. split; [exact Y2|]. exists p, c, wr. split; [exact C|].
        split; [|auto]. assert (~ p < 3 + n) by (intro L; apply TL in L; destruct L; contradiction). lia.
      + intros [Q [p [c [wr [C [Hp [T [Y3 Y4]]]]]]]].
        assert (I : In p (seq 3 (n + h))) by (apply in_seq; lia). destruct (Forall2_in_l _ _ _ _ FA I) as [e [He [c' [C' ->]]]].
        exists (map_ptype (type_at p) periodic, grid_of c'). split; [exact He|]. cbn [fst snd].
        assert (Y5 : existsb (fun f => is_local (connection f)) (neighbours (grid_of c')) = true).
        { apply existsb_exists in Y4. destruct Y4 as [f [Hf Y4]]. apply existsb_exists. cbn [neighbours grid_of] in *. apply in_map_iff in Hf. destruct Hf as [f0 [<- Hf]].
          destruct (cl_faces _ _ _ _ _ (proj2 C)) as [qs [_ [QN FC]]]. destruct (cl_faces _ _ _ _ _ (proj2 C')) as [qs' [_ [QN' FC']]].
          destruct (Forall2_in_r _ _ _ _ FC Hf) as [v [Hv Fv]]. apply QN, QN' in Hv. destruct (Forall2_in_l _ _ _ _ FC' Hv) as [f' [Hf' Fv']].
          exists (VFace (map_ptype (connection f') periodic) (normal f') (area_sq f')). split; [apply in_map_iff; eauto|]. cbn [connection] in *.
          rewrite (vf_type _ _ _ _ _ _ Fv'). rewrite (vf_type _ _ _ _ _ _ Fv) in Y4. exact Y4. }
        rewrite T. unfold image_type, map_ptype, add_halo. destruct (is_periodic2 wr).
        * rewrite (Y3 eq_refl) in *. destruct (Nat.eqb_spec q r); [contradiction|]. rewrite Y5. now left.
        * destruct (Nat.eqb_spec q r); [contradiction|]. destruct periodic; rewrite Y5; now left.
  Qed.
End Rank.
