(** The simulation box, the particle tree and the triangulation keep the promises that the import of
    haloes relies on. *)
From Coq Require Import List Arith QArith Qabs Lia Lqa Bool Permutation.
From Verif Require Geometry_Model.
From Verif Require Import Box_Model Box_Spec Box_Proofs Tree_Model Tree_Spec Tree_Proofs Delaunay_Model Delaunay_Spec DelaunayGeo_Model
  DelaunayGeo_Proofs DelaunaySurgery_Proofs DelaunayPlan_Proofs Delaunay2_Proofs DelaunayInsert_Proofs Delaunay2Insert_Proofs
  Delaunay3_Proofs Delaunay3Insert_Proofs DelaunayPath_Proofs Halo_Model Halo_Spec Halo_Proofs HaloGeo_Model.
Import ListNotations.
Local Open Scope nat_scope.

Lemma wrap_type_eqb_spec a b : wrap_type_eqb a b = true <-> a = b.
Proof. destruct a, b; cbn; split; congruence. Qed.
Lemma wrap2_eqb_spec a b : wrap2_eqb a b = true <-> a = b.
Proof.
  destruct a as [a1 a2], b as [b1 b2]. unfold wrap2_eqb. cbn [fst snd]. rewrite andb_true_iff, !wrap_type_eqb_spec.
  split; [intros [-> ->]; reflexivity|]. intro E. injection E as -> ->. auto.
Qed.
Lemma wrap3_eqb_spec a b : wrap3_eqb a b = true <-> a = b.
Proof.
  destruct a as [[a1 a2] a3], b as [[b1 b2] b3]. unfold wrap3_eqb. cbn [fst snd]. rewrite !andb_true_iff, !wrap_type_eqb_spec.
  split; [intros [[-> ->] ->]; reflexivity|]. intro E. injection E as -> -> ->. auto.
Qed.
Lemma one_unwrapped2 a b : is_periodic2 a = false -> is_periodic2 b = false -> a = b.
Proof.
  unfold is_periodic2. rewrite !negb_false_iff, !wrap2_eqb_spec. congruence.
Qed.
Lemma one_unwrapped3 a b : is_periodic3 a = false -> is_periodic3 b = false -> a = b.
Proof.
  unfold is_periodic3. rewrite !negb_false_iff, !wrap3_eqb_spec. congruence.
Qed.

Lemma sq_mono (a b : Q) : (0 < a -> a <= b -> a * a <= b * b)%Q.
Proof. intros A B. nra. Qed.
Lemma closer3_mono c p a b : (a <= b)%Q -> closer3 c p a = true -> closer3 c p b = true.
Proof.
  unfold closer3. rewrite !andb_true_iff, !Qltb_true. intros L [A B]. pose proof (sq_mono a b A L). split; lra.
Qed.
Lemma closer2_mono c p a b : (a <= b)%Q -> closer2 c p a = true -> closer2 c p b = true.
Proof.
  unfold closer2. rewrite !andb_true_iff, !Qltb_true. intros L [A B]. pose proof (sq_mono a b A L). split; lra.
Qed.

(** ** Images *)
Definition shift_of (w : wrap_type) : Z := match w with NoWrap => 0 | Minus => -1 | Plus => 1 end.
Lemma shift_of_unit w : unit_shift (shift_of w).
Proof. destruct w; cbn; unfold unit_shift; auto. Qed.
Lemma unit_shift_of k : unit_shift k -> exists w, shift_of w = k.
Proof. intros [->|[->| ->]]; [exists NoWrap|exists Minus|exists Plus]; reflexivity. Qed.
Lemma as_sign_shift w : (as_sign w == inject_Z (shift_of w))%Q.
Proof. destruct w; reflexivity. Qed.
Lemma in_all w : In w iter_all.
Proof. destruct w; cbn; auto. Qed.
Lemma in_images3 b p wx wy wz v : In (wx, wy, wz, v) (images3 b p) <->
  v = V3 (x3 p + x3 (sides3 b) * as_sign wx) (y3 p + y3 (sides3 b) * as_sign wy) (z3 p + z3 (sides3 b) * as_sign wz).
Proof.
  unfold images3. rewrite in_map_iff. split.
  - intros [[[a c] e] [E _]]. injection E as <- <- <- <-. reflexivity.
  - intros ->. exists (wx, wy, wz). split; [reflexivity|]. apply in_flat_map. exists (wx, wy). split.
    + apply in_flat_map. exists wx. split; [apply in_all|]. apply in_map. apply in_all.
    + apply (in_map (fun z => (wx, wy, z))). apply in_all.
Qed.
Lemma in_images2 b p wx wy v : In (wx, wy, v) (images2 b p) <->
  v = V2 (x2 p + x2 (sides2 b) * as_sign wx) (y2 p + y2 (sides2 b) * as_sign wy).
Proof.
  unfold images2. rewrite in_map_iff. split.
  - intros [[a c] [E _]]. injection E as <- <- <-. reflexivity.
  - intros ->. exists (wx, wy). split; [reflexivity|]. apply in_flat_map. exists wx. split; [apply in_all|]. apply in_map. apply in_all.
Qed.
Lemma near3_images b c r p : near3 b c r p <-> exists w v, In (w, v) (images3 b p) /\ closer3 c v r = true.
Proof.
  unfold near3, closer3. split.
  - intros [R [kx [ky [kz [K1 [K2 [K3 D]]]]]]].
    destruct (unit_shift_of kx K1) as [wx <-]. destruct (unit_shift_of ky K2) as [wy <-]. destruct (unit_shift_of kz K3) as [wz <-].
    exists (wx, wy, wz). eexists. split; [apply in_images3; reflexivity|]. rewrite andb_true_iff, !Qltb_true. split; [exact R|].
    unfold dist_sq3, shift3, length_sq3, sides3 in *. cbn [x3 y3 z3] in *. rewrite !as_sign_shift. lra.
  - intros [[[wx wy] wz] [v [I C]]]. apply in_images3 in I. subst v. rewrite andb_true_iff, !Qltb_true in C. destruct C as [R C].
    split; [exact R|]. exists (shift_of wx), (shift_of wy), (shift_of wz). repeat (split; [apply shift_of_unit|]).
    unfold dist_sq3, shift3, length_sq3, sides3 in *. cbn [x3 y3 z3] in *. rewrite !as_sign_shift in C. lra.
Qed.
Lemma near2_images b c r p : near2 b c r p <-> exists w v, In (w, v) (images2 b p) /\ closer2 c v r = true.
Proof.
  unfold near2, closer2. split.
  - intros [R [kx [ky [K1 [K2 D]]]]].
    destruct (unit_shift_of kx K1) as [wx <-]. destruct (unit_shift_of ky K2) as [wy <-].
    exists (wx, wy). eexists. split; [apply in_images2; reflexivity|]. rewrite andb_true_iff, !Qltb_true. split; [exact R|].
    unfold dist_sq2, shift2, length_sq2, sides2 in *. cbn [x2 y2] in *. rewrite !as_sign_shift. lra.
  - intros [[wx wy] [v [I C]]]. apply in_images2 in I. subst v. rewrite andb_true_iff, !Qltb_true in C. destruct C as [R C].
    split; [exact R|]. exists (shift_of wx), (shift_of wy). repeat (split; [apply shift_of_unit|]).
    unfold dist_sq2, shift2, length_sq2, sides2 in *. cbn [x2 y2] in *. rewrite !as_sign_shift in C. lra.
Qed.

(** ** The tree search *)
Lemma iterate_more {E L : Type} (visit : tree E L -> bool) include K : forall f s r, iterate E L visit include K f s = Some r ->
  forall f', f <= f' -> iterate E L visit include K f' s = Some r.
Proof.
  induction f as [|f IH]; intros s r H f' Hf; cbn [iterate] in H; [discriminate|]. destruct f' as [|f']; [lia|]. cbn [iterate].
  destruct (iter_step E L visit include K s) as [|l s'|s'|]; [exact H| | |discriminate].
  - destruct (iterate E L visit include K f s') as [r'|] eqn:E1; [|discriminate]. rewrite (IH s' r' E1 f') by lia. exact H.
  - apply (IH s' r H). lia.
Qed.
Lemma selection_in {A} (Q : A -> Prop) l r : selection Q l r -> forall x, In x r <-> In x l /\ Q x.
Proof.
  intros [rest [PM [F1 F2]]] x. rewrite Forall_forall in F1, F2. split.
  - intro H. split; [|exact (F1 x H)]. apply (Permutation_in x (Permutation_sym PM)). apply in_or_app. now left.
  - intros [H1 H2]. apply (Permutation_in x PM) in H1. apply in_app_or in H1. destruct H1 as [H1|H1]; [exact H1|].
    exfalso. exact (F2 x H1 H2).
Qed.

Lemma Qminb_le a b : (Qminb a b <= a /\ Qminb a b <= b)%Q.
Proof.
  unfold Qminb. destruct (Qle_bool a b) eqn:E.
  - apply Qle_bool_iff in E. lra.
  - split; [|lra]. destruct (Qlt_le_dec b a); [lra|]. apply Qle_bool_iff in q. congruence.
Qed.
Lemma Qmaxb_le a b : (a <= Qmaxb a b /\ b <= Qmaxb a b)%Q.
Proof.
  unfold Qmaxb. destruct (Qle_bool a b) eqn:E.
  - apply Qle_bool_iff in E. lra.
  - split; [lra|]. destruct (Qlt_le_dec b a); [lra|]. apply Qle_bool_iff in q. congruence.
Qed.

Lemma flat_map_single {A B} (f : A -> list B) (g : A -> B) l : (forall x, In x l -> f x = [g x]) -> flat_map f l = map g l.
Proof.
  induction l as [|a l IH]; intro H; [reflexivity|]. cbn. rewrite (H a (or_introl eq_refl)), IH; [reflexivity|]. intros x Hx. apply H. now right.
Qed.
Lemma nth_error_seq n r : r < n -> nth_error (seq 0 n) r = Some r.
Proof.
  intro H. replace n with (length (seq 0 n)) in H by apply seq_length. rewrite (List.nth_error_nth' _ 0 H). rewrite seq_length in H.
  now rewrite seq_nth by lia.
Qed.

Lemma axis (c p mn mx L r : Q) (w : wrap_type) : (0 < L -> mn <= p <= mx ->
  (c - (p + L * as_sign w)) * (c - (p + L * as_sign w)) < r * r -> 0 < r ->
  Qabs (minimize_component (c - (mn + mx) / 2) L) <= c + r - (c - r) + (mx - mn))%Q.
Proof.
  intros HL Hp D R. eapply Qle_trans; [apply (minimize_best _ L (- shift_of w)); [exact HL|]|].
  - destruct w; cbn; unfold unit_shift; auto.
  - rewrite as_sign_shift in D. rewrite inject_Z_opp.
    assert (A : (- r < c - (p + L * inject_Z (shift_of w)) < r)%Q) by (split; nra).
    apply Qabs_case; intro; rewrite half in *; lra.
Qed.

Section Three.
  Variable ranks : nat.
  Variable cfg : config.
  Variables build_fuel search_fuel : nat.
  Variable pop : nat -> list nat -> nat.
  Variable box : extent3.
  Variable particles : nat -> list (nat * vec3).
  Variable remap : vec3 -> Geometry_Model.point3.
  Hypothesis Hbox : proper3 box.
  Hypothesis Hfuel : max_depth cfg < build_fuel.
  Hypothesis Hin : forall r, Forall (fun p => contains3 box (snd p) = true) (particles r).
  Hypothesis Hranks : forall r, particles r <> [] <-> r < ranks.
  Hypothesis Hids : forall r, NoDup (map fst (particles r)).

  Lemma exact3 : tree_search_exact vec3 wrap3 (images3 box) closer3 (search_tree3 cfg build_fuel search_fuel box particles) particles.
  Proof.
    intros rank c radius l H id pos. unfold search_tree3 in H.
    destruct (search3_selects cfg build_fuel box (particles rank) c radius Hbox Hfuel (Hin rank)) as [t [n [B S]]].
    rewrite B in H. destruct (S (Nat.max n search_fuel) (Nat.le_max_l _ _)) as [r [R [SEL _]]].
    unfold search3 in H, R. rewrite (iterate_more _ _ _ _ _ _ H (Nat.max n search_fuel) (Nat.le_max_r _ _)) in R. injection R as <-.
    rewrite (selection_in _ _ _ SEL (id, pos)). cbn [snd]. rewrite near3_images. tauto.
  Qed.

  Lemma from_positions3_contains l e p : from_positions3 l = Some e -> In p l -> contains3 e p = true.
  Proof.
    destruct l as [|a l]; [discriminate|]. cbn [from_positions3]. intro E. injection E as <-.
    assert (MN : forall l0 a0, (x3 (fold_left min_vec3 l0 a0) <= x3 a0 /\ y3 (fold_left min_vec3 l0 a0) <= y3 a0 /\ z3 (fold_left min_vec3 l0 a0) <= z3 a0)%Q /\
      forall p0, In p0 l0 -> (x3 (fold_left min_vec3 l0 a0) <= x3 p0 /\ y3 (fold_left min_vec3 l0 a0) <= y3 p0 /\ z3 (fold_left min_vec3 l0 a0) <= z3 p0)%Q).
    { induction l0 as [|b l0 IH]; intro a0; cbn [fold_left]; [split; [lra|contradiction]|].
      destruct (IH (min_vec3 a0 b)) as [I1 I2]. change (x3 (min_vec3 a0 b)) with (Qminb (x3 a0) (x3 b)) in I1. change (y3 (min_vec3 a0 b)) with (Qminb (y3 a0) (y3 b)) in I1. change (z3 (min_vec3 a0 b)) with (Qminb (z3 a0) (z3 b)) in I1.
      pose proof (Qminb_le (x3 a0) (x3 b)). pose proof (Qminb_le (y3 a0) (y3 b)). pose proof (Qminb_le (z3 a0) (z3 b)).
      split; [lra|]. intros p0 [<-|Hp]; [lra|]. exact (I2 p0 Hp). }
    assert (MX : forall l0 a0, (x3 a0 <= x3 (fold_left max_vec3 l0 a0) /\ y3 a0 <= y3 (fold_left max_vec3 l0 a0) /\ z3 a0 <= z3 (fold_left max_vec3 l0 a0))%Q /\
      forall p0, In p0 l0 -> (x3 p0 <= x3 (fold_left max_vec3 l0 a0) /\ y3 p0 <= y3 (fold_left max_vec3 l0 a0) /\ z3 p0 <= z3 (fold_left max_vec3 l0 a0))%Q).
    { induction l0 as [|b l0 IH]; intro a0; cbn [fold_left]; [split; [lra|contradiction]|].
      destruct (IH (max_vec3 a0 b)) as [I1 I2]. change (x3 (max_vec3 a0 b)) with (Qmaxb (x3 a0) (x3 b)) in I1. change (y3 (max_vec3 a0 b)) with (Qmaxb (y3 a0) (y3 b)) in I1. change (z3 (max_vec3 a0 b)) with (Qmaxb (z3 a0) (z3 b)) in I1.
      pose proof (Qmaxb_le (x3 a0) (x3 b)). pose proof (Qmaxb_le (y3 a0) (y3 b)). pose proof (Qmaxb_le (z3 a0) (z3 b)).
      split; [lra|]. intros p0 [<-|Hp]; [lra|]. exact (I2 p0 Hp). }
    intro Hp. destruct (MN l a) as [N1 N2]. destruct (MX l a) as [M1 M2]. unfold contains3. cbn [min3 max3].
    rewrite !andb_true_iff, !Qle_bool_iff. destruct Hp as [<-|Hp]; [tauto|]. specialize (N2 p Hp). specialize (M2 p Hp). tauto.
  Qed.

  Lemma extents3_nth r : r < ranks -> exists e, nth_error (extents3 ranks particles) r = Some e /\ from_positions3 (map snd (particles r)) = Some e.
  Proof.
    intro H. unfold extents3.
    rewrite (flat_map_single _ (fun r => match from_positions3 (map snd (particles r)) with Some e => e | None => E3 (V3 0 0 0) (V3 0 0 0) end)).
    - rewrite Halo_Proofs.nth_error_map', nth_error_seq by exact H. eexists. split; [reflexivity|].
      destruct (particles r) as [|x l] eqn:E; [|reflexivity]. exfalso. apply Hranks in H. contradiction.
    - intros x Hx. apply in_seq in Hx. destruct (particles x) as [|y l] eqn:E; [|reflexivity].
      exfalso. assert (K : particles x <> []) by (apply Hranks; lia). contradiction.
  Qed.
  Lemma extents_sound3 : extents_sound vec3 wrap3 (images3 box) closer3 (owns_part3 ranks box particles) particles.
  Proof.
    intros rank c radius H id [[wx wy] wz] p [pos [I1 I2]]. destruct (closer3 c p radius) eqn:C; [|reflexivity]. exfalso.
    assert (K : rank < ranks). { apply Hranks. intro E. rewrite E in I1. contradiction. }
    destruct (extents3_nth rank K) as [e [E1 E2]]. unfold owns_part3 in H. rewrite E1 in H.
    assert (CT : contains3 e pos = true) by (apply (from_positions3_contains _ _ _ E2); apply (in_map snd) in I1; exact I1).
    apply in_images3 in I2. subst p. unfold closer3 in C. rewrite andb_true_iff, !Qltb_true in C. destruct C as [R C].
    unfold length_sq3 in C. cbn [x3 y3 z3] in C. unfold contains3 in CT. rewrite !andb_true_iff, !Qle_bool_iff in CT.
    destruct CT as [[[[[X1 X2] Y1] Y2] Z1] Z2]. destruct Hbox as [B1 [B2 B3]].
    set (DX := (x3 c - (x3 pos + x3 (sides3 box) * as_sign wx))%Q) in *. set (DY := (y3 c - (y3 pos + y3 (sides3 box) * as_sign wy))%Q) in *.
    set (DZ := (z3 c - (z3 pos + z3 (sides3 box) * as_sign wz))%Q) in *.
    assert (SX : (0 <= DX * DX)%Q) by nra. assert (SY : (0 <= DY * DY)%Q) by nra. assert (SZ : (0 <= DZ * DZ)%Q) by nra.
    enough (O : overlap3 box c (V3 (x3 c + radius - (x3 c - radius)) (y3 c + radius - (y3 c - radius)) (z3 c + radius - (z3 c - radius)))
                    (center3 e) (sides3 e) = true) by congruence.
    unfold overlap3, periodic_distance_vec3, Qabs_le, center3. cbn [x3 y3 z3]. rewrite !andb_true_iff, !Qle_bool_iff.
    split; [split|]; unfold sides3 at 2; cbn [x3 y3 z3].
    - apply (axis _ (x3 pos) _ _ _ _ wx); [unfold sides3; cbn; lra|lra|fold DX; lra|exact R].
    - apply (axis _ (y3 pos) _ _ _ _ wy); [unfold sides3; cbn; lra|lra|fold DY; lra|exact R].
    - apply (axis _ (z3 pos) _ _ _ _ wz); [unfold sides3; cbn; lra|lra|fold DZ; lra|exact R].
  Qed.
  Lemma one_image3 q x w p p' : image_of vec3 wrap3 (images3 box) particles q x w p ->
    image_of vec3 wrap3 (images3 box) particles q x w p' -> p = p'.
  Proof.
    intros [pos [I1 I2]] [pos' [J1 J2]].
    assert (pos = pos') as <-.
    { clear I2 J2. specialize (Hids q). induction (particles q) as [|[a v] l IH]; [contradiction|]. cbn in Hids.
      inversion Hids as [|? ? N1 N2]; subst.
      destruct I1 as [I1|I1], J1 as [J1|J1].
      - congruence.
      - injection I1 as -> ->. exfalso. apply N1. apply in_map_iff. now exists (x, pos').
      - injection J1 as -> ->. exfalso. apply N1. apply in_map_iff. now exists (x, pos).
      - now apply IH. }
    destruct w as [[wx wy] wz]. apply in_images3 in I2. apply in_images3 in J2. congruence.
  Qed.

  Definition good3 (s : triangulation) : Prop := inv3 s /\ last_ok s.
  Lemma good3_ids s : good3 s -> NoDup (map fst (tetras s)).
  Proof. intros [H _]. exact (iv_ids _ _ _ H). Qed.
  Lemma good3_lt s i t : good3 s -> In (i, t) (tetras s) -> i < next_tetra s.
  Proof. intros [H _] I. apply (iv_fresh _ _ _ H). apply in_map_iff. now exists (i, t). Qed.
  Lemma good3_corner s i t p : good3 s -> In (i, t) (tetras s) -> In p (points_of t) -> p < num_points s.
  Proof. intros [H _] I P. exact (proj2 (proj2 (iv_corners _ _ _ H i t I)) p P). Qed.
  Lemma insert3_good pos s p new s' : good3 s -> insert3 pop remap pos s = Some (p, new, s') ->
    good3 s' /\ p = num_points s /\ num_points s' = S (num_points s) /\ next_tetra s <= next_tetra s' /\
    (forall i t, In (i, t) (tetras s') -> In p (points_of t) -> In i new) /\
    (forall i t, In (i, t) (tetras s') -> ~ In p (points_of t) -> exists t0, In (i, t0) (tetras s) /\ points_of t0 = points_of t) /\
    (forall i t, In (i, t) (tetras s') -> i < next_tetra s -> exists t0, In (i, t0) (tetras s) /\ points_of t0 = points_of t).
  Proof.
    intros [I L] E. unfold insert3 in E. set (pts := positions3 remap pos) in *.
    pose proof (circle3_corners pts) as CN.
    pose proof (insert_ok 3 face_ok3 face_ok3_perm split3 (flip3 (crossing3 pts)) (circle3 pts) (inside3 pts) pop count3 count3_last
      (flip_spec3 (crossing3 pts)) split_spec3 CN s p new s' I L E) as [a1 a2 a3 a4 a5 a6 _].
    pose proof (insert_lt 3 face_ok3 face_ok3_perm split3 (flip3 (crossing3 pts)) (circle3 pts) (inside3 pts) pop count3
      (flip_spec3 (crossing3 pts)) split_spec3 CN s p new s' I L E) as LT.
    pose proof (insert_old 3 face_ok3 face_ok3_perm split3 (flip3 (crossing3 pts)) (circle3 pts) (inside3 pts) pop count3
      (flip_spec3 (crossing3 pts)) split_spec3 CN s p new s' I L E) as OLD.
    split; [now split|]. split; [exact a3|]. split; [exact a4|]. split; [exact (proj1 LT)|]. split; [|split; [exact OLD|exact (proj2 LT)]].
    intros i t Ht Hp. apply a6.
    - apply in_map_iff. now exists (i, t).
    - exists t. now split.
  Qed.
End Three.

Section Two.
  Variable ranks : nat.
  Variable cfg : config.
  Variables build_fuel search_fuel : nat.
  Variable pop : nat -> list nat -> nat.
  Variable box : extent2.
  Variable particles : nat -> list (nat * vec2).
  Variable remap : vec2 -> Geometry_Model.point2.
  Hypothesis Hbox : proper2 box.
  Hypothesis Hfuel : max_depth cfg < build_fuel.
  Hypothesis Hin : forall r, Forall (fun p => contains2 box (snd p) = true) (particles r).
  Hypothesis Hranks : forall r, particles r <> [] <-> r < ranks.
  Hypothesis Hids : forall r, NoDup (map fst (particles r)).

  Lemma exact2 : tree_search_exact vec2 wrap2 (images2 box) closer2 (search_tree2 cfg build_fuel search_fuel box particles) particles.
  Proof.
    intros rank c radius l H id pos. unfold search_tree2 in H.
    destruct (search2_selects cfg build_fuel box (particles rank) c radius Hbox Hfuel (Hin rank)) as [t [n [B S]]].
    rewrite B in H. destruct (S (Nat.max n search_fuel) (Nat.le_max_l _ _)) as [r [R [SEL _]]].
    unfold search2 in H, R. rewrite (iterate_more _ _ _ _ _ _ H (Nat.max n search_fuel) (Nat.le_max_r _ _)) in R. injection R as <-.
    rewrite (selection_in _ _ _ SEL (id, pos)). cbn [snd]. rewrite near2_images. tauto.
  Qed.

  Lemma from_positions2_contains l e p : from_positions2 l = Some e -> In p l -> contains2 e p = true.
  Proof.
    destruct l as [|a l]; [discriminate|]. cbn [from_positions2]. intro E. injection E as <-.
    assert (MN : forall l0 a0, (x2 (fold_left min_vec2 l0 a0) <= x2 a0 /\ y2 (fold_left min_vec2 l0 a0) <= y2 a0)%Q /\
      forall p0, In p0 l0 -> (x2 (fold_left min_vec2 l0 a0) <= x2 p0 /\ y2 (fold_left min_vec2 l0 a0) <= y2 p0)%Q).
    { induction l0 as [|b l0 IH]; intro a0; cbn [fold_left]; [split; [lra|contradiction]|].
      destruct (IH (min_vec2 a0 b)) as [I1 I2]. change (x2 (min_vec2 a0 b)) with (Qminb (x2 a0) (x2 b)) in I1. change (y2 (min_vec2 a0 b)) with (Qminb (y2 a0) (y2 b)) in I1.
      pose proof (Qminb_le (x2 a0) (x2 b)). pose proof (Qminb_le (y2 a0) (y2 b)).
      split; [lra|]. intros p0 [<-|Hp]; [lra|]. exact (I2 p0 Hp). }
    assert (MX : forall l0 a0, (x2 a0 <= x2 (fold_left max_vec2 l0 a0) /\ y2 a0 <= y2 (fold_left max_vec2 l0 a0))%Q /\
      forall p0, In p0 l0 -> (x2 p0 <= x2 (fold_left max_vec2 l0 a0) /\ y2 p0 <= y2 (fold_left max_vec2 l0 a0))%Q).
    { induction l0 as [|b l0 IH]; intro a0; cbn [fold_left]; [split; [lra|contradiction]|].
      destruct (IH (max_vec2 a0 b)) as [I1 I2]. change (x2 (max_vec2 a0 b)) with (Qmaxb (x2 a0) (x2 b)) in I1. change (y2 (max_vec2 a0 b)) with (Qmaxb (y2 a0) (y2 b)) in I1.
      pose proof (Qmaxb_le (x2 a0) (x2 b)). pose proof (Qmaxb_le (y2 a0) (y2 b)).
      split; [lra|]. intros p0 [<-|Hp]; [lra|]. exact (I2 p0 Hp). }
    intro Hp. destruct (MN l a) as [N1 N2]. destruct (MX l a) as [M1 M2]. unfold contains2. cbn [min2 max2].
    rewrite !andb_true_iff, !Qle_bool_iff. destruct Hp as [<-|Hp]; [tauto|]. specialize (N2 p Hp). specialize (M2 p Hp). tauto.
  Qed.

  Lemma extents2_nth r : r < ranks -> exists e, nth_error (extents2 ranks particles) r = Some e /\ from_positions2 (map snd (particles r)) = Some e.
  Proof.
    intro H. unfold extents2.
    rewrite (flat_map_single _ (fun r => match from_positions2 (map snd (particles r)) with Some e => e | None => E2 (V2 0 0) (V2 0 0) end)).
    - rewrite Halo_Proofs.nth_error_map', nth_error_seq by exact H. eexists. split; [reflexivity|].
      destruct (particles r) as [|x l] eqn:E; [|reflexivity]. exfalso. apply Hranks in H. contradiction.
    - intros x Hx. apply in_seq in Hx. destruct (particles x) as [|y l] eqn:E; [|reflexivity].
      exfalso. assert (K : particles x <> []) by (apply Hranks; lia). contradiction.
  Qed.
  Lemma extents_sound2 : extents_sound vec2 wrap2 (images2 box) closer2 (owns_part2 ranks box particles) particles.
  Proof.
    intros rank c radius H id [wx wy] p [pos [I1 I2]]. destruct (closer2 c p radius) eqn:C; [|reflexivity]. exfalso.
    assert (K : rank < ranks). { apply Hranks. intro E. rewrite E in I1. contradiction. }
    destruct (extents2_nth rank K) as [e [E1 E2]]. unfold owns_part2 in H. rewrite E1 in H.
    assert (CT : contains2 e pos = true) by (apply (from_positions2_contains _ _ _ E2); apply (in_map snd) in I1; exact I1).
    apply in_images2 in I2. subst p. unfold closer2 in C. rewrite andb_true_iff, !Qltb_true in C. destruct C as [R C].
    unfold length_sq2 in C. cbn [x2 y2] in C. unfold contains2 in CT. rewrite !andb_true_iff, !Qle_bool_iff in CT.
    destruct CT as [[[X1 X2] Y1] Y2]. destruct Hbox as [B1 B2].
    set (DX := (x2 c - (x2 pos + x2 (sides2 box) * as_sign wx))%Q) in *. set (DY := (y2 c - (y2 pos + y2 (sides2 box) * as_sign wy))%Q) in *.
    assert (SX : (0 <= DX * DX)%Q) by nra. assert (SY : (0 <= DY * DY)%Q) by nra.
    enough (O : overlap2 box c (V2 (x2 c + radius - (x2 c - radius)) (y2 c + radius - (y2 c - radius)))
                    (center2 e) (sides2 e) = true) by congruence.
    unfold overlap2, periodic_distance_vec2, Qabs_le, center2. cbn [x2 y2]. rewrite !andb_true_iff, !Qle_bool_iff.
    split; unfold sides2 at 2; cbn [x2 y2].
    - apply (axis _ (x2 pos) _ _ _ _ wx); [unfold sides2; cbn; lra|lra|fold DX; lra|exact R].
    - apply (axis _ (y2 pos) _ _ _ _ wy); [unfold sides2; cbn; lra|lra|fold DY; lra|exact R].
  Qed.
  Lemma one_image2 q x w p p' : image_of vec2 wrap2 (images2 box) particles q x w p ->
    image_of vec2 wrap2 (images2 box) particles q x w p' -> p = p'.
  Proof.
    intros [pos [I1 I2]] [pos' [J1 J2]].
    assert (pos = pos') as <-.
    { clear I2 J2. specialize (Hids q). induction (particles q) as [|[a v] l IH]; [contradiction|]. cbn in Hids.
      inversion Hids as [|? ? N1 N2]; subst.
      destruct I1 as [I1|I1], J1 as [J1|J1].
      - congruence.
      - injection I1 as -> ->. exfalso. apply N1. apply in_map_iff. now exists (x, pos').
      - injection J1 as -> ->. exfalso. apply N1. apply in_map_iff. now exists (x, pos).
      - now apply IH. }
    destruct w as [wx wy]. apply in_images2 in I2. apply in_images2 in J2. congruence.
  Qed.

  Definition good2 (s : triangulation) : Prop := inv2 s /\ last_ok s.
  Lemma good2_ids s : good2 s -> NoDup (map fst (tetras s)).
  Proof. intros [H _]. exact (iv_ids _ _ _ H). Qed.
  Lemma good2_lt s i t : good2 s -> In (i, t) (tetras s) -> i < next_tetra s.
  Proof. intros [H _] I. apply (iv_fresh _ _ _ H). apply in_map_iff. now exists (i, t). Qed.
  Lemma good2_corner s i t p : good2 s -> In (i, t) (tetras s) -> In p (points_of t) -> p < num_points s.
  Proof. intros [H _] I P. exact (proj2 (proj2 (iv_corners _ _ _ H i t I)) p P). Qed.
  Lemma insert2_good pos s p new s' : good2 s -> insert2 pop remap pos s = Some (p, new, s') ->
    good2 s' /\ p = num_points s /\ num_points s' = S (num_points s) /\ next_tetra s <= next_tetra s' /\
    (forall i t, In (i, t) (tetras s') -> In p (points_of t) -> In i new) /\
    (forall i t, In (i, t) (tetras s') -> ~ In p (points_of t) -> exists t0, In (i, t0) (tetras s) /\ points_of t0 = points_of t) /\
    (forall i t, In (i, t) (tetras s') -> i < next_tetra s -> exists t0, In (i, t0) (tetras s) /\ points_of t0 = points_of t).
  Proof.
    intros [I L] E. unfold insert2 in E. set (pts := positions2 remap pos) in *.
    pose proof (circle2_corners pts) as CN.
    pose proof (insert_ok 2 face_ok2 face_ok2_perm split2 flip2 (circle2 pts) (inside2 pts) pop count2 count2_last
      flip_spec2 split_spec2 CN s p new s' I L E) as [a1 a2 a3 a4 a5 a6 _].
    pose proof (insert_lt 2 face_ok2 face_ok2_perm split2 flip2 (circle2 pts) (inside2 pts) pop count2
      flip_spec2 split_spec2 CN s p new s' I L E) as LT.
    pose proof (insert_old 2 face_ok2 face_ok2_perm split2 flip2 (circle2 pts) (inside2 pts) pop count2
      flip_spec2 split_spec2 CN s p new s' I L E) as OLD.
    split; [now split|]. split; [exact a3|]. split; [exact a4|]. split; [exact (proj1 LT)|]. split; [|split; [exact OLD|exact (proj2 LT)]].
    intros i t Ht Hp. apply a6.
    - apply in_map_iff. now exists (i, t).
    - exists t. now split.
  Qed.
End Two.
