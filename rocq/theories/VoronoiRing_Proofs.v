(** The triangles around an inner point form a ring. *)
From Coq Require Import List Arith Lia QArith Lqa Setoid Bool Permutation.
From Verif Require Cyclic_Model Cyclic_Spec Cyclic_Proofs.
From Verif Require Import Geometry_Model Geometry_Spec Circle2_Proofs Tiling2_Proofs Cone2_Proofs Delaunay_Model Delaunay_Spec
  DelaunaySurgery_Proofs Delaunay2_Proofs DelaunayGlobal2_Proofs Voronoi_Model.
Import ListNotations.
Local Open Scope nat_scope.

(** ** Finite choice and orbits *)
Lemma finite_choice {B} (d : B) (R : nat -> B -> Prop) n : (forall k, k < n -> exists b, R k b) -> exists f, forall k, k < n -> R k (f k).
Proof.
  induction n as [|n IH]; intro H; [exists (fun _ => d); intros; lia|].
  destruct IH as [f F]; [intros; apply H; lia|]. destruct (H n) as [b Hb]; [lia|].
  exists (fun k => if k =? n then b else f k). intros k Hk. destruct (Nat.eqb_spec k n) as [->|N]; [exact Hb|]. apply F. lia.
Qed.
Fixpoint iter (f : nat -> nat) (k x : nat) : nat := match k with 0 => x | S k' => f (iter f k' x) end.
Lemma iter_lt f n x k : (forall i, i < n -> f i < n) -> x < n -> iter f k x < n.
Proof. intros H Hx. induction k; cbn; auto. Qed.
Lemma not_NoDup_repeat (g : nat -> nat) m : ~ NoDup (map g (seq 0 m)) -> exists i j, i < j < m /\ g i = g j.
Proof.
  induction m as [|m IH]; intro H; [exfalso; apply H; constructor|].
  destruct (in_dec Nat.eq_dec (g m) (map g (seq 0 m))) as [I|I].
  - apply in_map_iff in I. destruct I as [i [E I]]. apply in_seq in I. exists i, m. split; [lia|exact E].
  - destruct IH as [i [j [L E]]]; [|exists i, j; split; [lia|exact E]]. intro ND. apply H.
    rewrite seq_S, map_app. cbn. apply (Permutation_NoDup (Permutation_cons_append _ _)). now constructor.
Qed.
(** The orbit of [x] is closed. *)
Lemma orbit f n x : (forall i, i < n -> f i < n) -> x < n ->
  forall k, In k (map (fun i => iter f i x) (seq 0 n)) -> In (f k) (map (fun i => iter f i x) (seq 0 n)).
Proof.
  intros H Hx k Hk. apply in_map_iff in Hk. destruct Hk as [i [<- Hi]]. apply in_seq in Hi.
  destruct (Nat.eq_dec (S i) n) as [E|E]; [|apply in_map_iff; exists (S i); split; [reflexivity|apply in_seq; lia]].
  destruct (not_NoDup_repeat (fun i => iter f i x) (S n)) as [a [b [L R]]].
  - intro ND. assert (LE : length (map (fun i => iter f i x) (seq 0 (S n))) <= length (seq 0 n)).
    { apply NoDup_incl_length; [exact ND|]. intros y Hy. apply in_map_iff in Hy. destruct Hy as [j [<- _]]. apply in_seq. split; [lia|]. apply iter_lt; auto. }
    rewrite map_length, !seq_length in LE. lia.
  - cbn beta in R. assert (SH : forall c, iter f (c + a) x = iter f (c + b) x) by (induction c; cbn; congruence).
    apply in_map_iff. exists (S i - b + a). split; [|apply in_seq; lia].
    rewrite SH. replace (S i - b + b) with (S i) by lia. reflexivity.
Qed.

(** ** Sharing a side *)
Lemma common_some t u f : get_common_face_with t u = Some f ->
  exists q fi r gi, In (q, fi) t /\ In (r, gi) u /\ face fi = f /\ face gi = f.
Proof.
  unfold get_common_face_with. destruct (find _ (map snd t)) as [fi|] eqn:E; [|discriminate]. cbn. intro H. injection H as <-.
  apply find_some in E. destruct E as [E1 E2]. apply in_map_iff in E1. destruct E1 as [[q fi'] [X E1]]. cbn in X. subst fi'.
  apply existsb_exists in E2. destruct E2 as [gi [E2 E3]]. apply in_map_iff in E2. destruct E2 as [[r gi'] [X E2]]. cbn in X. subst gi'.
  apply Nat.eqb_eq in E3. exists q, fi, r, gi. auto.
Qed.
Lemma common_exists t u q fi r gi : In (q, fi) t -> In (r, gi) u -> face fi = face gi -> exists f, get_common_face_with t u = Some f.
Proof.
  intros H K E. unfold get_common_face_with. destruct (find _ (map snd t)) as [x|] eqn:F; [cbn; eauto|exfalso].
  pose proof (find_none _ _ F fi) as X. cbn beta in X. rewrite <- not_true_iff_false in X. apply X.
  - change fi with (snd (q, fi)). now apply in_map.
  - apply existsb_exists. exists gi. split; [|now apply Nat.eqb_eq]. change gi with (snd (r, gi)). now apply in_map.
Qed.

Lemma combine_app_l {A B} (l l' : list A) (m : list B) : length m <= length l -> combine (l ++ l') m = combine l m.
Proof.
  revert m. induction l as [|a l IH]; intros m H; destruct m as [|b m]; cbn in *; try lia; [now destruct l'|reflexivity|]. f_equal. apply IH. lia.
Qed.

(** A relation that goes one way along a ring. *)
Section Oriented.
  Variable S : nat -> nat -> Prop.
  Hypothesis Sfun : forall i j k, S i j -> S i k -> j = k.
  Hypothesis Sinj : forall i j k, S j i -> S k i -> j = k.
  (** along a path *)
  Lemma path_oriented l : forall x y, (forall i j, In (i, j) (combine (x :: y :: l) (y :: l)) -> S i j \/ S j i) ->
    (forall i j k, In ((i, j), k) (combine (combine (x :: y :: l) (y :: l)) l) -> i <> k) ->
    S x y -> forall i j, In (i, j) (combine (x :: y :: l) (y :: l)) -> S i j.
  Proof.
    induction l as [|z l IH]; intros x y H D K i j [E|I]; try (injection E as <- <-; exact K); [destruct I|].
    apply (IH y z); auto.
    - intros a b Hab. apply H. now right.
    - intros a b c Hc. apply (D a b c). right. exact Hc.
    - destruct (H y z) as [X|X]; [right; left; reflexivity|exact X|]. exfalso.
      apply (D x y z); [left; reflexivity|]. exact (Sinj _ _ _ K X).
  Qed.
End Oriented.
Lemma ring_oriented (S : nat -> nat -> Prop) r : (forall i j k, S i j -> S i k -> j = k) -> (forall i j k, S j i -> S k i -> j = k) ->
  NoDup r -> 3 <= length r -> (forall i j, In (i, j) (Cyclic_Spec.around r) -> S i j \/ S j i) ->
  (forall i j, In (i, j) (Cyclic_Spec.around r) -> S i j) \/ (forall i j, In (i, j) (Cyclic_Spec.around r) -> S j i).
Proof.
  intros Sf Si ND L H. destruct r as [|x [|y r]]; cbn in L; try lia. destruct r as [|z r]; [cbn in L; lia|].
  unfold Cyclic_Spec.around in *.
  assert (E : combine (x :: y :: z :: r) ((y :: z :: r) ++ [x]) = combine (x :: y :: ((z :: r) ++ [x])) (y :: ((z :: r) ++ [x]))).
  { change (x :: y :: ((z :: r) ++ [x])) with ((x :: y :: z :: r) ++ [x]). rewrite combine_app_l; [reflexivity|]. cbn. rewrite app_length. cbn. lia. }
  rewrite E in *. clear E.
  assert (D : forall i j k, In ((i, j), k) (combine (combine (x :: y :: ((z :: r) ++ [x])) (y :: ((z :: r) ++ [x]))) ((z :: r) ++ [x])) -> i <> k).
  { intros i j k I. apply (In_nth _ _ ((0, 0), 0)) in I. destruct I as [m [Lm Em]].
    assert (LM : m < length ((z :: r) ++ [x])) by (rewrite combine_length in Lm; lia).
    assert (LL : length (combine (x :: y :: ((z :: r) ++ [x])) (y :: ((z :: r) ++ [x]))) = Datatypes.S (length ((z :: r) ++ [x]))).
    { rewrite combine_length. cbn [length]. lia. }
    assert (N1 : nth_error (combine (combine (x :: y :: ((z :: r) ++ [x])) (y :: ((z :: r) ++ [x]))) ((z :: r) ++ [x])) m = Some (i, j, k)).
    { rewrite <- Em. apply List.nth_error_nth'. exact Lm. }
    assert (CO : forall (A B : Type) (l : list A) (l' : list B) m a b, nth_error (combine l l') m = Some (a, b) -> nth_error l m = Some a /\ nth_error l' m = Some b).
    { clear. intros A B l. induction l as [|u l IH]; intros l' m a b H; [destruct m; discriminate|].
      destruct l' as [|v l']; [destruct m; discriminate|]. destruct m as [|m]; cbn in *; [injection H as -> ->; auto|auto]. }
    apply CO in N1. destruct N1 as [N1 N3]. apply CO in N1. destruct N1 as [N1 N2]. clear Em Lm.
    assert (NP : forall a b c, nth_error (x :: y :: z :: r) a = Some c -> nth_error (x :: y :: z :: r) b = Some c -> a = b).
    { intros a b c Ha Hb. assert (La : a < length (x :: y :: z :: r)) by (apply nth_error_Some; congruence).
      apply (proj1 (NoDup_nth_error _) ND); congruence. }
    intros ->. change (x :: y :: ((z :: r) ++ [x])) with ((x :: y :: z :: r) ++ [x]) in N1.
    rewrite app_length in LM. cbn [length] in LM.
    rewrite nth_error_app1 in N1 by (cbn [length]; lia).
    destruct (Nat.eq_dec m (length (z :: r))) as [Em|Em].
    - rewrite nth_error_app2 in N3 by (cbn [length] in *; lia). rewrite Em, Nat.sub_diag in N3. cbn in N3. injection N3 as ->.
      specialize (NP m 0 k N1 eq_refl). cbn [length] in Em. lia.
    - rewrite nth_error_app1 in N3 by (cbn [length] in *; lia).
      specialize (NP m (Datatypes.S (Datatypes.S m)) k N1 N3). lia. }
  destruct (H x y) as [X|X]; [left; reflexivity| |].
  - left. apply (path_oriented S Si _ x y); auto.
  - right. apply (path_oriented (fun i j => S j i) (fun i j k A B => Sf i j k A B) _ x y); auto.
    intros i j I. destruct (H i j I); auto.
Qed.

(** ** The star of a point *)
Section Star.
  Variable pts : nat -> point2.
  Variable s : triangulation.
  Variable p : nat.
  Hypothesis G : good pts s.
  Hypothesis inner : 3 <= p < num_points s.

  Let I := gd_inv _ _ G.
  Let L := gd_tiling _ _ G.
  Notation items := (point_to_tetras s p).
  Notation n := (length items).
  Notation item := (fun k => nth k items no_tetra).
  Definition edge (k a b : nat) : Prop := tri s (fst (item k)) p a b.

  Lemma tri_distinct i a b c : tri s i a b c -> a <> b /\ a <> c /\ b <> c.
  Proof. intros [t [Ht R]]. exact (rot3_nodup _ _ _ _ R (proj1 (proj2 (iv_corners _ _ _ I _ _ Ht)))). Qed.
  Lemma tri_turned i j a b c d : tri s i p a b -> tri s j p c d -> ~ (a = d /\ b = c).
  Proof.
    intros H K [<- <-]. pose proof (tl_pos _ _ _ L _ _ _ _ H). pose proof (tl_pos _ _ _ L _ _ _ _ K).
    assert ((orient (pts p) (pts b) (pts a) == - orient (pts p) (pts a) (pts b))%Q) by (unfold orient, area2; cbn; ring). lra.
  Qed.

  Lemma items_in e : In e items <-> In e (tetras s) /\ In p (points_of (snd e)).
  Proof.
    unfold point_to_tetras. rewrite in_flat_map. split.
    - intros [e' [H K]]. apply in_map_iff in K. destruct K as [q [<- K]]. apply filter_In in K. destruct K as [K E].
      apply Nat.eqb_eq in E. subst q. auto.
    - intros [H K]. exists e. split; [exact H|]. apply in_map_iff. exists p. split; [reflexivity|]. apply filter_In. split; [exact K|]. apply Nat.eqb_refl.
  Qed.
  Lemma items_ids : NoDup (map fst items).
  Proof.
    assert (X : forall l, incl l (tetras s) -> NoDup (map fst l) ->
      NoDup (map fst (flat_map (fun e => map (fun _ => e) (filter (Nat.eqb p) (points_of (snd e)))) l))).
    { induction l as [|e l IH]; cbn [flat_map map]; intros HI ND; [constructor|]. inversion ND as [|? ? N1 N2]; subst.
      assert (IL : incl l (tetras s)) by (intros z Hz; apply HI; now right). specialize (IH IL N2).
      assert (NP : NoDup (filter (Nat.eqb p) (points_of (snd e)))).
      { apply NoDup_filter. destruct e as [i t]. apply (proj1 (proj2 (iv_corners _ _ _ I i t (HI _ (or_introl eq_refl))))). }
      assert (AE : forall q, In q (filter (Nat.eqb p) (points_of (snd e))) -> q = p) by (intros q Hq; apply filter_In in Hq; symmetry; now apply Nat.eqb_eq).
      destruct (filter (Nat.eqb p) (points_of (snd e))) as [|q [|q' m]]; cbn; [exact IH| |].
      - constructor; [|exact IH]. intro Z. apply N1. apply in_map_iff in Z. destruct Z as [z [<- Z]]. apply in_flat_map in Z.
        destruct Z as [z' [Z1 Z2]]. apply in_map_iff in Z2. destruct Z2 as [_ [<- _]]. now apply in_map.
      - exfalso. inversion NP as [|? ? M1 _]; subst. apply M1. left. rewrite (AE q), (AE q'); auto; cbn; auto. }
    apply X; [apply incl_refl|exact (iv_ids _ _ _ I)].
  Qed.
  Lemma item_eq k l : k < n -> l < n -> fst (item k) = fst (item l) -> k = l.
  Proof.
    intros Hk Hl E. pose proof items_ids as ND. apply (proj1 (NoDup_nth (map fst items) 0)) with (i := k) (j := l) in ND; auto; try (now rewrite map_length).
    change 0 with (fst no_tetra). now rewrite !map_nth.
  Qed.
  Lemma item_in k : k < n -> In (item k) (tetras s) /\ In p (points_of (snd (item k))).
  Proof. intro Hk. apply items_in. now apply nth_In. Qed.
  Lemma edge_ex k : k < n -> exists ab, edge k (fst ab) (snd ab).
  Proof.
    intro Hk. destruct (item_in k Hk) as [H K]. unfold edge. destruct (nth k items no_tetra) as [i t]. cbn [fst snd] in *.
    destruct (iv_corners _ _ _ I i t H) as [Len _].
    assert (E : exists a b, rot3 (points_of t) p a b).
    { unfold points_of in *. destruct t as [|[x ?] [|[y ?] [|[z ?] [|? ?]]]]; cbn in Len; try lia. cbn in *.
      destruct K as [->|[->|[->|[]]]]; [exists y, z|exists z, x|exists x, y]; unfold rot3; tauto. }
    destruct E as [a [b R]]. exists (a, b), t. auto.
  Qed.
  Lemma edge_idx i a b : tri s i p a b -> exists k, k < n /\ fst (item k) = i.
  Proof.
    intros [t [Ht R]]. assert (H : In (i, t) items) by (apply items_in; split; [exact Ht|]; apply (rot3_in _ _ _ _ p R); auto).
    destruct (In_nth _ _ no_tetra H) as [k [Hk E]]. exists k. rewrite E. auto.
  Qed.
  Lemma tri_unique i a b c d : tri s i p a b -> tri s i p c d -> a = c /\ b = d.
  Proof.
    intros H K. destruct (tri_distinct _ _ _ _ K) as [N1 [N2 N3]]. pose proof (tri_same _ _ _ _ _ _ _ _ I H K) as R.
    destruct R as [E|[E|E]]; injection E; intros; subst; intuition.
  Qed.
  Lemma tri_side i a b : tri s i b p a -> exists j c f ps t u fi gi, tri s j p b c /\ j <> i /\
    In (i, t) (tetras s) /\ In (j, u) (tetras s) /\ In (a, fi) t /\ In (c, gi) u /\ face fi = f /\ face gi = f /\ In (f, ps) (faces s) /\ (ps = [b; p] \/ ps = [p; b]).
  Proof.
    intro H. destruct (tri_entry s i b p a I H) as [t [fi [Ht [R [Hc F]]]]].
    destruct (opposing fi) as [[j q]|] eqn:Eo.
    - pose proof (tri_opposing s i t b p a fi j q I Ht R Hc Eo) as Hj. apply (iv_opp _ _ _ I i t a fi Ht Hc) in Eo.
      destruct Eo as [Ne [u [gi [Hu [Hq Eg]]]]]. exists j, q, (face fi), (if flipped fi then [p; b] else [b; p]), t, u, fi, gi.
      repeat (split; [assumption||reflexivity|]). destruct (flipped fi); auto.
    - exfalso. assert (p < 3); [|lia]. apply (gd_hull _ _ G i t a fi _ p Ht Hc Eo F). destruct (flipped fi); cbn; auto.
  Qed.
  Lemma star_succ i a b : tri s i p a b -> exists j c, tri s j p b c.
  Proof. intro H. destruct (tri_side i a b) as [j [c [_ [_ [_ [_ [_ [_ [X _]]]]]]]]]; [now apply tri_rot, tri_rot|]. eauto. Qed.
  Lemma star_pred i a b : tri s i p a b -> exists j c, tri s j p c a.
  Proof.
    intro H. destruct (tri_entry s i p a b I H) as [t [fi [Ht [R [Hc F]]]]].
    destruct (opposing fi) as [[j q]|] eqn:Eo.
    - exists j, q. apply tri_rot. exact (tri_opposing s i t p a b fi j q I Ht R Hc Eo).
    - exfalso. assert (p < 3); [|lia]. apply (gd_hull _ _ G i t b fi _ p Ht Hc Eo F). destruct (flipped fi); cbn; auto.
  Qed.

  (** The next triangle in the positive direction. *)
  Definition Succ (k l : nat) : Prop := k < n /\ l < n /\ exists a b c, edge k a b /\ edge l b c.
  Lemma succ_fun i j k : Succ i j -> Succ i k -> j = k.
  Proof.
    intros [Hi [Hj [a [b [c [E1 E2]]]]]] [_ [Hk [a' [b' [c' [E3 E4]]]]]]. destruct (tri_unique _ _ _ _ _ E1 E3) as [<- <-].
    apply item_eq; auto. exact (tl_edge _ _ _ L _ _ _ _ _ _ E2 E4).
  Qed.
  Lemma succ_inj i j k : Succ j i -> Succ k i -> j = k.
  Proof.
    intros [Hj [Hi [a [b [c [E1 E2]]]]]] [Hk [_ [a' [b' [c' [E3 E4]]]]]]. destruct (tri_unique _ _ _ _ _ E2 E4) as [<- <-].
    apply item_eq; auto. exact (tl_edge _ _ _ L _ _ _ _ _ _ (tri_rot _ _ _ _ _ (tri_rot _ _ _ _ _ E1)) (tri_rot _ _ _ _ _ (tri_rot _ _ _ _ _ E3))).
  Qed.
  Lemma succ_irrefl i : ~ Succ i i.
  Proof.
    intros [_ [_ [a [b [c [E1 E2]]]]]]. destruct (tri_unique _ _ _ _ _ E1 E2) as [E _]. destruct (tri_distinct _ _ _ _ E1) as [_ [_ N]]. auto.
  Qed.
  Lemma succ_asym i j : Succ i j -> Succ j i -> False.
  Proof.
    intros [_ [_ [a [b [c [E1 E2]]]]]] [_ [_ [a' [b' [c' [E3 E4]]]]]]. destruct (tri_unique _ _ _ _ _ E2 E3) as [-> ->].
    destruct (tri_unique _ _ _ _ _ E1 E4) as [-> ->]. exact (tri_turned _ _ _ _ _ _ E1 E2 (conj eq_refl eq_refl)).
  Qed.
  Lemma succ_ex k : k < n -> exists l, Succ k l.
  Proof.
    intro Hk. destruct (edge_ex k Hk) as [[a b] E]. cbn [fst snd] in E. destruct (star_succ _ _ _ E) as [j [c Hj]].
    destruct (edge_idx _ _ _ Hj) as [l [Hl El]]. exists l. split; [exact Hk|]. split; [exact Hl|]. exists a, b, c. split; [exact E|].
    unfold edge. cbn beta. rewrite El. exact Hj.
  Qed.
  Lemma pred_ex k : k < n -> exists l, Succ l k.
  Proof.
    intro Hk. destruct (edge_ex k Hk) as [[a b] E]. cbn [fst snd] in E. destruct (star_pred _ _ _ E) as [j [c Hj]].
    destruct (edge_idx _ _ _ Hj) as [l [Hl El]]. exists l. split; [exact Hl|]. split; [exact Hk|]. exists c, a, b. split; [|exact E].
    unfold edge. cbn beta. rewrite El. exact Hj.
  Qed.

  (** A common face is the side between a triangle and its successor. *)
  Definition joined (k l f : nat) : Prop := exists a b c ps, edge k a b /\ edge l b c /\ In (f, ps) (faces s) /\ (ps = [b; p] \/ ps = [p; b]).
  Lemma common_joined k l f : k < n -> l < n -> k <> l -> get_common_face_with (snd (item k)) (snd (item l)) = Some f ->
    joined k l f \/ joined l k f.
  Proof.
    intros Hk Hl N E. destruct (edge_ex k Hk) as [[a b] E1]. destruct (edge_ex l Hl) as [[c d] E2]. cbn [fst snd] in *.
    assert (Ne : fst (item k) <> fst (item l)) by (intro Z; apply N; exact (item_eq _ _ Hk Hl Z)).
    destruct (item_in k Hk) as [Ik _]. destruct (item_in l Hl) as [Il _]. unfold joined, edge in *.
    destruct (nth k items no_tetra) as [i t]. destruct (nth l items no_tetra) as [j u]. cbn [fst snd] in *.
    apply common_some in E. destruct E as [q [fi [r [gi [Hq [Hr [F1 F2]]]]]]].
    assert (Eo : opposing fi = Some (Conn j r)).
    { apply (iv_opp _ _ _ I i t q fi Ik Hq). split; [congruence|]. exists u, gi. split; [exact Il|]. split; [exact Hr|congruence]. }
    assert (FA : forall x y, rot3 (points_of t) x y q -> In (f, if flipped fi then [y; x] else [x; y]) (faces s)).
    { intros x y R. destruct (tri_entry s i x y q I (ex_intro _ t (conj Ik R))) as [t' [fi' [Ht' [_ [Hc' F]]]]].
      rewrite (NoDup_ids_eq _ _ _ _ (iv_ids _ _ _ I) Ht' Ik) in *.
      rewrite (NoDup_ids_eq t _ _ _ (proj1 (proj2 (iv_corners _ _ _ I _ _ Ik))) Hc' Hq) in *. now rewrite F1 in F. }
    destruct E1 as [t' [Ht' R]]. rewrite (NoDup_ids_eq _ _ _ _ (iv_ids _ _ _ I) Ht' Ik) in R. clear t' Ht'.
    pose proof (entry_point _ _ _ Hq) as Pq. apply (rot3_in _ _ _ _ q R) in Pq. destruct Pq as [->|[->| ->]].
    - exfalso. pose proof (tri_opposing s i t a b p fi j r I Ik (rot3_shift _ _ _ _ R) Hq Eo) as Hj.
      pose proof (tri_same _ _ _ _ _ _ _ _ I Hj E2) as RR. pose proof (tri_distinct i p a b (ex_intro _ t (conj Ik R))) as [N1 [N2 N3]].
      destruct RR as [Z|[Z|Z]]; injection Z as Z1 Z2 Z3; [congruence| |congruence]. subst c d.
      exact (tri_turned i j _ _ _ _ (ex_intro _ t (conj Ik R)) E2 (conj eq_refl eq_refl)).
    - left. assert (R2 : rot3 (points_of t) b p a) by (now apply rot3_shift, rot3_shift).
      exists a, b, r, (if flipped fi then [p; b] else [b; p]). split; [exists t; auto|]. split; [exact (tri_opposing s i t b p a fi j r I Ik R2 Hq Eo)|].
      split; [exact (FA _ _ R2)|]. destruct (flipped fi); auto.
    - right. exists r, a, b, (if flipped fi then [a; p] else [p; a]).
      split; [apply tri_rot; exact (tri_opposing s i t p a b fi j r I Ik R Hq Eo)|]. split; [exists t; auto|].
      split; [exact (FA _ _ R)|]. destruct (flipped fi); auto.
  Qed.
  Lemma joined_succ k l f : k < n -> l < n -> joined k l f -> Succ k l.
  Proof. intros Hk Hl [a [b [c [ps [H1 [H2 _]]]]]]. split; [exact Hk|]. split; [exact Hl|]. eauto. Qed.
  Lemma succ_common k l : Succ k l -> exists f, get_common_face_with (snd (item k)) (snd (item l)) = Some f.
  Proof.
    intros [Hk [Hl [a [b [c [E1 E2]]]]]]. destruct (item_in k Hk) as [Ik _]. destruct (item_in l Hl) as [Il _]. unfold edge in *.
    destruct (tri_side _ a b (tri_rot _ _ _ _ _ (tri_rot _ _ _ _ _ E1))) as [j [c' [f [ps [t [u [fi [gi [Hj [_ [Ht [Hu [Ha [Hc [Ef [Eg _]]]]]]]]]]]]]]]].
    pose proof (tl_edge _ _ _ L _ _ _ _ _ _ E2 Hj) as E. subst j.
    destruct (nth k items no_tetra) as [i t']. destruct (nth l items no_tetra) as [j u']. cbn [fst snd] in *.
    rewrite <- (NoDup_ids_eq _ _ _ _ (iv_ids _ _ _ I) Ht Ik), <- (NoDup_ids_eq _ _ _ _ (iv_ids _ _ _ I) Hu Il).
    apply (common_exists t u a fi c' gi Ha Hc). congruence.
  Qed.
  Lemma common_sym t u : tetras_are_neighbours t u = tetras_are_neighbours u t.
  Proof.
    unfold tetras_are_neighbours.
    assert (X : forall t u, (exists f, get_common_face_with t u = Some f) -> exists f, get_common_face_with u t = Some f).
    { intros t' u' [f E]. apply common_some in E. destruct E as [q [fi [r [gi [H [K [A B]]]]]]]. apply (common_exists u' t' r gi q fi K H). congruence. }
    destruct (get_common_face_with t u) eqn:E1, (get_common_face_with u t) eqn:E2; auto.
    - destruct (X t u) as [f F]; [eauto|]. congruence.
    - destruct (X u t) as [f F]; [eauto|]. congruence.
  Qed.

  Definition related (i j : nat) : bool := tetras_are_neighbours (snd (item i)) (snd (item j)).
  Lemma related_iff i j : i < n -> j < n -> i <> j -> (related i j = true <-> Succ i j \/ Succ j i).
  Proof.
    intros Hi Hj N. split.
    - unfold related, tetras_are_neighbours. destruct (get_common_face_with _ _) as [f|] eqn:E; [intros _|discriminate].
      destruct (common_joined i j f Hi Hj N E) as [X|X]; [left|right]; eapply joined_succ; eauto.
    - intros [X|X]; [|unfold related; rewrite common_sym]; unfold related, tetras_are_neighbours; destruct (succ_common _ _ X) as [f F]; cbn beta in F; now rewrite F.
  Qed.
  Lemma star_two : Cyclic_Spec.two_related (fun i j => related i j = true) n.
  Proof.
    intros i Hi. destruct (succ_ex i Hi) as [a Ha]. destruct (pred_ex i Hi) as [b Hb]. exists a, b.
    assert (a <> b) by (intros ->; exact (succ_asym _ _ Ha Hb)).
    assert (a <> i) by (intros ->; exact (succ_irrefl _ Ha)). assert (b <> i) by (intros ->; exact (succ_irrefl _ Hb)).
    repeat (split; [assumption||apply Ha||apply Hb|]). intros j Hj N. rewrite related_iff by auto. split.
    - intros [X|X]; [left; exact (succ_fun _ _ _ X Ha)|right; exact (succ_inj _ _ _ X Hb)].
    - intros [->| ->]; auto.
  Qed.
  Lemma star_some : 0 < n.
  Proof.
    destruct (iv_points _ _ _ I p (proj2 inner)) as [i [t [H K]]].
    assert (X : In (i, t) items) by (apply items_in; auto). destruct items; [destruct X|cbn; lia].
  Qed.
  (** A part of the star that is closed under successors is the whole star. *)
  Lemma star_closed (O : list nat) : O <> [] -> (forall k, In k O -> k < n) -> (forall k, In k O -> exists l, Succ k l /\ In l O) ->
    forall k, k < n -> In k O.
  Proof.
    intros NO LO CO k Hk. destruct (finite_choice (0, 0) (fun k ab => edge k (fst ab) (snd ab)) n edge_ex) as [g Hg].
    pose proof (Hg k Hk) as Ek. set (a := fst (g k)) in *. set (b := snd (g k)) in *. pose proof (tl_pos _ _ _ L _ _ _ _ Ek) as Pk.
    destruct (cone_ins (pts p) (pts a) (pts b) Pk) as [X0 X1]. set (x := mix (1#2) (pts a) (pts b)) in *.
    destruct (cone pts (pts p) x (map g O)) as [a' [b' [HI [C1 C2]]]].
    - exact X0.
    - intros u v H. apply in_map_iff in H. destruct H as [l [El Hl]]. pose proof (Hg l (LO l Hl)) as E. rewrite El in E. exact (tl_pos _ _ _ L _ _ _ _ E).
    - intros u v H. apply in_map_iff in H. destruct H as [l [El Hl]]. destruct (CO l Hl) as [m [[_ [Hm [u' [v' [w [E1 E2]]]]]] Im]].
      pose proof (Hg l (LO l Hl)) as E. rewrite El in E. destruct (tri_unique _ _ _ _ _ E E1) as [_ V]. cbn [fst snd] in V. subst v'.
      exists w. apply in_map_iff. exists m. split; [|exact Im]. destruct (tri_unique _ _ _ _ _ (Hg m Hm) E2) as [V1 V2].
      rewrite (surjective_pairing (g m)). congruence.
    - destruct O; [congruence|discriminate].
    - apply in_map_iff in HI. destruct HI as [l [El Hl]]. pose proof (Hg l (LO l Hl)) as E. rewrite El in E. cbn [fst snd] in E.
      pose proof (tl_pos _ _ _ L _ _ _ _ E) as Pl. destruct (cone_cls _ _ _ _ Pl C1 C2) as [e [E0 E1]].
      assert (W : exists e', (0 < e' /\ e' < 1 /\ e' <= e)%Q).
      { destruct (Qlt_le_dec e (1#2)); [exists e|exists (1#2)%Q]; lra. }
      destruct W as [e' [W1 [W2 W3]]]. pose proof (tl_disj_cls _ _ _ L _ _ _ _ _ _ _ _ _ Ek E (X1 e' W1 W2) (E1 e' W1 W3)) as F.
      rewrite (item_eq k l Hk (LO l Hl) F). exact Hl.
  Qed.
  Lemma star_connected : Cyclic_Spec.connected (fun i j => related i j = true) n.
  Proof.
    intros P P0 PS i Hi. destruct (finite_choice 0 Succ n succ_ex) as [f Hf].
    assert (Lf : forall i, i < n -> f i < n) by (intros j Hj; apply (Hf j Hj)).
    set (O := map (fun i => iter f i 0) (seq 0 n)).
    assert (OP : forall k, k < n -> P (iter f k 0)).
    { intros k _. induction k as [|k IH]; [exact P0|]. cbn. pose proof (iter_lt f n 0 k Lf star_some) as Lk.
      pose proof (Hf _ Lk) as S1. assert (N : iter f k 0 <> f (iter f k 0)) by (intro Z; rewrite <- Z in S1; exact (succ_irrefl _ S1)).
      apply (PS (iter f k 0)); auto. apply related_iff; auto. }
    assert (IO : In i O).
    { apply star_closed; auto.
      - unfold O. pose proof star_some. destruct n; [lia|discriminate].
      - intros k Hk. apply in_map_iff in Hk. destruct Hk as [m [<- _]]. apply iter_lt; auto. exact star_some.
      - intros k Hk. exists (f k). split; [|apply orbit; auto; exact star_some]. apply Hf. apply in_map_iff in Hk. destruct Hk as [m [<- _]]. apply iter_lt; auto. exact star_some. }
    apply in_map_iff in IO. destruct IO as [m [<- Hm]]. apply OP. apply in_seq in Hm. lia.
  Qed.

  Theorem star_ring : exists ring, Cyclic_Model.arrange_cyclic_by related n = Some (Cyclic_Spec.around ring) /\ Permutation ring (seq 0 n) /\ 3 <= length ring /\
    ((forall i j, In (i, j) (Cyclic_Spec.around ring) -> Succ i j) \/ (forall i j, In (i, j) (Cyclic_Spec.around ring) -> Succ j i)).
  Proof.
    destruct (Cyclic_Proofs.arrange_spec related n) as [ring [E [PE R]]].
    - intros. apply common_sym.
    - exact star_two.
    - exact star_connected.
    - exact star_some.
    - exists (0 :: ring). split; [exact E|]. split; [exact PE|].
      pose proof (Permutation_length PE) as LE. rewrite seq_length in LE.
      assert (L3 : 3 <= length (0 :: ring)).
      { rewrite LE. apply (Cyclic_Proofs.n_ge_3 related n); [exact star_two|]. exact star_some. }
      assert (ND : NoDup (0 :: ring)) by (apply (Permutation_NoDup (Permutation_sym PE)), seq_NoDup).
      split; [exact L3|]. apply ring_oriented; auto; [exact succ_fun|exact succ_inj|].
      intros i j H. assert (LT : forall k, In k (0 :: ring) -> k < n) by (intros k Hk; apply (Permutation_in _ PE) in Hk; apply in_seq in Hk; lia).
      destruct (Cyclic_Proofs.around_once (0 :: ring)) as [A1 A2].
      assert (Hi : i < n) by (apply LT; rewrite <- A1; change i with (fst (i, j)); now apply in_map).
      assert (Hj : j < n) by (apply LT; apply (Permutation_in _ A2); change j with (snd (i, j)); now apply in_map).
      destruct (Nat.eq_dec i j) as [->|N]; [|apply related_iff; auto].
      exfalso. clear - H ND L3.
      destruct (In_nth _ _ (0, 0) H) as [k [Lk Ek]].
      unfold Cyclic_Spec.around in *. rewrite combine_length, app_length in Lk. cbn [length] in Lk. rewrite combine_nth in Ek by (rewrite app_length; cbn; lia).
      injection Ek as E1 E2. destruct (Nat.eq_dec (S k) (length (0 :: ring))) as [Z|Z].
      + rewrite app_nth2 in E2 by (cbn [length] in *; lia). replace (k - length ring) with 0 in E2 by (cbn [length] in *; lia). cbn [nth] in E2.
        assert (E3 : nth k (0 :: ring) 0 = nth 0 (0 :: ring) 0) by (cbn [nth] in *; congruence). 
        apply (proj1 (NoDup_nth _ 0) ND) in E3; cbn [length] in *; lia.
      + rewrite app_nth1 in E2 by (cbn [length] in *; lia). change (nth k ring 0) with (nth (S k) (0 :: ring) 0) in E2. rewrite <- E2 in E1.
        apply (proj1 (NoDup_nth _ 0) ND) in E1; cbn [length] in *; lia.
  Qed.
End Star.
