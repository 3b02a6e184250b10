(** Proofs about the import of halo particles, for any triangulation code that keeps its promises. *)
From Coq Require Import List Arith QArith Lia Bool.
From Verif Require Import Delaunay_Model Halo_Model Halo_Spec.
Import ListNotations.
Local Open Scope nat_scope.

(** ** Lists of fallible operations *)
Lemma map_outcome_nth {A B} (f : A -> outcome B) l r : map_outcome f l = Done r ->
  length r = length l /\ forall i a, nth_error l i = Some a -> exists b, nth_error r i = Some b /\ f a = Done b.
Proof.
  revert r. induction l as [|a l IH]; cbn [map_outcome]; intros r H.
  - injection H as <-. split; [reflexivity|]. intros [|i] a E; discriminate.
  - destruct (f a) as [b|] eqn:E; cbn [andthen] in H; [|discriminate].
    destruct (map_outcome f l) as [r'|]; cbn [andthen] in H; [|discriminate]. injection H as <-.
    destruct (IH r' eq_refl) as [L X]. split; [cbn; lia|]. intros [|i] a' Ea; cbn in *.
    + injection Ea as <-. eauto.
    + eauto.
Qed.
Lemma map_outcome_nth' {A B} (f : A -> outcome B) l r i b : map_outcome f l = Done r -> nth_error r i = Some b ->
  exists a, nth_error l i = Some a /\ f a = Done b.
Proof.
  intros H E. destruct (map_outcome_nth f l r H) as [L X].
  assert (K : i < length l) by (rewrite <- L; apply nth_error_Some; congruence).
  apply nth_error_Some in K. destruct (nth_error l i) as [a|] eqn:Ea; [|congruence].
  destruct (X i a Ea) as [b' [E' F]]. exists a. split; [reflexivity|congruence].
Qed.
Lemma map_outcome_in {A B} (f : A -> outcome B) l r b : map_outcome f l = Done r -> In b r -> exists a, In a l /\ f a = Done b.
Proof.
  intros H I. apply In_nth_error in I. destruct I as [i E]. destruct (map_outcome_nth' f l r i b H E) as [a [Ea F]].
  exists a. split; [exact (nth_error_In _ _ Ea)|exact F].
Qed.
Lemma map_outcome_in' {A B} (f : A -> outcome B) l r a : map_outcome f l = Done r -> In a l -> exists b, In b r /\ f a = Done b.
Proof.
  intros H I. apply In_nth_error in I. destruct I as [i E]. destruct (proj2 (map_outcome_nth f l r H) i a E) as [b [Eb F]].
  exists b. split; [exact (nth_error_In _ _ Eb)|exact F].
Qed.
Lemma map_outcome_total {A B} (f : A -> outcome B) l : (forall a, In a l -> exists b, f a = Done b) -> exists r, map_outcome f l = Done r.
Proof.
  induction l as [|a l IH]; intro H; [now exists []|]. cbn [map_outcome].
  destruct (H a (or_introl eq_refl)) as [b ->]. destruct IH as [r ->]; [intros x Hx; apply H; now right|].
  cbn. eauto.
Qed.
Lemma combine_seq_nth {A} (l : list A) k : forall i, nth_error (combine (seq k (length l)) l) i =
  match nth_error l i with Some a => Some (k + i, a) | None => None end.
Proof.
  revert k. induction l as [|a l IH]; intros k i; cbn [length seq combine].
  - destruct i; reflexivity.
  - destruct i as [|i]; cbn [nth_error]; [now rewrite Nat.add_0_r|]. rewrite IH. now rewrite Nat.add_succ_comm.
Qed.
Lemma combine_seq_length {A} (l : list A) k : length (combine (seq k (length l)) l) = length l.
Proof. rewrite combine_length, seq_length. lia. Qed.
Lemma nth_error_nth' {A} (l : list A) i d x : nth_error l i = Some x -> nth i l d = x.
Proof. intro H. now apply nth_error_nth. Qed.
Lemma nth_error_map' {A B} (f : A -> B) l i : nth_error (map f l) i = match nth_error l i with Some a => Some (f a) | None => None end.
Proof. revert i. induction l as [|a l IH]; intros [|i]; cbn; auto. Qed.
Lemma arena_get_in {A} (a : arena A) i v : arena_get a i = Some v -> In (i, v) a.
Proof.
  unfold arena_get. intro H. destruct (find _ a) as [[j x]|] eqn:E; [|discriminate]. cbn in H. injection H as ->.
  apply find_some in E. destruct E as [E1 E2]. cbn in E2. apply Nat.eqb_eq in E2. now subst.
Qed.
Lemma in_arena_get {A} (a : arena A) i v : NoDup (map fst a) -> In (i, v) a -> arena_get a i = Some v.
Proof.
  unfold arena_get. induction a as [|[j x] a IH]; cbn; intros ND H; [contradiction|]. inversion ND as [|? ? N1 N2]; subst.
  destruct H as [H|H].
  - injection H as -> ->. now rewrite Nat.eqb_refl.
  - destruct (Nat.eqb_spec j i) as [->|]; [|now apply IH]. exfalso. apply N1. apply in_map_iff. now exists (i, v).
Qed.

Lemma map_outcome_panic {A B} (f : A -> outcome B) l why : map_outcome f l = Panic why -> exists a, In a l /\ f a = Panic why.
Proof.
  induction l as [|a l IH]; cbn [map_outcome]; intro H; [discriminate|].
  destruct (f a) as [b|w] eqn:E; cbn [andthen] in H.
  - destruct (map_outcome f l) as [r|w]; cbn [andthen] in H; [discriminate|].
    destruct (IH H) as [x [Hx Fx]]. exists x. split; [now right|exact Fx].
  - injection H as ->. exists a. split; [now left|exact E].
Qed.
Lemma map_state_panic {A B S} (f : A -> S -> outcome (B * S)) l : forall s why, map_state f l s = Panic why ->
  exists a s', In a l /\ f a s' = Panic why.
Proof.
  induction l as [|a l IH]; cbn [map_state]; intros s why H; [discriminate|].
  destruct (f a s) as [[b s1]|w] eqn:E; cbn [andthen] in H.
  - destruct (map_state f l s1) as [[r s2]|w] eqn:E2; cbn [andthen] in H; [discriminate|].
    injection H as ->. destruct (IH _ _ E2) as [x [s' [Hx Fx]]]. exists x, s'. split; [now right|exact Fx].
  - injection H as ->. exists a, s. split; [now left|exact E].
Qed.

Section Proofs.
  Variables P W : Type.
  Variable wrap_eqb : W -> W -> bool.
  Hypothesis wrap_eqb_spec : forall a b, wrap_eqb a b = true <-> a = b.
  Variable is_periodic : W -> bool.
  Hypothesis one_unwrapped : forall a b, is_periodic a = false -> is_periodic b = false -> a = b.
  Variable images : P -> list (W * P).
  Variable closer : P -> P -> Q -> bool.
  Variable search_tree : nat -> P -> Q -> option (list (nat * P)).
  Variable owns_part : nat -> P -> Q -> bool.
  Variable circumcircle : list P -> P * Q.
  Variable insert : list P -> triangulation -> option (nat * list nat * triangulation).
  Variable characteristic_length : Q.
  Variable chunk_size : nat.
  Variable particles : nat -> list (nat * P).
  Hypothesis exact_search : tree_search_exact P W images closer search_tree particles.
  Hypothesis extents : extents_sound P W images closer owns_part particles.
  (* a larger radius finds more *)
  Hypothesis closer_mono : forall c p a b, (a <= b)%Q -> closer c p a = true -> closer c p b = true.

  (** The promises of the triangulation. *)
  Variable good : triangulation -> Prop.
  Hypothesis good_ids : forall s, good s -> NoDup (map fst (tetras s)).
  Hypothesis good_lt : forall s i t, good s -> In (i, t) (tetras s) -> i < next_tetra s.
  Hypothesis good_corner : forall s i t p, good s -> In (i, t) (tetras s) -> In p (points_of t) -> p < num_points s.
  Hypothesis insert_good : forall pos s p new s', good s -> insert pos s = Some (p, new, s') ->
    good s' /\ p = num_points s /\ num_points s' = S (num_points s) /\ next_tetra s <= next_tetra s' /\
    (forall i t, In (i, t) (tetras s') -> In p (points_of t) -> In i new) /\
    (forall i t, In (i, t) (tetras s') -> ~ In p (points_of t) -> exists t0, In (i, t0) (tetras s) /\ points_of t0 = points_of t) /\
    (forall i t, In (i, t) (tetras s') -> i < next_tetra s -> exists t0, In (i, t0) (tetras s) /\ points_of t0 = points_of t).

  Notation rank_state := (rank_state P W).
  Notation tri := (tri P W). Notation points := (points P W). Notation kinds := (kinds P W).
  Notation haloes := (haloes P W). Notation undecided := (undecided P W). Notation cache := (cache P W).
  Notation result := (result P W). Notation search := (search P).
  Notation inner_point := (inner_point P W).
  Notation should_be_checked := (should_be_checked P W).
  Notation corner_positions := (corner_positions P W).
  Notation foreign := (foreign W is_periodic).
  Notation key := (halo_key W is_periodic).
  Notation image_of := (image_of P W images particles).
  Notation imported := (imported P W is_periodic).
  Notation r_id := (r_id P W). Notation r_wrap := (r_wrap P W). Notation r_point := (r_point P W).
  Notation s_point := (s_point P). Notation s_radius := (s_radius P).
  Notation mentry := (nat * (nat * W))%type.

  Lemma type_eqb_spec a b : particle_type_eqb W wrap_eqb a b = true <-> a = b.
  Proof.
    destruct a, b; cbn; try (split; congruence);
      rewrite ?andb_true_iff, ?Nat.eqb_eq, ?wrap_eqb_spec; split; intuition congruence.
  Qed.
  Lemma key_inj self q q' x x' w w' : foreign self q w -> foreign self q' w' -> key self q x w = key self q' x' w' ->
    q = q' /\ x = x' /\ w = w'.
  Proof.
    unfold halo_key. intros F F'.
    destruct (Nat.eqb_spec q self) as [->|N]; destruct (Nat.eqb_spec q' self) as [->|N'].
    - intro E. injection E as -> ->. auto.
    - destruct (is_periodic w'); discriminate.
    - destruct (is_periodic w); discriminate.
    - destruct (is_periodic w) eqn:A; destruct (is_periodic w') eqn:B; intro E; try discriminate.
      + injection E as -> -> ->. auto.
      + injection E as -> ->. auto.
  Qed.
  Lemma halo_type_key self q (x : result) : halo_type P W is_periodic self q x = key self q (r_id x) (r_wrap x).
  Proof. reflexivity. Qed.

  (** ** The state of one rank *)
  Definition inner_tetra (s : rank_state) (t : tetra) : Prop := existsb (inner_point s) (points_of t) = true.
  Definition covered (r : nat) (s : rank_state) (t : tetra) : Prop :=
    forall center radius, circumcircle (corner_positions s t) = (center, radius) ->
    forall q x w p, image_of q x w p -> foreign r q w -> closer center p (Qmult radius search_safety_factor) = true ->
      In (key r q x w) (map fst (haloes s)).

  Record rank_ok (r : nat) (s : rank_state) : Prop := {
    ro_good : good (tri s);
    ro_points : length (points s) = num_points (tri s);
    ro_kinds : length (kinds s) = num_points (tri s);
    ro_inner : forall i t rad, In (i, rad) (undecided s) -> In (i, t) (tetras (tri s)) -> inner_tetra s t;
    ro_lt : forall i rad, In (i, rad) (undecided s) -> i < next_tetra (tri s);
    ro_haloes : forall k i, In (k, i) (haloes s) -> exists q x w p, k = key r q x w /\ foreign r q w /\
      image_of q x w p /\ nth_error (points s) i = Some p;
    ro_local : forall x pos, In (x, pos) (particles r) -> In pos (points s)
  }.
  Definition decided (r : nat) (s : rank_state) : Prop := forall i t, In (i, t) (tetras (tri s)) -> inner_tetra s t ->
    In i (map fst (undecided s)) \/ covered r s t.

  Lemma set_undecided_ok r s u : rank_ok r s ->
    (forall i rad, In (i, rad) u -> exists rad', In (i, rad') (undecided s)) -> rank_ok r (set_undecided P W s u).
  Proof.
    intros [a1 a2 a3 a4 a5 a6 a7] H. constructor; auto.
    - intros i t rad Hi. destruct (H i rad Hi) as [rad' X]. exact (a4 i t rad' X).
    - intros i rad Hi. destruct (H i rad Hi) as [rad' X]. exact (a5 i rad' X).
  Qed.
  Lemma set_cache_ok r s c : rank_ok r s -> rank_ok r (set_cache P W s c).
  Proof. intros [a1 a2 a3 a4 a5 a6 a7]. constructor; auto. Qed.

  (** ** The searches of one rank *)
  Definition full_search (s : rank_state) (t : tetra) (d : search) : Prop :=
    forall center radius, circumcircle (corner_positions s t) = (center, radius) ->
      s_point d = center /\ (Qmult radius search_safety_factor <= s_radius d)%Q.

  Notation new_search := (new_search P W circumcircle characteristic_length).
  Notation search_entry := (search_entry P W circumcircle characteristic_length).
  Notation get_radius_search_data := (get_radius_search_data P W circumcircle characteristic_length chunk_size).

  Lemma inner_length s p : inner_point s p = true -> p < length (kinds s).
  Proof.
    unfold Halo_Model.inner_point. intro H. destruct (Nat.lt_ge_cases p (length (kinds s))) as [L|L]; [exact L|].
    rewrite nth_overflow in H by exact L. discriminate.
  Qed.
  Lemma new_search_total r s t rad : rank_ok r s -> inner_tetra s t -> exists d, new_search s t rad = Done d.
  Proof.
    intros O I. unfold Halo_Model.new_search. destruct (circumcircle (corner_positions s t)) as [center radius].
    destruct (Qle_bool _ _); [eauto|]. destruct (find (inner_point s) (points_of t)) as [p|] eqn:E.
    - apply find_some in E. destruct E as [_ E]. apply inner_length in E.
      rewrite (ro_kinds _ _ O), <- (ro_points _ _ O) in E. apply nth_error_Some in E.
      destruct (nth_error (points s) p); [eauto|congruence].
    - exfalso. unfold inner_tetra in I. apply existsb_exists in I. destruct I as [x [X Y]].
      rewrite (find_none _ _ E x X) in Y. discriminate.
  Qed.
  Lemma new_search_full s t rad d : new_search s t rad = Done d ->
    large_enough P W circumcircle s t (s_radius d) = true -> full_search s t d.
  Proof.
    unfold Halo_Model.new_search, large_enough, full_search.
    destruct (circumcircle (corner_positions s t)) as [center radius]. cbn [snd].
    cbv zeta. match goal with |- context [Qle_bool _ ?r] => set (R := r) end.
    destruct (Qle_bool (Qmult radius search_safety_factor) R) eqn:E.
    - intros H L c0 r0 X. injection X as <- <-. injection H as <-. cbn in *. split; [reflexivity|]. now apply Qle_bool_iff.
    - intros H L. exfalso. destruct (find _ _) as [p|]; [|discriminate]. destruct (nth_error _ p); [|discriminate].
      injection H as <-. cbn [Halo_Model.s_radius] in L. congruence.
  Qed.

  Lemma contains_get {A} (a : arena A) i : arena_contains a i = true -> exists v, arena_get a i = Some v.
  Proof.
    unfold arena_contains, arena_get. intro H. apply existsb_exists in H. destruct H as [x [H1 H2]].
    destruct (find (fun e => fst e =? i) a) as [y|] eqn:E; [cbn; eauto|].
    rewrite (find_none _ _ E x H1) in H2. discriminate.
  Qed.

  Lemma searches_ok r s : rank_ok r s -> decided r s -> exists l s',
    get_radius_search_data s = Done (l, s') /\ rank_ok r s' /\
    tri s' = tri s /\ points s' = points s /\ kinds s' = kinds s /\ haloes s' = haloes s /\ cache s' = cache s /\
    (forall i t, In (i, t) (tetras (tri s)) -> inner_tetra s t ->
       In i (map fst (undecided s')) \/ covered r s t \/ exists d, In d l /\ full_search s t d).
  Proof.
    intros O D. unfold Halo_Model.get_radius_search_data.
    set (n := Nat.min chunk_size (length (undecided s))).
    set (live := filter (fun e => arena_contains (tetras (tri s)) (fst e)) (firstn n (undecided s))).
    assert (LV : forall e, In e live -> In e (undecided s) /\ exists t, arena_get (tetras (tri s)) (fst e) = Some t).
    { intros e He. apply filter_In in He. destruct He as [H1 H2]. split.
      - rewrite <- (firstn_skipn n (undecided s)). apply in_or_app. now left.
      - now apply contains_get in H2. }
    destruct (map_outcome_total (search_entry s) live) as [l El].
    { intros [i rad] He. destruct (LV _ He) as [Hu [t Et]]. cbn [fst] in Et. unfold Halo_Model.search_entry. cbn [fst snd].
      rewrite Et. apply arena_get_in in Et.
      destruct (new_search_total r s t rad O (ro_inner _ _ O i t rad Hu Et)) as [d ->]. cbn. eauto. }
    rewrite El. cbn [andthen]. eexists _, _. split; [reflexivity|]. split; [|repeat (split; [reflexivity|])].
    - apply set_undecided_ok; [exact O|]. intros i rad H. apply in_app_or in H. destruct H as [H|H].
      + exists rad. rewrite <- (firstn_skipn n (undecided s)). apply in_or_app. now right.
      + apply in_map_iff in H. destruct H as [[e b] [E H]]. cbn in E. subst e. apply filter_In in H. destruct H as [H _].
        apply in_map_iff in H. destruct H as [[d y] [E H]]. cbn in E. subst y.
        destruct (map_outcome_in _ _ _ _ El H) as [[i0 rad0] [Ha Fa]]. destruct (LV _ Ha) as [Hu [t Et]].
        unfold Halo_Model.search_entry in Fa. rewrite Et in Fa. cbn [fst snd] in Fa.
        destruct (new_search s t rad0); cbn [andthen] in Fa; [|discriminate]. injection Fa as _ <- _ _. eauto.
    - intros i t Ht Hi. destruct (D i t Ht Hi) as [X|X]; [|auto].
      apply in_map_iff in X. destruct X as [[i0 rad] [E X]]. cbn in E. subst i0.
      cbn [Halo_Model.undecided set_undecided]. rewrite map_app, in_app_iff.
      rewrite <- (firstn_skipn n (undecided s)) in X. apply in_app_or in X. destruct X as [X|X].
      + assert (L : In (i, rad) live).
        { apply filter_In. split; [exact X|]. cbn [fst]. unfold arena_contains. apply existsb_exists.
          exists (i, t). split; [exact Ht|apply Nat.eqb_refl]. }
        destruct (map_outcome_in' _ _ _ _ El L) as [y [Hy Fy]]. unfold Halo_Model.search_entry in Fy. cbn [fst snd] in Fy.
        rewrite (in_arena_get _ _ _ (good_ids _ (ro_good _ _ O)) Ht) in Fy.
        destruct (new_search s t rad) as [d|] eqn:Ed; cbn [andthen] in Fy; [|discriminate]. injection Fy as <-.
        destruct (large_enough P W circumcircle s t (s_radius d)) eqn:LE.
        * right. right. exists d. split; [|exact (new_search_full s t rad d Ed LE)].
          apply in_map_iff. eexists. split; [|exact Hy]. reflexivity.
        * left. right. apply in_map_iff. exists (i, Some (s_radius d)). split; [reflexivity|].
          apply in_map_iff. exists (i, Some (s_radius d), false). split; [reflexivity|]. apply filter_In. split; [|reflexivity].
          apply in_map_iff. eexists. split; [|exact Hy]. cbn. reflexivity.
      + left. left. apply in_map_iff. now exists (i, rad).
  Qed.

  (** ** The answers to searches *)
  Definition rkey (x : result) : nat * W := (r_id x, r_wrap x).
  Record batch (rank : nat) (c : list mentry) (res : list result) (c' : list mentry) : Prop := {
    bt_mem : forall e, In e c' <-> In e c \/ exists x, In x res /\ e = (rank, rkey x);
    bt_new : forall x, In x res -> ~ In (rank, rkey x) c;
    bt_nodup : NoDup (map rkey res)
  }.
  Lemma batch_nil rank c : batch rank c [] c.
  Proof. constructor; [|intros x []|constructor]. intro e. split; [auto|]. intros [H|[x [[] _]]]. exact H. Qed.
  Lemma batch_app rank c r1 c1 r2 c2 : batch rank c r1 c1 -> batch rank c1 r2 c2 -> batch rank c (r1 ++ r2) c2.
  Proof.
    intros [a1 a2 a3] [b1 b2 b3]. constructor.
    - intro e. rewrite b1, a1. split.
      + intros [[H|[x [H E]]]|[x [H E]]]; [now left|right; exists x; split; [apply in_or_app; now left|exact E]..|].
        right. exists x. split; [apply in_or_app; now right|exact E].
      + intros [H|[x [H E]]]; [auto|]. apply in_app_or in H. destruct H as [H|H]; eauto.
    - intros x H. apply in_app_or in H. destruct H as [H|H]; [auto|]. intro C. apply (b2 x H). apply a1. now left.
    - rewrite map_app. assert (X : forall k, In k (map rkey r1) -> ~ In k (map rkey r2)).
      { intros k H1 H2. apply in_map_iff in H1. destruct H1 as [x [<- Hx]]. apply in_map_iff in H2. destruct H2 as [y [Ey Hy]].
        apply (b2 y Hy). apply a1. right. exists x. split; [exact Hx|]. now rewrite Ey. }
      revert a3 X. clear -b3. induction (map rkey r1) as [|k l IH]; cbn; intros N X; [exact b3|].
      inversion N as [|? ? N1 N2]; subst. constructor; [|apply IH; auto].
      intro H. apply in_app_or in H. destruct H as [H|H]; [contradiction|]. apply (X k); auto.
  Qed.

  Lemma cached_spec c rank id w : cached W wrap_eqb c rank id w = true <-> In (rank, (id, w)) c.
  Proof.
    unfold cached. rewrite existsb_exists. split.
    - intros [[a [b e]] [H K]]. cbn in K. rewrite !andb_true_iff, !Nat.eqb_eq, wrap_eqb_spec in K.
      destruct K as [[-> ->] ->]. exact H.
    - intro H. eexists. split; [exact H|]. cbn. rewrite !Nat.eqb_refl. cbn. now apply wrap_eqb_spec.
  Qed.
  Lemma new_haloes_ok rank l : forall c res c', get_new_haloes P W wrap_eqb rank l c = (res, c') ->
    batch rank c res c' /\ incl res l /\ forall x, In x l -> In (rank, rkey x) c'.
  Proof.
    induction l as [|x l IH]; cbn [get_new_haloes]; intros c res c' H.
    - injection H as <- <-. split; [apply batch_nil|]. split; [intros y []|intros y []].
    - destruct (cached W wrap_eqb c rank (r_id x) (r_wrap x)) eqn:E.
      + apply cached_spec in E. destruct (IH c res c' H) as [B [I C]]. split; [exact B|].
        split; [intros y Hy; right; auto|]. intros y [<-|Hy]; [|auto]. apply (bt_mem _ _ _ _ B). left. exact E.
      + destruct (get_new_haloes P W wrap_eqb rank l ((rank, (r_id x, r_wrap x)) :: c)) as [r c1] eqn:G.
        injection H as <- <-. destruct (IH _ _ _ G) as [B [I C]].
        assert (N : ~ In (rank, rkey x) c).
        { intro A. apply cached_spec in A. unfold r_id, r_wrap in *. congruence. }
        assert (B0 : batch rank c [x] ((rank, (r_id x, r_wrap x)) :: c)).
        { constructor.
          - intro e. cbn. split; intros [A|A]; auto.
            + right. exists x. split; [now left|now symmetry].
            + destruct A as [y [[<-|[]] ->]]. now left.
          - intros y [<-|[]]. exact N.
          - cbn. constructor; [intros []|constructor]. }
        split; [exact (batch_app _ _ _ _ _ _ B0 B)|]. split.
        * intros y [<-|Hy]; [now left|right; auto].
        * intros y [<-|Hy]; [|auto]. apply (bt_mem _ _ _ _ B). left. now left.
  Qed.

  Notation get_haloes_from_search := (get_haloes_from_search P W wrap_eqb images closer search_tree).
  Notation get_haloes_from_searches := (get_haloes_from_searches P W wrap_eqb images closer search_tree).
  Notation find_wrapped_point := (find_wrapped_point P W images closer).
  Definition answers (self : nat) (l : list search) (rank : nat) (c : list mentry) (res : list result) (c' : list mentry) : Prop :=
    batch rank c res c' /\ (forall x, In x res -> image_of self (r_id x) (r_wrap x) (r_point x)) /\
    (forall d x w p, In d l -> image_of self x w p -> closer (s_point d) p (s_radius d) = true -> In (rank, (x, w)) c').

  Lemma wrapped_ok d x w p : find_wrapped_point d x = Done (w, p) ->
    In (w, p) (images x) /\ forall w' p', In (w', p') (images x) -> closer (s_point d) p' (s_radius d) = true -> (w', p') = (w, p).
  Proof.
    unfold Halo_Model.find_wrapped_point.
    destruct (filter _ (images x)) as [|a [|b l]] eqn:E; try discriminate. intro H. injection H as ->.
    assert (F : forall y, In y (images x) /\ closer (s_point d) (snd y) (s_radius d) = true <-> In y [(w, p)]).
    { intro y. rewrite <- E, filter_In. tauto. }
    split; [apply (F (w, p)); now left|]. intros w' p' H C. destruct (proj1 (F (w', p'))) as [X|[]]; auto.
  Qed.
  Lemma found_image self d l x : search_tree self (s_point d) (s_radius d) = Some l -> In x l ->
    find_wrapped_point d (snd x) <> Panic NoImage.
  Proof.
    intros E H. unfold Halo_Model.find_wrapped_point. destruct x as [id pos]. cbn [snd].
    destruct (proj1 (exact_search _ _ _ _ E id pos) H) as [_ [w [p [Hi Hc]]]].
    destruct (filter _ (images pos)) as [|a [|b r]] eqn:F; [|discriminate..].
    exfalso. assert (X : In (w, p) (filter (fun wp => closer (s_point d) (snd wp) (s_radius d)) (images pos))).
    { apply filter_In. auto. }
    rewrite F in X. contradiction.
  Qed.

  Lemma from_search_ok self rank d c res c' : get_haloes_from_search self rank d c = Done (res, c') ->
    answers self [d] rank c res c'.
  Proof.
    unfold Halo_Model.get_haloes_from_search. destruct (search_tree self (s_point d) (s_radius d)) as [l|] eqn:E; [|discriminate].
    destruct (map_outcome _ l) as [rs|] eqn:M; cbn [andthen]; [|discriminate].
    intro H. injection H as H. destruct (new_haloes_ok rank rs c res c' H) as [B [I C]].
    split; [exact B|]. split.
    - intros x Hx. apply I in Hx. destruct (map_outcome_in _ _ _ _ M Hx) as [[id pos] [Ha Fa]]. cbn [fst snd] in Fa.
      destruct (find_wrapped_point d pos) as [[w p]|] eqn:Fw; cbn [andthen] in Fa; [|discriminate].
      injection Fa as <-. cbn. exists pos. split; [apply (exact_search _ _ _ _ E id pos); exact Ha|].
      apply (wrapped_ok _ _ _ _ Fw).
    - intros d0 x w p [<-|[]] [pos [Hp Hi]] Hc.
      assert (Hl : In (x, pos) l) by (apply (exact_search _ _ _ _ E x pos); eauto).
      destruct (map_outcome_in' _ _ _ _ M Hl) as [b [Hb Fb]]. cbn [fst snd] in Fb.
      destruct (find_wrapped_point d pos) as [[w' p']|] eqn:Fw; cbn [andthen] in Fb; [|discriminate]. injection Fb as <-.
      pose proof (proj2 (wrapped_ok _ _ _ _ Fw) w p Hi Hc) as Y. injection Y as <- <-. exact (C _ Hb).
  Qed.
  Lemma answers_mono self l rank c res c' e : answers self l rank c res c' -> In e c -> In e c'.
  Proof. intros [B _] H. apply (bt_mem _ _ _ _ B). now left. Qed.
  Lemma map_searches_ok self rank l : forall c rs c', map_state (get_haloes_from_search self rank) l c = Done (rs, c') ->
    answers self l rank c (concat rs) c'.
  Proof.
    induction l as [|d l IH]; cbn [map_state]; intros c rs c' H.
    - injection H as <- <-. split; [apply batch_nil|]. split; [intros x []|intros d x w p []].
    - destruct (get_haloes_from_search self rank d c) as [[r1 c1]|] eqn:E1; cbn [andthen] in H; [|discriminate].
      destruct (map_state _ l c1) as [[r2 c2]|] eqn:E2; cbn [andthen] in H; [|discriminate]. injection H as <- <-.
      apply from_search_ok in E1. apply IH in E2. destruct E1 as [a1 [a2 a3]]. pose proof E2 as [b1 [b2 b3]].
      cbn [concat]. split; [exact (batch_app _ _ _ _ _ _ a1 b1)|]. split.
      + intros x Hx. apply in_app_or in Hx. destruct Hx; auto.
      + intros d0 x w p [<-|Hd] Hi Hc; [|eauto]. apply (answers_mono _ _ _ _ _ _ _ E2). apply (a3 d x w p); auto. now left.
  Qed.
  Lemma from_searches_ok self rank l c res c' : get_haloes_from_searches self rank l c = Done (res, c') ->
    answers self l rank c res c'.
  Proof.
    unfold Halo_Model.get_haloes_from_searches. destruct (map_state _ l c) as [[rs c1]|] eqn:E; cbn [andthen]; [|discriminate].
    intro H. injection H as <- <-. now apply map_searches_ok.
  Qed.

  (** What rank [self] does in one round for the searches [searches] of all ranks. *)
  Notation outgoing_results := (outgoing_results P W wrap_eqb images closer search_tree owns_part).
  Notation outgoing_searches := (outgoing_searches P owns_part).
  Lemma outgoing_ok self k : forall (l : list (list search)) c out c',
    map_state (fun (x : nat * list search) c => if fst x =? self then Done ([], c)
                 else get_haloes_from_searches self (fst x) (outgoing_searches self (snd x)) c)
      (combine (seq k (length l)) l) c = Done (out, c') ->
    length out = length l /\
    (forall e, In e c -> In e c') /\
    (forall r y, In (r, y) c' -> In (r, y) c \/ (k <= r < k + length l /\ r <> self)) /\
    (forall i res, nth_error out i = Some res -> k + i = self -> res = []) /\
    (forall i ds, nth_error l i = Some ds -> k + i <> self -> exists res, nth_error out i = Some res /\
       (forall y, In (k + i, y) c' <-> In (k + i, y) c \/ exists x, In x res /\ y = rkey x) /\
       (forall x, In x res -> ~ In (k + i, rkey x) c) /\ NoDup (map rkey res) /\
       (forall x, In x res -> image_of self (r_id x) (r_wrap x) (r_point x)) /\
       (forall d x w p, In d ds -> image_of self x w p -> closer (s_point d) p (s_radius d) = true -> In (k + i, (x, w)) c')).
  Proof.
    intro l. revert k. induction l as [|ds l IH]; intros k c out c' H; cbn [length seq combine map_state] in H.
    - injection H as <- <-. split; [reflexivity|]. split; [auto|]. split; [auto|].
      split; [intros [|i]; discriminate|intros [|i]; discriminate].
    - cbn [fst snd] in H.
      match type of H with andthen ?a _ = _ => destruct a as [[r1 c1]|] eqn:E1; cbn [andthen] in H; [|discriminate] end.
      match type of H with andthen ?a _ = _ => destruct a as [[r2 c2]|] eqn:E2; cbn [andthen] in H; [|discriminate] end.
      injection H as <- <-. destruct (IH (S k) c1 r2 c2 E2) as [L [M [O [Z A]]]].
      assert (HO : forall r y, In (r, y) c2 -> r <= k -> In (r, y) c1).
      { intros r y H1 H2. destruct (O r y H1) as [X|[X _]]; [exact X|lia]. }
      assert (H1 : (k = self /\ r1 = [] /\ c1 = c) \/ (k <> self /\ answers self (outgoing_searches self ds) k c r1 c1)).
      { destruct (Nat.eqb_spec k self) as [->|Nk]; [left; injection E1 as <- <-; auto|right].
        split; [exact Nk|]. now apply from_searches_ok. }
      assert (Hc : forall r y, r <> k -> (In (r, y) c1 <-> In (r, y) c)).
      { intros r y Hr. destruct H1 as [[_ [_ ->]]|[_ [B _]]]; [tauto|]. rewrite (bt_mem _ _ _ _ B). split; [|auto].
        intros [X|[x [_ X]]]; [exact X|]. injection X as -> _. congruence. }
      split; [cbn; lia|]. split; [|split; [|split]].
      + intros e He. apply M. destruct H1 as [[_ [_ ->]]|[_ B]]; [exact He|]. exact (answers_mono _ _ _ _ _ _ _ B He).
      + intros r y Hy. cbn [length]. destruct (O r y Hy) as [X|X]; [|right; lia].
        destruct (Nat.eq_dec r k) as [->|Nr]; [|left; now apply Hc].
        destruct H1 as [[_ [_ ->]]|[Nk _]]; [now left|right; lia].
      + intros [|i] res Hi Es; cbn in Hi; [|apply (Z i res Hi); lia]. injection Hi as <-.
        rewrite Nat.add_0_r in Es. destruct H1 as [[_ [-> _]]|[Nk _]]; [reflexivity|congruence].
      + intros [|i] ds' Hi Es; cbn [nth_error] in *.
        * injection Hi as <-. rewrite Nat.add_0_r in *. destruct H1 as [[X _]|[Nk [B [B2 B3]]]]; [congruence|].
          exists r1. split; [reflexivity|]. split; [|split; [|split; [|split]]].
          -- intro y. rewrite <- (bt_mem _ _ _ _ B (k, y)) || idtac. split.
             ++ intro X. apply HO in X; [|lia]. apply (bt_mem _ _ _ _ B) in X. destruct X as [X|[x [X1 X2]]]; [now left|].
                injection X2 as ->. right. eauto.
             ++ intro X. apply M. apply (bt_mem _ _ _ _ B). destruct X as [X|[x [X1 ->]]]; [now left|right; eauto].
          -- exact (bt_new _ _ _ _ B).
          -- exact (bt_nodup _ _ _ _ B).
          -- exact B2.
          -- intros d x w p Hd Hi Hcl. apply M. apply (B3 d x w p); auto.
             unfold Halo_Model.outgoing_searches. apply filter_In. split; [exact Hd|].
             destruct (owns_part self (s_point d) (s_radius d)) eqn:Eo; [reflexivity|].
             rewrite (extents _ _ _ Eo x w p Hi) in Hcl. discriminate.
        * rewrite <- Nat.add_succ_comm in *. destruct (A i ds' Hi Es) as [res [R1 [R2 [R3 [R4 [R5 R6]]]]]].
          exists res. split; [exact R1|]. split; [|split; [|split; [exact R4|split; [exact R5|exact R6]]]].
          -- intro y. rewrite R2, Hc; [tauto|lia].
          -- intros x Hx. rewrite <- Hc; [auto|lia].
  Qed.

  (** ** The import of the results *)
  Lemma corner_positions_same (s s' : rank_state) (t t' : tetra) : (exists e, points s' = points s ++ e) ->
    (forall p, In p (points_of t) -> p < length (points s)) -> points_of t = points_of t' ->
    corner_positions s' t' = corner_positions s t.
  Proof.
    intros [e E] H Ep. unfold Halo_Model.corner_positions. rewrite <- Ep, E. clear Ep.
    induction (points_of t) as [|p l IH]; cbn [flat_map]; [reflexivity|].
    rewrite IH by (intros x Hx; apply H; now right). now rewrite (nth_error_app1 (points s) e) by (apply H; now left).
  Qed.
  Lemma inner_same (s s' : rank_state) (t t' : tetra) : (exists e, kinds s' = kinds s ++ e) ->
    (forall p, In p (points_of t) -> p < length (kinds s)) -> points_of t = points_of t' ->
    inner_tetra s' t' <-> inner_tetra s t.
  Proof.
    intros [e E] H Ep. unfold inner_tetra. rewrite <- Ep. clear Ep.
    assert (X : existsb (inner_point s') (points_of t) = existsb (inner_point s) (points_of t)).
    { induction (points_of t) as [|p l IH]; cbn [existsb]; [reflexivity|].
      rewrite IH by (intros x Hx; apply H; now right). f_equal. unfold Halo_Model.inner_point. rewrite E.
      now rewrite app_nth1 by (apply H; now left). }
    now rewrite X.
  Qed.

  Definition lkey (r : nat) (x : nat * result) : particle_type W := key r (fst x) (r_id (snd x)) (r_wrap (snd x)).
  Record grown (r : nat) (s s' : rank_state) (l : list (nat * result)) : Prop := {
    gr_ok : rank_ok r s';
    gr_cache : cache s' = cache s;
    gr_haloes : map fst (haloes s') = map fst (haloes s) ++ map (lkey r) l;
    gr_undecided : incl (undecided s) (undecided s');
    gr_points : exists e, points s' = points s ++ e;
    gr_kinds : exists e, kinds s' = kinds s ++ e;
    gr_old : forall i t', In (i, t') (tetras (tri s')) -> inner_tetra s' t' ->
      In i (map fst (undecided s')) \/ exists t, In (i, t) (tetras (tri s)) /\ inner_tetra s t /\ points_of t = points_of t'
  }.
  Lemma grown_nil r s : rank_ok r s -> grown r s s [].
  Proof.
    intro O. constructor; auto; try (cbn; now rewrite app_nil_r).
    - intros x H; exact H.
    - exists []. now rewrite app_nil_r.
    - exists []. now rewrite app_nil_r.
    - intros i t' H K. right. eauto.
  Qed.
  Lemma grown_trans r s s1 s2 l1 l2 : grown r s s1 l1 -> grown r s1 s2 l2 -> grown r s s2 (l1 ++ l2).
  Proof.
    intros [a1 a2 a3 a4 [e5 a5] [e6 a6] a7] [b1 b2 b3 b4 [f5 b5] [f6 b6] b7]. constructor; auto.
    - congruence.
    - rewrite b3, a3, map_app, app_assoc. reflexivity.
    - intros x H. auto.
    - exists (e5 ++ f5). rewrite b5, a5, app_assoc. reflexivity.
    - exists (e6 ++ f6). rewrite b6, a6, app_assoc. reflexivity.
    - intros i t' Ht Hi. destruct (b7 i t' Ht Hi) as [X|[t1 [Ht1 [Hi1 E1]]]]; [now left|].
      destruct (a7 i t1 Ht1 Hi1) as [X|[t0 [Ht0 [Hi0 E0]]]].
      + left. apply in_map_iff in X. destruct X as [y [<- Hy]]. apply in_map. auto.
      + right. exists t0. split; [exact Ht0|]. split; [exact Hi0|]. congruence.
  Qed.

  Notation import_halo := (import_halo P W wrap_eqb is_periodic insert).
  Lemma import_one r s q x : rank_ok r s -> foreign r q (r_wrap x) -> image_of q (r_id x) (r_wrap x) (r_point x) ->
    ~ In (lkey r (q, x)) (map fst (haloes s)) ->
    (forall why, import_halo r s (q, x) = Panic why -> why = InsertFailed) /\
    forall s', import_halo r s (q, x) = Done s' -> grown r s s' [(q, x)].
  Proof.
    intros O F IM N. unfold Halo_Model.import_halo. rewrite halo_type_key.
    destruct (existsb _ (haloes s)) eqn:E.
    { exfalso. apply existsb_exists in E. destruct E as [h [H1 H2]]. apply type_eqb_spec in H2.
      apply N. unfold lkey. cbn [fst snd]. rewrite <- H2. now apply in_map. }
    destruct (insert (points s ++ [r_point x]) (tri s)) as [[[p new] t1]|] eqn:Ei.
    2: { split; [|discriminate]. intros why H. now injection H as <-. }
    split; [discriminate|]. intros s' H. injection H as <-.
    destruct (insert_good _ _ _ _ _ (ro_good _ _ O) Ei) as [G [Ep [En [Nx [Hnew [Hold Hlt]]]]]].
    match goal with |- grown r s ?s' _ => set (s1 := s') end.
    match type of s1 with _ => pose (sc := {| Halo_Model.tri := t1; Halo_Model.points := points s ++ [r_point x]; Halo_Model.kinds := kinds s ++ [Halo q];
      Halo_Model.haloes := haloes s; Halo_Model.undecided := undecided s; Halo_Model.cache := cache s |}) end.
    assert (Kc : forall i t p0, In (i, t) (tetras (tri s)) -> In p0 (points_of t) -> p0 < length (kinds s)).
    { intros i t p0 Ht Hp. rewrite (ro_kinds _ _ O). exact (good_corner _ _ _ _ (ro_good _ _ O) Ht Hp). }
    assert (KE : exists e, kinds s1 = kinds s ++ e) by (eexists; reflexivity).
    constructor.
    - constructor.
      + exact G.
      + cbn. rewrite app_length, (ro_points _ _ O), En. cbn. lia.
      + cbn. rewrite app_length, (ro_kinds _ _ O), En. cbn. lia.
      + intros i t rad Hu Ht. cbn [s1 Halo_Model.undecided Halo_Model.tri] in Hu, Ht. apply in_app_or in Hu. destruct Hu as [Hu|Hu].
        * destruct (Hlt i t Ht (ro_lt _ _ O i rad Hu)) as [t0 [Ht0 E0]].
          apply (inner_same s s1 t0 t KE (fun p0 => Kc i t0 p0 Ht0) E0). exact (ro_inner _ _ O i t0 rad Hu Ht0).
        * apply in_map_iff in Hu. destruct Hu as [j [Ej Hj]]. injection Ej as -> _. apply filter_In in Hj. destruct Hj as [_ Hj].
          unfold Halo_Model.should_be_checked in Hj. cbn [Halo_Model.tri] in Hj.
          rewrite (in_arena_get _ _ _ (good_ids _ G) Ht) in Hj. exact Hj.
      + intros i rad Hu. cbn [s1 Halo_Model.undecided Halo_Model.tri] in Hu |- *. apply in_app_or in Hu. destruct Hu as [Hu|Hu].
        * pose proof (ro_lt _ _ O i rad Hu). lia.
        * apply in_map_iff in Hu. destruct Hu as [j [Ej Hj]]. injection Ej as -> _. apply filter_In in Hj. destruct Hj as [_ Hj].
          unfold Halo_Model.should_be_checked in Hj. cbn [Halo_Model.tri] in Hj.
          destruct (arena_get (tetras t1) i) as [t|] eqn:Et; [|discriminate]. apply arena_get_in in Et. exact (good_lt _ _ _ G Et).
      + intros k i Hk. cbn [s1 Halo_Model.haloes Halo_Model.points] in *. apply in_app_or in Hk. destruct Hk as [Hk|[Hk|[]]].
        * destruct (ro_haloes _ _ O k i Hk) as [q' [x' [w' [p' [E1 [E2 [E3 E4]]]]]]]. exists q', x', w', p'.
          split; [exact E1|]. split; [exact E2|]. split; [exact E3|].
          rewrite nth_error_app1; [exact E4|]. apply nth_error_Some. congruence.
        * injection Hk as <- <-. exists q, (r_id x), (r_wrap x), (r_point x). split; [reflexivity|]. split; [exact F|]. split; [exact IM|].
          rewrite Ep, <- (ro_points _ _ O), nth_error_app2, Nat.sub_diag by lia. reflexivity.
      + intros y pos Hy. cbn. apply in_or_app. left. exact (ro_local _ _ O y pos Hy).
    - reflexivity.
    - cbn [s1 Halo_Model.haloes]. rewrite map_app. reflexivity.
    - intros e He. cbn [s1 Halo_Model.undecided]. apply in_or_app. now left.
    - eexists. reflexivity.
    - exact KE.
    - intros i t' Ht Hi. cbn [s1 Halo_Model.tri Halo_Model.undecided] in Ht |- *.
      destruct (in_dec Nat.eq_dec p (points_of t')) as [Hp|Hp].
      + left. rewrite map_app, in_app_iff. right. rewrite map_map. cbn [fst]. rewrite map_id.
        apply filter_In. split; [exact (Hnew i t' Ht Hp)|]. unfold Halo_Model.should_be_checked. cbn [Halo_Model.tri].
        rewrite (in_arena_get _ _ _ (good_ids _ G) Ht). exact Hi.
      + right. destruct (Hold i t' Ht Hp) as [t0 [Ht0 E0]]. exists t0. split; [exact Ht0|]. split; [|exact E0].
        now apply (inner_same s s1 t0 t' KE (fun p0 => Kc i t0 p0 Ht0) E0).
  Qed.

  Lemma import_list r : forall l s, rank_ok r s ->
    (forall q x, In (q, x) l -> foreign r q (r_wrap x) /\ image_of q (r_id x) (r_wrap x) (r_point x)) ->
    NoDup (map (lkey r) l) -> (forall k, In k (map (lkey r) l) -> ~ In k (map fst (haloes s))) ->
    (forall why, fold_outcome (import_halo r) l s = Panic why -> why = InsertFailed) /\
    forall s', fold_outcome (import_halo r) l s = Done s' -> grown r s s' l.
  Proof.
    induction l as [|[q x] l IH]; intros s O H ND DJ; cbn [fold_outcome].
    - split; [discriminate|]. intros s' E. injection E as <-. now apply grown_nil.
    - destruct (H q x (or_introl eq_refl)) as [F IM]. cbn [map] in ND, DJ. inversion ND as [|? ? N1 N2]; subst.
      destruct (import_one r s q x O F IM (DJ _ (or_introl eq_refl))) as [A B].
      destruct (import_halo r s (q, x)) as [s1|why0]; cbn [andthen].
      + specialize (B s1 eq_refl).
        destruct (IH s1 (gr_ok _ _ _ _ B)) as [C D]; [intros q' x' Hx; apply H; now right|exact N2| |].
        * intros k Hk K. rewrite (gr_haloes _ _ _ _ B) in K. apply in_app_or in K. destruct K as [K|K].
          -- apply (DJ k); [now right|exact K].
          -- cbn in K. destruct K as [K|[]]. subst k. contradiction.
        * split; [exact C|]. intros s' E. change ((q, x) :: l) with ([(q, x)] ++ l). exact (grown_trans _ _ _ _ _ _ B (D s' E)).
      + split; [|discriminate]. intros why E. injection E as <-. now apply A.
  Qed.

  (** ** All ranks *)
  Notation deliveries := (deliveries P W wrap_eqb is_periodic images closer search_tree owns_part circumcircle characteristic_length chunk_size).
  Notation round := (round P W wrap_eqb is_periodic images closer search_tree owns_part circumcircle insert characteristic_length chunk_size).
  Notation import := (import P W wrap_eqb is_periodic insert).
  Notation local_periodic_haloes := (local_periodic_haloes P W wrap_eqb is_periodic images closer search_tree).

  Record world_ok (w : list rank_state) : Prop := {
    wo_rank : forall r s, nth_error w r = Some s -> rank_ok r s /\ decided r s;
    wo_cache : forall q sq r sr, nth_error w q = Some sq -> nth_error w r = Some sr ->
      forall x wr, foreign r q wr -> In (r, (x, wr)) (cache sq) <-> In (key r q x wr) (map fst (haloes sr));
    wo_owner : forall q x w' p, image_of q x w' p -> q < length w;
    wo_nodup : forall r s, nth_error w r = Some s -> NoDup (map fst (haloes s))
  }.

  (** What rank [r] gets from rank [q], whose cache goes from [c] to [c']. *)
  Record delivered (r q : nat) (c c' : list mentry) (searches : list search) (res : list result) : Prop := {
    de_cache : forall x w, foreign r q w -> In (r, (x, w)) c' <-> In (r, (x, w)) c \/ exists y, In y res /\ rkey y = (x, w);
    de_valid : forall y, In y res -> foreign r q (r_wrap y) /\ image_of q (r_id y) (r_wrap y) (r_point y) /\ ~ In (r, rkey y) c;
    de_nodup : NoDup (map rkey res);
    de_complete : forall d x w p, In d searches -> image_of q x w p -> foreign r q w ->
      closer (s_point d) p (s_radius d) = true -> In (r, (x, w)) c'
  }.

  Lemma from_search_panic self rank d c why : get_haloes_from_search self rank d c = Panic why ->
    why = SearchFailed \/ why = TwoImages.
  Proof.
    unfold Halo_Model.get_haloes_from_search. destruct (search_tree self (s_point d) (s_radius d)) as [l|] eqn:E.
    - destruct (map_outcome _ l) as [rs|w0] eqn:M; cbn [andthen]; [discriminate|]. intro H. injection H as <-.
      apply map_outcome_panic in M. destruct M as [x [Hx Fx]].
      destruct (find_wrapped_point d (snd x)) as [[w p]|w1] eqn:F; cbn [andthen] in Fx; [discriminate|]. injection Fx as <-.
      right. pose proof (found_image self d l x E Hx) as NI. rewrite F in NI.
      unfold Halo_Model.find_wrapped_point in F. destruct (filter _ _) as [|a [|b l0]]; [|discriminate|congruence].
      injection F as <-. congruence.
    - intro H. injection H as <-. now left.
  Qed.
  Lemma from_searches_panic self rank l c why : get_haloes_from_searches self rank l c = Panic why ->
    why = SearchFailed \/ why = TwoImages.
  Proof.
    unfold Halo_Model.get_haloes_from_searches. destruct (map_state _ l c) as [[rs c1]|w0] eqn:E; cbn [andthen]; [discriminate|].
    intro H. injection H as <-. apply map_state_panic in E. destruct E as [d [c' [_ F]]]. exact (from_search_panic _ _ _ _ _ F).
  Qed.
  Lemma outgoing_panic self l c why : outgoing_results self l c = Panic why -> why = SearchFailed \/ why = TwoImages.
  Proof.
    unfold Halo_Model.outgoing_results. intro E. apply map_state_panic in E. destruct E as [x [c' [_ F]]].
    cbn in F. destruct (fst x =? self); [discriminate|]. exact (from_searches_panic _ _ _ _ _ F).
  Qed.

  (** The answers of one rank in one round. *)
  Lemma rank_answers self (all : list (list search)) own_searches c own c1 out c2 :
    nth_error all self = Some own_searches ->
    local_periodic_haloes self own_searches c = Done (own, c1) -> outgoing_results self all c1 = Done (out, c2) ->
    length out = length all /\
    forall r ds, nth_error all r = Some ds ->
      delivered r self c c2 ds (if self =? r then own else nth r out []).
  Proof.
    intros Eown H1 H2. unfold Halo_Model.local_periodic_haloes in H1.
    destruct (get_haloes_from_searches self self own_searches c) as [[ra ca]|] eqn:G; cbn [andthen] in H1; [|discriminate].
    injection H1 as <- <-. apply from_searches_ok in G. destruct G as [B [IM CO]].
    unfold Halo_Model.outgoing_results in H2. apply outgoing_ok in H2. destruct H2 as [L [M [O [Z A]]]].
    split; [exact L|]. intros r ds Hr.
    destruct (Nat.eqb_spec self r) as [<-|N].
    - assert (ds = own_searches) by congruence. subst ds.
      assert (Q : forall y, In (self, y) c2 <-> In (self, y) ca).
      { intro y. split; [|apply M]. intro H. destruct (O _ _ H) as [X|[_ X]]; [exact X|congruence]. }
      constructor.
      + intros x w F. rewrite Q, (bt_mem _ _ _ _ B). split; (intros [X|[y [Y1 Y2]]]; [now left|right]).
        * exists y. unfold rkey in Y2 |- *. injection Y2 as -> ->. split; [|reflexivity]. apply filter_In. split; [exact Y1|].
          destruct F as [F|F]; [congruence|]. exact F.
        * apply filter_In in Y1. exists y. split; [tauto|congruence].
      + intros y Hy. apply filter_In in Hy. destruct Hy as [Hy Hp]. split; [now right|]. split; [exact (IM y Hy)|].
        exact (bt_new _ _ _ _ B y Hy).
      + pose proof (bt_nodup _ _ _ _ B) as ND. revert ND. clear. induction ra as [|y ra IH]; cbn; intro ND; [constructor|].
        inversion ND as [|? ? N1 N2]; subst. destruct (is_periodic (r_wrap y)); cbn; [|auto]. constructor; [|auto].
        intro H. apply N1. apply in_map_iff in H. destruct H as [z [E Hz]]. apply filter_In in Hz. rewrite <- E. now apply in_map.
      + intros d x w p Hd Hi F Hc. apply Q. exact (CO d x w p Hd Hi Hc).
    - destruct (A r ds Hr) as [res [R1 [R2 [R3 [R4 [R5 R6]]]]]]; [cbn; congruence|]. cbn [Nat.add] in *.
      rewrite (nth_error_nth' out r [] res R1).
      assert (Q : forall y, In (r, y) ca <-> In (r, y) c).
      { intro y. rewrite (bt_mem _ _ _ _ B). split; [|auto]. intros [X|[x [_ X]]]; [exact X|]. injection X as -> _. congruence. }
      constructor.
      + intros x w F. rewrite R2, Q. split; (intros [X|[y [Y1 Y2]]]; [now left|right; exists y; split; [exact Y1|congruence]]).
      + intros y Hy. split; [left; exact N|]. split; [exact (R5 y Hy)|]. rewrite <- Q. exact (R3 y Hy).
      + exact R4.
      + intros d x w p Hd Hi F Hc. exact (R6 d x w p Hd Hi Hc).
  Qed.

  Lemma deliveries_ok w ds : world_ok w -> deliveries w = Done ds -> length ds = length w /\
    forall r s, nth_error w r = Some s -> exists s1 recv searches, nth_error ds r = Some (s1, recv) /\ length recv = length w /\
      rank_ok r s1 /\ tri s1 = tri s /\ points s1 = points s /\ kinds s1 = kinds s /\ haloes s1 = haloes s /\
      (forall i t, In (i, t) (tetras (tri s)) -> inner_tetra s t ->
         In i (map fst (undecided s1)) \/ covered r s t \/ exists d, In d searches /\ full_search s t d) /\
      forall q sq, nth_error w q = Some sq -> exists sq1 recvq res, nth_error ds q = Some (sq1, recvq) /\
        nth_error recv q = Some res /\ delivered r q (cache sq) (cache sq1) searches res.
  Proof.
    intros WO H. unfold Halo_Model.deliveries in H.
    destruct (map_outcome get_radius_search_data w) as [searched|] eqn:E1; cbn [andthen] in H; [|discriminate].
    destruct (map_outcome _ (combine (seq 0 (length searched)) searched)) as [answered|] eqn:E2; cbn [andthen] in H; [|discriminate].
    injection H as <-.
    destruct (map_outcome_nth _ _ _ E1) as [L1 X1]. destruct (map_outcome_nth _ _ _ E2) as [L2 X2].
    rewrite combine_seq_length in L2.
    split; [rewrite map_length, combine_seq_length; congruence|].
    (* the searches and answers of one rank *)
    assert (S1 : forall r s, nth_error w r = Some s -> exists l s', nth_error searched r = Some (l, s') /\
       rank_ok r s' /\ tri s' = tri s /\ points s' = points s /\ kinds s' = kinds s /\ haloes s' = haloes s /\ cache s' = cache s /\
       (forall i t, In (i, t) (tetras (tri s)) -> inner_tetra s t ->
          In i (map fst (undecided s')) \/ covered r s t \/ exists d, In d l /\ full_search s t d)).
    { intros r s Hr. destruct (wo_rank _ WO r s Hr) as [O D]. destruct (searches_ok r s O D) as [l [s' [E R]]].
      destruct (X1 r s Hr) as [b [Hb Eb]]. rewrite E in Eb. injection Eb as <-. exists l, s'. split; [exact Hb|exact R]. }
    assert (S2 : forall q sq, nth_error w q = Some sq -> exists lq sq' own out c2, nth_error searched q = Some (lq, sq') /\
       nth_error answered q = Some (own, out, set_cache P W sq' c2) /\
       forall r ds, nth_error (map fst searched) r = Some ds -> delivered r q (cache sq) c2 ds (if q =? r then own else nth r out [])).
    { intros q sq Hq. destruct (S1 q sq Hq) as [lq [sq' [Hs [_ [_ [_ [_ [_ [Ec _]]]]]]]]].
      destruct (X2 q (q, (lq, sq'))) as [b [Hb Eb]]; [now rewrite combine_seq_nth, Hs|]. cbn [fst snd] in Eb.
      destruct (local_periodic_haloes q lq (cache sq')) as [[own c1]|] eqn:G1; cbn [andthen] in Eb; [|discriminate].
      destruct (outgoing_results q (map fst searched) c1) as [[out c2]|] eqn:G2; cbn [andthen] in Eb; [|discriminate].
      injection Eb as <-. exists lq, sq', own, out, c2. split; [exact Hs|]. split; [exact Hb|].
      rewrite Ec in G1. refine (proj2 (rank_answers q (map fst searched) lq (cache sq) own c1 out c2 _ G1 G2)).
      now rewrite nth_error_map', Hs. }
    intros r s Hr. destruct (S1 r s Hr) as [l [s' [Hs [O [T1 [T2 [T3 [T4 [T5 T6]]]]]]]]].
    destruct (S2 r s Hr) as [l' [s'' [own [out [c2 [Hs' [Ha _]]]]]]]. rewrite Hs in Hs'. injection Hs' as <- <-.
    set (recv := map (fun y : nat * (list result * list (list result) * rank_state) =>
                            if fst y =? r then own else nth r (snd (fst (snd y))) [])
                       (combine (seq 0 (length answered)) answered)).
    exists (set_cache P W s' c2), recv, l.
    split; [rewrite nth_error_map', combine_seq_nth, Ha; reflexivity|].
    split; [unfold recv; rewrite map_length, combine_seq_length; congruence|].
    split; [now apply set_cache_ok|]. repeat (split; [assumption|]).
    intros q sq Hq. destruct (S2 q sq Hq) as [lq [sq' [ownq [outq [cq [Hsq [Haq D]]]]]]].
    exists (set_cache P W sq' cq).
    eexists _, (if q =? r then own else nth r outq []).
    split; [rewrite nth_error_map', combine_seq_nth, Haq; reflexivity|].
    split; [unfold recv; rewrite nth_error_map', combine_seq_nth, Haq; reflexivity|].
    cbn [Halo_Model.cache set_cache].
    assert (Dr := D r l). rewrite nth_error_map', Hs in Dr. specialize (Dr eq_refl).
    destruct (Nat.eqb_spec q r) as [->|N]; [|exact Dr]. rewrite Ha in Haq. injection Haq as <- <- _. exact Dr.
  Qed.

  Lemma deliveries_panic w why : world_ok w -> deliveries w = Panic why -> why = SearchFailed \/ why = TwoImages.
  Proof.
    intros WO H. unfold Halo_Model.deliveries in H.
    destruct (map_outcome get_radius_search_data w) as [searched|w0] eqn:E1; cbn [andthen] in H.
    - destruct (map_outcome _ (combine (seq 0 (length searched)) searched)) as [answered|w1] eqn:E2; cbn [andthen] in H; [discriminate|].
      injection H as <-. apply map_outcome_panic in E2. destruct E2 as [x [_ F]].
      destruct (local_periodic_haloes _ _ _) as [[own c1]|w2] eqn:G1; cbn [andthen] in F.
      + destruct (outgoing_results _ _ c1) as [[out c2]|w3] eqn:G2; cbn [andthen] in F; [discriminate|].
        injection F as <-. exact (outgoing_panic _ _ _ _ G2).
      + injection F as <-. unfold Halo_Model.local_periodic_haloes in G1.
        destruct (get_haloes_from_searches _ _ _ _) as [[ra ca]|w3] eqn:G; cbn [andthen] in G1; [discriminate|].
        injection G1 as <-. exact (from_searches_panic _ _ _ _ _ G).
    - injection H as <-. exfalso. apply map_outcome_panic in E1. destruct E1 as [s [Hs F]]. apply In_nth_error in Hs.
      destruct Hs as [r Hr]. destruct (wo_rank _ WO r s Hr) as [O D]. destruct (searches_ok r s O D) as [l [s' [E _]]]. congruence.
  Qed.

  (** The list of imported results of one rank. *)
  Definition incoming (recv : list (list result)) : list (nat * result) :=
    flat_map (fun x : nat * list result => map (pair (fst x)) (snd x)) (combine (seq 0 (length recv)) recv).
  Lemma in_incoming recv q x : In (q, x) (incoming recv) <-> exists res, nth_error recv q = Some res /\ In x res.
  Proof.
    unfold incoming. rewrite in_flat_map. split.
    - intros [[q' res] [H1 H2]]. cbn in H2. apply in_map_iff in H2. destruct H2 as [y [E Hy]]. injection E as -> ->.
      apply In_nth_error in H1. destruct H1 as [i Hi]. rewrite combine_seq_nth in Hi.
      destruct (nth_error recv i) as [res'|] eqn:E; [|discriminate]. cbn in Hi. injection Hi as <- <-. eauto.
    - intros [res [H1 H2]]. exists (q, res). split.
      + apply (nth_error_In _ q). rewrite combine_seq_nth, H1. reflexivity.
      + cbn. now apply in_map.
  Qed.
  Lemma nodup_app {A} (l1 l2 : list A) : NoDup l1 -> NoDup l2 -> (forall x, In x l1 -> ~ In x l2) -> NoDup (l1 ++ l2).
  Proof.
    induction l1 as [|a l IH]; cbn; intros N1 N2 D; [exact N2|]. inversion N1 as [|? ? A1 A2]; subst. constructor.
    - rewrite in_app_iff. intros [H|H]; [contradiction|]. exact (D a (or_introl eq_refl) H).
    - apply IH; auto.
  Qed.
  Lemma incoming_nodup r recv : (forall q x, In (q, x) (incoming recv) -> foreign r q (r_wrap x)) ->
    (forall q res, nth_error recv q = Some res -> NoDup (map rkey res)) -> NoDup (map (lkey r) (incoming recv)).
  Proof.
    unfold incoming. generalize 0 as k. induction recv as [|res recv IH]; intros k F N; cbn [length seq combine flat_map map]; [constructor|].
    cbn [length seq combine flat_map fst snd] in F.
    rewrite map_app. cbn [fst snd] in *. apply nodup_app.
    - specialize (N 0 res eq_refl). assert (Fk : forall x, In x res -> foreign r k (r_wrap x)).
      { intros x Hx. apply (F k x). apply in_or_app. left. now apply in_map. }
      clear - N Fk one_unwrapped. induction res as [|x res IH]; cbn in *; [constructor|]. inversion N as [|? ? N1 N2]; subst.
      constructor; [|apply IH; auto]. intro H. apply N1. rewrite map_map in H. apply in_map_iff in H. destruct H as [y [E Hy]].
      apply key_inj in E; cbn [fst snd] in *; [|auto|auto]. destruct E as [_ [E1 E2]]. apply in_map_iff. exists y.
      split; [|exact Hy]. unfold rkey. congruence.
    - apply IH.
      + intros q x H. apply F. apply in_or_app. now right.
      + intros q res' H. exact (N (S q) res' H).
    - intros kk H1 H2. apply in_map_iff in H1. destruct H1 as [[q1 x1] [E1 H1]]. apply in_map_iff in H2. destruct H2 as [[q2 x2] [E2 H2]].
      assert (F1 := F q1 x1 (in_or_app _ _ _ (or_introl H1))). assert (F2 := F q2 x2 (in_or_app _ _ _ (or_intror H2))).
      rewrite <- E2 in E1. unfold lkey in E1. cbn [fst snd] in E1. apply key_inj in E1; [|auto|auto]. destruct E1 as [E1 _].
      apply in_map_iff in H1. destruct H1 as [y [Ey _]]. injection Ey as -> _. subst q2.
      apply in_flat_map in H2. destruct H2 as [[q3 res3] [H3 H4]]. cbn in H4. apply in_map_iff in H4. destruct H4 as [z [Ez _]].
      injection Ez as -> _. apply in_combine_l in H3. apply in_seq in H3. lia.
  Qed.

  (** ** One round *)
  Lemma received_ok w ds r s1 recv : world_ok w -> deliveries w = Done ds -> nth_error ds r = Some (s1, recv) ->
    rank_ok r s1 /\
    (forall q x, In (q, x) (incoming recv) -> foreign r q (r_wrap x) /\ image_of q (r_id x) (r_wrap x) (r_point x)) /\
    NoDup (map (lkey r) (incoming recv)) /\ (forall k, In k (map (lkey r) (incoming recv)) -> ~ In k (map fst (haloes s1))).
  Proof.
    intros WO H Hr. destruct (deliveries_ok w ds WO H) as [L X].
    assert (K : r < length w) by (rewrite <- L; apply nth_error_Some; congruence).
    apply nth_error_Some in K. destruct (nth_error w r) as [s|] eqn:Es; [|congruence].
    destruct (X r s Es) as [s1' [recv' [searches [E1 [Lr [O [T1 [T2 [T3 [T4 [T5 D]]]]]]]]]]].
    rewrite Hr in E1. injection E1 as <- <-.
    assert (V : forall q res, nth_error recv q = Some res -> exists sq c', nth_error w q = Some sq /\ delivered r q (cache sq) c' searches res).
    { intros q res Hq. assert (Kq : q < length w) by (rewrite <- Lr; apply nth_error_Some; congruence).
      apply nth_error_Some in Kq. destruct (nth_error w q) as [sq|] eqn:Eq; [|congruence].
      destruct (D q sq Eq) as [sq1 [recvq [res' [A1 [A2 A3]]]]]. exists sq, (cache sq1). split; [reflexivity|congruence]. }
    assert (F : forall q x, In (q, x) (incoming recv) -> foreign r q (r_wrap x) /\ image_of q (r_id x) (r_wrap x) (r_point x)).
    { intros q x Hx. apply in_incoming in Hx. destruct Hx as [res [Hq Hx]]. destruct (V q res Hq) as [sq [c' [_ V']]].
      destruct (de_valid _ _ _ _ _ _ V' x Hx) as [A [B _]]. now split. }
    split; [exact O|]. split; [exact F|]. split.
    - apply incoming_nodup; [intros q x Hx; now apply F|]. intros q res Hq. destruct (V q res Hq) as [sq [c' [_ V']]].
      exact (de_nodup _ _ _ _ _ _ V').
    - intros k Hk Kh. apply in_map_iff in Hk. destruct Hk as [[q x] [<- Hx]]. pose proof Hx as Hx'.
      apply in_incoming in Hx. destruct Hx as [res [Hq Hx]]. destruct (V q res Hq) as [sq [c' [Esq V']]].
      destruct (de_valid _ _ _ _ _ _ V' x Hx) as [A [B C]]. apply C.
      apply (proj2 (wo_cache _ WO q sq r s Esq Es (r_id x) (r_wrap x) A)). rewrite T4 in Kh. exact Kh.
  Qed.
  Lemma import_incoming r recv s : import r recv s = fold_outcome (import_halo r) (incoming recv) s.
  Proof. reflexivity. Qed.

  (** Every halo is new when it is entered. *)
  Theorem import_no_duplicate w ds r s1 recv : world_ok w -> deliveries w = Done ds -> nth_error ds r = Some (s1, recv) ->
    forall why, import r recv s1 = Panic why -> why = InsertFailed.
  Proof.
    intros WO H Hr why. rewrite import_incoming. destruct (received_ok w ds r s1 recv WO H Hr) as [O [F [N D]]].
    exact (proj1 (import_list r (incoming recv) s1 O F N D) why).
  Qed.
  Theorem round_panics w why : world_ok w -> round w = Panic why ->
    why = SearchFailed \/ why = TwoImages \/ why = InsertFailed.
  Proof.
    intros WO H. unfold Halo_Model.round in H. destruct (deliveries w) as [ds|w0] eqn:E; cbn [andthen] in H.
    - apply map_outcome_panic in H. destruct H as [[r [s1 recv]] [Hx F]]. cbn [fst snd] in F.
      apply In_nth_error in Hx. destruct Hx as [i Hi]. rewrite combine_seq_nth in Hi.
      destruct (nth_error ds i) as [y|] eqn:Ey; [|discriminate]. cbn in Hi. injection Hi as <- ->.
      right. right. exact (import_no_duplicate w ds i s1 recv WO E Ey why F).
    - injection H as <-. destruct (deliveries_panic w w0 WO E); auto.
  Qed.

  Theorem round_ok w w' : world_ok w -> round w = Done w' -> world_ok w' /\ length w' = length w.
  Proof.
    intros WO H. unfold Halo_Model.round in H. destruct (deliveries w) as [ds|w0] eqn:E; cbn [andthen] in H; [|discriminate].
    destruct (map_outcome_nth _ _ _ H) as [L X]. rewrite combine_seq_length in L.
    destruct (deliveries_ok w ds WO E) as [L1 D].
    assert (LW : length w' = length w) by congruence.
    (* every rank *)
    assert (R : forall r s, nth_error w r = Some s -> exists s1 recv searches s', nth_error ds r = Some (s1, recv) /\
      nth_error w' r = Some s' /\ length recv = length w /\ rank_ok r s1 /\ tri s1 = tri s /\ points s1 = points s /\ kinds s1 = kinds s /\
      haloes s1 = haloes s /\ grown r s1 s' (incoming recv) /\
      (forall i t, In (i, t) (tetras (tri s)) -> inner_tetra s t ->
         In i (map fst (undecided s1)) \/ covered r s t \/ exists d, In d searches /\ full_search s t d) /\
      forall q sq, nth_error w q = Some sq -> exists sq1 recvq res, nth_error ds q = Some (sq1, recvq) /\
        nth_error recv q = Some res /\ delivered r q (cache sq) (cache sq1) searches res).
    { intros r s Hr. destruct (D r s Hr) as [s1 [recv [searches [E1 [Lr [O [T1 [T2 [T3 [T4 [T5 T6]]]]]]]]]]].
      destruct (X r (r, (s1, recv))) as [s' [Hs' Fs']]; [now rewrite combine_seq_nth, E1|]. cbn [fst snd] in Fs'.
      destruct (received_ok w ds r s1 recv WO E E1) as [_ [F [N DJ]]].
      exists s1, recv, searches, s'. repeat (split; [assumption|]). split; [|now split].
      exact (proj2 (import_list r (incoming recv) s1 O F N DJ) s' Fs'). }
    (* the caches agree with the haloes *)
    assert (C : forall q sq r sr, nth_error w' q = Some sq -> nth_error w' r = Some sr ->
      forall x wr, foreign r q wr -> In (r, (x, wr)) (cache sq) <-> In (key r q x wr) (map fst (haloes sr))).
    { intros q sq' r sr' Hq Hr x wr F.
      assert (exists sq, nth_error w q = Some sq) as [sq Eq].
      { assert (K : q < length w) by (rewrite <- LW; apply nth_error_Some; congruence). apply nth_error_Some in K.
        destruct (nth_error w q); [eauto|congruence]. }
      assert (exists sr, nth_error w r = Some sr) as [sr Er].
      { assert (K : r < length w) by (rewrite <- LW; apply nth_error_Some; congruence). apply nth_error_Some in K.
        destruct (nth_error w r); [eauto|congruence]. }
      destruct (R q sq Eq) as [sq1 [recvq [searchesq [sq2 [Q1 [Q2 [_ [_ [_ [_ [_ [_ [Q9 _]]]]]]]]]]]]].
      rewrite Hq in Q2. injection Q2 as <-.
      destruct (R r sr Er) as [sr1 [recvr [searchesr [sr2 [R1 [R2 [R3 [R4 [_ [_ [_ [R8 [R9 [_ R11]]]]]]]]]]]]]].
      rewrite Hr in R2. injection R2 as <-.
      destruct (R11 q sq Eq) as [sq1' [recvq' [res [A1 [A2 A3]]]]]. rewrite Q1 in A1. injection A1 as <- <-.
      rewrite (gr_cache _ _ _ _ Q9), (de_cache _ _ _ _ _ _ A3 x wr F), (gr_haloes _ _ _ _ R9), in_app_iff, R8.
      rewrite (wo_cache _ WO q sq r sr Eq Er x wr F).
      split; (intros [Y|Y]; [now left|right]).
      - destruct Y as [y [Y1 Y2]]. apply in_map_iff. exists (q, y). unfold lkey, rkey in *. cbn [fst snd]. split; [congruence|].
        apply in_incoming. eauto.
      - apply in_map_iff in Y. destruct Y as [[q' y] [Y1 Y2]].
        pose proof (proj1 (proj2 (received_ok w ds r sr1 recvr WO E R1)) q' y Y2) as [F' _].
        unfold lkey in Y1. cbn [fst snd] in Y1. apply key_inj in Y1; [|auto|auto]. destruct Y1 as [-> [Y3 Y4]].
        apply in_incoming in Y2. destruct Y2 as [res' [B1 B2]]. exists y. split; [congruence|]. unfold rkey. congruence. }
    split; [|exact LW]. constructor; [|exact C|intros q x wr p Hi; rewrite LW; exact (wo_owner _ WO q x wr p Hi)|].
    2: { intros r s' Hr. assert (exists s, nth_error w r = Some s) as [s Es].
      { assert (K : r < length w) by (rewrite <- LW; apply nth_error_Some; congruence). apply nth_error_Some in K.
        destruct (nth_error w r); [eauto|congruence]. }
      destruct (R r s Es) as [s1 [recv [searches [s2 [E1 [E2 [_ [_ [_ [_ [_ [T4 [G _]]]]]]]]]]]]].
      rewrite Hr in E2. injection E2 as <-. rewrite (gr_haloes _ _ _ _ G).
      destruct (received_ok w ds r s1 recv WO E E1) as [_ [_ [N DJ]]]. apply nodup_app; [|exact N|].
      - rewrite T4. exact (wo_nodup _ WO r s Es).
      - intros k K1 K2. exact (DJ k K2 K1). }
    intros r s' Hr.
    assert (exists s, nth_error w r = Some s) as [s Es].
    { assert (K : r < length w) by (rewrite <- LW; apply nth_error_Some; congruence). apply nth_error_Some in K.
      destruct (nth_error w r); [eauto|congruence]. }
    destruct (R r s Es) as [s1 [recv [searches [s2 [E1 [E2 [Lr [O [T1 [T2 [T3 [T4 [G [T5 T6]]]]]]]]]]]]]].
    rewrite Hr in E2. injection E2 as <-. split; [exact (gr_ok _ _ _ _ G)|].
    intros i t' Ht Hi. destruct (gr_old _ _ _ _ G i t' Ht Hi) as [U|[t [Ht1 [Hi1 Ep]]]]; [now left|].
    rewrite T1 in Ht1. assert (Hi0 : inner_tetra s t).
    { unfold inner_tetra, Halo_Model.inner_point in Hi1 |- *. now rewrite T3 in Hi1. }
    assert (CP : corner_positions s' t' = corner_positions s t).
    { rewrite (corner_positions_same s1 s' t t' (gr_points _ _ _ _ G)).
      - unfold Halo_Model.corner_positions. now rewrite T2.
      - intros p Hp. rewrite (ro_points _ _ O), T1. destruct (wo_rank _ WO r s Es) as [Os _]. exact (good_corner _ _ _ _ (ro_good _ _ Os) Ht1 Hp).
      - exact Ep. }
    assert (HH : forall k, In k (map fst (haloes s)) -> In k (map fst (haloes s'))).
    { intros k Hk. rewrite (gr_haloes _ _ _ _ G), T4. apply in_or_app. now left. }
    destruct (T5 i t Ht1 Hi0) as [U|[U|[d [Hd FS]]]].
    - left. apply in_map_iff in U. destruct U as [e [<- He]]. apply in_map. exact (gr_undecided _ _ _ _ G e He).
    - right. intros center radius Hc q x w0 p Hi' F Hcl. rewrite CP in Hc. apply HH. exact (U center radius Hc q x w0 p Hi' F Hcl).
    - right. intros center radius Hc q x w0 p Hi' F Hcl. rewrite CP in Hc.
      assert (K : q < length w) by exact (wo_owner _ WO q x w0 p Hi'). apply nth_error_Some in K.
      destruct (nth_error w q) as [sq|] eqn:Eq; [|congruence].
      destruct (T6 q sq Eq) as [sq1 [recvq [res [A1 [A2 A3]]]]].
      assert (exists sq', nth_error w' q = Some sq') as [sq' Eq'].
      { destruct (R q sq Eq) as [? [? [? [sq' [_ [Y _]]]]]]. eauto. }
      apply (C q sq' r s' Eq' Hr x w0 F).
      destruct (R q sq Eq) as [sqa [recva [sa [sb [B1 [B2 [_ [_ [_ [_ [_ [_ [B9 _]]]]]]]]]]]]].
      rewrite A1 in B1. injection B1 as <- <-. rewrite Eq' in B2. injection B2 as <-.
      rewrite (gr_cache _ _ _ _ B9). apply (de_complete _ _ _ _ _ _ A3 d x w0 p Hd Hi' F).
      destruct (FS center radius Hc) as [F1 F2]. rewrite F1. exact (closer_mono _ _ _ _ F2 Hcl).
  Qed.

  (** ** The start *)
  Notation insert_inner := (insert_inner P W insert).
  Notation initial := (initial P W insert).
  Lemma insert_inner_ok local : forall s s', good (tri s) -> length (points s) = num_points (tri s) -> length (kinds s) = num_points (tri s) ->
    fold_outcome insert_inner local s = Done s' ->
    good (tri s') /\ length (points s') = num_points (tri s') /\ length (kinds s') = num_points (tri s') /\
    haloes s' = haloes s /\ undecided s' = undecided s /\ cache s' = cache s /\ points s' = points s ++ local.
  Proof.
    induction local as [|x local IH]; cbn [fold_outcome]; intros s s' G H1 H2 H.
    - injection H as <-. rewrite app_nil_r. auto 10.
    - unfold Halo_Model.insert_inner at 1 in H. destruct (insert (points s ++ [x]) (tri s)) as [[[p new] t1]|] eqn:Ei; [|discriminate].
      cbn [andthen] in H. destruct (insert_good _ _ _ _ _ G Ei) as [G1 [Ep [En _]]].
      apply IH in H; cbn [Halo_Model.tri Halo_Model.points Halo_Model.kinds Halo_Model.haloes Halo_Model.undecided Halo_Model.cache] in *.
      + destruct H as [A1 [A2 [A3 [A4 [A5 [A6 A7]]]]]]. rewrite <- app_assoc in A7. auto 10.
      + exact G1.
      + rewrite app_length. cbn. lia.
      + rewrite app_length. cbn. lia.
  Qed.
  Lemma initial_ok r start outer local s : good start -> length outer = num_points start ->
    (forall x pos, In (x, pos) (particles r) -> In pos local) -> initial start outer local = Done s ->
    rank_ok r s /\ decided r s /\ haloes s = [] /\ cache s = [].
  Proof.
    intros G L HL H. unfold Halo_Model.initial in H.
    match type of H with andthen ?e _ = _ => destruct e as [s0|] eqn:E end; cbn [andthen] in H; [|discriminate].
    injection H as <-.
    apply insert_inner_ok in E; cbn [Halo_Model.tri Halo_Model.points Halo_Model.kinds Halo_Model.haloes Halo_Model.undecided Halo_Model.cache] in *;
      [|exact G|exact L|now rewrite map_length].
    destruct E as [A1 [A2 [A3 [A4 [A5 [A6 A7]]]]]].
    split; [|split; [|split; [exact A4|exact A6]]].
    - constructor; auto.
      + intros i t rad Hu Ht. apply in_map_iff in Hu. destruct Hu as [j [Ej Hj]]. injection Ej as -> _.
        apply filter_In in Hj. destruct Hj as [_ Hj]. unfold Halo_Model.should_be_checked in Hj. cbn in Ht.
        rewrite (in_arena_get _ _ _ (good_ids _ A1) Ht) in Hj. exact Hj.
      + intros i rad Hu. apply in_map_iff in Hu. destruct Hu as [j [Ej Hj]]. injection Ej as -> _.
        apply filter_In in Hj. destruct Hj as [Hj _]. apply in_map_iff in Hj. destruct Hj as [[i' t] [Ei Hj]]. cbn in Ei. subst i'.
        exact (good_lt _ _ _ A1 Hj).
      + intros k i Hk. cbn in Hk. rewrite A4 in Hk. contradiction.
      + intros x pos Hx. cbn. rewrite A7. apply in_or_app. right. exact (HL x pos Hx).
    - intros i t Ht Hi. left. cbn [Halo_Model.undecided set_undecided]. rewrite map_map. cbn [fst]. rewrite map_id.
      cbn in Ht. apply filter_In. split; [apply in_map_iff; now exists (i, t)|]. unfold Halo_Model.should_be_checked.
      rewrite (in_arena_get _ _ _ (good_ids _ A1) Ht). exact Hi.
  Qed.

  Definition started (w : list rank_state) : Prop :=
    (forall q, particles q <> [] -> q < length w) /\
    forall r s, nth_error w r = Some s -> exists start outer local, good start /\ length outer = num_points start /\
      (forall x pos, In (x, pos) (particles r) -> In pos local) /\ initial start outer local = Done s.
  Lemma started_ok w : started w -> world_ok w.
  Proof.
    intros [SP ST]. constructor.
    - intros r s Hr. destruct (ST r s Hr) as [start [outer [local [G [L [HL E]]]]]].
      destruct (initial_ok r start outer local s G L HL E) as [A [B _]]. now split.
    - intros q sq r sr Hq Hr x wr F.
      destruct (ST q sq Hq) as [start [outer [local [G [L [HL E]]]]]]. destruct (initial_ok q start outer local sq G L HL E) as [_ [_ [_ C1]]].
      destruct (ST r sr Hr) as [start' [outer' [local' [G' [L' [HL' E']]]]]]. destruct (initial_ok r start' outer' local' sr G' L' HL' E') as [_ [_ [C2 _]]].
      rewrite C1, C2. cbn. tauto.
    - intros q x w' p [pos [H _]]. apply SP. intro E. rewrite E in H. contradiction.
    - intros r s Hr. destruct (ST r s Hr) as [start [outer [local [G [L [HL E]]]]]].
      destruct (initial_ok r start outer local s G L HL E) as [_ [_ [-> _]]]. constructor.
  Qed.

  (** ** Any number of rounds *)
  Notation rounds := (steps round).
  Lemma rounds_ok w w' : rounds w w' -> world_ok w -> world_ok w' /\ length w' = length w.
  Proof.
    induction 1 as [w|w w1 w2 H _ IH]; intro O; [auto|]. destruct (round_ok w w1 O H) as [O1 L1]. destruct (IH O1) as [O2 L2].
    split; [exact O2|congruence].
  Qed.
  Notation run := (run P W wrap_eqb is_periodic images closer search_tree owns_part circumcircle insert characteristic_length chunk_size).
  Lemma run_rounds fuel : forall w w', run fuel w = Some (Done w') -> rounds w w' /\ everyone_finished P W w' = true.
  Proof.
    induction fuel as [|fuel IH]; intros w w' H; cbn [Halo_Model.run] in H; destruct (everyone_finished P W w) eqn:E.
    - injection H as <-. split; [constructor|exact E].
    - discriminate.
    - injection H as <-. split; [constructor|exact E].
    - destruct (round w) as [w1|why] eqn:R; [|discriminate]. destruct (IH w1 w' H) as [A B]. split; [|exact B].
      exact (steps_more _ _ _ _ R A).
  Qed.
  Lemma run_panics fuel : forall w why, world_ok w -> run fuel w = Some (Panic why) ->
    why = SearchFailed \/ why = TwoImages \/ why = InsertFailed.
  Proof.
    induction fuel as [|fuel IH]; intros w why O H; cbn [Halo_Model.run] in H; destruct (everyone_finished P W w) eqn:E; try discriminate.
    destruct (round w) as [w1|why1] eqn:R.
    - exact (IH w1 why (proj1 (round_ok w w1 O R)) H).
    - injection H as <-. exact (round_panics w why1 O R).
  Qed.
  Lemma finished_nil w r s : everyone_finished P W w = true -> nth_error w r = Some s -> undecided s = [].
  Proof.
    unfold everyone_finished. intro H. apply Nat.eqb_eq in H. revert r. induction w as [|x w IH]; intros r Hr; [destruct r; discriminate|].
    cbn in H. destruct r as [|r]; cbn in Hr.
    - injection Hr as <-. apply length_zero_iff_nil. lia.
    - apply (IH ltac:(lia) r Hr).
  Qed.

  Hypothesis one_image : forall q x w p p', image_of q x w p -> image_of q x w p' -> p = p'.
  Notation complete := (complete P W is_periodic images closer circumcircle particles).
  Theorem finished_complete w r s : world_ok w -> everyone_finished P W w = true -> nth_error w r = Some s -> complete r s.
  Proof.
    intros O E Hr. destruct (wo_rank _ O r s Hr) as [RO D]. pose proof (finished_nil w r s E Hr) as U.
    intros i t Ht [c [Hc Hk]] center radius Hcc q x w' p Hi Hcl.
    assert (I0 : inner_tetra s t).
    { apply existsb_exists. exists c. split; [exact Hc|]. unfold Halo_Model.inner_point. now rewrite (nth_error_nth' _ _ _ _ Hk). }
    split.
    - intro F. destruct (D i t Ht I0) as [B|B]; [rewrite U in B; contradiction|].
      pose proof (B center radius Hcc q x w' p Hi F Hcl) as K. apply in_map_iff in K. destruct K as [[k j] [Ek K]]. cbn in Ek. subst k.
      destruct (ro_haloes _ _ RO _ _ K) as [q' [x' [w1 [p' [E1 [F1 [I1 N1]]]]]]].
      apply key_inj in E1; [|auto|auto]. destruct E1 as [<- [<- <-]]. rewrite (one_image _ _ _ _ _ I1 Hi) in N1.
      exists j. split; [exact K|exact N1].
    - intros ->. destruct Hi as [pos [P1 P2]]. exists pos. split; [exact P1|]. split; [exact P2|]. exact (ro_local _ _ RO x pos P1).
  Qed.

  (** ** Together *)
  Theorem run_complete fuel w w' r s : started w -> run fuel w = Some (Done w') -> nth_error w' r = Some s -> complete r s.
  Proof.
    intros S H Hr. destruct (run_rounds fuel w w' H) as [A B]. apply (finished_complete w' r s); auto.
    exact (proj1 (rounds_ok _ _ A (started_ok _ S))).
  Qed.
  (** The haloes are images of foreign particles, each entered once. *)
  Theorem haloes_sound w w' r s : started w -> rounds w w' -> nth_error w' r = Some s ->
    NoDup (map fst (haloes s)) /\ forall k i, In (k, i) (haloes s) -> exists q x wr p, k = key r q x wr /\ foreign r q wr /\
      image_of q x wr p /\ nth_error (points s) i = Some p.
  Proof.
    intros S H Hr. destruct (rounds_ok _ _ H (started_ok _ S)) as [O _].
    split; [exact (wo_nodup _ O r s Hr)|]. exact (ro_haloes _ _ (proj1 (wo_rank _ O r s Hr))).
  Qed.
  Theorem received_once w w' ds r s1 recv : started w -> rounds w w' -> deliveries w' = Done ds -> nth_error ds r = Some (s1, recv) ->
    (forall q res, nth_error recv q = Some res -> NoDup (map (fun x => (r_id x, r_wrap x)) res)) /\
    (forall q res x, nth_error recv q = Some res -> In x res -> ~ In (key r q (r_id x) (r_wrap x)) (map fst (haloes s1))) /\
    forall why, import r recv s1 = Panic why -> why = InsertFailed.
  Proof.
    intros S H Hd Hr. destruct (rounds_ok _ _ H (started_ok _ S)) as [O _].
    destruct (received_ok w' ds r s1 recv O Hd Hr) as [RO [F [N D]]].
    split; [|split].
    - intros q res Hq. destruct (deliveries_ok w' ds O Hd) as [L X].
      assert (K : r < length w') by (rewrite <- L; apply nth_error_Some; congruence).
      apply nth_error_Some in K. destruct (nth_error w' r) as [s|] eqn:Es; [|congruence].
      destruct (X r s Es) as [s1' [recv' [searches [E1 [Lr [_ [_ [_ [_ [_ [_ T6]]]]]]]]]]].
      rewrite Hr in E1. injection E1 as <- <-.
      assert (Kq : q < length w') by (rewrite <- Lr; apply nth_error_Some; congruence).
      apply nth_error_Some in Kq. destruct (nth_error w' q) as [sq|] eqn:Eq; [|congruence].
      destruct (T6 q sq Eq) as [sq1 [recvq [res' [A1 [A2 A3]]]]]. replace res with res' by congruence. exact (de_nodup _ _ _ _ _ _ A3).
    - intros q res x Hq Hx. apply D. apply in_map_iff. exists (q, x). split; [reflexivity|]. apply in_incoming. eauto.
    - exact (import_no_duplicate w' ds r s1 recv O Hd Hr).
  Qed.
  Theorem run_panic fuel w why : started w -> run fuel w = Some (Panic why) -> why = SearchFailed \/ why = TwoImages \/ why = InsertFailed.
  Proof. intros S H. exact (run_panics fuel w why (started_ok _ S) H). Qed.
End Proofs.
