(** Proofs about the entities of a cartesian grid. *)
From Coq Require Import List Arith ZArith QArith Qround Qabs Lia Lqa Permutation Relations Field.
From Verif Require Import Box_Model Cartesian_Model Cartesian_Spec Cartesian_Proofs.
Import ListNotations.
Local Open Scope nat_scope.

Ltac ifs := repeat match goal with |- context [if ?b then _ else _] => destruct b end.

Section Grid.
  Variable sides : list Q.
  Variable cell_size : Q.
  Variable rank_function : list Q -> nat.
  Variable allow_periodic : bool.
  Hypothesis sides_pos : Forall (fun s => 0 < s)%Q sides.

  Notation dims := (num_cells sides cell_size).
  Notation grank := (get_rank sides cell_size rank_function).
  Notation topos := (to_pos sides cell_size).
  Notation idsl := (ids sides cell_size rank_function).
  Notation positions := (all_contained dims).

  Lemma dims_length : length dims = length sides.
  Proof. unfold num_cells. apply map_length. Qed.

  (** Ids. *)
  Lemma assign_keys : forall l c, map fst (assign_ids sides cell_size rank_function l c) = l.
  Proof. induction l as [|p l IH]; intro c; cbn [assign_ids map fst]; [reflexivity|]. f_equal. apply IH. Qed.
  Lemma assign_lookup : forall l c p, In p l ->
    exists i, lookup (assign_ids sides cell_size rank_function l c) p = Some (grank p, i).
  Proof.
    induction l as [|q l IH]; intros c p H; [destruct H|]. cbn [assign_ids]. rewrite lookup_cons.
    destruct (ipos_dec q p) as [->|N]; [eauto|]. apply IH. destruct H; [congruence|auto].
  Qed.
  Lemma assign_rank : forall l c q i, In (q, i) (assign_ids sides cell_size rank_function l c) -> fst i = grank q.
  Proof.
    induction l as [|p l IH]; intros c q i H; [destruct H|]. cbn [assign_ids] in H.
    destruct H as [E|H]; [injection E as -> <-; reflexivity|]. eapply IH. exact H.
  Qed.
  Lemma assign_seq : forall l c r,
    map snd (filter (fun e => grank (fst e) =? r) (assign_ids sides cell_size rank_function l c)) =
    map (pair r) (seq (c r) (length (filter (fun p => grank p =? r) l))).
  Proof.
    induction l as [|p l IH]; intros c r; cbn [assign_ids filter fst]; [reflexivity|].
    destruct (Nat.eqb_spec (grank p) r) as [E|N].
    - cbn [map length seq snd]. rewrite IH. rewrite <- E. rewrite Nat.eqb_refl. reflexivity.
    - rewrite IH. destruct (Nat.eqb_spec r (grank p)); [congruence|]. reflexivity.
  Qed.
  Lemma assign_ge : forall l c q i, In (q, i) (assign_ids sides cell_size rank_function l c) -> c (fst i) <= snd i.
  Proof.
    induction l as [|p l IH]; intros c q i H; [destruct H|]. cbn [assign_ids] in H.
    destruct H as [E|H]; [injection E as -> <-; reflexivity|]. apply IH in H. cbv beta in H.
    destruct (Nat.eqb_spec (fst i) (grank p)) as [E|]; [rewrite E|]; lia.
  Qed.
  Lemma assign_nodup : forall l c, NoDup (map snd (assign_ids sides cell_size rank_function l c)).
  Proof.
    induction l as [|p l IH]; intro c; cbn [assign_ids map snd]; [constructor|]. constructor; [|apply IH].
    intro H. apply in_map_iff in H. destruct H as ([q i] & E & H). cbn in E. subst i.
    apply assign_ge in H. cbn in H. rewrite Nat.eqb_refl in H. lia.
  Qed.

  Definition id_of (p : list Z) : nat * nat :=
    match lookup idsl p with Some i => i | None => (0, 0) end.
  Lemma id_lookup : forall p, in_grid dims p -> lookup idsl p = Some (id_of p).
  Proof.
    intros p H. unfold id_of, ids. apply all_contained_spec in H.
    destruct (assign_lookup _ (fun _ => 0) _ H) as (i & ->). reflexivity.
  Qed.
  Lemma id_rank : forall p, in_grid dims p -> fst (id_of p) = grank p.
  Proof.
    intros p H. pose proof (id_lookup p H) as E. apply lookup_In in E. unfold ids in E.
    eapply assign_rank. exact E.
  Qed.
  Lemma nodup_map_inj : forall A B (f : A -> B) l x y, NoDup (map f l) -> In x l -> In y l -> f x = f y -> x = y.
  Proof.
    intros A B f l x y. induction l as [|a l IH]; cbn; intros H Hx Hy E; [destruct Hx|].
    inversion H as [|? ? Hn Hd]; subst.
    destruct Hx as [->|Hx], Hy as [->|Hy]; auto; exfalso; apply Hn; [rewrite E|rewrite <- E]; apply in_map; auto.
  Qed.
  Lemma id_inj : forall p q, in_grid dims p -> in_grid dims q -> id_of p = id_of q -> p = q.
  Proof.
    intros p q Hp Hq E. pose proof (id_lookup p Hp) as A. pose proof (id_lookup q Hq) as B.
    apply lookup_In in A. apply lookup_In in B.
    assert (X : (p, id_of p) = (q, id_of q)).
    { apply (nodup_map_inj _ _ snd idsl); auto. apply assign_nodup. }
    congruence.
  Qed.
  Lemma ids_map : idsl = map (fun p => (p, id_of p)) positions.
  Proof.
    unfold ids. rewrite <- (assign_keys positions (fun _ => 0)) at 2. rewrite map_map.
    rewrite <- (map_id (assign_ids _ _ _ _ _)) at 1. apply map_ext_in. intros [p i] H. cbn [fst]. f_equal.
    assert (Hp : in_grid dims p).
    { apply all_contained_spec. rewrite <- (assign_keys positions (fun _ => 0)). apply in_map_iff. eexists; split; [|exact H]. reflexivity. }
    pose proof (id_lookup p Hp) as A. apply lookup_In in A.
    assert (X : (p, i) = (p, id_of p)).
    { apply (nodup_map_inj _ _ fst idsl); auto. unfold ids. rewrite assign_keys. apply all_contained_nodup. }
    congruence.
  Qed.

  (** Neighbours. *)
  Definition nbtype (p : list Z) (k : nat) (s : Z) : ptype :=
    let q := nbpos dims p k s in
    let w := nbwrap dims p k s in
    if contained (add_at p k s) dims
    then if grank p =? grank q then Local (id_of q) else Remote (id_of q) (grank q)
    else if allow_periodic
         then if grank p =? grank q then LocalPeriodic (id_of q) w else RemotePeriodic (id_of q) (grank q) w
         else Boundary.

  Lemma get_neighbour_eq : forall p k s, in_grid dims p -> k < length dims -> (s = 1 \/ s = -1)%Z ->
    get_neighbour sides cell_size rank_function allow_periodic (add_at p k s) (grank p) = Some (nbtype p k s).
  Proof.
    intros p k s Hp Hk Hs. destruct (step_ok dims p k s Hp Hk Hs) as [F1 F2 F3 F4 F5 F6].
    unfold get_neighbour, nbtype.
    change (wrapped (add_at p k s) dims) with (nbwrap dims p k s, nbpos dims p k s).
    cbv beta iota.
    destruct (contained (add_at p k s) dims) eqn:C; cbn [negb].
    - rewrite <- (F4 eq_refl). rewrite id_lookup by auto. rewrite id_rank, Nat.eqb_refl by auto. reflexivity.
    - rewrite id_lookup by auto. rewrite id_rank, Nat.eqb_refl by auto. destruct allow_periodic; reflexivity.
  Qed.

  Definition mkface (p q : list Z) : face :=
    Face (face_area sides cell_size) (normalize (map2 Qminus (topos q) (topos p))).
  Definition cell_nbs (p : list Z) : list (face * ptype) :=
    flat_map (fun k => [(mkface p (add_at p k (-1)), nbtype p k (-1));
                        (mkface p (add_at p k 1), nbtype p k 1)]) (seq 0 (length sides)).
  Definition cell_of (p : list Z) : cell :=
    Cell (cell_nbs p) cell_size (cell_volume sides cell_size).

  Lemma mapM_flat2 : forall A B C (f : B -> option C) (g1 g2 : A -> B) (h1 h2 : A -> C) l,
    (forall x, In x l -> f (g1 x) = Some (h1 x) /\ f (g2 x) = Some (h2 x)) ->
    mapM f (flat_map (fun x => [g1 x; g2 x]) l) = Some (flat_map (fun x => [h1 x; h2 x]) l).
  Proof.
    intros A B C f g1 g2 h1 h2 l H. induction l as [|x l IH]; [reflexivity|].
    cbn [flat_map app mapM]. destruct (H x) as [-> ->]; [cbn; auto|].
    rewrite IH by (intros; apply H; cbn; auto). reflexivity.
  Qed.

  Lemma make_cell_eq : forall p, in_grid dims p ->
    make_cell sides cell_size rank_function allow_periodic p = Some (cell_of p).
  Proof.
    intros p Hp. unfold make_cell, iter_neighbours.
    rewrite (mapM_flat2 _ _ _ _ _ _ (fun k => (mkface p (add_at p k (-1)), nbtype p k (-1)))
               (fun k => (mkface p (add_at p k 1), nbtype p k 1))).
    - rewrite (in_grid_length _ _ Hp), dims_length. reflexivity.
    - intros k Hk. apply in_seq in Hk. rewrite (in_grid_length _ _ Hp) in Hk.
      rewrite !get_neighbour_eq by (auto; lia). split; reflexivity.
  Qed.
  Lemma construct_neighbours_eq :
    construct_neighbours sides cell_size rank_function allow_periodic =
    Some (map (fun p => (p, cell_of p)) positions).
  Proof.
    unfold construct_neighbours. apply mapM_map. intros p Hp. apply all_contained_spec in Hp.
    rewrite make_cell_eq by auto. reflexivity.
  Qed.

  Lemma cell_nbs_in : forall p f t, In (f, t) (cell_nbs p) <->
    exists k s, k < length sides /\ (s = 1 \/ s = -1)%Z /\ f = mkface p (add_at p k s) /\ t = nbtype p k s.
  Proof.
    intros p f t. unfold cell_nbs. rewrite in_flat_map. split.
    - intros (k & Hk & H). apply in_seq in Hk. destruct H as [E|[E|[]]]; injection E as <- <-;
        exists k; eexists; (split; [lia|]); (split; [|split; reflexivity]); lia.
    - intros (k & s & Hk & Hs & -> & ->). exists k. rewrite in_seq. split; [lia|].
      destruct Hs as [->| ->]; cbn; auto.
  Qed.

  (** Normals. *)
  Lemma side_pos : forall k, k < length sides -> (0 < nth k sides 0)%Q.
  Proof. intros k H. rewrite Forall_forall in sides_pos. apply sides_pos. apply nth_In. auto. Qed.
  Lemma dim_pos : forall p k, in_grid dims p -> k < length sides -> (0 < nth k dims 0)%Z.
  Proof.
    intros p k H. rewrite <- dims_length. revert k.
    induction H as [|v n p ds Hv Hp IH]; intros [|k] Hk; cbn [length nth] in *; try lia. apply IH; lia.
  Qed.
  Lemma topos_length : forall p, length p = length sides -> length (topos p) = length sides.
  Proof. intros p H. unfold to_pos. rewrite !map2_length, dims_length. lia. Qed.
  Lemma topos_nth : forall p k, length p = length sides -> k < length sides ->
    (nth k (topos p) 0 = nth k sides 0 * inject_Z (nth k p 0%Z) / inject_Z (nth k dims 0%Z))%Q.
  Proof.
    intros p k H Hk. unfold to_pos.
    rewrite (map2_nth _ _ _ _ _ _ k 0%Q (0%Z, 0%Z) 0%Q);
      [|auto|rewrite map2_length, dims_length; lia].
    rewrite (map2_nth _ _ _ pair p dims k 0%Z 0%Z) by (rewrite ?dims_length; lia). reflexivity.
  Qed.
  Lemma add_at_nth : forall p k s j, k < length p -> nth j (add_at p k s) 0%Z = (nth j p 0 + if (j =? k)%nat then s else 0)%Z.
  Proof.
    induction p as [|v p IH]; intros [|k] s [|j] H; cbn in H; try lia; cbn [add_at nth Nat.eqb]; try lia.
    apply IH. lia.
  Qed.
  Lemma inject_pos : forall z, (0 < z)%Z -> (0 < inject_Z z)%Q.
  Proof. intros z H. change 0%Q with (inject_Z 0). rewrite <- Zlt_Qlt. exact H. Qed.

  Lemma normal_eq : forall p k s, in_grid dims p -> k < length sides -> (s = 1 \/ s = -1)%Z ->
    veq (normal (mkface p (add_at p k s))) (unit_vec (length sides) k (inject_Z s)).
  Proof.
    intros p k s Hp Hk Hs. cbn [normal mkface].
    pose proof (in_grid_length _ _ Hp) as L. rewrite dims_length in L.
    pose proof (side_pos k Hk) as P1. pose proof (inject_pos _ (dim_pos p k Hp Hk)) as P2.
    set (a := (inject_Z s * (nth k sides 0 / inject_Z (nth k dims 0%Z)))%Q).
    assert (P3 : (0 < nth k sides 0 / inject_Z (nth k dims 0%Z))%Q).
    { apply Qlt_shift_div_l; auto; lra. }
    assert (V : veq (map2 Qminus (topos (add_at p k s)) (topos p)) (unit_vec (length sides) k a)).
    { apply veq_nth.
      - rewrite map2_length, !topos_length by (rewrite ?add_at_length; auto). rewrite unit_vec_length. lia.
      - intros j Hj. rewrite map2_length, !topos_length in Hj by (rewrite ?add_at_length; auto).
        rewrite (map2_nth _ _ _ _ _ _ j 0%Q 0%Q) by (rewrite topos_length; rewrite ?add_at_length; lia).
        rewrite !topos_nth by (rewrite ?add_at_length; auto; lia).
        rewrite unit_vec_nth by lia. rewrite add_at_nth by lia. rewrite inject_Z_plus.
        assert (Hj' : j < length sides) by lia.
        pose proof (inject_pos _ (dim_pos p j Hp Hj')) as P4.
        destruct (Nat.eqb_spec j k) as [->|].
        + unfold a. field. lra.
        + change (inject_Z 0) with 0%Q. field. lra. }
    assert (A : ~ (a == 0)%Q).
    { unfold a. destruct Hs as [->| ->]; [change (inject_Z 1) with 1%Q|change (inject_Z (-1)) with (-1)%Q]; lra. }
    pose proof (normalize_unit _ _ _ _ Hk A V) as N.
    assert (E : (a / Qabs a == inject_Z s)%Q).
    { unfold a. destruct Hs as [->| ->].
      - change (inject_Z 1) with 1%Q. rewrite Qabs_pos by lra. field. lra.
      - change (inject_Z (-1)) with (-1)%Q. rewrite Qabs_neg by lra. field. lra. }
    apply veq_nth.
    - rewrite (veq_length _ _ N), !unit_vec_length. reflexivity.
    - intros j Hj. rewrite (veq_length _ _ N), unit_vec_length in Hj.
      rewrite (veq_nth_inv _ _ j N), !unit_vec_nth by auto. destruct (j =? k); [exact E|reflexivity].
  Qed.

  Lemma normals_sides : forall p, in_grid dims p ->
    Forall2 veq (map (fun ft => normal (fst ft)) (cell_nbs p)) (side_normals (length sides)).
  Proof.
    intros p Hp. unfold cell_nbs, side_normals.
    assert (X : forall l, (forall k, In k l -> k < length sides) ->
      Forall2 veq (map (fun ft => normal (fst ft))
         (flat_map (fun k => [(mkface p (add_at p k (-1)), nbtype p k (-1)); (mkface p (add_at p k 1), nbtype p k 1)]) l))
         (flat_map (fun k => [unit_vec (length sides) k (-1); unit_vec (length sides) k 1]) l)).
    { induction l as [|k l IH]; intro H; [constructor|]. cbn [flat_map app map fst].
      constructor; [|constructor].
      - apply (normal_eq p k (-1)); auto. apply H; cbn; auto.
      - apply (normal_eq p k 1); auto. apply H; cbn; auto.
      - apply IH. intros; apply H; cbn; auto. }
    apply X. intros k Hk. apply in_seq in Hk. lia.
  Qed.

  (** Entities. *)
  Definition adjacent_to (self : nat) (p : list Z) : bool :=
    existsb (fun ft => mentions self (snd ft)) (cell_nbs p).
  Definition spawn_one (self : nat) (p : list Z) : list entity :=
    if grank p =? self then [Entity None (topos p) (cell_of p) (id_of p)]
    else if adjacent_to self p then [Entity (Some (grank p)) (topos p) (cell_of p) (id_of p)] else [].

  Lemma spawn_cells_eq : forall self ps, (forall p, In p ps -> in_grid dims p) ->
    spawn_cells sides cell_size rank_function self (map (fun p => (p, cell_of p)) ps) =
    Some (flat_map (spawn_one self) ps).
  Proof.
    intros self ps H. induction ps as [|p ps IH]; [reflexivity|]. cbn [map spawn_cells flat_map].
    rewrite id_lookup by (apply H; cbn; auto). rewrite IH by (intros; apply H; cbn; auto).
    unfold spawn_one, adjacent_to. cbn [neighbours cell_of].
    destruct (grank p =? self); [reflexivity|]. destruct (existsb _ _); reflexivity.
  Qed.

  Lemma perm_map_inv : forall A B (f : A -> B) l m, Permutation m (map f l) ->
    exists l', Permutation l' l /\ m = map f l'.
  Proof.
    intros A B f l m H. apply Permutation_map_inv in H. destruct H as (l' & -> & H').
    exists l'. split; [apply Permutation_sym; exact H'|reflexivity].
  Qed.

  Lemma construct_eq : forall drain self, (forall l, Permutation (drain l) l) ->
    exists ps, Permutation ps positions
    /\ construct sides cell_size rank_function allow_periodic drain self = Some (flat_map (spawn_one self) ps).
  Proof.
    intros drain self Hd. unfold construct. rewrite construct_neighbours_eq.
    destruct (perm_map_inv _ _ (fun p => (p, cell_of p)) positions
                (sort_by_x (drain (map (fun p => (p, cell_of p)) positions)))) as (ps & H1 & H2).
    { rewrite sort_by_x_perm. apply Hd. }
    exists ps. split; [exact H1|]. rewrite H2. apply spawn_cells_eq.
    intros p Hp. apply all_contained_spec. eapply Permutation_in; [exact H1|exact Hp].
  Qed.

  Lemma locals_in : forall self ps e, Permutation ps positions ->
    In e (locals (flat_map (spawn_one self) ps)) <->
    exists p, in_grid dims p /\ grank p = self /\ e = Entity None (topos p) (cell_of p) (id_of p).
  Proof.
    intros self ps e Hps. unfold locals. rewrite filter_In, in_flat_map. split.
    - intros [(p & Hp & He) Hh]. exists p. split.
      { apply all_contained_spec. eapply Permutation_in; [exact Hps|exact Hp]. }
      unfold spawn_one in He. destruct (Nat.eqb_spec (grank p) self).
      + destruct He as [<-|[]]. auto.
      + destruct (adjacent_to self p); [|destruct He]. destruct He as [<-|[]]. discriminate Hh.
    - intros (p & Hp & Hr & ->). split; [|reflexivity]. exists p. split.
      { eapply Permutation_in; [apply Permutation_sym; exact Hps|]. apply all_contained_spec. auto. }
      unfold spawn_one. rewrite Hr, Nat.eqb_refl. cbn. auto.
  Qed.
  Lemma halos_in : forall self ps e, Permutation ps positions ->
    In e (halos (flat_map (spawn_one self) ps)) <->
    exists p, in_grid dims p /\ grank p <> self /\ adjacent_to self p = true
              /\ e = Entity (Some (grank p)) (topos p) (cell_of p) (id_of p).
  Proof.
    intros self ps e Hps. unfold halos. rewrite filter_In, in_flat_map. split.
    - intros [(p & Hp & He) Hh]. exists p. split.
      { apply all_contained_spec. eapply Permutation_in; [exact Hps|exact Hp]. }
      unfold spawn_one in He. destruct (Nat.eqb_spec (grank p) self).
      + destruct He as [<-|[]]. discriminate Hh.
      + destruct (adjacent_to self p) eqn:A; [|destruct He]. destruct He as [<-|[]]. auto.
    - intros (p & Hp & Hr & Ha & ->). split; [|reflexivity]. exists p. split.
      { eapply Permutation_in; [apply Permutation_sym; exact Hps|]. apply all_contained_spec. auto. }
      unfold spawn_one. apply Nat.eqb_neq in Hr. rewrite Hr, Ha. cbn. auto.
  Qed.
  Lemma locals_ids : forall self ps, 
    map e_id (locals (flat_map (spawn_one self) ps)) = map id_of (filter (fun p => grank p =? self) ps).
  Proof.
    intros self ps. induction ps as [|p ps IH]; [reflexivity|]. cbn [flat_map]. unfold locals in *.
    rewrite filter_app, map_app, IH. unfold spawn_one. cbn [filter].
    destruct (grank p =? self); [reflexivity|]. destruct (adjacent_to self p); reflexivity.
  Qed.
  Lemma halos_ids : forall self ps,
    map e_id (halos (flat_map (spawn_one self) ps)) =
    map id_of (filter (fun p => negb (grank p =? self) && adjacent_to self p) ps).
  Proof.
    intros self ps. induction ps as [|p ps IH]; [reflexivity|]. cbn [flat_map]. unfold halos in *.
    rewrite filter_app, map_app, IH. unfold spawn_one. cbn [filter].
    destruct (grank p =? self); [reflexivity|]. destruct (adjacent_to self p); reflexivity.
  Qed.
  Lemma perm_filter : forall A (f : A -> bool) l m, Permutation l m -> Permutation (filter f l) (filter f m).
  Proof.
    intros A f l m H. induction H as [|x l m H IH|x y l|l m n H1 IH1 H2 IH2]; cbn [filter].
    - constructor.
    - destruct (f x); auto.
    - destruct (f x), (f y); auto. apply perm_swap.
    - etransitivity; eauto.
  Qed.

  Lemma local_ids_gapless : forall self ps, Permutation ps positions ->
    Permutation (map e_id (locals (flat_map (spawn_one self) ps)))
      (map (pair self) (seq 0 (length (locals (flat_map (spawn_one self) ps))))).
  Proof.
    intros self ps Hps.
    rewrite <- (map_length e_id (locals _)). rewrite locals_ids, map_length.
    pose proof (perm_filter _ (fun p => grank p =? self) _ _ Hps) as Hf.
    rewrite (Permutation_map id_of Hf). rewrite (Permutation_length Hf).
    pose proof (assign_seq positions (fun _ => 0) self) as A. cbv beta in A. rewrite <- A.
    change (assign_ids sides cell_size rank_function positions (fun _ => 0)) with idsl.
    rewrite ids_map. apply Permutation_refl'. generalize positions. clear.
    induction l as [|p l IH]; [reflexivity|]. cbn [map filter fst].
    destruct (grank p =? self); cbn [map snd]; [f_equal|]; exact IH.
  Qed.

  (** Mutual faces. *)
  Lemma nbtype_id : forall p k s i, ptype_id (nbtype p k s) = Some i -> i = id_of (nbpos dims p k s).
  Proof.
    intros p k s i. unfold nbtype.
    ifs; cbn; congruence.
  Qed.
  Lemma sgn_as_sign : forall w, (as_sign w == inject_Z (sgn w))%Q.
  Proof. destruct w; reflexivity. Qed.

  Definition spacing (k : nat) : Q := (nth k sides 0 / inject_Z (nth k dims 0%Z))%Q.

  Lemma nbtype_wraps : forall p k s j, in_grid dims p -> k < length sides -> j < length sides -> (s = 1 \/ s = -1)%Z ->
    nbtype p k s <> Boundary ->
    (wraps (nbtype p k s) j == inject_Z (sgn (nth j (nbwrap dims p k s) NoWrap)))%Q.
  Proof.
    intros p k s j Hp Hk Hj Hs. rewrite <- dims_length in Hk, Hj.
    unfold nbtype. destruct (contained (add_at p k s) dims) eqn:C.
    - intros _. assert (E : wrapped (add_at p k s) dims = (repeat NoWrap (length (add_at p k s)), add_at p k s)).
      { apply wrapped_in. apply contained_spec; auto. rewrite add_at_length. apply in_grid_length; auto. }
      unfold nbwrap. rewrite E. cbn [fst]. rewrite nth_repeat.
      ifs; reflexivity.
    - destruct allow_periodic; [|congruence]. intros _.
      ifs; cbn [wraps]; apply sgn_as_sign.
  Qed.

  Lemma faces_mutual : forall p k s i, in_grid dims p -> k < length sides -> (s = 1 \/ s = -1)%Z ->
    ptype_id (nbtype p k s) = Some i ->
    let q := nbpos dims p k s in
    in_grid dims q /\ i = id_of q
    /\ ptype_id (nbtype q k (- s)) = Some (id_of p)
    /\ veq (normal (mkface q (add_at q k (- s)))) (map Qopp (normal (mkface p (add_at p k s))))
    /\ is_periodic (nbtype q k (- s)) = is_periodic (nbtype p k s)
    /\ (forall j, j < length sides -> (wraps (nbtype q k (- s)) j == - wraps (nbtype p k s) j)%Q)
    /\ (forall j, j < length sides ->
         (nth j (topos q) 0 == nth j (topos p) 0 + nth j (normal (mkface p (add_at p k s))) 0 * spacing j
                                - wraps (nbtype p k s) j * nth j sides 0)%Q).
  Proof.
    intros p k s i Hp Hk Hs Hi q.
    assert (Hk' : k < length dims) by (rewrite dims_length; auto).
    destruct (step_ok dims p k s Hp Hk' Hs) as [F1 F2 F3 F4 F5 F6]. fold q in F1, F2, F3, F4, F5, F6.
    assert (Hs' : (- s = 1 \/ - s = -1)%Z) by lia.
    assert (NB : nbtype p k s <> Boundary) by (intro E; rewrite E in Hi; discriminate).
    assert (NB' : nbtype q k (- s) <> Boundary).
    { revert NB. unfold nbtype. rewrite F3. ifs; congruence. }
    assert (ID : ptype_id (nbtype q k (- s)) = Some (id_of p)).
    { revert NB'. unfold nbtype. rewrite F2. ifs; cbn; congruence. }
    split; [exact F1|]. split; [apply nbtype_id; auto|]. split; [exact ID|]. split.
    { pose proof (normal_eq p k s Hp Hk Hs) as N1. pose proof (normal_eq q k (- s)%Z F1 Hk Hs') as N2.
      apply veq_nth.
      - rewrite map_length, (veq_length _ _ N1), (veq_length _ _ N2), !unit_vec_length. reflexivity.
      - intros j Hj. rewrite (veq_length _ _ N2), unit_vec_length in Hj.
        rewrite (nth_map_gen _ _ _ _ _ 0%Q) by (rewrite (veq_length _ _ N1), unit_vec_length; auto).
        rewrite (veq_nth_inv _ _ j N1), (veq_nth_inv _ _ j N2), !unit_vec_nth by auto.
        destruct (j =? k); [rewrite inject_Z_opp|]; reflexivity. }
    split.
    { revert NB NB'. unfold nbtype. rewrite F3. ifs; cbn; congruence. }
    assert (W : forall j, j < length sides -> (wraps (nbtype q k (- s)) j == - wraps (nbtype p k s) j)%Q).
    { intros j Hj. rewrite !nbtype_wraps by auto. rewrite F6 by (rewrite dims_length; auto). rewrite inject_Z_opp. reflexivity. }
    split; [exact W|]. intros j Hj.
    rewrite (veq_nth_inv _ _ j (normal_eq p k s Hp Hk Hs)), unit_vec_nth by auto.
    rewrite nbtype_wraps by auto.
    pose proof (in_grid_length _ _ Hp) as L1. pose proof (in_grid_length _ _ F1) as L2. rewrite dims_length in L1, L2.
    rewrite !topos_nth by auto. rewrite F5 by (rewrite dims_length; auto).
    pose proof (inject_pos _ (dim_pos p j Hp Hj)) as P4. unfold spacing.
    unfold Z.sub. rewrite !inject_Z_plus, inject_Z_opp, inject_Z_mult.
    destruct (j =? k); [|change (inject_Z 0) with 0%Q]; field; lra.
  Qed.

  Lemma nbtype_remote : forall p k s i, ptype_id (nbtype p k s) = Some i -> in_grid dims (nbpos dims p k s) ->
    rank_field_ok (nbtype p k s) /\ (is_remote (nbtype p k s) = true <-> fst i <> grank p).
  Proof.
    intros p k s i Hi Hq. pose proof (nbtype_id _ _ _ _ Hi) as E. rewrite E, id_rank by auto. revert Hi.
    unfold nbtype. destruct (contained _ _), allow_periodic, (Nat.eqb_spec (grank p) (grank (nbpos dims p k s)));
      cbn; rewrite ?id_rank by auto; intros; try discriminate;
      (split; [auto|]); split; try congruence; auto; intro C; exfalso; congruence.
  Qed.

  Lemma mutual_world : forall world,
    (forall r, exists ps, Permutation ps positions /\ world r = flat_map (spawn_one r) ps) ->
    mutual (length sides) (fun k => nth k sides 0%Q) spacing world.
  Proof.
    intros world Hw r e f t i He Hft Hi. destruct (Hw r) as (ps & Hps & Er). rewrite Er in He.
    apply locals_in in He; auto. destruct He as (p & Hp & Hr & ->). cbn [e_cell cell_of neighbours] in Hft.
    apply cell_nbs_in in Hft. destruct Hft as (k & s & Hk & Hs & -> & ->).
    destruct (faces_mutual p k s i Hp Hk Hs Hi) as (M1 & M2 & M3 & M4 & M5 & M6 & M7).
    destruct (nbtype_remote p k s i Hi M1) as [R1 R2]. rewrite Hr in R2. split; [auto|]. split; [auto|].
    exists (Entity None (topos (nbpos dims p k s)) (cell_of (nbpos dims p k s)) (id_of (nbpos dims p k s))).
    split.
    { destruct (Hw (fst i)) as (ps' & Hps' & ->). apply locals_in; auto. eexists. split; [exact M1|]. split; [|reflexivity].
      rewrite M2. rewrite id_rank; auto. }
    split; [auto|]. split; [exact M7|].
    exists (mkface (nbpos dims p k s) (add_at (nbpos dims p k s) k (- s))), (nbtype (nbpos dims p k s) k (- s)).
    split. { cbn [e_cell cell_of neighbours]. apply cell_nbs_in. exists k, (- s)%Z. repeat (split; [auto; lia|]). split; reflexivity. }
    split; [exact M3|]. split; [exact M4|]. split; [reflexivity|]. split; [exact M5|exact M6].
  Qed.

  (** Halos. *)
  Lemma adjacent_spec : forall self q, in_grid dims q -> grank q <> self ->
    adjacent_to self q = true <->
    exists p f t, in_grid dims p /\ grank p = self /\ In (f, t) (cell_nbs p) /\ ptype_id t = Some (id_of q) .
  Proof.
    intros self q Hq Hr. unfold adjacent_to. rewrite existsb_exists. split.
    - intros ([f t] & Hin & Hm). apply cell_nbs_in in Hin. destruct Hin as (k & s & Hk & Hs & -> & ->).
      cbn [snd] in Hm.
      assert (Hi : exists i, ptype_id (nbtype q k s) = Some i).
      { destruct (nbtype q k s); cbn in Hm; try discriminate; cbn; eauto. }
      destruct Hi as (i & Hi). destruct (faces_mutual q k s i Hq Hk Hs Hi) as (M1 & M2 & M3 & _).
      exists (nbpos dims q k s). eexists. eexists. split; [exact M1|]. split.
      + destruct (nbtype_remote q k s i Hi M1) as [R1 R2].
        destruct (nbtype q k s); cbn in Hm, Hi, R1; try discriminate; apply Nat.eqb_eq in Hm;
          injection Hi as ->; rewrite <- id_rank by auto; congruence.
      + split; [|exact M3]. apply cell_nbs_in. exists k, (- s)%Z. repeat (split; [auto; lia|]). split; reflexivity.
    - intros (p & f & t & Hp & Hpr & Hin & Hid). apply cell_nbs_in in Hin.
      destruct Hin as (k & s & Hk & Hs & -> & ->).
      destruct (faces_mutual p k s _ Hp Hk Hs Hid) as (M1 & M2 & M3 & _).
      apply id_inj in M2; auto. rewrite <- M2 in M3.
      exists (mkface q (add_at q k (- s)), nbtype q k (- s)). split.
      { apply cell_nbs_in. exists k, (- s)%Z. repeat (split; [auto; lia|]). split; reflexivity. }
      cbn [snd]. 
      assert (X : nbpos dims q k (- s) = p).
      { apply nbtype_id in M3. apply id_inj in M3; auto.
        rewrite M2. destruct (step_ok dims p k s Hp ltac:(rewrite dims_length; auto) Hs) as [F1 F2 _ _ _ _]. rewrite F2. exact Hp. }
      destruct (nbtype_remote q k (- s)%Z _ M3) as [R1 R2]; [rewrite X; auto|].
      rewrite id_rank in R2 by auto. rewrite Hpr in R2.
      assert (R3 : is_remote (nbtype q k (- s)) = true) by (apply R2; congruence).
      destruct (nbtype q k (- s)); cbn in R3; try discriminate; cbn in M3, R1; injection M3 as ->;
        cbn; apply Nat.eqb_eq; rewrite R1, id_rank; auto.
  Qed.

  Lemma halo_exact : forall self ps, Permutation ps positions ->
    NoDup (map e_id (halos (flat_map (spawn_one self) ps)))
    /\ forall i, In i (map e_id (halos (flat_map (spawn_one self) ps))) <->
         fst i <> self /\ exists e f t, In e (locals (flat_map (spawn_one self) ps))
                          /\ In (f, t) (neighbours (e_cell e)) /\ ptype_id t = Some i.
  Proof.
    intros self ps Hps. split.
    - rewrite halos_ids. assert (N : NoDup (map id_of ps)).
      { assert (NoDup ps) by (eapply Permutation_NoDup; [apply Permutation_sym; exact Hps|apply all_contained_nodup]).
        assert (G : forall p, In p ps -> in_grid dims p)
          by (intros p Hp; apply all_contained_spec; eapply Permutation_in; [exact Hps|exact Hp]).
        clear Hps. induction H as [|p ps Hn Hd IH]; cbn [map]; constructor.
        - intro C. apply in_map_iff in C. destruct C as (p' & E & Hp'). apply id_inj in E; [congruence| |]; apply G; cbn; auto.
        - apply IH. intros; apply G; cbn; auto. }
      revert N. generalize (fun p => negb (grank p =? self) && adjacent_to self p). clear. intros g N.
      induction ps as [|p ps IH]; cbn [map filter] in *; [constructor|]. inversion N; subst.
      destruct (g p); cbn [map]; [|auto]. constructor; [|auto].
      intro C. apply in_map_iff in C. destruct C as (p' & E & C). apply filter_In in C. apply H1.
      rewrite <- E. apply in_map. tauto.
    - intro i. split.
      + intro H. apply in_map_iff in H. destruct H as (e & <- & He). apply halos_in in He; auto.
        destruct He as (q & Hq & Hr & Ha & ->). cbn [e_id]. rewrite id_rank by auto. split; [auto|].
        apply adjacent_spec in Ha; auto. destruct Ha as (p & f & t & Hp & Hpr & Hin & Hid).
        exists (Entity None (topos p) (cell_of p) (id_of p)), f, t. split; [apply locals_in; eauto|]. auto.
      + intros [Hr (e & f & t & He & Hin & Hid)]. apply locals_in in He; auto.
        destruct He as (p & Hp & Hpr & ->). cbn [e_cell cell_of neighbours] in Hin.
        pose proof Hin as Hin'. apply cell_nbs_in in Hin'. destruct Hin' as (k & s & Hk & Hs & -> & ->).
        destruct (faces_mutual p k s i Hp Hk Hs Hid) as (M1 & M2 & _).
        apply in_map_iff. exists (Entity (Some (grank (nbpos dims p k s))) (topos (nbpos dims p k s)) (cell_of (nbpos dims p k s)) (id_of (nbpos dims p k s))).
        split; [auto|]. apply halos_in; auto. eexists. split; [exact M1|].
        assert (Q : grank (nbpos dims p k s) <> self) by (rewrite <- id_rank, <- M2; auto).
        split; [exact Q|]. split; [|reflexivity]. apply adjacent_spec; auto.
        exists p. eexists. eexists. split; [exact Hp|]. split; [exact Hpr|]. split; [exact Hin|]. congruence.
  Qed.

  Lemma halo_copy : forall self self' ps ps' e e', Permutation ps positions -> Permutation ps' positions ->
    In e (halos (flat_map (spawn_one self) ps)) -> In e' (locals (flat_map (spawn_one self') ps')) ->
    e_id e = e_id e' -> halo_of e = Some self' /\ e_pos e = e_pos e' /\ e_cell e = e_cell e'.
  Proof.
    intros self self' ps ps' e e' H1 H2 He He' E. apply halos_in in He; auto. apply locals_in in He'; auto.
    destruct He as (q & Hq & Hr & Ha & ->). destruct He' as (p & Hp & Hpr & ->). cbn [e_id] in E.
    apply id_inj in E; auto. subst p. cbn. rewrite Hpr. auto.
  Qed.

  (** The upwind order. *)
  Lemma nbtype_nonperiodic : forall p k s i, ptype_id (nbtype p k s) = Some i -> is_periodic (nbtype p k s) = false ->
    contained (add_at p k s) dims = true.
  Proof.
    intros p k s i. unfold nbtype. destruct (contained _ _); [reflexivity|].
    destruct allow_periodic; [|discriminate]. ifs; discriminate.
  Qed.
  Lemma upwind_phi : forall p k s dir, in_grid dims p -> k < length sides -> (s = 1 \/ s = -1)%Z ->
    contained (add_at p k s) dims = true ->
    (phi (nbpos dims p k s) dir == phi p dir + dot (normal (mkface p (add_at p k s))) dir)%Q.
  Proof.
    intros p k s dir Hp Hk Hs C.
    assert (Hk' : k < length dims) by (rewrite dims_length; auto).
    rewrite (sf_same _ _ _ _ (step_ok dims p k s Hp Hk' Hs) C).
    rewrite (dot_veq _ _ dir (normal_eq p k s Hp Hk Hs)), dot_unit by auto.
    apply phi_add. rewrite (in_grid_length _ _ Hp). auto.
  Qed.

  Lemma Qltb_lt : forall a b, Qltb a b = true <-> (a < b)%Q.
  Proof.
    intros a b. unfold Qltb. rewrite negb_true_iff. split; intro H.
    - apply Qnot_le_lt. intro C. apply Qle_bool_iff in C. congruence.
    - destruct (Qle_bool b a) eqn:E; [|reflexivity]. apply Qle_bool_iff in E. lra.
  Qed.

  Lemma upwind_acyclic : forall world,
    (forall r, exists ps, Permutation ps positions /\ world r = flat_map (spawn_one r) ps) ->
    forall dir i, ~ clos_trans _ (upwind_of world dir) i i.
  Proof.
    intros world Hw dir.
    assert (S : forall i j, upwind_of world dir i j ->
      exists p q, in_grid dims p /\ in_grid dims q /\ id_of p = i /\ id_of q = j /\ (phi p dir < phi q dir)%Q).
    { intros i j (r & e & f & t & He & Ej & Hft & Hu & Hid & Hper). destruct (Hw r) as (ps & Hps & Er).
      rewrite Er in He. apply locals_in in He; auto. destruct He as (q & Hq & Hr & ->).
      cbn [e_cell cell_of neighbours e_id] in *. apply cell_nbs_in in Hft.
      destruct Hft as (k & s & Hk & Hs & -> & ->).
      destruct (faces_mutual q k s i Hq Hk Hs Hid) as (M1 & M2 & _).
      exists (nbpos dims q k s), q. repeat (split; [auto|]).
      rewrite (upwind_phi q k s dir Hq Hk Hs (nbtype_nonperiodic _ _ _ _ Hid Hper)).
      unfold points_upwind in Hu. apply Qltb_lt in Hu. lra. }
    assert (T : forall i j, clos_trans _ (upwind_of world dir) i j ->
      exists p q, in_grid dims p /\ in_grid dims q /\ id_of p = i /\ id_of q = j /\ (phi p dir < phi q dir)%Q).
    { intros i j H. induction H as [i j H|i j l H1 IH1 H2 IH2]; [auto|].
      destruct IH1 as (p & q & P1 & P2 & P3 & P4 & P5). destruct IH2 as (q' & t & Q1 & Q2 & Q3 & Q4 & Q5).
      assert (q = q') by (apply id_inj; auto; congruence). subst q'.
      exists p, t. repeat (split; [auto|]). lra. }
    intros i H. destruct (T i i H) as (p & q & P1 & P2 & P3 & P4 & P5).
    assert (p = q) by (apply id_inj; auto; congruence). subst q. lra.
  Qed.
End Grid.
