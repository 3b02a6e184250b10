(** The sweep on the grids made from the Voronoi cells. *)
From Coq Require Import List Arith ZArith QArith Qcanon Lqa Lia Permutation Setoid Bool.
From Verif Require Geometry_Model Sweep_Model Sweep_Spec.
From Verif Require Import Geometry_Spec Box_Model Box_Spec Box_Proofs Tiling2_Proofs Delaunay_Model DelaunayGlobal_Spec DelaunayGlobal2_Proofs Halo_Model Halo_Spec HaloGeo_Model HaloGeo_Spec HaloDelaunay_Spec
  HaloDelaunay_Model HaloGeo_Proofs Voronoi_Model Voronoi_Spec Voronoi_Proofs VoronoiConstruct_Proofs VoronoiGrid_Model VoronoiGrid_Spec VoronoiGrid_Proofs
  VoronoiGridWhole_Proofs VoronoiPeriodic_Proofs.
From Verif Require Cartesian_Sweep.
Import ListNotations.
Local Open Scope nat_scope.

(** ** Counting *)
Lemma count_set {A B} (g : B -> bool) (S : A -> Prop) qs fs : Forall2 (fun q f => g f = true <-> S q) qs fs -> NoDup qs ->
  exists vs, NoDup vs /\ (forall q, In q vs <-> In q qs /\ S q) /\ length vs = Sweep_Model.countb g fs.
Proof.
  intros FA ND. induction FA as [|q f qs fs H FA IH].
  - exists []. split; [constructor|]. split; [|reflexivity]. intro q. cbn. tauto.
  - apply NoDup_cons_iff in ND. destruct ND as [N1 N2]. destruct (IH N2) as [vs [V1 [V2 V3]]]. unfold Sweep_Model.countb in *. cbn [filter].
    destruct (g f) eqn:E.
    + exists (q :: vs). split; [constructor; [|exact V1]; rewrite V2; tauto|]. split; [|cbn; now rewrite V3].
      intro x. cbn [In]. rewrite V2. split; [intros [<-|X]; tauto|]. intros [[->|X] Y]; [left; reflexivity|right; tauto].
    + exists vs. split; [exact V1|]. split; [|exact V3]. intro x. rewrite V2. cbn [In]. split; [tauto|]. intros [[->|X] Y]; [|tauto].
      apply H in Y. discriminate.
Qed.
Lemma rel_length {A B} (Rel : A -> B -> Prop) vs us : NoDup vs -> (forall a, In a vs -> exists b, In b us /\ Rel a b) ->
  (forall a a' b, Rel a b -> Rel a' b -> a = a') -> length vs <= length us.
Proof.
  intros ND H I. assert (X : exists bs, Forall2 Rel vs bs /\ incl bs us).
  { clear ND. induction vs as [|a vs IH]; [exists []; split; [constructor|intros x []]|].
    destruct (H a (or_introl eq_refl)) as [b [B1 B2]]. destruct IH as [bs [F1 F2]]; [intros; apply H; now right|].
    exists (b :: bs). split; [now constructor|]. intros x [<-|X]; auto. }
  destruct X as [bs [F1 F2]]. rewrite (Forall2_len _ _ _ F1). apply NoDup_incl_length; [|exact F2].
  apply (Forall2_NoDup Rel vs bs F1 ND). intros x y z _ _ X1 X2. exact (I x y z X1 X2).
Qed.
Lemma count_le {A B} (Rel : A -> A -> Prop) (g g' : B -> bool) (S S' : A -> Prop) qs fs qs' fs' :
  Forall2 (fun q f => g f = true <-> S q) qs fs -> NoDup qs -> Forall2 (fun q f => g' f = true <-> S' q) qs' fs' -> NoDup qs' ->
  (forall a, In a qs -> S a -> exists b, In b qs' /\ S' b /\ Rel a b) -> (forall a a' b, Rel a b -> Rel a' b -> a = a') ->
  Sweep_Model.countb g fs <= Sweep_Model.countb g' fs'.
Proof.
  intros F N F' N' H I. destruct (count_set g S qs fs F N) as [vs [V1 [V2 <-]]]. destruct (count_set g' S' qs' fs' F' N') as [us [U1 [U2 <-]]].
  apply (rel_length Rel); [exact V1| |exact I]. intros a Ha. apply V2 in Ha. destruct Ha as [H1 H2]. destruct (H a H1 H2) as [b [B1 [B2 B3]]].
  exists b. split; [apply U2; auto|exact B3].
Qed.

(** ** Signs *)
Lemma div_sign (x r : Qc) : (0 < r)%Qc -> Sweep_Model.Qc_ltb 0 (x / r) = Sweep_Model.Qc_ltb 0 x /\ Sweep_Model.Qc_ltb (x / r) 0 = Sweep_Model.Qc_ltb x 0.
Proof.
  intro R. assert (RN : r <> 0%Qc) by (intro Z; rewrite Z in R; exact (Qclt_not_eq _ _ R eq_refl)).
  assert (A : forall y, (0 < y)%Qc -> (0 < y * r)%Qc) by (intros y Hy; replace 0%Qc with (0 * r)%Qc by ring; now apply Qcmult_lt_compat_r).
  assert (B : forall y, (y < 0)%Qc -> (y * r < 0)%Qc) by (intros y Hy; replace 0%Qc with (0 * r)%Qc by ring; now apply Qcmult_lt_compat_r).
  assert (E : (x = (x / r) * r)%Qc) by (field; exact RN). set (y := (x / r)%Qc) in *. rewrite E. clearbody y. clear E x.
  unfold Sweep_Model.Qc_ltb. destruct (Qc_dec 0 y) as [[H|H]|H].
  - pose proof (A y H) as H2. split; destruct (Qclt_le_dec _ _) as [L1|L1]; destruct (Qclt_le_dec _ _) as [L2|L2]; try reflexivity; exfalso.
    + exact (Qclt_not_le _ _ H2 L2). + exact (Qclt_not_le _ _ H L1). + exact (Qclt_not_le _ _ L1 (Qclt_le_weak _ _ H)). + exact (Qclt_not_le _ _ L2 (Qclt_le_weak _ _ H2)).
  - pose proof (B y H) as H2. split; destruct (Qclt_le_dec _ _) as [L1|L1]; destruct (Qclt_le_dec _ _) as [L2|L2]; try reflexivity; exfalso.
    + exact (Qclt_not_le _ _ L1 (Qclt_le_weak _ _ H)). + exact (Qclt_not_le _ _ L2 (Qclt_le_weak _ _ H2)). + exact (Qclt_not_le _ _ H2 L2). + exact (Qclt_not_le _ _ H L1).
  - subst y. replace (0 * r)%Qc with 0%Qc by ring. split; reflexivity.
Qed.

Section Sweep.
  Variables (ranks : nat) (box : extent2) (particles : nat -> list (nat * vec2)).
  Hypothesis D : distributed2 ranks box particles.
  Hypothesis square : (x2 (max2 box) - x2 (min2 box) == y2 (max2 box) - y2 (min2 box))%Q.
  Variables (pop' : nat -> list nat -> nat) (l : list vec2) (whole : triangulation).
  Hypothesis all : all_images2 box particles l.
  Hypothesis built : whole2 box pop' l = Some whole.
  Hypothesis distinct : distinct_images2 box particles.
  Variables (periodic : bool) (world : nat -> rank_grid).
  Hypothesis half_open : periodic = true -> forall r, Forall (fun p => in_box2 box (snd p)) (particles r).
  Hypothesis ids : forall r, r < ranks -> Permutation (map fst (local_cells (world r))) (map fst (particles r)).
  Hypothesis wcells : forall r, r < ranks -> forall id pos c v x, In (id, c) (local_cells (world r)) -> In (id, pos) (particles r) ->
    nth_error (whole_points box l) v = Some x -> same_position pos x -> whole_cell box particles l whole periodic r v c.
  Hypothesis halos : forall r, r < ranks -> forall q x, In (q, x) (halo_ids (world r)) <-> exists e f, In e (local_cells (world r)) /\ In f (neighbours (snd e)) /\
    (connection f = Remote wrap2 x q \/ exists wr, connection f = RemotePeriodic wrap2 x q wr).
  Variable root : Qc -> Qc.
  Hypothesis root_pos : forall x, (0 < x)%Qc -> (0 < root x)%Qc.
  Variables (dirs : list Geometry_Model.point2) (batch : nat) (source : nat * nat -> Qc) (lev : nat * nat -> nat) (sweeps : list nat).
  Variables (resp : nat * nat -> list Qc -> Qc -> Qc) (chemup : nat * nat -> list Qc -> Qc -> list Qc).
  Notation G := (sweep_config root world ranks dirs batch source lev sweeps resp chemup).
  Notation P := (whole_point box l).
  Notation all_pos := (whole_points box l).
  Notation label := (label box particles l).
  Notation no_wrap := (NoWrap, NoWrap).
  Let LI := label_inj ranks box particles D pop' l whole built.
  Let LE := label_ex ranks box particles D pop' l whole all built.
  Let LF := label_fun box particles l distinct.
  Let LC := label_coord ranks box particles D l.
  Let LT := label_lt ranks box particles D pop' l whole built.
  Let LB := label_base box particles l.

  Lemma G_cells c : In c (Sweep_Model.cells G) <-> exists pos, In (snd c, pos) (particles (fst c)).
  Proof.
    cbn [Sweep_Model.cells sweep_config]. rewrite in_flat_map. split.
    - intros [r [Hr H]]. apply in_map_iff in H. destruct H as [e [<- He]]. cbn [fst snd]. apply in_seq in Hr. destruct Hr as [_ Hr].
      pose proof (Permutation_in _ (ids r Hr) (in_map fst _ _ He)) as I. apply in_map_iff in I. destruct I as [[i pos] [E I]]. cbn [fst] in E. subst i. eauto.
    - intros [pos H]. destruct c as [r id]. cbn [fst snd] in *. assert (Hr : r < ranks) by (apply (di2_ranks _ _ _ D); intro Z; rewrite Z in H; destruct H).
      exists r. split; [apply in_seq; lia|]. pose proof (in_map fst _ _ H) as I. apply (Permutation_in _ (Permutation_sym (ids r Hr))) in I.
      apply in_map_iff in I. destruct I as [e [E I]]. cbn [fst] in E. apply in_map_iff. exists e. split; [now rewrite E|exact I].
  Qed.
  Lemma cell_rank c : In c (Sweep_Model.cells G) -> fst c < ranks.
  Proof. intro H. apply G_cells in H. destruct H as [pos H]. apply (di2_ranks _ _ _ D). intro Z. rewrite Z in H. destruct H. Qed.

  (** A face of the cell at [v], seen from [self], towards [q]. *)
  Definition face_of (self v q : nat) (f : Sweep_Model.face) : Prop :=
    exists t vf, refers_to box particles l periodic self q t /\ connection vf = t /\ is_face P whole (fun _ => t) v q vf /\ f = sweep_face root self dirs vf.
  Lemma G_faces c : In c (Sweep_Model.cells G) -> exists v qs, label v (fst c) (snd c) no_wrap /\ NoDup qs /\ (forall q, In q qs <-> neighbour whole v q) /\
    Forall2 (face_of (fst c) v) qs (Sweep_Model.faces G c).
  Proof.
    intro H. pose proof (cell_rank c H) as Hr. apply G_cells in H. destruct H as [pos HP]. destruct c as [r id]. cbn [fst snd] in *.
    destruct (LE r id pos no_wrap HP) as [v LV]. cbn [Sweep_Model.faces sweep_config fst snd].
    destruct (find (fun e => fst e =? id) (local_cells (world r))) as [[id' gc]|] eqn:F.
    - apply find_some in F. destruct F as [He E]. cbn [fst] in E. apply Nat.eqb_eq in E. subst id'. cbn [snd].
      assert (WC : whole_cell box particles l whole periodic r v gc).
      { pose proof LV as LV'. destruct LV' as [_ [x [Ex Ix]]]. apply (wcells r Hr id pos gc v x He HP Ex).
        destruct Ix as [pos' [I1 I2]]. rewrite (base_fun ranks box particles D r id pos pos' HP I1) in I2. apply in_images2 in I2. rewrite I2.
        cbn [as_sign]. split; cbn [x2 y2]; ring. }
      destruct (wc_faces _ _ _ _ _ _ _ _ WC) as [qs [ND [QN FA]]]. exists v, qs. split; [exact LV|]. split; [exact ND|]. split; [exact QN|].
      clear -FA. induction FA as [|q f qs fs [t [R H]] FA IH]; cbn [map]; constructor; [|exact IH]. exists t, f. split; [exact R|]. split; [exact (vf_type _ _ _ _ _ _ H)|]. auto.
    - exfalso. pose proof (in_map fst _ _ HP) as I. apply (Permutation_in _ (Permutation_sym (ids r Hr))) in I. apply in_map_iff in I. destruct I as [e [E I]].
      pose proof (find_none _ _ F _ I) as X. cbv beta in X. cbn [fst] in E. rewrite E, Nat.eqb_refl in X. discriminate.
  Qed.

  (** The neighbour of a face. *)
  Definition nb_at (self rq iq : nat) (w : wrap2) : Sweep_Model.nb :=
    if is_periodic2 w then if periodic then if rq =? self then Sweep_Model.LocalPeriodic (rq, iq) else Sweep_Model.RemotePeriodic (rq, iq) else Sweep_Model.Boundary
    else if rq =? self then Sweep_Model.Local (rq, iq) else Sweep_Model.Remote (rq, iq).
  Lemma face_nb self v q f : face_of self v q f -> q < 3 /\ Sweep_Model.f_nb f = Sweep_Model.Boundary \/
    exists rq iq w, label q rq iq w /\ Sweep_Model.f_nb f = nb_at self rq iq w.
  Proof.
    intros [t [vf [R [E [_ ->]]]]]. cbn [sweep_face Sweep_Model.f_nb]. rewrite E. destruct R as [[L ->]|[L [rq [iq [w [x [N [I ->]]]]]]]]; [left; auto|right].
    exists rq, iq, w. split; [split; [exact L|eauto]|]. unfold shown_type, image_type, nb_at.
    destruct (is_periodic2 w); destruct periodic; cbn [andb negb]; destruct (Nat.eqb_spec rq self) as [->|]; reflexivity.
  Qed.
  Lemma face_nb_label self v q f rq iq w : face_of self v q f -> label q rq iq w -> Sweep_Model.f_nb f = nb_at self rq iq w.
  Proof.
    intros H L. destruct (face_nb _ _ _ _ H) as [[L3 _]|[r [i [w' [L' E]]]]]; [destruct L; lia|]. destruct (LF _ _ _ _ _ _ _ L L') as [-> [-> ->]]. exact E.
  Qed.
  Lemma no_wrap_eq w : is_periodic2 w = false -> w = no_wrap.
  Proof. destruct w as [[] []]; cbn; congruence. Qed.
  Lemma to_iff self v q f p : face_of self v q f -> (Sweep_Spec.face_to p f = true <-> label q (fst p) (snd p) no_wrap).
  Proof.
    intro H. unfold Sweep_Spec.face_to. split.
    - intro T. destruct (face_nb _ _ _ _ H) as [[_ E]|[r [i [w [L E]]]]]; rewrite E in T; [discriminate|]. unfold nb_at in T.
      destruct (is_periodic2 w) eqn:W; [destruct periodic; [destruct (r =? self)|]; discriminate|]. rewrite (no_wrap_eq w W) in L.
      destruct (r =? self); apply Cartesian_Sweep.pid_eqb_true in T; subst p; exact L.
    - intro L. rewrite (face_nb_label _ _ _ _ _ _ _ H L). unfold nb_at. cbn [is_periodic2 wrap2_eqb wrap_type_eqb fst snd andb negb].
      destruct (fst p =? self); apply Cartesian_Sweep.pid_eqb_true; now destruct p.
  Qed.
  Lemma toP_iff self v q f p : face_of self v q f ->
    (Sweep_Spec.face_toP p f = true <-> periodic = true /\ fst p <> self /\ exists w, is_periodic2 w = true /\ label q (fst p) (snd p) w).
  Proof.
    intro H. unfold Sweep_Spec.face_toP. split.
    - intro T. destruct (face_nb _ _ _ _ H) as [[_ E]|[r [i [w [L E]]]]]; rewrite E in T; [discriminate|]. unfold nb_at in T.
      destruct (is_periodic2 w) eqn:W; [|destruct (r =? self); discriminate]. destruct periodic; [|discriminate].
      destruct (Nat.eqb_spec r self) as [|N]; [discriminate|]. apply Cartesian_Sweep.pid_eqb_true in T. subst p. cbn [fst snd]. eauto.
    - intros [PE [N [w [W L]]]]. rewrite (face_nb_label _ _ _ _ _ _ _ H L). unfold nb_at. rewrite W, PE. destruct (Nat.eqb_spec (fst p) self); [contradiction|].
      apply Cartesian_Sweep.pid_eqb_true. now destruct p.
  Qed.

  (** The side of a face. *)
  Definition slope (v q d : nat) : Q :=
    ((Geometry_Model.x2 (P q) - Geometry_Model.x2 (P v)) * Geometry_Model.x2 (nth d dirs (Geometry_Model.P2 0 0)) +
     (Geometry_Model.y2 (P q) - Geometry_Model.y2 (P v)) * Geometry_Model.y2 (nth d dirs (Geometry_Model.P2 0 0)))%Q.
  Lemma side_iff self v q f d : 3 <= v < num_points whole -> neighbour whole v q -> face_of self v q f ->
    (Sweep_Model.upwind f d = true <-> (slope v q d < 0)%Q) /\ (Sweep_Model.downwind f d = true <-> (0 < slope v q d)%Q).
  Proof.
    intros Hv N [t [vf [_ [_ [H ->]]]]]. destruct (vf_normal _ _ _ _ _ _ H) as [N1 N2].
    assert (NN : (0 < dot2 (normal vf) (normal vf))%Q).
    { unfold dot2. set (a := Geometry_Model.x2 (normal vf)) in *. set (b := Geometry_Model.y2 (normal vf)) in *.
      assert (SQ : forall x : Q, ~ (x == 0)%Q -> (0 < x * x)%Q).
      { intros x Hx. destruct (Qlt_le_dec x 0) as [L|L].
        - assert (0 < - x * - x)%Q by (apply qmul_pos; lra). lra.
        - apply qmul_pos; destruct (Qle_lt_or_eq _ _ L); auto; exfalso; apply Hx; symmetry; assumption. }
      assert (NZ : ~ ((a == 0)%Q /\ (b == 0)%Q)).
      { intros [A B]. destruct (whole_is ranks box particles D pop' l whole built) as [GW [NL LL]].
        destruct (nb_tri' whole v _ GW q N) as [x [y T]].
        assert (Lq : q < num_points whole) by exact (corner_bound' ranks box particles D pop' l whole built q x y T).
        destruct (nth_error all_pos v) as [pv|] eqn:Ev; [|apply nth_error_None in Ev; lia]. destruct (nth_error all_pos q) as [pq|] eqn:Eq; [|apply nth_error_None in Eq; lia].
        assert (v = q); [|destruct N; congruence]. apply (whole_apart ranks box particles D pop' l whole built q v pq pv Eq Ev); [|eauto].
        unfold whole_point in N1, N2. rewrite (nth_error_nth _ _ _ Ev), (nth_error_nth _ _ _ Eq) in N1, N2. cbn [to_point2 Geometry_Model.x2 Geometry_Model.y2] in N1, N2.
        split; lra. }
      destruct (Qeq_dec a 0) as [A|A].
      - assert (B : ~ (b == 0)%Q) by tauto. apply SQ in B. rewrite A. lra.
      - apply SQ in A. destruct (Qeq_dec b 0) as [B|B]; [rewrite B; lra|apply SQ in B; lra]. }
    assert (RP : (0 < root (Q2Qc (dot2 (normal vf) (normal vf))))%Qc).
    { apply root_pos. unfold Qclt. change (this 0%Qc) with 0%Q. cbn [this Q2Qc]. rewrite Qred_correct. exact NN. }
    assert (SE : (dot2 (normal vf) (nth d dirs (Geometry_Model.P2 0 0)) == slope v q d)%Q) by (unfold dot2, slope; rewrite N1, N2; reflexivity).
    unfold Sweep_Model.upwind, Sweep_Model.downwind. cbn [sweep_face Sweep_Model.f_dot].
    destruct (div_sign (Q2Qc (dot2 (normal vf) (nth d dirs (Geometry_Model.P2 0 0)))) _ RP) as [-> ->].
    rewrite Cartesian_Sweep.Q2Qc_neg, Cartesian_Sweep.Q2Qc_pos, SE. tauto.
  Qed.
  Definition wind (up : bool) (f : Sweep_Model.face) (d : nat) : bool := if up then Sweep_Model.upwind f d else Sweep_Model.downwind f d.
  Definition on_side (up : bool) (x : Q) : Prop := if up then (x < 0)%Q else (0 < x)%Q.
  Lemma wind_iff up self v q f d : 3 <= v < num_points whole -> neighbour whole v q -> face_of self v q f ->
    (wind up f d = true <-> on_side up (slope v q d)).
  Proof. intros H1 H2 H3. destruct (side_iff self v q f d H1 H2 H3) as [A B]. destruct up; assumption. Qed.
  Lemma side_opp up x y : (y == - x)%Q -> on_side up x -> on_side (negb up) y.
  Proof. intros E H. destruct up; cbn in *; lra. Qed.

  Lemma with_neighbour self v qs fs : (forall q, In q qs <-> neighbour whole v q) -> Forall2 (face_of self v) qs fs ->
    Forall2 (fun q f => neighbour whole v q /\ face_of self v q f) qs fs.
  Proof.
    intros QN FA. assert (I : forall q, In q qs -> neighbour whole v q) by (intros q; apply QN). clear QN.
    induction FA as [|q f qs fs H FA IH]; constructor; [split; [apply I; now left|exact H]|]. apply IH. intros; apply I; now right.
  Qed.
  Lemma forall2_imp {A B} (R S : A -> B -> Prop) xs ys : (forall x y, R x y -> S x y) -> Forall2 R xs ys -> Forall2 S xs ys.
  Proof. intros I F. induction F; constructor; auto. Qed.

  Lemma sym_le c p d up : In c (Sweep_Model.cells G) -> In p (Sweep_Model.cells G) ->
    Sweep_Model.countb (fun f => wind up f d && Sweep_Spec.face_to p f) (Sweep_Model.faces G c) <=
    Sweep_Model.countb (fun f => wind (negb up) f d && Sweep_Spec.face_to c f) (Sweep_Model.faces G p).
  Proof.
    intros Hc Hp. destruct (G_faces c Hc) as [v [qs [LV [ND [QN FA]]]]]. destruct (G_faces p Hp) as [u [rs [LU [ND' [QN' FA']]]]].
    apply (count_le (fun a b => label a (fst p) (snd p) no_wrap /\ label b (fst c) (snd c) no_wrap) _ _
      (fun q => on_side up (slope v q d) /\ label q (fst p) (snd p) no_wrap) (fun q => on_side (negb up) (slope u q d) /\ label q (fst c) (snd c) no_wrap) qs _ rs _); auto.
    - apply (forall2_imp (fun q f => neighbour whole v q /\ face_of (fst c) v q f)); [|now apply with_neighbour].
      intros q f [N H]. rewrite andb_true_iff, (wind_iff up _ _ _ _ _ (LT _ _ _ _ LV) N H), (to_iff _ _ _ _ _ H). reflexivity.
    - apply (forall2_imp (fun q f => neighbour whole u q /\ face_of (fst p) u q f)); [|now apply with_neighbour].
      intros q f [N H]. rewrite andb_true_iff, (wind_iff _ _ _ _ _ _ (LT _ _ _ _ LU) N H), (to_iff _ _ _ _ _ H). reflexivity.
    - intros a Ha [S L]. apply QN in Ha. rewrite (LI _ _ _ _ _ LU L) in *. exists v. split; [apply QN'; now apply neighbour_sym|]. split; [|auto].
      split; [|exact LV]. apply (side_opp up (slope v u d)); [unfold slope; ring|exact S].
    - intros a a' b [A1 _] [A2 _]. exact (LI _ _ _ _ _ A2 A1).
  Qed.
  Lemma periodic_opposite w : is_periodic2 w = true -> is_periodic2 (opposite2 w) = true.
  Proof. destruct w as [[] []]; cbn; auto. Qed.
  Lemma opposite_inj w w' : opposite2 w = opposite2 w' -> w = w'.
  Proof. destruct w as [[] []], w' as [[] []]; intro H; vm_compute in H; congruence. Qed.
  Lemma shift_opposite w : shift_of (opposite w) = (- shift_of w)%Z.
  Proof. destruct w; reflexivity. Qed.
  Lemma symP_le c p d up : In c (Sweep_Model.cells G) -> In p (Sweep_Model.cells G) ->
    Sweep_Model.countb (fun f => wind up f d && Sweep_Spec.face_toP p f) (Sweep_Model.faces G c) <=
    Sweep_Model.countb (fun f => wind (negb up) f d && Sweep_Spec.face_toP c f) (Sweep_Model.faces G p).
  Proof.
    intros Hc Hp. destruct (G_faces c Hc) as [v [qs [LV [ND [QN FA]]]]]. destruct (G_faces p Hp) as [u [rs [LU [ND' [QN' FA']]]]].
    apply (count_le (fun a b => exists w, label a (fst p) (snd p) w /\ label b (fst c) (snd c) (opposite2 w)) _ _
      (fun q => on_side up (slope v q d) /\ periodic = true /\ fst p <> fst c /\ exists w, is_periodic2 w = true /\ label q (fst p) (snd p) w)
      (fun q => on_side (negb up) (slope u q d) /\ periodic = true /\ fst c <> fst p /\ exists w, is_periodic2 w = true /\ label q (fst c) (snd c) w) qs _ rs _); auto.
    - apply (forall2_imp (fun q f => neighbour whole v q /\ face_of (fst c) v q f)); [|now apply with_neighbour].
      intros q f [N H]. rewrite andb_true_iff, (wind_iff up _ _ _ _ _ (LT _ _ _ _ LV) N H), (toP_iff _ _ _ _ _ H). reflexivity.
    - apply (forall2_imp (fun q f => neighbour whole u q /\ face_of (fst p) u q f)); [|now apply with_neighbour].
      intros q f [N H]. rewrite andb_true_iff, (wind_iff _ _ _ _ _ _ (LT _ _ _ _ LU) N H), (toP_iff _ _ _ _ _ H). reflexivity.
    - intros a Ha [S [PE [NE [w [W L]]]]]. apply QN in Ha.
      destruct (neighbour_shift ranks box particles D square pop' l whole all built distinct (half_open PE) v a _ _ _ _ w Ha LV L) as [b [u' [L1 [L2 N]]]].
      rewrite (LI _ _ _ _ _ LU L2) in N. exists b. split; [now apply QN'|]. split; [|eauto]. split.
      + apply (side_opp up (slope v a d)); [|exact S]. destruct (LB _ _ _ _ LV) as [pc HC]. destruct (LB _ _ _ _ LU) as [pp HP].
        destruct (LC _ _ _ _ _ LV HC) as [V1 V2]. destruct (LC _ _ _ _ _ LU HP) as [U1 U2]. destruct (LC _ _ _ _ _ L HP) as [A1 A2]. destruct (LC _ _ _ _ _ L1 HC) as [B1 B2].
        cbn [fst snd opposite2] in *. rewrite shift_opposite, inject_Z_opp in B1, B2. cbn [shift_of] in *. unfold slope. rewrite V1, V2, U1, U2, A1, A2, B1, B2. ring.
      + split; [exact PE|]. split; [congruence|]. exists (opposite2 w). split; [now apply periodic_opposite|exact L1].
    - intros a a' b [w [A1 A2]] [w' [B1 B2]]. destruct (LF _ _ _ _ _ _ _ A2 B2) as [_ [_ E]]. apply opposite_inj in E. subst w'. exact (LI _ _ _ _ _ B1 A1).
  Qed.

  Lemma nodup_flat rs : NoDup rs -> (forall r, In r rs -> r < ranks) -> NoDup (flat_map (fun r => map (fun e => (r, fst e)) (local_cells (world r))) rs).
  Proof.
    induction rs as [|r rs IH]; intros H B; [constructor|]. apply NoDup_cons_iff in H. destruct H as [N1 N2]. cbn [flat_map].
    assert (X : NoDup (map (fun e => (r, fst e)) (local_cells (world r)))).
    { assert (N : NoDup (map fst (local_cells (world r)))).
      { eapply Permutation_NoDup; [apply Permutation_sym, ids; apply B; now left|]. apply (di2_ids _ _ _ D). }
      replace (map (fun e => (r, fst e)) (local_cells (world r))) with (map (pair r) (map fst (local_cells (world r)))) by (now rewrite map_map).
      apply FinFun.Injective_map_NoDup; [|exact N]. intros a b E. congruence. }
    assert (Y : forall x, In x (map (fun e => (r, fst e)) (local_cells (world r))) -> fst x = r).
    { intros x Hx. apply in_map_iff in Hx. destruct Hx as [e [<- _]]. reflexivity. }
    assert (Z : forall x, In x (flat_map (fun r => map (fun e => (r, fst e)) (local_cells (world r))) rs) -> In (fst x) rs).
    { intros x Hx. apply in_flat_map in Hx. destruct Hx as [r' [Hr' Hx]]. apply in_map_iff in Hx. destruct Hx as [e [<- _]]. exact Hr'. }
    assert (IH' := IH N2 (fun r' H' => B r' (or_intror H'))). clear IH. revert X Y.
    generalize (map (fun e => (r, fst e)) (local_cells (world r))). intros m X Y. induction m as [|x m IHm]; [exact IH'|].
    apply NoDup_cons_iff in X. destruct X as [X1 X2]. cbn [app]. constructor; [|apply IHm; [exact X2|intros; apply Y; now right]].
    rewrite in_app_iff. intros [A|A]; [auto|]. apply Z in A. rewrite (Y x (or_introl eq_refl)) in A. auto.
  Qed.

  Theorem grid_consistent : Sweep_Spec.consistent G.
  Proof.
    constructor.
    - cbn [Sweep_Model.cells sweep_config]. apply nodup_flat; [apply seq_NoDup|]. intros r H. apply in_seq in H. lia.
    - intros c H. exact (cell_rank c H).
    - intros c f p Hc Hf NB. destruct (G_faces c Hc) as [v [qs [LV [ND [QN FA]]]]]. destruct (Forall2_in_r _ _ _ _ FA Hf) as [q [Hq H]].
      destruct (face_nb _ _ _ _ H) as [[_ E]|[r [i [w [L E]]]]]; rewrite E in NB; [destruct NB; discriminate|]. unfold nb_at in NB.
      assert (X : p = (r, i) /\ r = fst c).
      { destruct (is_periodic2 w); destruct periodic; destruct (Nat.eqb_spec r (fst c)); destruct NB as [NB|NB]; try discriminate; injection NB as <-; auto. }
      destruct X as [-> X]. split; [apply G_cells; exact (LB _ _ _ _ L)|exact X].
    - intros c f p Hc Hf NB. pose proof (cell_rank c Hc) as Hr. destruct (G_faces c Hc) as [v [qs [LV [ND [QN FA]]]]]. destruct (Forall2_in_r _ _ _ _ FA Hf) as [q [Hq H]].
      destruct (face_nb _ _ _ _ H) as [[_ E]|[r [i [w [L E]]]]]; rewrite E in NB; [destruct NB; discriminate|]. unfold nb_at in NB.
      assert (X : p = (r, i) /\ r <> fst c).
      { destruct (is_periodic2 w); destruct periodic; destruct (Nat.eqb_spec r (fst c)); destruct NB as [NB|NB]; try discriminate; injection NB as <-; auto. }
      destruct X as [-> X]. split; [apply G_cells; exact (LB _ _ _ _ L)|]. split; [exact X|].
      cbn [Sweep_Model.halo Sweep_Model.lev sweep_config]. unfold Sweep_Model.rank_of.
      assert (I : In (r, i) (halo_ids (world (fst c)))).
      { apply (halos (fst c) Hr). cbn [Sweep_Model.faces sweep_config] in Hf.
        destruct (find (fun e => fst e =? snd c) (local_cells (world (fst c)))) as [e|] eqn:F; [|destruct Hf]. apply find_some in F. destruct F as [He _].
        apply in_map_iff in Hf. destruct Hf as [vf [EF Hvf]]. exists e, vf. split; [exact He|]. split; [exact Hvf|]. subst f. cbn [sweep_face Sweep_Model.f_nb] in E.
        unfold nb_at in E. destruct (connection vf) as [j|j rk|j wr|j rk wr|]; cbn [sweep_nb] in E;
          destruct (is_periodic2 w); destruct periodic; destruct (Nat.eqb_spec r (fst c)); try discriminate; try contradiction; try (destruct NB; discriminate); injection E; intros; subst; eauto. }
      destruct (existsb (Sweep_Model.pid_eqb (r, i)) (halo_ids (world (fst c)))) eqn:EX; [reflexivity|exfalso].
      assert (existsb (Sweep_Model.pid_eqb (r, i)) (halo_ids (world (fst c))) = true); [|congruence].
      apply existsb_exists. exists (r, i). split; [exact I|]. now apply Cartesian_Sweep.pid_eqb_true.
    - intros c p d Hc Hp _. apply Nat.le_antisymm; [exact (sym_le c p d true Hc Hp)|exact (sym_le p c d false Hp Hc)].
    - intros c p d Hc Hp _. apply Nat.le_antisymm; [exact (symP_le c p d true Hc Hp)|exact (symP_le p c d false Hp Hc)].
  Qed.

  Definition pos_of (c : nat * nat) : vec2 := match find (fun e => fst e =? snd c) (particles (fst c)) with Some e => snd e | None => V2 0 0 end.
  Lemma pos_of_eq c pos : In (snd c, pos) (particles (fst c)) -> pos_of c = pos.
  Proof.
    intro H. unfold pos_of. destruct (find _ _) as [[i p]|] eqn:F.
    - apply find_some in F. destruct F as [I E]. cbn [fst] in E. apply Nat.eqb_eq in E. subst i. cbn [snd]. exact (base_fun ranks box particles D _ _ _ _ H I).
    - pose proof (find_none _ _ F _ H) as X. cbv beta in X. cbn [fst] in X. rewrite Nat.eqb_refl in X. discriminate.
  Qed.
  Definition along (d : nat) (c : nat * nat) : Q := dot2 (to_point2 (pos_of c)) (nth d dirs (Geometry_Model.P2 0 0)).
  Theorem grid_acyclic : Sweep_Spec.acyclic G.
  Proof.
    intros cur _. exists (fun d c => length (filter (fun c' => Qltb (along d c') (along d c)) (Sweep_Model.cells G))).
    intros c p f d Hc Hf Hd DW TO _ _. destruct (G_faces c Hc) as [v [qs [LV [ND [QN FA]]]]]. destruct (Forall2_in_r _ _ _ _ FA Hf) as [q [Hq H]]. apply QN in Hq.
    apply (to_iff _ _ _ _ _ H) in TO. apply (side_iff _ _ _ _ d (LT _ _ _ _ LV) Hq H) in DW.
    destruct (LB _ _ _ _ LV) as [pc HC]. destruct (LB _ _ _ _ TO) as [pp HP]. destruct (LC _ _ _ _ _ LV HC) as [V1 V2]. destruct (LC _ _ _ _ _ TO HP) as [U1 U2].
    cbn [fst snd shift_of] in *. change (inject_Z 0) with 0%Q in *.
    assert (LL : (along d c < along d p)%Q).
    { unfold along, dot2. rewrite (pos_of_eq c pc HC), (pos_of_eq p pp HP). cbn [to_point2 Geometry_Model.x2 Geometry_Model.y2].
      unfold slope in DW. rewrite V1, V2, U1, U2 in DW. lra. }
    apply Cartesian_Sweep.filter_lt.
    - intros x Hx. apply Qltb_true in Hx. apply Qltb_true. lra.
    - exists c. split; [exact Hc|]. split; [|now apply Qltb_true]. destruct (Qltb (along d c) (along d c)) eqn:E; [|reflexivity]. apply Qltb_true in E. lra.
  Qed.
  Theorem grid_non_periodic : periodic = false -> Sweep_Spec.non_periodic G.
  Proof.
    intros PE c f Hc Hf. destruct (G_faces c Hc) as [v [qs [LV [ND [QN FA]]]]]. destruct (Forall2_in_r _ _ _ _ FA Hf) as [q [Hq H]].
    destruct (face_nb _ _ _ _ H) as [[_ E]|[r [i [w [L E]]]]]; rewrite E; [exact I|]. unfold nb_at. rewrite PE.
    destruct (is_periodic2 w); [exact I|]. destruct (r =? fst c); exact I.
  Qed.

  (** ** The two sides of a face *)
  Lemma G_area c f : In c (Sweep_Model.cells G) -> In f (Sweep_Model.faces G c) -> (0 < Sweep_Model.f_area f)%Qc.
  Proof.
    intros H Hf. pose proof (cell_rank c H) as Hr. apply G_cells in H. destruct H as [pos HP]. destruct c as [r id]. cbn [fst snd] in *.
    destruct (LE r id pos no_wrap HP) as [v LV]. cbn [Sweep_Model.faces sweep_config fst snd] in Hf.
    destruct (find (fun e => fst e =? id) (local_cells (world r))) as [[id' gc]|] eqn:F; [|destruct Hf].
    apply find_some in F. destruct F as [He E]. cbn [fst] in E. apply Nat.eqb_eq in E. subst id'. cbn [snd] in Hf.
    assert (WC : whole_cell box particles l whole periodic r v gc).
    { pose proof LV as LV'. destruct LV' as [_ [x [Ex Ix]]]. apply (wcells r Hr id pos gc v x He HP Ex).
      destruct Ix as [pos' [I1 I2]]. rewrite (base_fun ranks box particles D r id pos pos' HP I1) in I2. apply in_images2 in I2. rewrite I2.
      cbn [as_sign]. split; cbn [x2 y2]; ring. }
    apply in_map_iff in Hf. destruct Hf as [vf [<- Hvf]]. cbn [sweep_face Sweep_Model.f_area]. apply root_pos.
    destruct (wc_volume _ _ _ _ _ _ _ _ WC) as [ws [FA _]]. destruct (Forall2_in_l _ _ _ _ FA Hvf) as [x [_ [X1 X2]]].
    assert (XP : (0 < x * x)%Q) by (apply qmul_pos; assumption). rewrite X2 in XP.
    assert (NN : (0 <= dot2 (normal vf) (normal vf))%Q).
    { unfold dot2. assert (SQ : forall y : Q, (0 <= y * y)%Q) by (intro y; nra). pose proof (SQ (Geometry_Model.x2 (normal vf))). pose proof (SQ (Geometry_Model.y2 (normal vf))). lra. }
    unfold Qclt. change (this 0%Qc) with 0%Q. cbn [this Q2Qc]. rewrite Qred_correct.
    destruct (Qlt_le_dec 0 (area_sq vf)) as [|L]; [assumption|exfalso].
    assert (0 <= - area_sq vf * dot2 (normal vf) (normal vf))%Q by (apply Qmult_le_0_compat; lra). lra.
  Qed.
  Lemma opposite_dot a b r : (a == - b)%Q -> (Q2Qc a / r = - (Q2Qc b / r))%Qc.
  Proof.
    intro E. replace (Q2Qc a) with (- Q2Qc b)%Qc; [unfold Qcdiv; ring|]. apply Qc_is_canon. cbn [this Q2Qc Qcopp]. rewrite !Qred_correct. symmetry. exact E.
  Qed.
  Lemma same_Qc a b : (a == b)%Q -> Q2Qc a = Q2Qc b.
  Proof. intro E. apply Qc_is_canon. cbn [this Q2Qc]. rewrite !Qred_correct. exact E. Qed.
  Theorem grid_mutual c p f across : In c (Sweep_Model.cells G) -> In f (Sweep_Model.faces G c) -> Sweep_Model.f_nb f = seen_from (fst c) p across ->
    exists g, In g (Sweep_Model.faces G p) /\ Sweep_Model.f_nb g = seen_from (fst p) c across /\ Sweep_Model.f_area g = Sweep_Model.f_area f /\
      forall d, Sweep_Model.f_dot g d = (- Sweep_Model.f_dot f d)%Qc.
  Proof.
    intros Hc Hf NB. destruct (G_faces c Hc) as [v [qs [LV [ND [QN FA]]]]]. destruct (Forall2_in_r _ _ _ _ FA Hf) as [q [Hq H]]. apply QN in Hq.
    destruct (face_nb _ _ _ _ H) as [[_ E]|[r [i [w [L E]]]]]; rewrite E in NB.
    { unfold seen_from in NB. destruct across; destruct (fst p =? fst c); discriminate. }
    assert (X : p = (r, i) /\ across = is_periodic2 w /\ (across = true -> periodic = true)).
    { unfold nb_at, seen_from in NB. destruct p as [rp ip]. cbn [fst snd] in NB. destruct across; destruct (is_periodic2 w); destruct periodic; destruct (r =? fst c);
        destruct (rp =? fst c); try discriminate; injection NB as <- <-; auto. }
    destruct X as [-> [AW PE]]. assert (Hp : In (r, i) (Sweep_Model.cells G)) by (apply G_cells; exact (LB _ _ _ _ L)).
    destruct (G_faces (r, i) Hp) as [u [rs [LU [ND' [QN' FA']]]]]. cbn [fst snd] in *.
    destruct H as [t [vf [R [CT [IF ->]]]]]. destruct (vf_centers _ _ _ _ _ _ IF) as [o1 [o2 EC]].
    assert (Y : exists v' o1' o2', label v' (fst c) (snd c) (opposite2 w) /\ edge_centers P whole u v' o1' o2' /\ (dist2_2 o1' o2' == dist2_2 o1 o2)%Q /\ neighbour whole u v').
    { destruct (is_periodic2 w) eqn:W.
      - pose proof (half_open (PE AW)) as HO.
        destruct (centers_shift ranks box particles D square pop' l whole all built distinct HO v q _ _ _ _ w o1 o2 EC LV L) as [v' [q' [L1 [L2 EC']]]].
        rewrite (LI _ _ _ _ _ LU L2) in *. exists v', (tr box w o2), (tr box w o1). split; [exact L1|]. split; [exact EC'|]. split; [apply tr_centers|].
        destruct EC' as [[a [T _]] _]. destruct (whole_is ranks box particles D pop' l whole built) as [GW _]. apply (neighbour_tri _ _ _ _ GW). eauto.
      - rewrite (no_wrap_eq w W) in *. rewrite (LI _ _ _ _ _ LU L) in *. exists v, o2, o1. split; [exact LV|]. split; [destruct EC; split; assumption|].
        split; [unfold dist2_2; ring|now apply neighbour_sym]. }
    destruct Y as [v' [o1' [o2' [L1 [EC' [DE NE]]]]]]. pose proof NE as NE'. apply QN' in NE'. destruct (Forall2_in_l _ _ _ _ FA' NE') as [g [Hg Fg]].
    exists g. split; [exact Hg|]. split.
    { rewrite (face_nb_label _ _ _ _ _ _ _ Fg L1). unfold nb_at, seen_from. destruct c as [rc ic]. cbn [fst snd].
      destruct (is_periodic2 w) eqn:W; rewrite AW.
      - rewrite (PE AW). replace (is_periodic2 (opposite2 w)) with true; [reflexivity|]. destruct w as [[] []]; cbn in *; congruence.
      - rewrite (no_wrap_eq w W). reflexivity. }
    destruct Fg as [t' [vg [R' [CT' [IG ->]]]]]. destruct (vf_normal _ _ _ _ _ _ IF) as [N1 N2]. destruct (vf_normal _ _ _ _ _ _ IG) as [M1 M2].
    assert (K : (Geometry_Model.x2 (normal vg) == - Geometry_Model.x2 (normal vf))%Q /\ (Geometry_Model.y2 (normal vg) == - Geometry_Model.y2 (normal vf))%Q).
    { destruct (LB _ _ _ _ LV) as [pc HC]. destruct (LB _ _ _ _ LU) as [pp HP].
      destruct (LC _ _ _ _ _ LV HC) as [V1 V2]. destruct (LC _ _ _ _ _ LU HP) as [U1 U2]. destruct (LC _ _ _ _ _ L HP) as [A1 A2]. destruct (LC _ _ _ _ _ L1 HC) as [B1 B2].
      cbn [fst snd opposite2] in *. rewrite shift_opposite, inject_Z_opp in B1, B2. cbn [shift_of] in *.
      rewrite N1, N2, M1, M2, V1, V2, U1, U2, A1, A2, B1, B2. split; ring. }
    destruct K as [K1 K2]. cbn [sweep_face Sweep_Model.f_area Sweep_Model.f_dot]. split.
    - f_equal. apply same_Qc. rewrite (vf_area _ _ _ _ _ _ IF o1 o2 EC), (vf_area _ _ _ _ _ _ IG o1' o2' EC'). exact DE.
    - intro d. replace (Q2Qc (dot2 (normal vg) (normal vg))) with (Q2Qc (dot2 (normal vf) (normal vf))) by (apply same_Qc; unfold dot2; rewrite K1, K2; ring).
      apply opposite_dot. unfold dot2. rewrite K1, K2. ring.
  Qed.
End Sweep.
