(** The sweep on cartesian grids: the situation in which the sweep runs (Sweep_Model.v)
    made from the entities of all ranks, and proofs that it meets the assumptions of the
    properties of the sweep. *)
From Coq Require Import List Arith ZArith QArith Qcanon Lia Lqa Permutation.
From Verif Require Import Box_Model Cartesian_Model Cartesian_Spec Cartesian_Proofs Cartesian_Grid.
From Verif Require Sweep_Model Sweep_Spec.
Import ListNotations.
Local Open Scope nat_scope.

(** src/sweep/grid/cell.rs:17-24: the same type in the model of the sweep. *)
Definition sweep_nb (t : ptype) : Sweep_Model.nb :=
  match t with
  | Local i => Sweep_Model.Local i
  | Remote i _ => Sweep_Model.Remote i
  | Boundary => Sweep_Model.Boundary
  | LocalPeriodic i _ => Sweep_Model.LocalPeriodic i
  | RemotePeriodic i _ _ => Sweep_Model.RemotePeriodic i
  end.

(** src/sweep/grid/cell.rs [Face]; the products with the directions are those of
    src/sweep/grid/cell.rs:124-132. *)
Definition sweep_face (dirs : list (list Q)) (ft : face * ptype) : Sweep_Model.face :=
  Sweep_Model.mkFace (Q2Qc (area (fst ft)))
    (fun d => Q2Qc (dot (normal (fst ft)) (nth d dirs []))) (sweep_nb (snd ft)).

(** src/sweep/mod.rs, construction of [Sweep] from the entities of a rank: cells from the
    local particles, and levels of remote cells for the halo particles. *)
Definition sweep_config (world : nat -> list entity) (n : nat) (dirs : list (list Q)) (batch : nat)
    (source : nat * nat -> Qc) (lev : nat * nat -> nat) (sweeps : list nat)
    (resp : nat * nat -> list Qc -> Qc -> Qc) (chemup : nat * nat -> list Qc -> Qc -> list Qc) : Sweep_Model.config :=
  Sweep_Model.mkConfig n
    (flat_map (fun r => map e_id (locals (world r))) (seq 0 n))
    (fun c => match find (fun e => Sweep_Model.pid_eqb (e_id e) c) (locals (world (fst c))) with
              | Some e => map (sweep_face dirs) (neighbours (e_cell e))
              | None => []
              end)
    (length dirs) batch source lev
    (fun r p => if existsb (Sweep_Model.pid_eqb p) (map e_id (halos (world r))) then Some (lev p) else None)
    sweeps resp chemup.

Lemma pid_eqb_true : forall p q, Sweep_Model.pid_eqb p q = true <-> p = q.
Proof.
  intros [a b] [c d]. unfold Sweep_Model.pid_eqb. cbn. rewrite andb_true_iff, !Nat.eqb_eq.
  split; [intros [-> ->]; reflexivity|intro H; injection H; auto].
Qed.
Lemma Q2Qc_neg : forall x, Sweep_Model.Qc_ltb (Q2Qc x) 0%Qc = true <-> (x < 0)%Q.
Proof.
  intro x. unfold Sweep_Model.Qc_ltb.
  assert (E : (this (Q2Qc x) == x)%Q) by apply Qred_correct.
  destruct (Qclt_le_dec (Q2Qc x) 0%Qc) as [H|H].
  - unfold Qclt in H. rewrite E in H. change (this 0%Qc) with 0%Q in H. tauto.
  - unfold Qcle in H. rewrite E in H. change (this 0%Qc) with 0%Q in H. split; [discriminate|lra].
Qed.
Lemma Q2Qc_pos : forall x, Sweep_Model.Qc_ltb 0%Qc (Q2Qc x) = true <-> (0 < x)%Q.
Proof.
  intro x. unfold Sweep_Model.Qc_ltb.
  assert (E : (this (Q2Qc x) == x)%Q) by apply Qred_correct.
  destruct (Qclt_le_dec 0%Qc (Q2Qc x)) as [H|H].
  - unfold Qclt in H. rewrite E in H. change (this 0%Qc) with 0%Q in H. tauto.
  - unfold Qcle in H. rewrite E in H. change (this 0%Qc) with 0%Q in H. split; [discriminate|lra].
Qed.

Lemma countb_flat2 : forall A B (g h : B -> bool) (a1 a2 b1 b2 : A -> B) l,
  (forall x, In x l -> g (a1 x) = h (b2 x) /\ g (a2 x) = h (b1 x)) ->
  Sweep_Model.countb g (flat_map (fun x => [a1 x; a2 x]) l) = Sweep_Model.countb h (flat_map (fun x => [b1 x; b2 x]) l).
Proof.
  intros A B g h a1 a2 b1 b2 l H. unfold Sweep_Model.countb. induction l as [|x l IH]; [reflexivity|].
  cbn [flat_map app filter]. destruct (H x) as [-> ->]; [cbn; auto|].
  specialize (IH ltac:(intros; apply H; cbn; auto)).
  destruct (h (b2 x)), (h (b1 x)); cbn [length]; lia.
Qed.
Lemma map_flat2 : forall A B C (f : B -> C) (a1 a2 : A -> B) l,
  map f (flat_map (fun x => [a1 x; a2 x]) l) = flat_map (fun x => [f (a1 x); f (a2 x)]) l.
Proof. intros. induction l as [|x l IH]; [reflexivity|]. cbn [flat_map app map]. rewrite IH. reflexivity. Qed.

Section Link.
  Variable sides : list Q.
  Variable cell_size : Q.
  Variable rank_function : list Q -> nat.
  Variable allow_periodic : bool.
  Hypothesis sides_pos : Forall (fun s => 0 < s)%Q sides.
  Notation dims := (num_cells sides cell_size).
  Notation grank := (get_rank sides cell_size rank_function).
  Notation positions := (all_contained dims).
  Notation idof := (id_of sides cell_size rank_function).
  Notation nbt := (nbtype sides cell_size rank_function allow_periodic).
  Notation mkf := (mkface sides cell_size).

  Variable world : nat -> list entity.
  Hypothesis world_eq : forall r, exists ps, Permutation ps positions
    /\ world r = flat_map (spawn_one sides cell_size rank_function allow_periodic r) ps.
  Variable n : nat.
  Hypothesis ranks_ok : forall p, in_grid dims p -> grank p < n.
  Variable dirs : list (list Q).
  Variable batch : nat.
  Variable source : nat * nat -> Qc.
  Variable lev : nat * nat -> nat.
  Variable sweeps : list nat.
  Variable resp : nat * nat -> list Qc -> Qc -> Qc.
  Variable chemup : nat * nat -> list Qc -> Qc -> list Qc.
  Notation G := (sweep_config world n dirs batch source lev sweeps resp chemup).

  Lemma local_entity : forall r e, In e (locals (world r)) <->
    exists p, in_grid dims p /\ grank p = r
      /\ e = Entity None (to_pos sides cell_size p) (cell_of sides cell_size rank_function allow_periodic p) (idof p).
  Proof. intros r e. destruct (world_eq r) as (ps & Hps & ->). apply locals_in. auto. Qed.

  Lemma G_cells : forall c, In c (Sweep_Model.cells G) <-> exists p, in_grid dims p /\ c = idof p.
  Proof.
    intro c. cbn [Sweep_Model.cells sweep_config]. rewrite in_flat_map. split.
    - intros (r & Hr & Hc). apply in_map_iff in Hc. destruct Hc as (e & <- & He). apply local_entity in He.
      destruct He as (p & Hp & _ & ->). eauto.
    - intros (p & Hp & ->). exists (grank p). split; [apply in_seq; pose proof (ranks_ok p Hp); lia|].
      apply in_map_iff. eexists. split; [|apply local_entity; exists p; split; [exact Hp|split; reflexivity]]. reflexivity.
  Qed.

  Lemma G_faces : forall p, in_grid dims p ->
    Sweep_Model.faces G (idof p) =
    flat_map (fun k => [sweep_face dirs (mkf p (add_at p k (-1)), nbt p k (-1)%Z);
                        sweep_face dirs (mkf p (add_at p k 1), nbt p k 1%Z)]) (seq 0 (length sides)).
  Proof.
    intros p Hp. cbn [Sweep_Model.faces sweep_config]. rewrite id_rank by auto.
    destruct (find _ (locals (world (grank p)))) as [e|] eqn:F.
    - apply find_some in F. destruct F as [He E]. apply pid_eqb_true in E. apply local_entity in He.
      destruct He as (p' & Hp' & _ & ->). cbn [e_id] in E. apply id_inj in E; auto. subst p'.
      cbn [e_cell cell_of neighbours]. unfold cell_nbs. apply map_flat2.
    - exfalso. assert (He : In (Entity None (to_pos sides cell_size p) (cell_of sides cell_size rank_function allow_periodic p) (idof p))
                            (locals (world (grank p)))) by (apply local_entity; eauto).
      pose proof (find_none _ _ F _ He) as C. cbn [e_id] in C.
      assert (Sweep_Model.pid_eqb (idof p) (idof p) = true) by (apply pid_eqb_true; reflexivity). congruence.
  Qed.

  Lemma G_face_in : forall p f, in_grid dims p -> In f (Sweep_Model.faces G (idof p)) <->
    exists k s, k < length sides /\ (s = 1 \/ s = -1)%Z /\ f = sweep_face dirs (mkf p (add_at p k s), nbt p k s).
  Proof.
    intros p f Hp. rewrite G_faces by auto. rewrite in_flat_map. split.
    - intros (k & Hk & H). apply in_seq in Hk. destruct H as [E|[E|[]]]; subst f;
        exists k; eexists; (split; [lia|]); (split; [|reflexivity]); lia.
    - intros (k & s & Hk & Hs & ->). exists k. rewrite in_seq. split; [lia|].
      destruct Hs as [->| ->]; cbn; auto.
  Qed.

  Lemma nodup_flat : forall (l : list nat), NoDup l -> NoDup (flat_map (fun r => map e_id (locals (world r))) l).
  Proof.
    induction l as [|r l IH]; intro H; [constructor|]. inversion H as [|? ? Hn Hd]; subst. cbn [flat_map].
    assert (N1 : NoDup (map e_id (locals (world r)))).
    { destruct (world_eq r) as (ps & Hps & ->).
      eapply Permutation_NoDup; [apply Permutation_sym; apply local_ids_gapless; auto|].
      apply FinFun.Injective_map_NoDup; [|apply seq_NoDup]. intros a b E. congruence. }
    assert (D : forall x, In x (map e_id (locals (world r))) -> ~ In x (flat_map (fun r => map e_id (locals (world r))) l)).
    { intros x Hx Hy. apply in_map_iff in Hx. destruct Hx as (e & <- & He). apply local_entity in He.
      destruct He as (p & Hp & Hr & ->). apply in_flat_map in Hy. destruct Hy as (r' & Hr' & Hy).
      apply in_map_iff in Hy. destruct Hy as (e' & E & He'). apply local_entity in He'.
      destruct He' as (p' & Hp' & Hr'' & ->). cbn [e_id] in E. apply id_inj in E; auto. subst p'. congruence. }
    specialize (IH Hd). revert N1 D. generalize (map e_id (locals (world r))). intro m.
    induction m as [|x m IHm]; intros N1 D; [exact IH|]. inversion N1; subst. cbn. constructor.
    - rewrite in_app_iff. intros [A|A]; [auto|]. apply (D x); cbn; auto.
    - apply IHm; auto. intros y Hy. apply D. cbn; auto.
  Qed.

  Lemma sweep_nb_id : forall t p, (sweep_nb t = Sweep_Model.Local p \/ sweep_nb t = Sweep_Model.LocalPeriodic p
     \/ sweep_nb t = Sweep_Model.Remote p \/ sweep_nb t = Sweep_Model.RemotePeriodic p) -> ptype_id t = Some p.
  Proof. intros t p H. destruct t; cbn in *; destruct H as [H|[H|[H|H]]]; try discriminate H; injection H as ->; reflexivity. Qed.

  Lemma face_to_spec : forall c p k s, in_grid dims c -> in_grid dims p -> k < length sides -> (s = 1 \/ s = -1)%Z ->
    Sweep_Spec.face_to (idof p) (sweep_face dirs (mkf c (add_at c k s), nbt c k s)) = true <->
    contained (add_at c k s) dims = true /\ nbpos dims c k s = p.
  Proof.
    intros c p k s Hc Hp Hk Hs. assert (Hk' : k < length dims) by (rewrite dims_length; auto).
    pose proof (sf_in _ _ _ _ (step_ok dims c k s Hc Hk' Hs)) as Hq.
    unfold Sweep_Spec.face_to, sweep_face. cbn [Sweep_Model.f_nb snd]. unfold nbtype.
    destruct (contained (add_at c k s) dims).
    - assert (X : Sweep_Model.pid_eqb (idof (nbpos dims c k s)) (idof p) = true <-> nbpos dims c k s = p).
      { rewrite pid_eqb_true. split; [apply id_inj; auto|congruence]. }
      destruct (_ =? _); cbn [sweep_nb]; tauto.
    - destruct allow_periodic; [|cbn; intuition discriminate].
      destruct (_ =? _); cbn [sweep_nb]; intuition discriminate.
  Qed.
  Lemma face_toP_spec : forall c p k s, in_grid dims c -> in_grid dims p -> k < length sides -> (s = 1 \/ s = -1)%Z ->
    Sweep_Spec.face_toP (idof p) (sweep_face dirs (mkf c (add_at c k s), nbt c k s)) = true <->
    contained (add_at c k s) dims = false /\ allow_periodic = true /\ grank c <> grank p /\ nbpos dims c k s = p.
  Proof.
    intros c p k s Hc Hp Hk Hs. assert (Hk' : k < length dims) by (rewrite dims_length; auto).
    pose proof (sf_in _ _ _ _ (step_ok dims c k s Hc Hk' Hs)) as Hq.
    unfold Sweep_Spec.face_toP, sweep_face. cbn [Sweep_Model.f_nb snd]. unfold nbtype.
    destruct (contained (add_at c k s) dims); [ifs; cbn; intuition discriminate|].
    destruct allow_periodic; [|cbn; intuition discriminate].
    destruct (Nat.eqb_spec (grank c) (grank (nbpos dims c k s))) as [E|E]; cbn [sweep_nb].
    - split; [discriminate|]. intros (_ & _ & A & B). rewrite B in E. congruence.
    - rewrite pid_eqb_true. split.
      + intro X. apply id_inj in X; auto. rewrite X in E. auto.
      + intros (_ & _ & _ & ->). reflexivity.
  Qed.

  Lemma up_down : forall c k s d, in_grid dims c -> k < length sides -> (s = 1 \/ s = -1)%Z ->
    forall t t', Sweep_Model.upwind (sweep_face dirs (mkf c (add_at c k s), t)) d =
    Sweep_Model.downwind (sweep_face dirs (mkf (nbpos dims c k s) (add_at (nbpos dims c k s) k (- s)), t')) d.
  Proof.
    intros c k s d Hc Hk Hs t t'. assert (Hk' : k < length dims) by (rewrite dims_length; auto).
    pose proof (sf_in _ _ _ _ (step_ok dims c k s Hc Hk' Hs)) as Hq.
    unfold Sweep_Model.upwind, Sweep_Model.downwind, sweep_face. cbn [Sweep_Model.f_dot fst].
    apply eq_true_iff_eq. rewrite Q2Qc_neg, Q2Qc_pos.
    rewrite (dot_veq _ _ _ (normal_eq sides cell_size sides_pos c k s Hc Hk Hs)), dot_unit by auto.
    rewrite (dot_veq _ _ _ (normal_eq sides cell_size sides_pos _ k (- s)%Z Hq Hk ltac:(lia))), dot_unit by auto.
    rewrite inject_Z_opp. split; intro; lra.
  Qed.

  Lemma sym_fwd : forall c p k s d, in_grid dims c -> in_grid dims p -> k < length sides -> (s = 1 \/ s = -1)%Z ->
    nbpos dims c k s = p ->
    nbpos dims p k (- s) = c /\ contained (add_at p k (- s)) dims = contained (add_at c k s) dims
    /\ Sweep_Model.upwind (sweep_face dirs (mkf c (add_at c k s), nbt c k s)) d =
       Sweep_Model.downwind (sweep_face dirs (mkf p (add_at p k (- s)), nbt p k (- s)%Z)) d.
  Proof.
    intros c p k s d Hc Hp Hk Hs E. assert (Hk' : k < length dims) by (rewrite dims_length; auto).
    destruct (step_ok dims c k s Hc Hk' Hs) as [F1 F2 F3 _ _ _]. subst p.
    split; [exact F2|]. split; [exact F3|]. apply up_down; auto.
  Qed.

  Lemma sym_local : forall c p k s d, in_grid dims c -> in_grid dims p -> k < length sides -> (s = 1 \/ s = -1)%Z ->
    let fc := sweep_face dirs (mkf c (add_at c k s), nbt c k s) in
    let fp := sweep_face dirs (mkf p (add_at p k (- s)), nbt p k (- s)%Z) in
    (Sweep_Model.upwind fc d && Sweep_Spec.face_to (idof p) fc
     = Sweep_Model.downwind fp d && Sweep_Spec.face_to (idof c) fp)
    /\ (Sweep_Model.upwind fc d && Sweep_Spec.face_toP (idof p) fc
     = Sweep_Model.downwind fp d && Sweep_Spec.face_toP (idof c) fp).
  Proof.
    intros c p k s d Hc Hp Hk Hs fc fp. assert (Hs' : (- s = 1 \/ - s = -1)%Z) by lia.
    assert (B : nbpos dims p k (- s) = c -> nbpos dims c k s = p).
    { intro E. destruct (sym_fwd p c k (- s)%Z d Hp Hc Hk Hs' E) as (E' & _). rewrite Z.opp_involutive in E'. exact E'. }
    split; apply eq_true_iff_eq; rewrite !andb_true_iff; unfold fc, fp;
      rewrite ?face_to_spec, ?face_toP_spec by auto.
    - split.
      + intros (U & C & E). destruct (sym_fwd c p k s d Hc Hp Hk Hs E) as (E1 & E2 & E3).
        rewrite <- E3, E2. auto.
      + intros (U & C & E). destruct (sym_fwd c p k s d Hc Hp Hk Hs (B E)) as (E1 & E2 & E3).
        rewrite E3, <- E2. auto.
    - split.
      + intros (U & C & P & R & E). destruct (sym_fwd c p k s d Hc Hp Hk Hs E) as (E1 & E2 & E3).
        rewrite <- E3, E2. split; [|split; [|split; [|split]]]; auto; congruence.
      + intros (U & C & P & R & E). destruct (sym_fwd c p k s d Hc Hp Hk Hs (B E)) as (E1 & E2 & E3).
        rewrite E3, <- E2. split; [|split; [|split; [|split]]]; auto; congruence.
  Qed.

  Lemma grid_consistent : Sweep_Spec.consistent G.
  Proof.
    constructor.
    - cbn [Sweep_Model.cells sweep_config]. apply nodup_flat. apply seq_NoDup.
    - intros c Hc. apply G_cells in Hc. destruct Hc as (p & Hp & ->). unfold Sweep_Model.rank_of.
      rewrite id_rank by auto. cbn. auto.
    - intros c f i Hc Hf Hn. apply G_cells in Hc. destruct Hc as (p & Hp & ->).
      apply G_face_in in Hf; auto. destruct Hf as (k & s & Hk & Hs & ->). cbn [Sweep_Model.f_nb sweep_face snd] in Hn.
      assert (Hi : ptype_id (nbt p k s) = Some i) by (apply sweep_nb_id; tauto).
      destruct (faces_mutual sides cell_size rank_function allow_periodic sides_pos p k s i Hp Hk Hs Hi) as (M1 & M2 & _).
      split; [apply G_cells; eauto|]. unfold Sweep_Model.rank_of. rewrite id_rank by auto.
      destruct (nbtype_remote sides cell_size rank_function allow_periodic p k s i Hi M1) as [_ R2].
      destruct (Nat.eq_dec (fst i) (grank p)) as [e|ne]; [exact e|]. apply R2 in ne.
      destruct (nbt p k s); cbn in Hn, ne; destruct Hn; discriminate.
    - intros c f i Hc Hf Hn. apply G_cells in Hc. destruct Hc as (p & Hp & ->).
      pose proof Hf as Hf'. apply G_face_in in Hf; auto. destruct Hf as (k & s & Hk & Hs & ->).
      cbn [Sweep_Model.f_nb sweep_face snd] in Hn.
      assert (Hi : ptype_id (nbt p k s) = Some i) by (apply sweep_nb_id; tauto).
      destruct (faces_mutual sides cell_size rank_function allow_periodic sides_pos p k s i Hp Hk Hs Hi) as (M1 & M2 & _).
      split; [apply G_cells; eauto|]. unfold Sweep_Model.rank_of. rewrite id_rank by auto.
      destruct (nbtype_remote sides cell_size rank_function allow_periodic p k s i Hi M1) as [_ R2].
      assert (NE : fst i <> grank p). { apply R2. destruct (nbt p k s); cbn in Hn; destruct Hn; try discriminate; reflexivity. }
      split; [exact NE|]. cbn [Sweep_Model.halo Sweep_Model.lev sweep_config].
      destruct (world_eq (grank p)) as (ps & Hps & Ew).
      assert (X : In i (map e_id (halos (world (grank p))))).
      { rewrite Ew. apply halo_exact; auto. split; [exact NE|].
        exists (Entity None (to_pos sides cell_size p) (cell_of sides cell_size rank_function allow_periodic p) (idof p)).
        exists (mkf p (add_at p k s)), (nbt p k s). split; [apply locals_in; eauto|].
        split; [|exact Hi]. cbn [e_cell cell_of neighbours]. apply cell_nbs_in. eauto 8. }
      destruct (existsb (Sweep_Model.pid_eqb i) (map e_id (halos (world (grank p))))) eqn:E; [reflexivity|].
      exfalso. assert (existsb (Sweep_Model.pid_eqb i) (map e_id (halos (world (grank p)))) = true); [|congruence].
      apply existsb_exists. exists i. split; [exact X|]. apply pid_eqb_true. reflexivity.
    - intros c p d Hc Hp Hd. apply G_cells in Hc. destruct Hc as (c' & Hc & ->).
      apply G_cells in Hp. destruct Hp as (p' & Hp & ->). rewrite !G_faces by auto.
      apply countb_flat2. intros k Hk. apply in_seq in Hk.
      split; [exact (proj1 (sym_local c' p' k (-1) d Hc Hp ltac:(lia) ltac:(lia)))|
              exact (proj1 (sym_local c' p' k 1 d Hc Hp ltac:(lia) ltac:(lia)))].
    - intros c p d Hc Hp Hd. apply G_cells in Hc. destruct Hc as (c' & Hc & ->).
      apply G_cells in Hp. destruct Hp as (p' & Hp & ->). rewrite !G_faces by auto.
      apply countb_flat2. intros k Hk. apply in_seq in Hk.
      split; [exact (proj2 (sym_local c' p' k (-1) d Hc Hp ltac:(lia) ltac:(lia)))|
              exact (proj2 (sym_local c' p' k 1 d Hc Hp ltac:(lia) ltac:(lia)))].
  Qed.

  (** Number of positions before [p] in direction [d]. *)
  Definition before (d : nat) (p : list Z) : nat :=
    length (filter (fun q => Qltb (phi q (nth d dirs [])) (phi p (nth d dirs []))) positions).
  Definition order (d : nat) (c : nat * nat) : nat :=
    match find (fun p => Sweep_Model.pid_eqb (idof p) c) positions with Some p => before d p | None => 0 end.
  Lemma order_eq : forall d p, in_grid dims p -> order d (idof p) = before d p.
  Proof.
    intros d p Hp. unfold order. destruct (find _ positions) as [q|] eqn:F.
    - apply find_some in F. destruct F as [Hq E]. apply pid_eqb_true in E. apply all_contained_spec in Hq.
      apply id_inj in E; auto. congruence.
    - exfalso. apply all_contained_spec in Hp. pose proof (find_none _ _ F _ Hp) as C. cbv beta in C.
      assert (Sweep_Model.pid_eqb (idof p) (idof p) = true) by (apply pid_eqb_true; reflexivity). congruence.
  Qed.
  Lemma filter_lt : forall A (f g : A -> bool) l, (forall x, f x = true -> g x = true) ->
    (exists x, In x l /\ f x = false /\ g x = true) -> length (filter f l) < length (filter g l).
  Proof.
    intros A f g l H. assert (LE : forall l, length (filter f l) <= length (filter g l)).
    { induction l0 as [|x m IH]; [reflexivity|]. cbn [filter]. destruct (f x) eqn:E.
      - rewrite (H x E). cbn [length]. lia.
      - destruct (g x); cbn [length]; lia. }
    induction l as [|x l IH]; intros (y & Hy & F & G0); [destruct Hy|]. cbn [filter].
    destruct Hy as [->|Hy].
    - rewrite F, G0. cbn [length]. specialize (LE l). lia.
    - specialize (IH ltac:(eauto)). destruct (f x) eqn:E; [rewrite (H x E)|destruct (g x)]; cbn [length]; lia.
  Qed.

  Lemma grid_acyclic : Sweep_Spec.acyclic G.
  Proof.
    intros cur _. exists order. intros c i f d Hc Hf Hd Hdw Hto _ _.
    apply G_cells in Hc. destruct Hc as (p & Hp & ->). apply G_face_in in Hf; auto.
    destruct Hf as (k & s & Hk & Hs & ->). assert (Hk' : k < length dims) by (rewrite dims_length; auto).
    pose proof (sf_in _ _ _ _ (step_ok dims p k s Hp Hk' Hs)) as Hq.
    assert (E : contained (add_at p k s) dims = true /\ i = idof (nbpos dims p k s)).
    { revert Hto. unfold Sweep_Spec.face_to, sweep_face. cbn [Sweep_Model.f_nb snd]. unfold nbtype.
      destruct (contained (add_at p k s) dims).
      - destruct (_ =? _); cbn [sweep_nb]; rewrite pid_eqb_true; auto.
      - destruct allow_periodic; [|discriminate]. destruct (_ =? _); discriminate. }
    destruct E as [C ->]. rewrite !order_eq by auto. unfold before.
    unfold Sweep_Model.downwind, sweep_face in Hdw. cbn [Sweep_Model.f_dot fst] in Hdw. apply Q2Qc_pos in Hdw.
    pose proof (upwind_phi sides cell_size sides_pos p k s (nth d dirs []) Hp Hk Hs C) as P.
    apply filter_lt.
    - intros q. rewrite !Qltb_lt. intro. rewrite P. lra.
    - exists p. split; [apply all_contained_spec; auto|]. split.
      + destruct (Qltb _ _) eqn:L; [|reflexivity]. apply Qltb_lt in L. lra.
      + apply Qltb_lt. rewrite P. lra.
  Qed.

  Lemma grid_non_periodic : allow_periodic = false -> Sweep_Spec.non_periodic G.
  Proof.
    intros Ha c f Hc Hf. apply G_cells in Hc. destruct Hc as (p & Hp & ->). apply G_face_in in Hf; auto.
    destruct Hf as (k & s & Hk & Hs & ->). unfold sweep_face. cbn [Sweep_Model.f_nb snd]. unfold nbtype.
    rewrite Ha. ifs; cbn; auto.
  Qed.
End Link.
