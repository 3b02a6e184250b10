(** Final statements about cartesian grids. *)
From Coq Require Import List Arith ZArith QArith Qround Qabs Qcanon Lia Lqa Permutation Relations Field.
From Verif Require Import Box_Model Cartesian_Model Cartesian_Spec Cartesian_Proofs Cartesian_Grid Cartesian_Sweep.
From Verif Require Sweep_Model Sweep_Spec Sweep_Safety Sweep_Live Sweep_Live2 Sweep_Leave Sweep_Final.
Import ListNotations.
Local Open Scope nat_scope.

Section Final.
  Variable sides : list Q.
  Variable cell_size : Q.
  Variable rank_function : list Q -> nat.
  Variable allow_periodic : bool.
  Variable drain : nat -> list (list Z * cell) -> list (list Z * cell).
  Hypothesis sides_pos : Forall (fun s => 0 < s)%Q sides.
  Hypothesis drain_perm : forall r l, Permutation (drain r l) l.
  Notation dims := (num_cells sides cell_size).

  Lemma constructs : forall r, exists l, construct sides cell_size rank_function allow_periodic (drain r) r = Some l.
  Proof. intro r. destruct (construct_eq sides cell_size rank_function allow_periodic (drain r) r (drain_perm r)) as (ps & _ & H). eauto. Qed.

  Variable world : nat -> list entity.
  Hypothesis built : forall r, construct sides cell_size rank_function allow_periodic (drain r) r = Some (world r).

  Lemma world_eq : forall r, exists ps, Permutation ps (all_contained dims)
    /\ world r = flat_map (spawn_one sides cell_size rank_function allow_periodic r) ps.
  Proof.
    intro r. destruct (construct_eq sides cell_size rank_function allow_periodic (drain r) r (drain_perm r)) as (ps & H1 & H2).
    exists ps. split; [exact H1|]. rewrite built in H2. congruence.
  Qed.

  Lemma final_mutual : mutual (length sides) (fun k => nth k sides 0%Q)
    (fun k => nth k sides 0 / inject_Z (Qfloor (nth k sides 0 / cell_size)))%Q world.
  Proof.
    intros r e f t i He Hft Hi.
    destruct (mutual_world sides cell_size rank_function allow_periodic sides_pos world world_eq r e f t i He Hft Hi)
      as (A & B & e' & C & D & E & F).
    split; [exact A|]. split; [exact B|]. exists e'. split; [exact C|]. split; [exact D|]. split; [|exact F].
    intros k Hk. rewrite (E k Hk). unfold spacing, num_cells. rewrite (nth_map_gen _ _ _ _ _ 0%Q) by auto. reflexivity.
  Qed.

  Lemma entity_cases : forall r e, In e (world r) -> exists p h, in_grid dims p
    /\ e = Entity h (to_pos sides cell_size p) (cell_of sides cell_size rank_function allow_periodic p)
             (id_of sides cell_size rank_function p).
  Proof.
    intros r e He. destruct (world_eq r) as (ps & Hps & Ew). rewrite Ew in He. apply in_flat_map in He.
    destruct He as (p & Hp & He). exists p. unfold spawn_one in He.
    assert (G : in_grid dims p) by (apply all_contained_spec; eapply Permutation_in; [exact Hps|exact Hp]).
    destruct (_ =? _); [destruct He as [<-|[]]; eauto|]. destruct (adjacent_to _ _ _ _ _ _); [|destruct He].
    destruct He as [<-|[]]; eauto.
  Qed.

  Lemma final_faces : forall r e, In e (world r) ->
    Forall2 veq (map (fun ft => normal (fst ft)) (neighbours (e_cell e))) (side_normals (length sides))
    /\ (forall f t, In (f, t) (neighbours (e_cell e)) -> area f = (cell_size ^ Z.of_nat (length sides - 1))%Q)
    /\ (allow_periodic = true -> forall f, ~ In (f, Boundary) (neighbours (e_cell e)))
    /\ (allow_periodic = false -> forall f t, In (f, t) (neighbours (e_cell e)) -> is_periodic t = false).
  Proof.
    intros r e He. apply entity_cases in He. destruct He as (p & h & Hp & ->). cbn [e_cell cell_of neighbours].
    split; [apply normals_sides; auto|]. split; [|split].
    - intros f t H. apply cell_nbs_in in H. destruct H as (k & s & _ & _ & -> & ->). reflexivity.
    - intros Ha f H. apply cell_nbs_in in H. destruct H as (k & s & _ & _ & _ & H).
      unfold nbtype in H. rewrite Ha in H. revert H. ifs; discriminate.
    - intros Ha f t H. apply cell_nbs_in in H. destruct H as (k & s & _ & _ & _ & ->).
      unfold nbtype. rewrite Ha. ifs; reflexivity.
  Qed.

  Lemma final_ids : forall r, Permutation (map e_id (locals (world r)))
      (map (pair r) (seq 0 (length (locals (world r))))).
  Proof. intro r. destruct (world_eq r) as (ps & Hps & ->). apply local_ids_gapless; auto. Qed.

  Lemma dims_nth : forall k, k < length sides -> nth k dims 0%Z = Qfloor (nth k sides 0 / cell_size)%Q.
  Proof. intros k Hk. unfold num_cells. rewrite (nth_map_gen _ _ _ _ _ 0%Q) by auto; reflexivity. Qed.
  Lemma in_grid_nth : forall ds p, in_grid ds p <-> length p = length ds /\ forall k, k < length ds -> (0 <= nth k p 0 < nth k ds 0)%Z.
  Proof.
    intros ds p. split.
    - intro H. split; [apply in_grid_length; auto|]. induction H as [|v n p ds Hv Hp IH]; intros [|k] Hk; cbn in *; try lia. apply IH; lia.
    - revert ds. induction p as [|v p IH]; intros [|n ds] [L H]; try discriminate L; constructor.
      + apply (H 0). cbn; lia.
      + apply IH. split; [cbn in L; lia|]. intros k Hk. apply (H (S k)). cbn; lia.
  Qed.
  Lemma topos_inj : forall p q, in_grid dims p -> in_grid dims q -> veq (to_pos sides cell_size p) (to_pos sides cell_size q) -> p = q.
  Proof.
    intros p q Hp Hq E. pose proof (in_grid_length _ _ Hp) as Lp. pose proof (in_grid_length _ _ Hq) as Lq.
    rewrite dims_length in Lp, Lq. apply (nth_ext _ _ 0%Z 0%Z); [lia|]. intros k Hk. rewrite Lp in Hk.
    pose proof (veq_nth_inv _ _ k E) as X. rewrite !topos_nth in X by auto.
    pose proof (side_pos sides sides_pos k Hk) as P1.
    pose proof (inject_pos _ (dim_pos sides cell_size p k Hp Hk)) as P2.
    assert (Y : (inject_Z (nth k p 0%Z) == inject_Z (nth k q 0%Z))%Q).
    { assert (Z1 : (inject_Z (nth k p 0%Z) == (nth k sides 0 * inject_Z (nth k p 0%Z) / inject_Z (nth k dims 0%Z)) * (inject_Z (nth k dims 0%Z) / nth k sides 0))%Q)
        by (field; split; lra).
      assert (Z2 : (inject_Z (nth k q 0%Z) == (nth k sides 0 * inject_Z (nth k q 0%Z) / inject_Z (nth k dims 0%Z)) * (inject_Z (nth k dims 0%Z) / nth k sides 0))%Q)
        by (field; split; lra).
      rewrite Z1, Z2, X. reflexivity. }
    unfold Qeq in Y. cbn in Y. lia.
  Qed.

  Lemma final_points :
    (forall r e, In e (locals (world r)) -> grid_point sides cell_size (e_pos e) /\ rank_function (e_pos e) = r)
    /\ (forall x, grid_point sides cell_size x -> exists r e, In e (locals (world r)) /\ veq (e_pos e) x)
    /\ (forall r r' e e', In e (locals (world r)) -> In e' (locals (world r')) -> veq (e_pos e) (e_pos e') -> r = r' /\ e = e').
  Proof.
    split; [|split].
    - intros r e He. destruct (world_eq r) as (ps & Hps & Ew). rewrite Ew in He. apply locals_in in He; auto.
      destruct He as (p & Hp & Hr & ->). cbn [e_pos]. split; [|exact Hr].
      pose proof (in_grid_length _ _ Hp) as L. rewrite dims_length in L.
      split; [apply topos_length; auto|]. exists p. split; [exact L|]. intros k Hk.
      apply in_grid_nth in Hp. destruct Hp as [_ Hp]. rewrite dims_length in Hp. specialize (Hp k Hk).
      rewrite topos_nth by auto. rewrite dims_nth in * by auto. split; [exact Hp|].
      assert (P : (0 < inject_Z (Qfloor (nth k sides 0 / cell_size)))%Q) by (apply inject_pos; lia). field. lra.
    - intros x (Lx & p & Lp & H).
      assert (Hp : in_grid dims p).
      { apply in_grid_nth. rewrite dims_length. split; [exact Lp|]. intros k Hk. rewrite dims_nth by auto. apply H; auto. }
      exists (get_rank sides cell_size rank_function p). eexists. split.
      + destruct (world_eq (get_rank sides cell_size rank_function p)) as (ps & Hps & ->). apply locals_in; auto.
        exists p. split; [exact Hp|]. split; reflexivity.
      + cbn [e_pos]. apply veq_nth; [rewrite topos_length; auto|]. rewrite topos_length by auto. intros k Hk.
        rewrite topos_nth, dims_nth by auto. destruct (H k Hk) as [H1 H2]. rewrite H2.
        assert (P : (0 < inject_Z (Qfloor (nth k sides 0 / cell_size)))%Q) by (apply inject_pos; lia). field. lra.
    - intros r r' e e' He He' E. destruct (world_eq r) as (ps & Hps & Ew). rewrite Ew in He.
      destruct (world_eq r') as (ps' & Hps' & Ew'). rewrite Ew' in He'. apply locals_in in He; auto. apply locals_in in He'; auto.
      destruct He as (p & Hp & Hr & ->). destruct He' as (p' & Hp' & Hr' & ->). cbn [e_pos] in E.
      apply topos_inj in E; auto. subst p'. split; [congruence|reflexivity].
  Qed.

  Lemma final_halos : forall r,
    NoDup (map e_id (halos (world r)))
    /\ (forall i, In i (map e_id (halos (world r))) <->
         fst i <> r /\ exists e f t, In e (locals (world r)) /\ In (f, t) (neighbours (e_cell e)) /\ ptype_id t = Some i)
    /\ (forall r' e e', In e (halos (world r)) -> In e' (locals (world r')) -> e_id e = e_id e' ->
         halo_of e = Some r' /\ e_pos e = e_pos e' /\ e_cell e = e_cell e').
  Proof.
    intro r. destruct (world_eq r) as (ps & Hps & Ew). rewrite Ew.
    destruct (halo_exact sides cell_size rank_function allow_periodic sides_pos r ps Hps) as [A B].
    split; [exact A|]. split; [exact B|]. intros r' e e' He He' E.
    destruct (world_eq r') as (ps' & Hps' & Ew'). rewrite Ew' in He'.
    eapply halo_copy; [exact Hps|exact Hps'|exact He|exact He'|exact E].
  Qed.

  Lemma final_acyclic : forall dir i, ~ clos_trans _ (upwind_of world dir) i i.
  Proof. apply (upwind_acyclic sides cell_size rank_function allow_periodic); auto. apply world_eq. Qed.

  Variable n : nat.
  Hypothesis ranks_ok : forall x, grid_point sides cell_size x -> rank_function x < n.

  Lemma final_sweep : forall dirs batch source lev sweeps resp chemup,
    Sweep_Spec.consistent (sweep_config world n dirs batch source lev sweeps resp chemup)
    /\ Sweep_Spec.acyclic (sweep_config world n dirs batch source lev sweeps resp chemup)
    /\ (allow_periodic = false -> Sweep_Spec.non_periodic (sweep_config world n dirs batch source lev sweeps resp chemup)).
  Proof.
    intros. assert (R : forall p, in_grid dims p -> get_rank sides cell_size rank_function p < n).
    { intros p Hp. apply ranks_ok. destruct final_points as [A _].
      destruct (world_eq (get_rank sides cell_size rank_function p)) as (ps & Hps & Ew).
      apply (A (get_rank sides cell_size rank_function p)
               (Entity None (to_pos sides cell_size p) (cell_of sides cell_size rank_function allow_periodic p) (id_of sides cell_size rank_function p))).
      rewrite Ew. apply locals_in; auto. exists p. auto. }
    pose proof world_eq as W.
    split; [|split].
    - eapply grid_consistent; eauto.
    - eapply grid_acyclic; eauto.
    - intro. eapply grid_non_periodic; eauto.
  Qed.
End Final.

Lemma slab_ok : forall sides cell_size n x, Forall (fun s => 0 < s)%Q sides -> sides <> [] -> 0 < n ->
  grid_point sides cell_size x -> slab_rank sides n x < n.
Proof.
  intros sides cell_size n x Hs Hne Hn (Lx & p & Lp & H). unfold slab_rank.
  destruct sides as [|s sides]; [congruence|]. inversion Hs as [|? ? P _]; subst.
  destruct x as [|y x]; [discriminate Lx|]. destruct p as [|v p]; [discriminate Lp|].
  destruct (H 0) as [H1 H2]; [cbn; lia|]. cbn [nth hd] in *.
  set (m := Qfloor (s / cell_size)) in *.
  assert (Pm : (0 < inject_Z m)%Q) by (apply inject_pos; lia).
  assert (Pn : (0 < inject_Z (Z.of_nat n))%Q) by (apply inject_pos; lia).
  assert (E : (y / s * inject_Z (Z.of_nat n) == inject_Z v * inject_Z (Z.of_nat n) / inject_Z m)%Q)
    by (rewrite H2; field; split; lra).
  rewrite E.
  assert (V0 : (0 <= inject_Z v)%Q) by (change 0%Q with (inject_Z 0); rewrite <- Zle_Qle; lia).
  assert (V1 : (inject_Z v < inject_Z m)%Q) by (rewrite <- Zlt_Qlt; lia).
  assert (F : (inject_Z v * inject_Z (Z.of_nat n) / inject_Z m < inject_Z (Z.of_nat n))%Q).
  { apply Qlt_shift_div_r; [exact Pm|]. rewrite (Qmult_comm (inject_Z (Z.of_nat n))). apply Qmult_lt_compat_r; auto. }
  assert (F2 : (0 <= inject_Z v * inject_Z (Z.of_nat n) / inject_Z m)%Q).
  { apply Qle_shift_div_l; [exact Pm|]. rewrite Qmult_0_l. apply Qmult_le_0_compat; lra. }
  pose proof (Qfloor_le (inject_Z v * inject_Z (Z.of_nat n) / inject_Z m)) as F3.
  assert (F4 : (inject_Z (Qfloor (inject_Z v * inject_Z (Z.of_nat n) / inject_Z m)) < inject_Z (Z.of_nat n))%Q) by lra.
  rewrite <- Zlt_Qlt in F4.
  lia.
Qed.

Lemma sweeps_finish : forall sides cell_size n allow_periodic drain,
  Forall (fun s => 0 < s)%Q sides -> sides <> [] -> 0 < n -> (forall r l, Permutation (drain r l) l) ->
  exists world, (forall r, construct sides cell_size (slab_rank sides n) allow_periodic (drain r) r = Some (world r))
  /\ forall dirs batch source lev sweeps resp chemup,
     let G := sweep_config world n dirs batch source lev sweeps resp chemup in
     forall i o p x sched, Sweep_Live2.fair G sched ->
     exists S0 len S, Sweep_Model.init G i o p x = Some S0
       /\ Sweep_Model.exec G S0 (map sched (seq 0 len)) = Some S /\ Sweep_Model.finished G S.
Proof.
  intros sides cell_size n allow_periodic drain Hs Hne Hn Hd.
  set (world := fun r => match construct sides cell_size (slab_rank sides n) allow_periodic (drain r) r with
                         | Some l => l | None => [] end).
  assert (W : forall r, construct sides cell_size (slab_rank sides n) allow_periodic (drain r) r = Some (world r)).
  { intro r. unfold world. destruct (constructs sides cell_size (slab_rank sides n) allow_periodic drain Hd r) as (l & ->). reflexivity. }
  exists world. split; [exact W|]. intros dirs batch source lev sweeps resp chemup G i o p x sched Hf.
  destruct (final_sweep sides cell_size (slab_rank sides n) allow_periodic drain Hs Hd world W n
              (fun x Hx => slab_ok sides cell_size n x Hs Hne Hn Hx) dirs batch source lev sweeps resp chemup) as (C & A & _).
  fold G in C, A.
  destruct (Sweep_Safety.never_panics G C i o p x []) as (S0 & S1 & I0 & _).
  destruct (Sweep_Leave.fair_terminates G C A i o p x S0 sched 0) as (len & S & E & F); auto.
  - exists S0, []. split; [exact I0|reflexivity].
  - exists S0, len, S. auto.
Qed.
