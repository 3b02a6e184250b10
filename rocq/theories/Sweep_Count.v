(** Double counting: what [init_counts] computes from the faces of a rank's own
    cells is what the upwind cells will produce. *)
From Coq Require Import List Arith Bool Lia Permutation QArith Qcanon.
From Verif Require Import Sweep_Model Sweep_Spec Sweep_Util Sweep_Local Sweep_Inv.
Import ListNotations.
Local Open Scope nat_scope.

Definition tgtD (f : face) : option pid :=
  match f_nb f with Local q | Remote q => Some q | _ => None end.
Definition tgtP (f : face) : option pid :=
  match f_nb f with RemotePeriodic q => Some q | _ => None end.
Definition hits (tgt : face -> option pid) (p : pid) (f : face) : bool :=
  match tgt f with Some q => pid_eqb q p | None => false end.
Definition tgt_ok (tgt : face -> option pid) (B : pid -> bool) (f : face) : bool :=
  match tgt f with Some q => B q | None => false end.

Lemma hits_D : forall p f, hits tgtD p f = face_to p f.
Proof. intros. unfold hits, tgtD, face_to. destruct (f_nb f); reflexivity. Qed.
Lemma hits_P : forall p f, hits tgtP p f = face_toP p f.
Proof. intros. unfold hits, tgtP, face_toP. destruct (f_nb f); reflexivity. Qed.

Lemma count_by_target : forall tgt (P : face -> bool) (B : pid -> bool) L fs,
  NoDup L ->
  (forall f q, In f fs -> P f = true -> tgt f = Some q -> B q = true -> In q L) ->
  countb (fun f => P f && tgt_ok tgt B f) fs =
  list_sum (map (fun p => if B p then countb (fun f => P f && hits tgt p f) fs else 0) L).
Proof.
  intros tgt P B L fs Hnd HL.
  rewrite (countb_classify _ _ _ (fun f p => hits tgt p f) L).
  - apply list_sum_map_ext. intros p Hp. destruct (B p) eqn:Bp.
    + apply countb_ext. intros f Hf. unfold tgt_ok, hits. destruct (tgt f) as [q|]; cbn.
      * destruct (pid_eqb_spec q p); [subst; rewrite Bp|]; rewrite ?andb_true_r, ?andb_false_r; reflexivity.
      * rewrite !andb_false_r. reflexivity.
    + apply countb_zero. intros f Hf. unfold tgt_ok, hits. destruct (tgt f) as [q|]; cbn.
      * destruct (pid_eqb_spec q p); [subst; rewrite Bp|]; rewrite ?andb_false_r; reflexivity.
      * rewrite !andb_false_r. reflexivity.
  - intros f Hf H. apply andb_true_iff in H. destruct H as [H1 H2].
    unfold tgt_ok in H2. unfold hits. destruct (tgt f) as [q|] eqn:E; [|discriminate].
    rewrite (list_sum_single _ _ q); [rewrite pid_eqb_refl; reflexivity|auto|apply (HL f); auto|].
    intros b _ Hb. destruct (pid_eqb_spec q b); congruence.
Qed.

Lemma sum_by_rank : forall (f : pid -> nat) n l, (forall c, In c l -> rank_of c < n) ->
  list_sum (map f l) =
  list_sum (map (fun x => list_sum (map f (filter (fun c => rank_of c =? x) l))) (seq 0 n)).
Proof.
  intros f n l H.
  rewrite (list_sum_map_ext _ _ (fun x => list_sum (map (fun c => if rank_of c =? x then f c else 0) l)))
    by (intros; apply list_sum_filter).
  rewrite list_sum_swap. apply list_sum_map_ext. intros c Hc.
  rewrite (list_sum_single _ (fun x => if rank_of c =? x then f c else 0) (rank_of c)).
  - rewrite Nat.eqb_refl. reflexivity.
  - apply seq_NoDup.
  - apply in_seq. specialize (H c Hc). lia.
  - intros b _ Hb. destruct (Nat.eqb_spec (rank_of c) b); congruence.
Qed.

Lemma seq_others : forall G r, r < nranks G -> Permutation (seq 0 (nranks G)) (r :: others G r).
Proof.
  intros G r H. unfold others.
  rewrite <- (filter_remove_one _ (fun _ => true) (fun s => negb (s =? r)) r).
  - induction (seq 0 (nranks G)) as [|a l IH]; cbn; auto.
  - apply seq_NoDup.
  - apply in_seq. lia.
  - reflexivity.
  - rewrite Nat.eqb_refl. reflexivity.
  - intros b _ Hb. destruct (Nat.eqb_spec b r); [contradiction|reflexivity].
Qed.

Lemma sum_list_prod : forall A B (f : A * B -> nat) la lb,
  list_sum (map f (list_prod la lb)) =
  list_sum (map (fun a => list_sum (map (fun b => f (a, b)) lb)) la).
Proof.
  induction la as [|a la IH]; intros lb; [reflexivity|].
  cbn [list_prod map]. rewrite map_app, list_sum_app, IH, list_sum_cons, map_map. reflexivity.
Qed.

Section Count.
  Variable G : config.
  Hypothesis HG : consistent G.

  Lemma nb_active_local : forall r c p e cur, nth_error (sweeps G) e = Some cur ->
    In c (cells G) -> rank_of c = r -> In p (cells G) -> rank_of p = r ->
    nb_active G r cur p = Some (act G e p).
  Proof.
    intros r c p e cur He _ _ Hp Hr. unfold nb_active, get_level, act.
    rewrite (proj2 (Nat.eqb_eq _ _) Hr), (proj2 (own_spec _ _ _)), He by auto. reflexivity.
  Qed.

  Lemma nb_active_face : forall c f p e cur, nth_error (sweeps G) e = Some cur ->
    In c (cells G) -> In f (faces G c) -> nb_id (f_nb f) = Some p ->
    nb_active G (rank_of c) cur p = Some (act G e p) /\ In p (cells G).
  Proof.
    intros c f p e cur He Hc Hf Hp.
    assert (HL : f_nb f = Local p \/ f_nb f = LocalPeriodic p ->
                 nb_active G (rank_of c) cur p = Some (act G e p) /\ In p (cells G)).
    { intros X. destruct (c_local _ HG c f p Hc Hf X) as [Hin Hr]. split; auto.
      apply (nb_active_local _ c); auto. }
    assert (HR : f_nb f = Remote p \/ f_nb f = RemotePeriodic p ->
                 nb_active G (rank_of c) cur p = Some (act G e p) /\ In p (cells G)).
    { intros X. destruct (c_remote _ HG c f p Hc Hf X) as (Hin & Hr & Hh). split; auto.
      unfold nb_active, get_level, act. apply Nat.eqb_neq in Hr. rewrite Hr, Hh, He. reflexivity. }
    unfold nb_id in Hp. destruct (f_nb f); try discriminate; injection Hp as ->; auto.
  Qed.

  Lemma dep_spec : forall c f e cur d, nth_error (sweeps G) e = Some cur ->
    In c (cells G) -> In f (faces G c) ->
    dep G (rank_of c) cur d f =
      upwind f d && match nb_id (f_nb f) with Some p => act G e p | None => false end.
  Proof.
    intros c f e cur d He Hc Hf. unfold dep, dep_active.
    destruct (upwind f d); [|reflexivity]. cbn [andb].
    destruct (nb_id (f_nb f)) as [p|] eqn:E; [|reflexivity].
    rewrite (proj1 (nb_active_face c f p e cur He Hc Hf E)). reflexivity.
  Qed.

  Lemma init_faces_ok : forall r e cur, nth_error (sweeps G) e = Some cur ->
    forallb (fun c => forallb (fun d => forallb (init_face_ok G r cur d) (faces G c))
                        (seq 0 (ndirs G))) (active_cells G r cur) = true.
  Proof.
    intros r e cur He. apply forallb_forall. intros c Hc. apply forallb_forall. intros d _.
    apply forallb_forall. intros f Hf.
    unfold active_cells in Hc. apply filter_In in Hc. destruct Hc as [Hc _].
    apply in_own_cells in Hc. destruct Hc as [Hc Hr]. subst r.
    unfold init_face_ok, dep_active. destruct (upwind f d); [|reflexivity].
    destruct (nb_id (f_nb f)) as [p|] eqn:E; [|reflexivity].
    destruct (nb_active_face c f p e cur He Hc Hf E) as [Ha Hp]. rewrite Ha.
    destruct (act G e p); [|reflexivity].
    unfold nb_id in E. destruct (f_nb f) eqn:En; try reflexivity; injection E as ->;
      (destruct (c_remote _ HG c f p Hc Hf) as (_ & Hne & _); [auto|]);
      apply is_remote_spec, in_others; split; auto; apply (c_rank _ HG); auto.
  Qed.

  (** Messages of one cell and direction for a given cell. *)
  Definition ND (p c : pid) (d : nat) : nat :=
    countb (fun f => downwind f d && face_to c f) (faces G p).

  Lemma cntm_lmsgs : forall p c e d d' corr total, In p (cells G) -> rank_of p = rank_of c ->
    cntm c d (lmsgs e d' corr total (faces G p)) = if d' =? d then ND p c d else 0.
  Proof.
    intros p c e d d' corr total Hp Hr. unfold lmsgs, cntm. rewrite countb_flat_map.
    assert (Hf : forall f, In f (faces G p) ->
      countb (isfor c d) (lmsg1 e d' corr total f) =
      if (d' =? d) && (downwind f d && face_to c f) then 1 else 0).
    { intros f Hf. unfold lmsg1, face_to. destruct (Nat.eqb_spec d' d) as [->|Hd].
      - destruct (downwind f d); [|reflexivity]. cbn [andb].
        destruct (f_nb f) as [q|q| |q|q] eqn:E; try reflexivity.
        + rewrite countb_cons, countb_nil. unfold isfor. cbn. rewrite Nat.eqb_refl.
          destruct (pid_eqb q c); reflexivity.
        + destruct (c_remote _ HG p f q Hp Hf (or_introl E)) as (_ & Hne & _).
          destruct (pid_eqb_spec q c); [subst; congruence|reflexivity].
        + rewrite countb_cons, countb_nil. unfold isfor. cbn. rewrite !andb_false_r. reflexivity.
      - cbn [andb]. destruct (downwind f d'); [|reflexivity].
        destruct (f_nb f); try reflexivity; rewrite countb_cons, countb_nil; unfold isfor; cbn;
          apply Nat.eqb_neq in Hd; rewrite Hd, ?andb_false_r; reflexivity. }
    rewrite (list_sum_map_ext _ _ _ _ Hf). unfold ND. clear Hf.
    induction (faces G p) as [|f fs IH]; cbn [map].
    - destruct (d' =? d); reflexivity.
    - rewrite list_sum_cons, IH, countb_cons. destruct (d' =? d); cbn [andb]; lia.
  Qed.

  Lemma cntm_omsgs : forall p c e d d' corr total, In p (cells G) -> rank_of p <> rank_of c ->
    act G e c = true ->
    cntm c d (omsgs G e d' corr total (faces G p) (rank_of c)) = if d' =? d then ND p c d else 0.
  Proof.
    intros p c e d d' corr total Hp Hr Ha. unfold omsgs, cntm. rewrite countb_flat_map.
    assert (Hf : forall f, In f (faces G p) ->
      countb (isfor c d) (omsg1 G e d' corr total (rank_of c) f) =
      if (d' =? d) && (downwind f d && face_to c f) then 1 else 0).
    { intros f Hf. unfold omsg1, face_to. destruct (Nat.eqb_spec d' d) as [->|Hd].
      - destruct (downwind f d); [|reflexivity]. cbn [andb].
        destruct (f_nb f) as [q|q| |q|q] eqn:E; try reflexivity.
        + destruct (c_local _ HG p f q Hp Hf (or_introl E)) as (_ & Hne).
          destruct (pid_eqb_spec q c); [subst; congruence|reflexivity].
        + destruct (pid_eqb_spec q c) as [->|Hq].
          * rewrite Ha, Nat.eqb_refl. cbn [andb]. rewrite countb_cons, countb_nil. unfold isfor. cbn.
            rewrite pid_eqb_refl, Nat.eqb_refl. reflexivity.
          * destruct (act G e q && (rank_of q =? rank_of c)); [|reflexivity].
            rewrite countb_cons, countb_nil. unfold isfor. cbn.
            destruct (pid_eqb_spec q c); [contradiction|reflexivity].
        + destruct (act G e q && (rank_of q =? rank_of c)); [|reflexivity].
          rewrite countb_cons, countb_nil. unfold isfor. cbn. rewrite !andb_false_r. reflexivity.
      - cbn [andb]. apply Nat.eqb_neq in Hd. destruct (downwind f d'); [|reflexivity].
        destruct (f_nb f); try reflexivity; destruct (act G e p0 && (rank_of p0 =? rank_of c));
          try reflexivity; rewrite countb_cons, countb_nil; unfold isfor; cbn;
          rewrite Hd, ?andb_false_r; reflexivity. }
    rewrite (list_sum_map_ext _ _ _ _ Hf). unfold ND. clear Hf.
    induction (faces G p) as [|f fs IH]; cbn [map].
    - destruct (d' =? d); reflexivity.
    - rewrite list_sum_cons, IH, countb_cons. destruct (d' =? d); cbn [andb]; lia.
  Qed.

  Lemma sum_dirs : forall d n, d < ndirs G ->
    list_sum (map (fun d' => if d' =? d then n else 0) (seq 0 (ndirs G))) = n.
  Proof.
    intros d n Hd. rewrite (list_sum_single _ _ d).
    - rewrite Nat.eqb_refl. reflexivity.
    - apply seq_NoDup.
    - apply in_seq. lia.
    - intros b _ Hb. apply Nat.eqb_neq in Hb. rewrite Hb. reflexivity.
  Qed.

  Lemma missing_init_spec : forall c d e cur, nth_error (sweeps G) e = Some cur ->
    In c (cells G) -> d < ndirs G -> act G e c = true ->
    missing_init G (rank_of c) cur c d =
    cntm c d (flat_map (lm G k0 e) (tasks G (rank_of c) e)) +
    list_sum (map (fun x => cntm c d (expected G k0 x (rank_of c) e)) (others G (rank_of c))).
  Proof.
    intros c d e cur He Hc Hd Ha.
    assert (HX : forall x (g : pid * nat -> list msg),
      (forall p d', In p (cells G) -> rank_of p = x -> d' < ndirs G ->
         cntm c d (g (p, d')) = if d' =? d then ND p c d else 0) ->
      cntm c d (flat_map g (tasks G x e)) =
      list_sum (map (fun p => if act G e p then ND p c d else 0) (own_cells G x))).
    { intros x g Hg. unfold cntm. rewrite countb_flat_map. unfold tasks. rewrite sum_list_prod.
      rewrite list_sum_filter. apply list_sum_map_ext. intros p Hp.
      apply in_own_cells in Hp. destruct Hp as [Hp Hr].
      destruct (act G e p); [|reflexivity].
      rewrite (list_sum_map_ext _ _ (fun d' => if d' =? d then ND p c d else 0)).
      - apply sum_dirs. auto.
      - intros d' Hd'. apply in_seq in Hd'. apply Hg; auto; lia. }
    rewrite (HX (rank_of c)) by (intros; apply cntm_lmsgs; auto).
    rewrite (list_sum_map_ext _ _ (fun x => list_sum (map (fun p => if act G e p then ND p c d else 0) (own_cells G x)))).
    2:{ intros x Hx. apply in_others in Hx. unfold expected. apply HX.
        intros p d' Hp Hr Hd'. apply cntm_omsgs; auto. lia. }
    rewrite <- list_sum_cons.
    change (list_sum (map (fun p => if act G e p then ND p c d else 0) (own_cells G (rank_of c))) ::
      map (fun x => list_sum (map (fun p => if act G e p then ND p c d else 0) (own_cells G x))) (others G (rank_of c)))
      with (map (fun x => list_sum (map (fun p => if act G e p then ND p c d else 0) (own_cells G x))) (rank_of c :: others G (rank_of c))).
    rewrite <- (list_sum_perm _ _ _ _ (seq_others G (rank_of c) (c_rank _ HG c Hc))).
    unfold own_cells. rewrite <- (sum_by_rank _ _ _ (c_rank _ HG)).
    (* the faces of [c] *)
    unfold missing_init.
    rewrite (countb_ext _ _ (fun f => upwind f d && tgt_ok tgtD (act G e) f)).
    2:{ intros f Hf. rewrite (dep_spec c f e cur d He Hc Hf). unfold tgt_ok, tgtD, nb_id.
        destruct (upwind f d); [|reflexivity]. destruct (f_nb f); cbn; rewrite ?andb_true_r, ?andb_false_r; reflexivity. }
    rewrite (count_by_target tgtD _ _ (cells G)).
    - apply list_sum_map_ext. intros p Hp. destruct (act G e p); [|reflexivity].
      rewrite (countb_ext _ _ (fun f => upwind f d && face_to p f)) by (intros; rewrite hits_D; reflexivity).
      apply (c_sym _ HG); auto.
    - apply (c_nodup _ HG).
    - intros f q Hf _ Hq _. unfold tgtD in Hq.
      destruct (f_nb f) eqn:E; try discriminate; injection Hq as ->.
      + apply (c_local _ HG c f q); auto.
      + apply (c_remote _ HG c f q); auto.
  Qed.

  Lemma length_omsgs : forall p e d corr total y, In p (cells G) -> y <> rank_of p ->
    length (omsgs G e d corr total (faces G p) y) =
    list_sum (map (fun c => if act G e c then ND p c d + countb (fun f => downwind f d && face_toP c f) (faces G p) else 0)
      (own_cells G y)).
  Proof.
    intros p e d corr total y Hp Hy. unfold omsgs. rewrite length_flat_map.
    rewrite (list_sum_map_ext _ _ (fun f => (if downwind f d && tgt_ok tgtD (fun q => act G e q && (rank_of q =? y)) f then 1 else 0)
       + (if downwind f d && tgt_ok tgtP (fun q => act G e q && (rank_of q =? y)) f then 1 else 0))).
    2:{ intros f Hf. unfold omsg1, tgt_ok, tgtD, tgtP. destruct (downwind f d); [|reflexivity]. cbn [andb].
        destruct (f_nb f) as [q|q| |q|q] eqn:E; try reflexivity.
        - destruct (c_local _ HG p f q Hp Hf (or_introl E)) as [_ Hr].
          destruct (Nat.eqb_spec (rank_of q) y); [congruence|]. rewrite andb_false_r. reflexivity.
        - destruct (act G e q && (rank_of q =? y)); reflexivity.
        - destruct (act G e q && (rank_of q =? y)); reflexivity. }
    rewrite list_sum_map_add.
    assert (HC : forall P : face -> bool, list_sum (map (fun f => if P f then 1 else 0) (faces G p)) = countb P (faces G p)).
    { intros P. induction (faces G p) as [|f fs IH]; [reflexivity|]. cbn [map]. rewrite list_sum_cons, countb_cons, IH. reflexivity. }
    rewrite !HC.
    assert (HL : forall tgt, (forall f q, In f (faces G p) -> tgt f = Some q -> In q (cells G)) ->
      countb (fun f => downwind f d && tgt_ok tgt (fun q => act G e q && (rank_of q =? y)) f) (faces G p) =
      list_sum (map (fun c => if act G e c then countb (fun f => downwind f d && hits tgt c f) (faces G p) else 0) (own_cells G y))).
    { intros tgt Ht. rewrite (count_by_target tgt _ _ (own_cells G y)).
      - apply list_sum_map_ext. intros c Hc. apply in_own_cells in Hc. destruct Hc as [_ ->].
        rewrite Nat.eqb_refl, andb_true_r. reflexivity.
      - apply own_cells_nodup, (c_nodup _ HG).
      - intros f q Hf _ Hq Hb. apply andb_true_iff in Hb. destruct Hb as [_ Hb]. apply Nat.eqb_eq in Hb.
        apply in_own_cells. split; auto. apply (Ht f); auto. }
    rewrite !HL.
    - rewrite <- list_sum_map_add. apply list_sum_map_ext. intros c Hc. destruct (act G e c); [|reflexivity].
      unfold ND. f_equal; apply countb_ext; intros; rewrite ?hits_D, ?hits_P; reflexivity.
    - intros f q Hf Hq. unfold tgtP in Hq. destruct (f_nb f) eqn:E; try discriminate. injection Hq as ->.
      apply (c_remote _ HG p f q); auto.
    - intros f q Hf Hq. unfold tgtD in Hq. destruct (f_nb f) eqn:E; try discriminate; injection Hq as ->.
      + apply (c_local _ HG p f q); auto.
      + apply (c_remote _ HG p f q); auto.
  Qed.

  Lemma torecv_init_spec : forall r x e cur, nth_error (sweeps G) e = Some cur -> x <> r ->
    torecv_init G r cur x = length (expected G k0 x r e).
  Proof.
    intros r x e cur He Hx. unfold expected. rewrite length_flat_map. unfold tasks. rewrite sum_list_prod.
    unfold torecv_init, active_cells.
    assert (Hact : forall c, act G e c = (cur <=? lev G c)) by (intros; unfold act; rewrite He; reflexivity).
    rewrite list_sum_filter.
    rewrite list_sum_filter.
    (* both sides as a triple sum *)
    transitivity (list_sum (map (fun c => list_sum (map (fun p => list_sum (map (fun d =>
      if act G e c && act G e p then ND p c d + countb (fun f => downwind f d && face_toP c f) (faces G p) else 0)
      (seq 0 (ndirs G)))) (own_cells G x))) (own_cells G r))).
    - apply list_sum_map_ext. intros c Hc. apply in_own_cells in Hc. destruct Hc as [Hc Hr].
      rewrite <- Hact. destruct (act G e c) eqn:Ac.
      2:{ symmetry. apply list_sum_map_zero. intros. apply list_sum_map_zero. reflexivity. }
      rewrite list_sum_swap. apply list_sum_map_ext. intros d Hd. apply in_seq in Hd.
      unfold torecv_cell.
      rewrite (countb_ext _ _ (fun f => upwind f d && (tgt_ok tgtD (fun q => act G e q && (rank_of q =? x)) f
                  || tgt_ok tgtP (fun q => act G e q && (rank_of q =? x)) f))).
      2:{ intros f Hf. subst r. rewrite (dep_spec c f e cur d He Hc Hf). unfold tgt_ok, tgtD, tgtP, nb_id.
          destruct (upwind f d); [|reflexivity]. cbn [andb].
          destruct (f_nb f) as [q|q| |q|q] eqn:E; rewrite ?andb_true_r, ?andb_false_r, ?orb_false_r; try reflexivity.
          destruct (c_local _ HG c f q Hc Hf (or_introl E)) as [_ Hr].
          destruct (Nat.eqb_spec (rank_of q) x); [congruence|]. rewrite andb_false_r. reflexivity. }
      assert (HO : forall (P Q R : face -> bool) l, (forall f, In f l -> Q f = true -> R f = false) ->
        countb (fun f => P f && (Q f || R f)) l = countb (fun f => P f && Q f) l + countb (fun f => P f && R f) l).
      { clear. induction l as [|f l IH]; intros H; [reflexivity|]. rewrite !countb_cons, IH by (intros; apply H; auto; right; auto).
        specialize (H f (or_introl eq_refl)). destruct (P f), (Q f); cbn; try lia. rewrite H by reflexivity. lia. }
      rewrite HO.
      2:{ intros f _. unfold tgt_ok, tgtD, tgtP. destruct (f_nb f); intros; try reflexivity; discriminate. }
      assert (HL : forall tgt, (forall f q, In f (faces G c) -> tgt f = Some q -> In q (cells G)) ->
        countb (fun f => upwind f d && tgt_ok tgt (fun q => act G e q && (rank_of q =? x)) f) (faces G c) =
        list_sum (map (fun p => if act G e p then countb (fun f => upwind f d && hits tgt p f) (faces G c) else 0) (own_cells G x))).
      { intros tgt Ht. rewrite (count_by_target tgt _ _ (own_cells G x)).
        - apply list_sum_map_ext. intros p Hp. apply in_own_cells in Hp. destruct Hp as [_ ->].
          rewrite Nat.eqb_refl, andb_true_r. reflexivity.
        - apply own_cells_nodup, (c_nodup _ HG).
        - intros f q Hf _ Hq Hb. apply andb_true_iff in Hb. destruct Hb as [_ Hb]. apply Nat.eqb_eq in Hb.
          apply in_own_cells. split; auto. apply (Ht f); auto. }
      rewrite !HL.
      + rewrite <- list_sum_map_add. apply list_sum_map_ext. intros p Hp. apply in_own_cells in Hp. destruct Hp as [Hp _].
        cbn [andb]. destruct (act G e p); [|reflexivity]. f_equal.
        * rewrite (countb_ext _ _ (fun f => upwind f d && face_to p f)) by (intros; rewrite hits_D; reflexivity).
          apply (c_sym _ HG); auto; lia.
        * rewrite (countb_ext _ _ (fun f => upwind f d && face_toP p f)) by (intros; rewrite hits_P; reflexivity).
          apply (c_symP _ HG); auto; lia.
      + intros f q Hf Hq. unfold tgtP in Hq. destruct (f_nb f) eqn:E; try discriminate. injection Hq as ->.
        apply (c_remote _ HG c f q); auto.
      + intros f q Hf Hq. unfold tgtD in Hq. destruct (f_nb f) eqn:E; try discriminate; injection Hq as ->.
        * apply (c_local _ HG c f q); auto.
        * apply (c_remote _ HG c f q); auto.
    - rewrite list_sum_swap. apply list_sum_map_ext. intros p Hp. apply in_own_cells in Hp. destruct Hp as [Hp Hr].
      destruct (act G e p) eqn:Ap.
      2:{ apply list_sum_map_zero. intros. apply list_sum_map_zero. intros. rewrite andb_false_r. reflexivity. }
      rewrite list_sum_swap. apply list_sum_map_ext. intros d Hd.
      unfold om. cbn [fst snd]. rewrite length_omsgs by (auto; congruence).
      apply list_sum_map_ext. intros c Hc. rewrite andb_true_r. reflexivity.
  Qed.
End Count.
