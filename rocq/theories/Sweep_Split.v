(** Effect of solving one task, for any state of the rank. *)
From Coq Require Import List Arith Bool Lia Permutation QArith Qcanon.
From Verif Require Import Sweep_Model Sweep_Spec Sweep_Util Sweep_Local Sweep_Steps2 Sweep_Value Sweep_More.
Import ListNotations.
Local Open Scope nat_scope.

Section Split.
  Variable G : config.

  Definition is_local (p : pid) (f : face) : bool :=
    match f_nb f with Local q => pid_eqb q p | _ => false end.
  Definition is_local_periodic (p : pid) (f : face) : bool :=
    match f_nb f with LocalPeriodic q => pid_eqb q p | _ => false end.
  Definition is_boundary (f : face) : bool := match f_nb f with Boundary => true | _ => false end.
  (** The neighbour is on another rank and known not to take part in the sweep. *)
  Definition is_skipped (r cur : nat) (f : face) : bool :=
    match f_nb f with
    | Remote q | RemotePeriodic q => match nb_active G r cur q with Some false => true | _ => false end
    | _ => false
    end.
  (** The message produced for a face, if it goes to rank [y]. *)
  Definition face_msg (r cur e d : nat) (rate : Qc) (y : nat) (f : face) : list msg :=
    let send q periodic :=
      match nb_active G r cur q with
      | Some true => if rank_of q =? y then [mkMsg q d rate periodic e] else []
      | _ => []
      end in
    match f_nb f with
    | Remote q => send q false
    | RemotePeriodic q => send q true
    | _ => []
    end.

  Definition over (p : face -> bool) (w : face -> Qc) (fs : list face) : Qc :=
    Qcsum (map (fun f => if p f then w f else 0%Qc) fs).

  Lemma over_nil : forall p w, over p w [] = 0%Qc.
  Proof. reflexivity. Qed.
  Lemma over_cons : forall p w f fs, over p w (f :: fs) = ((if p f then w f else 0) + over p w fs)%Qc.
  Proof. intros. unfold over. cbn [map]. apply Qcsum_cons. Qed.

  Lemma updc_at : forall A (f : pid -> nat -> A) c d v p q,
    updc f c d v p q = if pid_eqb p c && (q =? d) then v else f p q.
  Proof. reflexivity. Qed.

  Definition face_ok (r cur d : nat) (f : face) : Prop :=
    downwind f d = true ->
    match f_nb f with
    | Local p | LocalPeriodic p => own G r p = true
    | Remote p | RemotePeriodic p =>
        exists b, nb_active G r cur p = Some b /\ (b = true -> is_remote_rank G r (rank_of p) = true)
    | Boundary => True
    end.

  Record effect (r cur d : nat) (corr tot : Qc) (fs : list face) (s s' : rstate) : Prop := {
    ef_inc : forall p d', inc s' p d' =
      (inc s p d' + over (fun f => downwind f d && is_local p f && (d' =? d)) (fun f => corr * (eff_area f d / tot)) fs)%Qc;
    ef_per : forall p d', per s' p d' =
      (per s p d' + over (fun f => downwind f d && is_local_periodic p f && (d' =? d)) (fun f => corr * (eff_area f d / tot)) fs)%Qc;
    ef_tosend : forall y, tosend s' y = tosend s y ++
      flat_map (fun f => if downwind f d then face_msg r cur (ep s) d (corr * (eff_area f d / tot))%Qc y f else []) fs;
    ef_out : out s' = out s;
    ef_ep : ep s' = ep s;
    ef_ok : forall f, In f fs -> face_ok r cur d f
  }.

  Lemma effect_faces : forall r cur d corr tot fs s s', faces_loop G r cur d corr tot fs s = Some s' ->
    effect r cur d corr tot fs s s'.
  Proof.
    intros r cur d corr tot. induction fs as [|f fs IH]; intros s s' H; cbn [faces_loop] in H.
    - injection H as <-. constructor; auto.
      + intros. rewrite over_nil. ring.
      + intros. rewrite over_nil. ring.
      + intros. cbn. rewrite app_nil_r. reflexivity.
      + intros f [].
    - destruct (face_step G r cur d corr tot f s) as [s1|] eqn:E; [|discriminate].
      specialize (IH s1 s' H). destruct IH as [I1 I2 I3 I4 I5 I6].
      assert (E1 : effect r cur d corr tot [f] s s1).
      { unfold face_step in E. destruct (downwind f d) eqn:Ed.
        2:{ injection E as <-. constructor; intros; rewrite ?over_cons, ?over_nil, ?Ed; cbn [andb]; try ring; auto.
            - cbn. rewrite Ed. rewrite app_nil_r. reflexivity.
            - destruct H0 as [<-|[]]. intros X. congruence. }
        set (q := (corr * (eff_area f d / tot))%Qc) in *.
        assert (Hnl : forall (b : bool) x, (if b && false then x else 0%Qc) = 0%Qc) by (intros []; reflexivity).
        destruct (f_nb f) as [p|p| |p|p] eqn:En.
        - unfold handle_local_neighbour in E. destruct (own G r p) eqn:Eo; [|discriminate].
          assert (X : inc s1 = updc (inc s) p d (inc s p d + q)%Qc /\ per s1 = per s /\ tosend s1 = tosend s /\
                      out s1 = out s /\ ep s1 = ep s).
          { destruct (cur <=? lev G p).
            - cbn [miss set_inc] in E. destruct (miss s p d) as [|m]; [discriminate|]. injection E as <-.
              destruct (m =? 0); cbn; auto.
            - injection E as <-. cbn. auto. }
          destruct X as (X1 & X2 & X3 & X4 & X5). constructor; auto.
          + intros p' d'. rewrite X1, updc_at, over_cons, over_nil, Ed. cbn [andb]. unfold is_local. rewrite En.
            destruct (pid_eqb_spec p' p) as [->|N].
            * rewrite pid_eqb_refl. cbn [andb]. destruct (Nat.eqb_spec d' d) as [->|]; unfold q; ring.
            * destruct (pid_eqb_spec p p'); [congruence|]. cbn [andb]. ring.
          + intros p' d'. rewrite X2, over_cons, over_nil, Ed. unfold is_local_periodic. rewrite En. cbn [andb]. ring.
          + intros y. rewrite X3. cbn. rewrite Ed. unfold face_msg. rewrite En. cbn. rewrite app_nil_r. reflexivity.
          + intros f' [<-|[]] _. rewrite En. auto.
        - unfold handle_remote in E. destruct (nb_active G r cur p) as [[]|] eqn:Ea; [| |discriminate].
          + destruct (is_remote_rank G r (rank_of p)) eqn:Er; [|discriminate]. injection E as <-. constructor; auto.
            * intros p' d'. rewrite over_cons, over_nil, Ed. unfold is_local. rewrite En. cbn [andb]. cbn. ring.
            * intros p' d'. rewrite over_cons, over_nil, Ed. unfold is_local_periodic. rewrite En. cbn [andb]. cbn. ring.
            * intros y. cbn [tosend set_tosend flat_map]. rewrite Ed. unfold face_msg, upd. rewrite En, Ea, app_nil_r.
              rewrite (Nat.eqb_sym y). destruct (Nat.eqb_spec (rank_of p) y) as [->|]; [reflexivity|]. rewrite app_nil_r. reflexivity.
            * intros f' [<-|[]] _. rewrite En. eauto.
          + injection E as <-. constructor; auto.
            * intros p' d'. rewrite over_cons, over_nil, Ed. unfold is_local. rewrite En. cbn [andb]. ring.
            * intros p' d'. rewrite over_cons, over_nil, Ed. unfold is_local_periodic. rewrite En. cbn [andb]. ring.
            * intros y. cbn [flat_map]. rewrite Ed. unfold face_msg. rewrite En, Ea, !app_nil_r. reflexivity.
            * intros f' [<-|[]] _. rewrite En. exists false. split; [auto|discriminate].
        - injection E as <-. constructor; auto.
          + intros p' d'. rewrite over_cons, over_nil, Ed. unfold is_local. rewrite En. cbn [andb]. ring.
          + intros p' d'. rewrite over_cons, over_nil, Ed. unfold is_local_periodic. rewrite En. cbn [andb]. ring.
          + intros y. cbn [flat_map]. rewrite Ed. unfold face_msg. rewrite En, !app_nil_r. reflexivity.
          + intros f' [<-|[]] _. rewrite En. exact Logic.I.
        - unfold handle_local_periodic in E. destruct (own G r p) eqn:Eo; [|discriminate]. injection E as <-. constructor; auto.
          + intros p' d'. rewrite over_cons, over_nil, Ed. unfold is_local. rewrite En. cbn [andb]. cbn. ring.
          + intros p' d'. cbn [per set_per]. rewrite updc_at, over_cons, over_nil, Ed. cbn [andb]. unfold is_local_periodic. rewrite En.
            destruct (pid_eqb_spec p' p) as [->|N].
            * rewrite pid_eqb_refl. cbn [andb]. destruct (Nat.eqb_spec d' d) as [->|]; unfold q; ring.
            * destruct (pid_eqb_spec p p'); [congruence|]. cbn [andb]. ring.
          + intros y. cbn [flat_map]. rewrite Ed. unfold face_msg. rewrite En, !app_nil_r. reflexivity.
          + intros f' [<-|[]] _. rewrite En. auto.
        - unfold handle_remote in E. destruct (nb_active G r cur p) as [[]|] eqn:Ea; [| |discriminate].
          + destruct (is_remote_rank G r (rank_of p)) eqn:Er; [|discriminate]. injection E as <-. constructor; auto.
            * intros p' d'. rewrite over_cons, over_nil, Ed. unfold is_local. rewrite En. cbn [andb]. cbn. ring.
            * intros p' d'. rewrite over_cons, over_nil, Ed. unfold is_local_periodic. rewrite En. cbn [andb]. cbn. ring.
            * intros y. cbn [tosend set_tosend flat_map]. rewrite Ed. unfold face_msg, upd. rewrite En, Ea, app_nil_r.
              rewrite (Nat.eqb_sym y). destruct (Nat.eqb_spec (rank_of p) y) as [->|]; [reflexivity|]. rewrite app_nil_r. reflexivity.
            * intros f' [<-|[]] _. rewrite En. eauto.
          + injection E as <-. constructor; auto.
            * intros p' d'. rewrite over_cons, over_nil, Ed. unfold is_local. rewrite En. cbn [andb]. ring.
            * intros p' d'. rewrite over_cons, over_nil, Ed. unfold is_local_periodic. rewrite En. cbn [andb]. ring.
            * intros y. cbn [flat_map]. rewrite Ed. unfold face_msg. rewrite En, Ea, !app_nil_r. reflexivity.
            * intros f' [<-|[]] _. rewrite En. exists false. split; [auto|discriminate]. }
      destruct E1 as [J1 J2 J3 J4 J5 J6]. constructor.
      + intros. rewrite I1, J1, !over_cons, over_nil. ring.
      + intros. rewrite I2, J2, !over_cons, over_nil. ring.
      + intros y. rewrite I3, J3, J5. cbn [flat_map]. rewrite app_nil_r, <- app_assoc. reflexivity.
      + congruence.
      + congruence.
      + intros f' [<-|Hf']; [apply J6; left; auto|apply I6; auto].
  Qed.

  (** ** The theorem about one task *)
  Definition base (s : rstate) (c : pid) (d : nat) (p : pid) (d' : nat) : Qc :=
    if pid_eqb p c && (d' =? d) then Qcmax0 (inc s c d) else inc s p d'.

  Lemma over_ext : forall p q v w fs, (forall f, In f fs -> p f = q f) -> (forall f, In f fs -> q f = true -> v f = w f) ->
    over p v fs = over q w fs.
  Proof. intros p q v w fs H1 H2. apply Qcsum_map_ext. intros f Hf. rewrite H1 by auto. destruct (q f) eqn:E; auto. Qed.

  Lemma solve_task_effect : forall r cur c d s s', solve_task G r cur c d s = Some s' ->
    let corr := (out s' c d - out s c d)%Qc in
    (forall p d', (p, d') <> (c, d) -> out s' p d' = out s p d') /\
    (forall p d', inc s' p d' =
       (base s c d p d' + over (fun f => downwind f d && is_local p f && (d' =? d)) (fun f => corr * share G c f d) (faces G c))%Qc) /\
    (forall p d', per s' p d' =
       (per s p d' + over (fun f => downwind f d && is_local_periodic p f && (d' =? d)) (fun f => corr * share G c f d) (faces G c))%Qc) /\
    (forall y, tosend s' y = tosend s y ++
       flat_map (fun f => if downwind f d then face_msg r cur (ep s) d (corr * share G c f d)%Qc y f else []) (faces G c)) /\
    (forall f, In f (faces G c) -> face_ok r cur d f) /\ own G r c = true.
  Proof.
    intros r cur c d s s' H corr. unfold solve_task in H. destruct (own G r c) eqn:Eo; [|discriminate].
    cbv zeta in H. set (s1 := set_inc s _) in H. set (o := resp G c (chem s1 c) (get_rate G s1 c d)) in H.
    set (s2 := set_out s1 _) in H. destruct (cnt s2 d) as [|k]; [discriminate|].
    apply effect_faces in H. destruct H as [H1 H2 H3 H4 H5 H6].
    assert (Ec : corr = (o - out s1 c d)%Qc).
    { unfold corr. rewrite H4. cbn [out set_log set_cnt]. unfold s2. cbn [out set_out]. rewrite updc_at, pid_eqb_refl, Nat.eqb_refl. reflexivity. }
    split; [|split; [|split; [|split; [|split]]]]; auto.
    - intros p d' Hne. rewrite H4. unfold s2. cbn [out set_log set_cnt set_out]. rewrite updc_at.
      destruct (pid_eqb_spec p c) as [->|]; [|reflexivity]. destruct (Nat.eqb_spec d' d) as [->|]; [congruence|reflexivity].
    - intros p d'. rewrite H1, Ec. reflexivity.
    - intros p d'. rewrite H2, Ec. reflexivity.
    - intros y. rewrite H3, Ec. reflexivity.
  Qed.

  Lemma skipn_app_len : forall A (a b : list A), skipn (length a) (a ++ b) = b.
  Proof. induction a as [|x a IH]; intros b; [reflexivity|]. cbn. apply IH. Qed.

  (** Nothing is lost except what is not sent to neighbours on other ranks which do not
      take part. *)
  Lemma ledger : forall r cur c d s s', NoDup (cells G) -> solve_task G r cur c d s = Some s' ->
    (forall f, In f (faces G c) -> (0 < f_area f)%Qc) ->
    (exists f, In f (faces G c) /\ downwind f d = true) ->
    let corr := (out s' c d - out s c d)%Qc in
    (Qcsum (map (fun p => (inc s' p d - base s c d p d) + (per s' p d - per s p d))%Qc (own_cells G r)) +
     Qcsum (map (fun y => Qcsum (map m_rate (skipn (length (tosend s y)) (tosend s' y)))) (others G r)) +
     over (fun f => downwind f d && is_boundary f) (fun f => corr * share G c f d)%Qc (faces G c) +
     over (fun f => downwind f d && is_skipped r cur f) (fun f => corr * share G c f d)%Qc (faces G c))%Qc = corr.
  Proof.
    intros r cur c d s s' Hnd H Ha He corr.
    destruct (solve_task_effect _ _ _ _ _ _ H) as (_ & H2 & H3 & H4 & H5 & _). fold corr in H2, H3, H4.
    set (w := fun f => (corr * share G c f d)%Qc) in *.
    transitivity (Qcsum (map w (filter (fun f => downwind f d) (faces G c)))).
    2:{ exact (shares_sum G c d corr Ha He). }
    rewrite Qcsum_filter.
    rewrite (Qcsum_map_ext _ _ (fun p => Qcsum (map (fun f =>
       (if downwind f d && is_local p f then w f else 0) + (if downwind f d && is_local_periodic p f then w f else 0))%Qc (faces G c)))).
    2:{ intros p _. rewrite H2, H3. rewrite Qcsum_map_add. fold (over (fun f => downwind f d && is_local p f) w (faces G c)).
        fold (over (fun f => downwind f d && is_local_periodic p f) w (faces G c)).
        rewrite (over_ext (fun f => downwind f d && is_local p f && (d =? d)) (fun f => downwind f d && is_local p f) w w),
                (over_ext (fun f => downwind f d && is_local_periodic p f && (d =? d)) (fun f => downwind f d && is_local_periodic p f) w w);
          try (intros; rewrite Nat.eqb_refl, andb_true_r; auto); auto. ring. }
    rewrite (Qcsum_map_ext _ (fun y => Qcsum (map m_rate (skipn (length (tosend s y)) (tosend s' y))))
       (fun y => Qcsum (map (fun f => if downwind f d then msum (face_msg r cur (ep s) d (w f) y f) else 0%Qc) (faces G c)))).
    2:{ intros y _. rewrite H4, skipn_app_len. 
        etransitivity; [apply (msum_flat_map _ (fun f => if downwind f d then face_msg r cur (ep s) d (w f) y f else []))|].
        apply Qcsum_map_ext. intros f _. destruct (downwind f d); reflexivity. }
    rewrite Qcsum_swap, (Qcsum_swap _ _ _ (others G r)). unfold over. rewrite <- !Qcsum_map_add.
    apply Qcsum_map_ext. intros f Hf. specialize (H5 f Hf). unfold face_ok in H5.
    unfold is_local, is_local_periodic, is_boundary, is_skipped, face_msg.
    destruct (downwind f d) eqn:Ed; cbn [andb].
    2:{ rewrite !Qcsum_map_zero; [cbn; ring|reflexivity|intros; cbn; ring]. }
    specialize (H5 eq_refl).
    assert (Hown : forall q, own G r q = true -> Qcsum (map (fun p => if pid_eqb q p then w f else 0%Qc) (own_cells G r)) = w f).
    { intros q Hq. rewrite (Qcsum_single _ _ q).
      - rewrite pid_eqb_refl. reflexivity.
      - apply NoDup_filter; auto.
      - apply own_spec in Hq. apply in_own_cells. tauto.
      - intros p _ Hp. destruct (pid_eqb_spec q p); [congruence|reflexivity]. }
    assert (Hsend : forall q b, is_remote_rank G r (rank_of q) = true ->
      Qcsum (map (fun y => msum (if rank_of q =? y then [mkMsg q d (w f) b (ep s)] else [])) (others G r)) = w f).
    { intros q b Hq. rewrite (Qcsum_single _ _ (rank_of q)).
      - rewrite Nat.eqb_refl. unfold msum. cbn. ring.
      - apply others_nodup.
      - apply is_remote_spec; auto.
      - intros y _ Hy. destruct (Nat.eqb_spec (rank_of q) y); [congruence|reflexivity]. }
    assert (Hz1 : forall (l : list pid), Qcsum (map (fun _ => 0 + 0)%Qc l) = 0%Qc) by (intros; apply Qcsum_map_zero; intros; ring).
    assert (Hz2 : forall (l : list nat), Qcsum (map (fun _ => msum []) l) = 0%Qc) by (intros; apply Qcsum_map_zero; reflexivity).
    destruct (f_nb f) as [q|q| |q|q].
    - rewrite Hz2. rewrite (Qcsum_map_ext _ _ (fun p => if pid_eqb q p then w f else 0%Qc)) by (intros; ring).
      rewrite Hown by auto. ring.
    - destruct H5 as (b & Eb & Hb). rewrite Eb, Hz1. destruct b; [rewrite Hsend by auto|rewrite Hz2]; ring.
    - rewrite Hz1, Hz2. ring.
    - rewrite Hz2. rewrite (Qcsum_map_ext _ _ (fun p => if pid_eqb q p then w f else 0%Qc)) by (intros; ring).
      rewrite Hown by auto. ring.
    - destruct H5 as (b & Eb & Hb). rewrite Eb, Hz1. destruct b; [rewrite Hsend by auto|rewrite Hz2]; ring.
  Qed.
End Split.
