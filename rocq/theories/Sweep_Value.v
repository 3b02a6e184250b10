(** Without periodic faces the rates and chemical states computed are those of
    the specification, whatever the schedule. *)
From Coq Require Import List Arith Bool Lia Permutation QArith Qcanon.
From Verif Require Import Sweep_Model Sweep_Spec Sweep_Util Sweep_Local Sweep_Inv Sweep_Count
  Sweep_Steps Sweep_Steps2 Sweep_Steps3 Sweep_Safety.
Import ListNotations.
Local Open Scope nat_scope.

(** ** Sums of rationals *)
Lemma Qcsum_map_ext : forall A (f g : A -> Qc) l, (forall a, In a l -> f a = g a) ->
  Qcsum (map f l) = Qcsum (map g l).
Proof.
  induction l as [|a l IH]; intros H; [reflexivity|].
  cbn [map]. rewrite !Qcsum_cons, IH, (H a) by (intros; try apply H; cbn; auto). reflexivity.
Qed.
Lemma Qcsum_map_add : forall A (f g : A -> Qc) l,
  Qcsum (map (fun a => f a + g a)%Qc l) = (Qcsum (map f l) + Qcsum (map g l))%Qc.
Proof. induction l as [|a l IH]; [reflexivity|]. cbn [map]. rewrite !Qcsum_cons, IH. ring. Qed.
Lemma Qcsum_map_zero : forall A (f : A -> Qc) l, (forall a, In a l -> f a = 0%Qc) -> Qcsum (map f l) = 0%Qc.
Proof.
  induction l as [|a l IH]; intros H; [reflexivity|].
  cbn [map]. rewrite Qcsum_cons, (H a), IH by (intros; try apply H; cbn; auto). ring.
Qed.
Lemma Qcsum_swap : forall A B (f : A -> B -> Qc) la lb,
  Qcsum (map (fun a => Qcsum (map (f a) lb)) la) =
  Qcsum (map (fun b => Qcsum (map (fun a => f a b) la)) lb).
Proof.
  induction la as [|a la IH]; intros lb.
  - cbn. symmetry. apply Qcsum_map_zero. reflexivity.
  - cbn [map]. rewrite Qcsum_cons, IH, <- Qcsum_map_add.
    apply Qcsum_map_ext. intros. cbn [map]. rewrite Qcsum_cons. reflexivity.
Qed.
Lemma Qcsum_filter : forall A (p : A -> bool) (f : A -> Qc) l,
  Qcsum (map f (filter p l)) = Qcsum (map (fun a => if p a then f a else 0%Qc) l).
Proof.
  induction l as [|a l IH]; [reflexivity|].
  cbn [filter map]. rewrite Qcsum_cons, <- IH. destruct (p a); cbn [map]; [rewrite Qcsum_cons|]; ring.
Qed.
Lemma Qcsum_single : forall A (f : A -> Qc) a l, NoDup l -> In a l ->
  (forall b, In b l -> b <> a -> f b = 0%Qc) -> Qcsum (map f l) = f a.
Proof.
  induction l as [|b l IH]; [intros _ []|].
  intros Hnd Hin Hz. cbn [map]. rewrite Qcsum_cons. inversion Hnd; subst.
  destruct Hin as [->|Hin].
  - rewrite (Qcsum_map_zero _ f l); [ring|].
    intros c Hc. apply Hz; [right; auto|]. intros ->. auto.
  - rewrite (Hz b); [|left; auto|intros ->; auto]. rewrite IH; auto; [ring|].
    intros c Hc. apply Hz. right; auto.
Qed.
Lemma Qcsum_change : forall A (f g : A -> Qc) a k l, NoDup l -> In a l ->
  f a = (g a + k)%Qc -> (forall b, In b l -> b <> a -> f b = g b) ->
  Qcsum (map f l) = (Qcsum (map g l) + k)%Qc.
Proof.
  induction l as [|b l IH]; [intros _ []|].
  intros Hnd Hin Ha Hb. inversion Hnd; subst. cbn [map]. rewrite !Qcsum_cons.
  destruct Hin as [->|Hin].
  - rewrite (Qcsum_map_ext _ f g l); [rewrite Ha; ring|]. intros c Hc. apply Hb; [right; auto|]. intros ->; auto.
  - rewrite (Hb b); [|left; auto|intros ->; auto].
    rewrite IH; auto; [ring|]. intros; apply Hb; auto. right; auto.
Qed.
Lemma Qcsum_map_perm : forall A (f : A -> Qc) l1 l2, Permutation l1 l2 ->
  Qcsum (map f l1) = Qcsum (map f l2).
Proof. intros. apply Qcsum_perm, Permutation_map. auto. Qed.
Lemma Qcsum_by_rank : forall (f : pid -> Qc) n l, (forall c, In c l -> rank_of c < n) ->
  Qcsum (map f l) =
  Qcsum (map (fun x => Qcsum (map f (filter (fun c => rank_of c =? x) l))) (seq 0 n)).
Proof.
  intros f n l H.
  rewrite (Qcsum_map_ext _ (fun x => Qcsum (map f (filter (fun c => rank_of c =? x) l)))
     (fun x => Qcsum (map (fun c => if rank_of c =? x then f c else 0%Qc) l)))
    by (intros; apply Qcsum_filter).
  rewrite Qcsum_swap. apply Qcsum_map_ext. intros c Hc.
  rewrite (Qcsum_single _ (fun x => if rank_of c =? x then f c else 0%Qc) (rank_of c)).
  - rewrite Nat.eqb_refl. reflexivity.
  - apply seq_NoDup.
  - apply in_seq. specialize (H c Hc). lia.
  - intros b _ Hb. destruct (Nat.eqb_spec (rank_of c) b); congruence.
Qed.
Lemma Qcsum_list_prod : forall A B (f : A * B -> Qc) la lb,
  Qcsum (map f (list_prod la lb)) =
  Qcsum (map (fun a => Qcsum (map (fun b => f (a, b)) lb)) la).
Proof.
  induction la as [|a la IH]; intros lb; [reflexivity|].
  cbn [list_prod map]. rewrite map_app, Qcsum_app, IH, Qcsum_cons, map_map. reflexivity.
Qed.
Lemma summ_flat_map : forall A c d (g : A -> list msg) l,
  summ c d (flat_map g l) = Qcsum (map (fun a => summ c d (g a)) l).
Proof.
  induction l as [|a l IH]; [reflexivity|]. cbn [flat_map map]. rewrite summ_app, IH, Qcsum_cons. reflexivity.
Qed.
Lemma summ_nil : forall c d, summ c d [] = 0%Qc.
Proof. reflexivity. Qed.

Section Value.
  Variable G : config.
  Hypothesis HG : consistent G.
  Hypothesis HNP : non_periodic G.
  Variable P : pid -> nat -> Qc.
  Variables I O : nat -> pid -> nat -> Qc.
  Variable X : nat -> pid -> list Qc.
  Hypothesis HS : solution G P I O X.

  Notation inv := (inv G).
  Notation tasks := (tasks G).
  Notation unsolved := (unsolved G).

  (** The correction a cell sends out in a sweep. *)
  Definition kk (e : nat) (c : pid) (d : nat) : Qc := (O (S e) c d - O e c d)%Qc.

  Definition total (e : nat) (c : pid) (d : nat) : Qc :=
    match nth_error (sweeps G) e with
    | Some cur => received G cur (O e) (O (S e)) c d
    | None => 0%Qc
    end.

  Definition pendsum (S : state) (r e : nat) (c : pid) (d : nat) : Qc :=
    (summ c d (owedL G kk (log (rs S r)) r e) +
     Qcsum (map (fun x => summ c d (owed G kk (log (rs S x)) x r e) +
                          summ c d (ofep e (flight S x r)))%Qc (others G r)))%Qc.

  Record vinv (S : state) : Prop := {
    v_out : forall c d, In c (cells G) -> d < ndirs G ->
        out (rs S (rank_of c)) c d =
        if solvedb (log (rs S (rank_of c))) (ep (rs S (rank_of c))) (c, d)
        then O (Datatypes.S (ep (rs S (rank_of c)))) c d else O (ep (rs S (rank_of c))) c d;
    v_inc : forall c d, In c (cells G) -> d < ndirs G ->
        if solvedb (log (rs S (rank_of c))) (ep (rs S (rank_of c))) (c, d)
        then inc (rs S (rank_of c)) c d = I (Datatypes.S (ep (rs S (rank_of c)))) c d
        else (inc (rs S (rank_of c)) c d + pendsum S (rank_of c) (ep (rs S (rank_of c))) c d =
              I (ep (rs S (rank_of c))) c d + total (ep (rs S (rank_of c))) c d)%Qc;
    v_per : forall c d, In c (cells G) -> d < ndirs G -> per (rs S (rank_of c)) c d = P c d;
    v_chem : forall c, In c (cells G) -> chem (rs S (rank_of c)) c = X (ep (rs S (rank_of c))) c;
    v_np : forall x y m, x < nranks G -> y < nranks G -> x <> y -> In m (flight S x y) -> m_periodic m = false;
    v_future : forall x y e, x < nranks G -> y < nranks G -> x <> y -> ep (rs S y) < e ->
        Permutation (owed G kk (log (rs S x)) x y e ++ ofep e (flight S x y)) (expected G kk x y e)
  }.

  (** ** The messages of the specification *)
  Lemma summ_lmsgs : forall p c e cur d d' corr, nth_error (sweeps G) e = Some cur ->
    In p (cells G) -> rank_of p = rank_of c ->
    summ c d (lmsgs e d' corr (total_eff_area (faces G p) d') (faces G p)) =
    if d' =? d then
      Qcsum (map (fun f => if downwind f d && reaches G cur c f then (corr * share G p f d)%Qc else 0%Qc) (faces G p))
    else 0%Qc.
  Proof.
    intros p c e cur d d' corr He Hp Hr. unfold lmsgs. rewrite summ_flat_map.
    assert (Hf : forall f, In f (faces G p) ->
      summ c d (lmsg1 e d' corr (total_eff_area (faces G p) d') f) =
      if (d' =? d) then (if downwind f d && reaches G cur c f then (corr * share G p f d)%Qc else 0%Qc) else 0%Qc).
    { intros f Hf. unfold lmsg1, reaches. destruct (Nat.eqb_spec d' d) as [->|Hd].
      - destruct (downwind f d); [|reflexivity]. cbn [andb].
        destruct (f_nb f) as [q|q| |q|q] eqn:E; try reflexivity.
        + rewrite summ_cons, summ_nil. unfold isfor. cbn [m_id m_dir m_periodic m_rate negb].
          rewrite Nat.eqb_refl, !andb_true_r. destruct (pid_eqb q c); [|ring]. unfold share, eff_area, total_eff_area, eff_area. ring.
        + destruct (c_remote _ HG p f q Hp Hf (or_introl E)) as (_ & Hne & _).
          destruct (pid_eqb_spec q c); [subst; congruence|reflexivity].
        + rewrite summ_cons, summ_nil. unfold isfor. cbn [m_id m_dir m_periodic m_rate negb].
          rewrite !andb_false_r. ring.
      - apply Nat.eqb_neq in Hd. destruct (downwind f d'); [|reflexivity].
        destruct (f_nb f); try reflexivity; rewrite summ_cons, summ_nil; unfold isfor;
          cbn [m_id m_dir m_periodic m_rate negb]; rewrite Hd, !andb_false_r; cbn [andb]; ring. }
    rewrite (Qcsum_map_ext _ _ _ _ Hf). destruct (d' =? d); [reflexivity|].
    apply Qcsum_map_zero. reflexivity.
  Qed.

  Lemma summ_omsgs : forall p c e cur d d' corr, nth_error (sweeps G) e = Some cur ->
    In p (cells G) -> rank_of p <> rank_of c ->
    summ c d (omsgs G e d' corr (total_eff_area (faces G p) d') (faces G p) (rank_of c)) =
    if d' =? d then
      Qcsum (map (fun f => if downwind f d && reaches G cur c f then (corr * share G p f d)%Qc else 0%Qc) (faces G p))
    else 0%Qc.
  Proof.
    intros p c e cur d d' corr He Hp Hr. unfold omsgs. rewrite summ_flat_map.
    assert (Hact : forall q, act G e q = (cur <=? lev G q)) by (intros; unfold act; rewrite He; reflexivity).
    assert (Hf : forall f, In f (faces G p) ->
      summ c d (omsg1 G e d' corr (total_eff_area (faces G p) d') (rank_of c) f) =
      if (d' =? d) then (if downwind f d && reaches G cur c f then (corr * share G p f d)%Qc else 0%Qc) else 0%Qc).
    { intros f Hf. unfold omsg1, reaches. destruct (Nat.eqb_spec d' d) as [->|Hd].
      - destruct (downwind f d); [|reflexivity]. cbn [andb].
        destruct (f_nb f) as [q|q| |q|q] eqn:E; try reflexivity.
        + destruct (c_local _ HG p f q Hp Hf (or_introl E)) as (_ & Hne).
          destruct (pid_eqb_spec q c); [subst; congruence|reflexivity].
        + destruct (pid_eqb_spec q c) as [->|Hq]; cbn [andb].
          * rewrite Nat.eqb_refl, andb_true_r, Hact. destruct (cur <=? lev G c); [|reflexivity].
            rewrite summ_cons, summ_nil. unfold isfor. cbn [m_id m_dir m_periodic m_rate negb].
            rewrite Nat.eqb_refl, pid_eqb_refl. cbn [andb]. unfold share, eff_area, total_eff_area, eff_area. ring.
          * destruct (act G e q && (rank_of q =? rank_of c)); [|reflexivity].
            rewrite summ_cons, summ_nil. unfold isfor. cbn [m_id m_dir m_periodic m_rate negb].
            destruct (pid_eqb_spec q c); [contradiction|]. cbn [andb]. ring.
        + destruct (act G e q && (rank_of q =? rank_of c)); [|reflexivity].
          rewrite summ_cons, summ_nil. unfold isfor. cbn [m_id m_dir m_periodic m_rate negb].
          rewrite !andb_false_r. ring.
      - apply Nat.eqb_neq in Hd. destruct (downwind f d'); [|reflexivity].
        destruct (f_nb f); try reflexivity; destruct (act G e p0 && (rank_of p0 =? rank_of c));
          try reflexivity; rewrite summ_cons, summ_nil; unfold isfor;
          cbn [m_id m_dir m_periodic m_rate negb]; rewrite Hd, !andb_false_r; cbn [andb]; ring. }
    rewrite (Qcsum_map_ext _ _ _ _ Hf). destruct (d' =? d); [reflexivity|].
    apply Qcsum_map_zero. reflexivity.
  Qed.

  Lemma total_spec : forall c d e, In c (cells G) -> d < ndirs G ->
    (summ c d (flat_map (lm G kk e) (tasks (rank_of c) e)) +
     Qcsum (map (fun x => summ c d (expected G kk x (rank_of c) e)) (others G (rank_of c))))%Qc =
    total e c d.
  Proof.
    intros c d e Hc Hd. unfold total. destruct (nth_error (sweeps G) e) as [cur|] eqn:He.
    2:{ apply nth_error_None in He. unfold expected. rewrite (tasks_beyond G (rank_of c) e He). cbn [flat_map].
        rewrite summ_nil, (Qcsum_map_zero _ _ (others G (rank_of c))); [ring|].
        intros x _. rewrite (tasks_beyond G x e He). reflexivity. }
    set (H := fun p => if act G e p then
       Qcsum (map (fun f => if downwind f d && reaches G cur c f then (kk e p d * share G p f d)%Qc else 0%Qc) (faces G p)) else 0%Qc).
    assert (HX : forall x (g : pid * nat -> list msg),
      (forall p d', In p (cells G) -> rank_of p = x -> d' < ndirs G ->
         summ c d (g (p, d')) = if d' =? d then
           Qcsum (map (fun f => if downwind f d && reaches G cur c f then (kk e p d' * share G p f d)%Qc else 0%Qc) (faces G p)) else 0%Qc) ->
      summ c d (flat_map g (tasks x e)) = Qcsum (map H (own_cells G x))).
    { intros x g Hg. rewrite summ_flat_map. unfold Sweep_Inv.tasks. rewrite Qcsum_list_prod.
      rewrite Qcsum_filter. apply Qcsum_map_ext. intros p Hp.
      apply in_own_cells in Hp. destruct Hp as [Hp Hr]. unfold H.
      destruct (act G e p); [|reflexivity].
      rewrite (Qcsum_single _ _ d).
      - rewrite Hg by auto. rewrite Nat.eqb_refl. reflexivity.
      - apply seq_NoDup.
      - apply in_seq. lia.
      - intros b Hb Hne. apply in_seq in Hb. rewrite Hg by (auto; lia). apply Nat.eqb_neq in Hne. rewrite Hne. reflexivity. }
    rewrite (HX (rank_of c)) by (intros; apply (summ_lmsgs p c e cur); auto).
    rewrite (Qcsum_map_ext _ _ (fun x => Qcsum (map H (own_cells G x)))).
    2:{ intros x Hx. apply in_others in Hx. unfold expected. apply HX.
        intros p d' Hp Hr Hd'. apply (summ_omsgs p c e cur); auto. lia. }
    rewrite <- Qcsum_cons.
    change (Qcsum (map H (own_cells G (rank_of c))) :: map (fun x => Qcsum (map H (own_cells G x))) (others G (rank_of c)))
      with (map (fun x => Qcsum (map H (own_cells G x))) (rank_of c :: others G (rank_of c))).
    rewrite <- (Qcsum_map_perm _ _ _ _ (seq_others G (rank_of c) (c_rank _ HG c Hc))).
    unfold own_cells. rewrite <- (Qcsum_by_rank _ _ _ (c_rank _ HG)).
    unfold received. apply Qcsum_map_ext. intros p _. unfold H, act. rewrite He. reflexivity.
  Qed.

  (** ** Nothing missing means nothing outstanding *)
  Lemma map_strip_om : forall e y t, map strip (om G kk e y t) = om G k0 e y t.
  Proof. intros. unfold om. rewrite omsgs_strip. reflexivity. Qed.
  Lemma map_strip_lm : forall e t, map strip (lm G kk e t) = lm G k0 e t.
  Proof. intros. unfold lm. rewrite lmsgs_strip. reflexivity. Qed.

  Lemma cntm_owed : forall c d lg x y e, cntm c d (owed G kk lg x y e) = cntm c d (owed G k0 lg x y e).
  Proof.
    intros. unfold owed, cntm. rewrite !countb_flat_map. apply list_sum_map_ext. intros t _.
    rewrite <- map_strip_om. symmetry. apply cntm_strip.
  Qed.
  Lemma cntm_owedL : forall c d lg r e, cntm c d (owedL G kk lg r e) = cntm c d (owedL G k0 lg r e).
  Proof.
    intros. unfold owedL, cntm. rewrite !countb_flat_map. apply list_sum_map_ext. intros t _.
    rewrite <- map_strip_lm. symmetry. apply cntm_strip.
  Qed.

  Lemma pendsum_zero : forall S r e c d, missing_sum G S r e c d = 0 -> pendsum S r e c d = 0%Qc.
  Proof.
    intros S r e c d H. unfold missing_sum in H. unfold pendsum.
    rewrite (summ_nocount c d (owedL G kk (log (rs S r)) r e)) by (rewrite cntm_owedL; lia).
    rewrite Qcsum_map_zero; [ring|]. intros x Hx.
    assert (Hs : list_sum (map (fun x => cntm c d (owed G k0 (log (rs S x)) x r e) +
       cntm c d (ofep e (flight S x r))) (others G r)) = 0) by lia.
    rewrite list_sum_map_zero in Hs. specialize (Hs x Hx).
    rewrite !summ_nocount; [ring|lia|]. rewrite cntm_owed. lia.
  Qed.

  Lemma lmsgs_nonperiodic : forall c e d corr tot m, In c (cells G) ->
    In m (lmsgs e d corr tot (faces G c)) -> m_periodic m = false.
  Proof.
    intros c e d corr tot m Hc Hm. unfold lmsgs in Hm. apply in_flat_map in Hm. destruct Hm as (f & Hf & Hm).
    pose proof (HNP c f Hc Hf) as Hp. unfold lmsg1 in Hm.
    destruct (downwind f d); [|destruct Hm]. destruct (f_nb f); try contradiction; destruct Hm as [<-|[]]; reflexivity.
  Qed.

  Lemma omsgs_nonperiodic : forall c e d corr tot y m, In c (cells G) ->
    In m (omsgs G e d corr tot (faces G c) y) -> m_periodic m = false.
  Proof.
    intros c e d corr tot y m Hc Hm. unfold omsgs in Hm. apply in_flat_map in Hm. destruct Hm as (f & Hf & Hm).
    pose proof (HNP c f Hc Hf) as Hp. unfold omsg1 in Hm.
    destruct (downwind f d); [|destruct Hm]. destruct (f_nb f); try contradiction; try (destruct Hm; fail).
    destruct (act G e p && (rank_of p =? y)); [|destruct Hm]. destruct Hm as [<-|[]]; reflexivity.
  Qed.

  (** ** Steps *)
  Lemma vinv_frame : forall S S',
    vinv S ->
    (forall r, r < nranks G -> inc (rs S' r) = inc (rs S r) /\ out (rs S' r) = out (rs S r) /\
       per (rs S' r) = per (rs S r) /\ chem (rs S' r) = chem (rs S r) /\
       ep (rs S' r) = ep (rs S r) /\ log (rs S' r) = log (rs S r)) ->
    (forall x y, x < nranks G -> y < nranks G -> x <> y -> flight S' x y = flight S x y) ->
    vinv S'.
  Proof.
    intros S S' V H HF.
    assert (Hp : forall r e c d, r < nranks G -> pendsum S' r e c d = pendsum S r e c d).
    { intros r e c d Hr. unfold pendsum. destruct (H r Hr) as (_ & _ & _ & _ & _ & El). rewrite El. f_equal.
      apply Qcsum_map_ext. intros x Hx. apply in_others in Hx. destruct Hx as [Hx Hne].
      destruct (H x Hx) as (_ & _ & _ & _ & _ & Elx). rewrite Elx, HF; auto. }
    constructor.
    - intros c d Hc Hd. pose proof (c_rank _ HG c Hc) as Hr. pose proof (v_out _ V c d Hc Hd) as Hv.
      destruct (H _ Hr) as (E1 & E2 & E3 & E4 & E5 & E6). rewrite E2, E5, E6. exact Hv.
    - intros c d Hc Hd. pose proof (c_rank _ HG c Hc) as Hr. pose proof (v_inc _ V c d Hc Hd) as Hv.
      destruct (H _ Hr) as (E1 & E2 & E3 & E4 & E5 & E6). rewrite Hp, E1, E5, E6; auto.
    - intros c d Hc Hd. pose proof (c_rank _ HG c Hc) as Hr. pose proof (v_per _ V c d Hc Hd) as Hv.
      destruct (H _ Hr) as (E1 & E2 & E3 & E4 & E5 & E6). rewrite E3. exact Hv.
    - intros c Hc. pose proof (c_rank _ HG c Hc) as Hr. pose proof (v_chem _ V c Hc) as Hv.
      destruct (H _ Hr) as (E1 & E2 & E3 & E4 & E5 & E6). rewrite E4, E5. exact Hv.
    - intros x y m Hx Hy Hxy. rewrite HF by auto. apply (v_np _ V); auto.
    - intros x y e Hx Hy Hxy. destruct (H x Hx) as (_ & _ & _ & _ & _ & E6).
      destruct (H y Hy) as (_ & _ & _ & _ & E5 & _). rewrite E5, E6, HF by auto. apply (v_future _ V); auto.
  Qed.

  Lemma vinv_set_pc : forall S r p, vinv S -> vinv (set_rs S r (set_pc (rs S r) p)).
  Proof.
    intros S r p V. apply (vinv_frame S); auto; cbn [set_rs rs].
    - intros x _. unfold upd. destruct (Nat.eqb_spec x r) as [->|]; cbn; repeat split.
    - intros x y _ _ _. unfold flight, stream. cbn [set_rs mail net rs]. unfold upd.
      destruct (Nat.eqb_spec x r) as [->|]; reflexivity.
  Qed.

  Lemma vinv_deliver : forall S x y b rest, vinv S -> net S x y = b :: rest ->
    vinv (mkS (rs S) (upd2 (net S) x y rest) (upd2 (mail S) x y (mail S x y ++ [b]))).
  Proof.
    intros S x y b rest V Hn. apply (vinv_frame S); auto; cbn [rs].
    - intros; repeat split.
    - intros x' y' _ _ _. unfold flight, stream. cbn [mail net rs]. rewrite !upd2_eq.
      destruct (Nat.eqb_spec x' x), (Nat.eqb_spec y' y); cbn [andb]; auto. subst.
      rewrite Hn, <- app_assoc. reflexivity.
  Qed.

  Lemma vinv_complete : forall S x y, vinv S ->
    vinv (set_rs S x (set_comm (rs S x) (tosend (rs S x)) (buf (rs S x)) (upd (req (rs S x)) y RDone))).
  Proof.
    intros S x y V. apply (vinv_frame S); auto; cbn [set_rs rs].
    - intros z _. unfold upd. destruct (Nat.eqb_spec z x) as [->|]; cbn; repeat split.
    - intros z y' _ _ _. unfold flight, stream. cbn [set_rs mail net rs]. unfold upd.
      destruct (Nat.eqb_spec z x) as [->|]; reflexivity.
  Qed.

  Lemma vinv_send : forall S r, inv S -> vinv S -> r < nranks G -> pc (rs S r) = PSend ->
    vinv (mkS (upd (rs S) r (set_pc (try_send_all G r (rs S r)) PHead))
           (fun x y => if x =? r then net S x y ++ sent_batches G r (rs S r) y else net S x y)
           (mail S)).
  Proof.
    intros S r J V Hr Hpc. apply (vinv_frame S); auto; cbn [rs].
    - intros z _. unfold upd. destruct (Nat.eqb_spec z r) as [->|]; cbn; repeat split.
    - intros x y Hx Hy Hxy. unfold flight, stream. cbn [mail net rs]. unfold upd.
      destruct (Nat.eqb_spec x r) as [->|]; [|reflexivity].
      assert (Ho : In y (others G r)) by (apply in_others; auto).
      unfold sent_batches, try_send_all. cbn. rewrite (proj2 (is_remote_spec G r y) Ho).
      destruct (send_one_spec (tosend (rs S r) y) (buf (rs S r) y) (req (rs S r) y)) as [(b' & q' & E & _)|(_ & E)].
      + apply (r_req _ _ _ (i_rank _ _ J r Hr)); auto.
      + rewrite E. cbn. rewrite app_nil_r. reflexivity.
      + rewrite E. cbn. rewrite app_assoc, concat_app. cbn. rewrite !app_nil_r. reflexivity.
  Qed.

  Lemma flight_other : forall S S' x y, rs S' x = rs S x -> stream S' x y = stream S x y ->
    flight S' x y = flight S x y.
  Proof. intros S S' x y H1 H2. unfold flight. rewrite H1, H2. reflexivity. Qed.

  Lemma vinv_receive : forall S r x l b rest cur s', inv S -> vinv S -> r < nranks G ->
    pc (rs S r) = PRecv (x :: l) -> 0 < torecv (rs S r) x ->
    mail S x r = b :: rest -> nth_error (sweeps G) (ep (rs S r)) = Some cur ->
    rel G cur b (set_torecv (rs S r) (upd (torecv (rs S r)) x (torecv (rs S r) x - length b))) s' ->
    tosend s' = tosend (rs S r) ->
    (forall p d, cur <= lev G p -> cntm p d b <= miss (rs S r) p d) ->
    vinv (mkS (upd (rs S) r (set_pc s' (PRecv l))) (net S) (upd2 (mail S) x r rest)).
  Proof.
    intros S r x l b rest cur s' J V Hr Hpc Htr Hmail He Rl Ets Hcn.
    pose proof (i_rank _ _ J r Hr) as R.
    assert (Hxo : In x (others G r)) by (apply (r_recv _ _ _ R (x :: l) Hpc); left; auto).
    assert (Hx := Hxo). apply in_others in Hx. destruct Hx as [Hx Hxr].
    assert (Hst : stream S x r = b :: (rest ++ net S x r)) by (unfold stream; rewrite Hmail; reflexivity).
    pose proof (head_batch_epoch G S x r b _ J Hx Hr Hxr Htr Hst) as Hbe.
    set (S' := mkS _ _ _).
    assert (Hne : forall z, z <> r -> rs S' z = rs S z) by (intros; unfold S'; cbn; apply upd_other; auto).
    assert (Hlog : forall z, log (rs S' z) = log (rs S z)).
    { intros z. destruct (Nat.eq_dec z r) as [->|]; [|rewrite Hne; auto].
      unfold S'; cbn. rewrite upd_same. cbn. apply (rel_log _ _ _ _ _ Rl). }
    assert (Hep : forall z, ep (rs S' z) = ep (rs S z)).
    { intros z. destruct (Nat.eq_dec z r) as [->|]; [|rewrite Hne; auto].
      unfold S'; cbn. rewrite upd_same. cbn. apply (rel_ep _ _ _ _ _ Rl). }
    assert (Htsd : forall z, tosend (rs S' z) = tosend (rs S z)).
    { intros z. destruct (Nat.eq_dec z r) as [->|]; [|rewrite Hne; auto].
      unfold S'; cbn. rewrite upd_same. cbn. exact Ets. }
    assert (HFo : forall a c, ~ (a = x /\ c = r) -> flight S' a c = flight S a c).
    { intros a c Hac. unfold flight, stream. rewrite Htsd. unfold S'; cbn [mail net]. rewrite upd2_eq.
      destruct (Nat.eqb_spec a x), (Nat.eqb_spec c r); cbn [andb]; auto. tauto. }
    assert (HF : flight S x r = b ++ flight S' x r).
    { unfold flight. rewrite Htsd, Hst. unfold S', stream; cbn [mail net]. rewrite upd2_eq, !Nat.eqb_refl.
      cbn [andb concat]. rewrite <- app_assoc. reflexivity. }
    assert (Hp : forall c d, pendsum S r (ep (rs S r)) c d = (pendsum S' r (ep (rs S r)) c d + summ c d b)%Qc).
    { intros c d. unfold pendsum. rewrite Hlog.
      rewrite (Qcsum_change _ (fun z => summ c d (owed G kk (log (rs S z)) z r (ep (rs S r))) +
          summ c d (ofep (ep (rs S r)) (flight S z r)))%Qc
         (fun z => summ c d (owed G kk (log (rs S' z)) z r (ep (rs S r))) +
          summ c d (ofep (ep (rs S r)) (flight S' z r)))%Qc x (summ c d b)); auto.
      - ring.
      - apply others_nodup.
      - rewrite Hlog, HF, ofep_app, (ofep_all _ b) by auto. rewrite summ_app. ring.
      - intros z _ Hz. rewrite Hlog, HFo by tauto. reflexivity. }
    assert (Hpo : forall y c d, y <> r -> pendsum S' y (ep (rs S y)) c d = pendsum S y (ep (rs S y)) c d).
    { intros y c d Hy. unfold pendsum. rewrite Hlog. f_equal. apply Qcsum_map_ext. intros z _.
      rewrite Hlog, HFo by tauto. reflexivity. }
    assert (Hnp : forall m, In m b -> m_periodic m = false).
    { intros m Hm. apply (v_np _ V x r); auto. rewrite HF. apply in_or_app; auto. }
    assert (Hr' : forall c, inc (rs S' r) c = inc s' c /\ out (rs S' r) = out s' /\ per (rs S' r) = per s' /\ chem (rs S' r) = chem s').
    { intros c. unfold S'; cbn. rewrite upd_same. cbn. auto. }
    constructor.
    - intros c d Hc Hd. rewrite Hlog, Hep. rewrite <- (v_out _ V c d Hc Hd).
      destruct (Nat.eq_dec (rank_of c) r) as [E|E]; [|rewrite Hne; auto]. rewrite E.
      destruct (Hr' c) as (_ & -> & _). rewrite (rel_out _ _ _ _ _ Rl). reflexivity.
    - intros c d Hc Hd. rewrite Hlog, Hep. pose proof (v_inc _ V c d Hc Hd) as Hv.
      destruct (Nat.eq_dec (rank_of c) r) as [E|E]; [|rewrite Hne, Hpo; auto]. rewrite E in *.
      destruct (Hr' c) as (-> & _). rewrite (rel_inc _ _ _ _ _ Rl). cbn [inc set_torecv].
      destruct (solvedb (log (rs S r)) (ep (rs S r)) (c, d)) eqn:Es.
      + rewrite Hv, summ_nocount; [ring|].
        apply solvedb_spec in Es. pose proof (r_solved0 _ _ _ R (c, d) Es) as M. cbn [fst snd] in M.
        apply (r_log_in _ _ _ R _ (c, d)) in Es. destruct Es as [Es _]. apply in_tasks in Es.
        destruct Es as (_ & _ & Ea & _). cbn in Ea. unfold act in Ea. rewrite He in Ea. apply Nat.leb_le in Ea.
        specialize (Hcn c d Ea). lia.
      + rewrite <- Hv, Hp. ring.
    - intros c d Hc Hd. rewrite <- (v_per _ V c d Hc Hd).
      destruct (Nat.eq_dec (rank_of c) r) as [E|E]; [|rewrite Hne; auto]. rewrite E.
      destruct (Hr' c) as (_ & _ & -> & _). rewrite (rel_per _ _ _ _ _ Rl); auto.
    - intros c Hc. rewrite Hep. rewrite <- (v_chem _ V c Hc).
      destruct (Nat.eq_dec (rank_of c) r) as [E|E]; [|rewrite Hne; auto]. rewrite E.
      destruct (Hr' c) as (_ & _ & _ & ->). rewrite (rel_chem _ _ _ _ _ Rl); auto.
    - intros a y m Ha Hy Hay Hm. apply (v_np _ V a y m); auto.
      destruct (Nat.eq_dec a x) as [E1|E1]; [destruct (Nat.eq_dec y r) as [E2|E2]|].
      + subst a y. rewrite HF. apply in_or_app; auto.
      + rewrite <- HFo; auto. tauto.
      + rewrite <- HFo; auto. tauto.
    - intros a y e Ha Hy Hay. rewrite Hep, Hlog. intros Hlt.
      rewrite <- (v_future _ V a y e) by auto.
      destruct (Nat.eq_dec a x) as [E1|E1]; [destruct (Nat.eq_dec y r) as [E2|E2]|]; try (rewrite HFo by tauto; reflexivity).
      subst a y. rewrite HF, ofep_app, (ofep_none e b); [reflexivity|]. intros m Hm. rewrite (Hbe m Hm). lia.
  Qed.
End Value.
