(** Carrying out a replacement of tetras with [insert_tetra] and assignments of connections. *)
From Coq Require Import List Arith Lia Bool Permutation.
From Verif Require Import Delaunay_Model Delaunay_Spec DelaunayBuild_Proofs DelaunaySurgery_Proofs.
Import ListNotations.

Fixpoint insert_all (s : triangulation) (ts : list tetra) : option triangulation :=
  match ts with
  | [] => Some s
  | t :: r => do (_, s) <- insert_tetra s t; insert_all s r
  end.
Fixpoint set_all (s : triangulation) (l : list event) : option triangulation :=
  match l with
  | [] => Some s
  | (i, f, c) :: r => do s <- set_opposing s i f c; set_all s r
  end.

Lemma set_opposing_meta s i f c s' : set_opposing s i f c = Some s' ->
  next_tetra s' = next_tetra s /\ next_face s' = next_face s /\ faces s' = faces s /\
  num_points s' = num_points s /\ last_insertion s' = last_insertion s.
Proof.
  unfold set_opposing. destruct (arena_get _ _) as [t|]; cbn; [|discriminate].
  destruct (set_in t f c); cbn; [|discriminate]. intros [= <-]. cbn. auto.
Qed.
Lemma update_connections_meta n : forall t s s', update_connections s n t = Some s' ->
  next_tetra s' = next_tetra s /\ next_face s' = next_face s /\ faces s' = faces s /\
  num_points s' = num_points s /\ last_insertion s' = last_insertion s.
Proof.
  induction t as [|[p fi] t IH]; cbn; intros s s' H; [injection H as <-; auto|].
  destruct (opposing fi) as [o|]; [|now apply IH].
  destruct (set_opposing s (conn_tetra o) (face fi) (Conn n p)) as [s1|] eqn:E; cbn in H; [|discriminate].
  apply set_opposing_meta in E. apply IH in H.
  destruct E as [? [? [? [? ?]]]], H as [? [? [? [? ?]]]]. repeat split; congruence.
Qed.
Lemma insert_tetra_id s t i s' : insert_tetra s t = Some (i, s') ->
  i = next_tetra s /\ next_tetra s' = S (next_tetra s) /\ next_face s' = next_face s /\ faces s' = faces s.
Proof.
  unfold insert_tetra. destruct (guard _); cbn; [|discriminate].
  destruct (update_connections _ _ _) as [s1|] eqn:E; cbn; [|discriminate]. intros [= <- <-].
  apply update_connections_meta in E. cbn in E. tauto.
Qed.

Lemma links_in n t e : In e (links n t) <->
  exists q fi o, In (q, fi) t /\ opposing fi = Some o /\ e = (conn_tetra o, face fi, Conn n q).
Proof.
  unfold links. rewrite in_flat_map. split.
  - intros [[q fi] [H K]]. cbn in K. destruct (opposing fi) as [o|] eqn:E; [|contradiction].
    destruct K as [<-|[]]. exists q, fi, o. auto.
  - intros [q [fi [o [H [K ->]]]]]. exists (q, fi). split; [exact H|]. cbn. rewrite K. now left.
Qed.

Section Plan.
  Variable d : nat.
  Variable face_ok : list nat -> nat -> list nat -> bool -> Prop.
  Hypothesis face_ok_perm : forall pts q ps b, face_ok pts q ps b -> Permutation (q :: ps) pts.

  Variables (s base : triangulation) (R G : list nat) (F : arena (list nat)) (N : arena tetra).
  Variable L : list event.
  Variable OB : list (nat * nat * nat * nat * face_info).
  Variable PR : list (nat * (nat * nat) * (nat * nat)).
  Notation inR := (inR s R).
  Notation inN := (inN N).

  Record plan : Prop := {
    pl_base_tetras : tetras base = filter (fun e => negb (existsb (Nat.eqb (fst e)) R)) (tetras s);
    pl_base_faces : faces base = filter (fun e => negb (existsb (Nat.eqb (fst e)) G)) (faces s) ++ F;
    pl_R : exists r u, In r R /\ In (r, u) (tetras s);
    pl_base_next : next_tetra base = next_tetra s;
    pl_base_next_face : next_face base = next_face s + length F;
    pl_base_points : num_points s <= num_points base;
    pl_ids : map fst N = seq (next_tetra s) (length N);
    pl_F_ids : map fst F = seq (next_face s) (length F);
    pl_OB : forall r q n q' fi, In (r, q, n, q', fi) OB -> inR r q fi /\ inN n q' fi /\ ~ In (face fi) G;
    pl_OB_nodup : NoDup (map (fun e => face (snd e)) OB);
    pl_OB_N : forall n q' fi, inN n q' fi -> face fi < next_face s -> exists r q, In (r, q, n, q', fi) OB;
    pl_OB_R : forall r q fi, inR r q fi -> ~ In (face fi) G -> exists n q', In (r, q, n, q', fi) OB;
    pl_G : forall i t q fi, In (i, t) (tetras s) -> In (q, fi) t -> In (face fi) G -> In i R;
    pl_PR_nodup : NoDup (map (fun e => fst (fst e)) PR);
    pl_PR : forall f n q n' q', In (f, (n, q), (n', q')) PR -> next_face s <= f /\ n <> n' /\
      (exists fi fi', inN n q fi /\ face fi = f /\ inN n' q' fi' /\ face fi' = f /\ flipped fi' = negb (flipped fi)) /\
      In (n, f, Conn n' q') L /\ In (n', f, Conn n q) L;
    pl_PR_N : forall n q fi, inN n q fi -> next_face s <= face fi -> opposing fi = None /\
      exists n' q', In (face fi, (n, q), (n', q')) PR \/ In (face fi, (n', q'), (n, q)) PR;
    pl_L_PR : forall i f c, In (i, f, c) L -> exists n q n' q', In (f, (n, q), (n', q')) PR /\
      (i = n /\ c = Conn n' q' \/ i = n' /\ c = Conn n q);
    pl_corners : forall n t, In (n, t) N ->
      length t = S d /\ NoDup (points_of t) /\ forall p, In p (points_of t) -> p < num_points base;
    pl_face_ok : forall n t q fi, In (n, t) N -> In (q, fi) t ->
      exists ps, In (face fi, ps) (faces base) /\ face_ok (points_of t) q ps (flipped fi);
    pl_F_used : forall f ps, In (f, ps) F -> exists n q fi, inN n q fi /\ face fi = f;
    pl_points_R : forall r t p, In r R -> In (r, t) (tetras s) -> In p (points_of t) ->
      exists n u, In (n, u) N /\ In p (points_of u);
    pl_points_new : forall p, num_points s <= p < num_points base -> exists n u, In (n, u) N /\ In p (points_of u);
    pl_conn : exists n0, In n0 (map fst N) /\ forall n, In n (map fst N) -> n = n0 \/
      exists f q q0, In (f, (n0, q0), (n, q)) PR \/ In (f, (n, q), (n0, q0)) PR
  }.

  Hypothesis I : inv d face_ok s.
  Hypothesis P : plan.

  Lemma pl_in_R i : existsb (Nat.eqb i) R = true <-> In i R.
  Proof.
    rewrite existsb_exists. split.
    - intros [x [H K]]. apply Nat.eqb_eq in K. now subst.
    - intro H. exists i. split; [exact H|apply Nat.eqb_refl].
  Qed.
  Lemma pl_base_tetra i t : In (i, t) (tetras base) <-> In (i, t) (tetras s) /\ ~ In i R.
  Proof.
    rewrite (pl_base_tetras P), filter_In. cbn [fst]. rewrite negb_true_iff.
    rewrite <- (pl_in_R i). destruct (existsb (Nat.eqb i) R); intuition congruence.
  Qed.
  Lemma pl_base_ids : NoDup (map fst (tetras base)).
  Proof.
    rewrite (pl_base_tetras P). pose proof (iv_ids d face_ok s I) as ND. revert ND.
    induction (tetras s) as [|e l IH]; cbn; [auto|].
    intro ND. inversion ND as [|? ? N1 N2]; subst.
    destruct (negb _); cbn; [|now apply IH]. constructor; [|now apply IH].
    intro Hin. apply N1. apply in_map_iff in Hin. destruct Hin as [y [E0 Hy]]. apply filter_In in Hy.
    rewrite <- E0. apply in_map. tauto.
  Qed.
  Lemma pl_base_fresh i : In i (map fst (tetras base)) -> i < next_tetra base.
  Proof.
    intro H. rewrite (pl_base_next P). apply in_map_iff in H. destruct H as [[j t] [E H]]. cbn in E. subst j.
    apply pl_base_tetra in H. apply (iv_fresh d face_ok s I). change i with (fst (i, t)). apply in_map. tauto.
  Qed.
  Lemma pl_F_fresh f : In f (map fst F) -> next_face s <= f < next_face base.
  Proof. rewrite (pl_F_ids P), in_seq, (pl_base_next_face P). lia. Qed.
  Lemma pl_F_nodup : NoDup (map fst F).
  Proof. rewrite (pl_F_ids P). apply seq_NoDup. Qed.
  Lemma pl_face_ids : NoDup (map fst (faces base)).
  Proof.
    rewrite (pl_base_faces P), map_app.
    assert (X : NoDup (map fst (filter (fun e => negb (existsb (Nat.eqb (fst e)) G)) (faces s)))).
    { pose proof (iv_fids d face_ok s I) as ND. revert ND. induction (faces s) as [|e l IH]; cbn; [auto|].
      intro ND. inversion ND as [|? ? N1 N2]; subst.
      destruct (negb _); cbn; [|now apply IH]. constructor; [|now apply IH].
      intro Hin. apply N1. apply in_map_iff in Hin. destruct Hin as [y [E0 Hy]]. apply filter_In in Hy.
      rewrite <- E0. apply in_map. tauto. }
    assert (Hlt : forall y, In y (map fst (filter (fun e => negb (existsb (Nat.eqb (fst e)) G)) (faces s))) -> y < next_face s).
    { intros y Hy. apply in_map_iff in Hy. destruct Hy as [z [<- Hz]]. apply filter_In in Hz.
      apply (iv_ffresh d face_ok s I). apply in_map. tauto. }
    revert X Hlt. generalize (map fst (filter (fun e => negb (existsb (Nat.eqb (fst e)) G)) (faces s))) as m.
    induction m as [|y m IHm]; cbn; intros X Hlt; [apply pl_F_nodup|].
    inversion X; subst. constructor; [|apply IHm; auto].
    rewrite in_app_iff. intros [Z|Z]; [tauto|]. apply pl_F_fresh in Z.
    specialize (Hlt y (or_introl eq_refl)). lia.
  Qed.

  (* an entry of a new tetra with a connection comes from outside the cavity *)
  Lemma pl_outside n t q fi o : In (n, t) N -> In (q, fi) t -> opposing fi = Some o ->
    exists r b, sideb (skels (tetras base)) (conn_tetra o) r (face fi) b.
  Proof.
    intros H K Ho. assert (HN : inN n q fi) by (now exists t).
    destruct (lt_dec (face fi) (next_face s)) as [Hlt|Hge].
    2: { destruct (pl_PR_N P n q fi HN) as [X _]; [lia|]. congruence. }
    destruct (pl_OB_N P n q fi HN Hlt) as [r [q0 HO]].
    destruct (pl_OB P _ _ _ _ _ HO) as [[Hr [u [Hu Hq0]]] [_ NG]].
    destruct o as [j r']. cbn [conn_tetra].
    apply (iv_opp d face_ok s I r u q0 fi Hu Hq0) in Ho. destruct Ho as [Hj [v [g [Hv [Hg Eg]]]]].
    exists r', (flipped g). apply sideb_skels. exists v, g. split; [|auto].
    apply pl_base_tetra. split; [exact Hv|]. intro HR.
    assert (NG' : ~ In (face g) G) by (rewrite Eg; exact NG).
    destruct (pl_OB_R P j r' g) as [n' [q' HO']]; [split; [exact HR|now exists v]|exact NG'|].
    pose proof (NoDup_map_eq _ OB _ _ (pl_OB_nodup P) HO HO' (eq_sym Eg)) as X. injection X as X _ _ _ _. congruence.
  Qed.

  Lemma pl_debug n t : In (n, t) N -> debug_faces base t = true.
  Proof.
    intro H. unfold debug_faces. apply forallb_forall. intros [q fi] Hq. cbn [fst snd].
    destruct (pl_face_ok P n t q fi H Hq) as [ps [P1 P2]].
    rewrite (In_arena_get _ _ _ pl_face_ids P1). apply forallb_forall. intros x Hx.
    apply negb_true_iff, Nat.eqb_neq. intros ->.
    pose proof (face_ok_perm _ _ _ _ P2) as Pm. destruct (pl_corners P n t H) as [_ [ND _]].
    apply (Permutation_NoDup (Permutation_sym Pm)) in ND. inversion ND; subst. contradiction.
  Qed.

  Lemma insert_all_built : forall ts done E s0,
    N = done ++ ts -> built base done E s0 ->
    (forall e, In e E <-> exists n t, In (n, t) done /\ In e (links n t)) ->
    exists E' s1, insert_all s0 (map snd ts) = Some s1 /\ built base N E' s1 /\
      (forall e, In e E' <-> exists n t, In (n, t) N /\ In e (links n t)).
  Proof.
    induction ts as [|[n t] ts IH]; intros done E s0 EN B HE; cbn.
    - rewrite app_nil_r in EN. subst done. exists E, s0. auto.
    - assert (Hin : In (n, t) N) by (rewrite EN; apply in_or_app; right; now left).
      assert (En : n = next_tetra base + length done).
      { assert (X1 : nth (length done) (map fst N) 0 = n).
        { rewrite EN, map_app, app_nth2; rewrite map_length; [|lia]. rewrite Nat.sub_diag. reflexivity. }
        rewrite (pl_ids P), seq_nth in X1; [rewrite (pl_base_next P); lia|].
        rewrite EN, app_length. cbn. lia. }
      destruct (built_insert base done E s0 t n B En) as [s1 [E1 B1]].
      + intros e He. apply HE in He. destruct He as [n' [t' [Hn' He]]].
        apply links_in in He. destruct He as [q [fi [o [Hq [Ho ->]]]]]. cbn [fst].
        assert (Hin' : In (n', t') N) by (rewrite EN; apply in_or_app; now left).
        destruct (pl_outside n' t' q fi o Hin' Hq Ho) as [r [b Hs]].
        apply sideb_skels in Hs. destruct Hs as [u [g [Hu _]]].
        assert (conn_tetra o < next_tetra base).
        { apply pl_base_fresh. change (conn_tetra o) with (fst (conn_tetra o, u)). now apply in_map. }
        lia.
      + eapply pl_debug; eauto.
      + intros [q fi] o He Ho. eapply pl_outside; eauto.
      + rewrite E1. cbn.
        apply (IH (done ++ [(n, t)]) (rev (links n t) ++ E) s1); [rewrite <- app_assoc; exact EN|exact B1|].
        intro e. rewrite in_app_iff, <- in_rev, HE. split.
        * intros [He|[n' [t' [H1 H2]]]].
          -- exists n, t. split; [apply in_or_app; right; now left|exact He].
          -- exists n', t'. split; [apply in_or_app; now left|exact H2].
        * intros [n' [t' [H1 H2]]]. apply in_app_or in H1. destruct H1 as [H1|[H1|[]]].
          -- right. now exists n', t'.
          -- injection H1 as <- <-. now left.
  Qed.

  Lemma set_all_built : forall l s0 E,
    built base N E s0 -> incl l L -> exists s1, set_all s0 l = Some s1 /\ built base N (rev l ++ E) s1.
  Proof.
    induction l as [|[[i f] c] l IH]; intros s0 E B HL; cbn.
    - exists s0. auto.
    - assert (Hin : In (i, f, c) L) by (apply HL; now left).
      assert (Hs : exists q b, sideb (skels (tetras base ++ N)) i q f b).
      { apply (pl_L_PR P) in Hin. destruct Hin as [n [q [n' [q' [HP H]]]]].
        apply (pl_PR P) in HP. destruct HP as [_ [_ [[x [y [[t [Ht Hx]] [Ex [[u [Hu Hy]] [Ey _]]]]]] _]]].
        destruct H as [[-> _]|[-> _]].
        - exists q, (flipped x). apply sideb_skels. exists t, x. split; [apply in_or_app; now right|auto].
        - exists q', (flipped y). apply sideb_skels. exists u, y. split; [apply in_or_app; now right|auto]. }
      destruct Hs as [q [b Hs]].
      destruct (built_set _ _ _ _ _ _ c _ _ B Hs) as [s1 [E1 B1]]. rewrite E1. cbn.
      destruct (IH s1 _ B1) as [s2 [E2 B2]]; [intros e He; apply HL; now right|].
      exists s2. split; [exact E2|]. rewrite <- app_assoc. exact B2.
  Qed.

  Theorem plan_run : exists s1 s' E, insert_all base (map snd N) = Some s1 /\ set_all s1 L = Some s' /\
    surgery d face_ok s base s' R G F N L E OB PR.
  Proof.
    destruct (insert_all_built N [] [] base eq_refl) as [E1 [s1 [H1 [B1 HE1]]]].
    - apply built_start; [apply pl_base_ids|apply pl_base_fresh].
    - intro e. split; [contradiction|]. intros [n [t [[] _]]].
    - destruct (set_all_built L s1 E1 B1 (incl_refl L)) as [s' [H2 B2]].
      exists s1, s', (rev L ++ E1). split; [exact H1|]. split; [exact H2|].
      destruct P. constructor; auto.
      + lia.
      + intros n t H. assert (X : In n (map fst N)) by (change n with (fst (n, t)); now apply in_map).
        rewrite pl_ids0 in X. apply in_seq in X. lia.
      + apply pl_F_nodup.
      + apply pl_F_fresh.
      + intros e He. apply in_app_or in He. destruct He as [He|He]; [left; now apply in_rev|].
        right. apply HE1 in He. destruct He as [n [t [Hn He]]]. apply links_in in He.
        destruct He as [q [fi [o [Hq [Ho ->]]]]]. exists n, q, fi, o. split; [now exists t|auto].
      + intros n q fi o [t [Hn Hq]] Ho. apply in_or_app. right. apply HE1. exists n, t. split; [exact Hn|].
        apply links_in. exists q, fi, o. auto.
      + intros e He. apply in_or_app. left. now apply -> in_rev.
  Qed.
End Plan.

(** What a replacement does, without the details of the connections. *)
Record replaced (s s' : triangulation) (R : list nat) (N : arena tetra) : Prop := {
  rp_old : forall i t', In (i, t') (tetras s') ->
    (exists t, In (i, t) (tetras s) /\ ~ In i R /\ skel t = skel t') \/
    (exists t, In (i, t) N /\ skel t = skel t');
  rp_kept : forall i t, In (i, t) (tetras s) -> ~ In i R ->
    exists t', In (i, t') (tetras s') /\ skel t' = skel t;
  rp_new : forall i t, In (i, t) N -> exists t', In (i, t') (tetras s') /\ skel t' = skel t;
  rp_ids : map fst N = seq (next_tetra s) (length N);
  rp_gone : NoDup R /\ forall r, In r R -> In r (map fst (tetras s));
  rp_next : next_tetra s' = next_tetra s + length N;
  rp_last : last_insertion s' = last_insertion s;
  rp_tetras : length (tetras s') + length R = length (tetras s) + length N;
  (* a face without a neighbour was without a neighbour before *)
  rp_hull : forall i t' q fi', In (i, t') (tetras s') -> In (q, fi') t' -> opposing fi' = None ->
    exists j t r fi, In (j, t) (tetras s) /\ In (r, fi) t /\ opposing fi = None /\ face fi = face fi';
  rp_faces : forall f ps, In (f, ps) (faces s') -> f < next_face s -> In (f, ps) (faces s)
}.

Lemma filter_ids_length {A} (a : arena A) (R : list nat) :
  NoDup (map fst a) -> NoDup R -> (forall r, In r R -> In r (map fst a)) ->
  length (filter (fun e => negb (existsb (Nat.eqb (fst e)) R)) a) + length R = length a.
Proof.
  revert R. induction a as [|[i v] a IH]; cbn; intros R ND NR H.
  - destruct R as [|r R]; [reflexivity|]. exfalso. apply (H r). now left.
  - inversion ND as [|? ? N1 N2]; subst.
    destruct (existsb (Nat.eqb i) R) eqn:E; cbn.
    + apply existsb_exists in E. destruct E as [x [Hx Ex]]. apply Nat.eqb_eq in Ex. subst x.
      apply in_split in Hx. destruct Hx as [l1 [l2 ->]].
      assert (ND' : NoDup (l1 ++ l2)) by (eapply NoDup_remove_1; eauto).
      assert (NI : ~ In i (l1 ++ l2)) by (eapply NoDup_remove_2; eauto).
      rewrite app_length. cbn [length].
      assert (X : length (filter (fun e => negb (existsb (Nat.eqb (fst e)) (l1 ++ l2))) a) + length (l1 ++ l2) = length a).
      { apply IH; auto. intros r Hr. destruct (H r) as [->|K]; [|contradiction|exact K].
        apply in_app_or in Hr. apply in_or_app. destruct Hr; [now left|right; now right]. }
      assert (Y : filter (fun e => negb (existsb (Nat.eqb (fst e)) (l1 ++ i :: l2))) a =
                  filter (fun e => negb (existsb (Nat.eqb (fst e)) (l1 ++ l2))) a).
      { apply filter_ext_in. intros [j w] Hj. cbn [fst]. rewrite !existsb_app. cbn [existsb].
        destruct (Nat.eqb_spec j i) as [->|_]; [|reflexivity].
        exfalso. apply N1. change i with (fst (i, w)). now apply in_map. }
      rewrite Y, app_length in *. lia.
    + rewrite IH; auto. intros r Hr. destruct (H r Hr) as [->|K]; [|exact K].
      exfalso. assert (existsb (Nat.eqb r) R = true); [|congruence].
      apply existsb_exists. exists r. split; [exact Hr|apply Nat.eqb_refl].
Qed.

Lemma skel_in (t t' : tetra) q fi : skel t = skel t' -> In (q, fi) t ->
  exists fi', In (q, fi') t' /\ face fi' = face fi /\ flipped fi' = flipped fi.
Proof.
  intros E H. assert (X : In (q, face fi, flipped fi) (skel t')).
  { rewrite <- E. unfold skel. apply in_map_iff. exists (q, fi). auto. }
  unfold skel in X. apply in_map_iff in X. destruct X as [[q' fi'] [X Y]]. cbn in X. injection X as -> X1 X2.
  exists fi'. auto.
Qed.

Section Result.
  Variable d : nat.
  Variable face_ok : list nat -> nat -> list nat -> bool -> Prop.
  Hypothesis face_ok_perm : forall pts q ps b, face_ok pts q ps b -> Permutation (q :: ps) pts.

  Lemma run_plan_hull s base s' R G F N L E OB PR :
    inv d face_ok s -> plan d face_ok s base R G F N L OB PR -> surgery d face_ok s base s' R G F N L E OB PR ->
    forall i t' q fi', In (i, t') (tetras s') -> In (q, fi') t' -> opposing fi' = None ->
    exists j t r fi, In (j, t) (tetras s) /\ In (r, fi) t /\ opposing fi = None /\ face fi = face fi'.
  Proof.
    intros I P S i t' q fi' Ht' Hq Ho.
    pose proof (surgery_inv d face_ok face_ok_perm _ _ _ _ _ _ _ _ _ _ _ I S) as I'.
    assert (NS : forall j r, j <> i -> ~ has_side s' j r (face fi')).
    { intros j r Hne HS. pose proof (proj2 (iv_opp _ _ _ I' i t' q fi' Ht' Hq j r) (conj Hne HS)). congruence. }
    assert (KEEP : forall j r f, has_side s j r f -> ~ In j R -> has_side s' j r f).
    { intros j r f [u [g [Hu [Hg Eg]]]] HnR.
      destruct (result_old d face_ok _ _ _ _ _ _ _ _ _ _ _ S j u Hu HnR) as [u' [Hu' E0]].
      destruct (skel_in u u' r g (eq_sym E0) Hg) as [g' [Hg' [Eg' _]]].
      exists u', g'. split; [exact Hu'|]. split; [exact Hg'|]. congruence. }
    assert (NEW : forall n r g, inN N n r g -> has_side s' n r (face g)).
    { intros n r g [u [Hu Hg]].
      destruct (result_new d face_ok _ _ _ _ _ _ _ _ _ _ _ S n u Hu) as [u' [Hu' E0]].
      destruct (skel_in u u' r g (eq_sym E0) Hg) as [g' [Hg' [Eg' _]]].
      exists u', g'. auto. }
    assert (FRESH : forall n r g, inN N n r g -> next_tetra s <= n).
    { intros n r g [u [Hu _]]. assert (X : In n (map fst N)) by (change n with (fst (n, u)); now apply in_map).
      rewrite (pl_ids _ _ _ _ _ _ _ _ _ _ _ P) in X. apply in_seq in X. lia. }
    assert (OLD : forall j u, In (j, u) (tetras s) -> j < next_tetra s).
    { intros j u Hu. apply (iv_fresh _ _ _ I). change j with (fst (j, u)). now apply in_map. }
    destruct (result_tetra d face_ok _ _ _ _ _ _ _ _ _ _ _ S i t' Ht') as [[t [Ht [Hn E0]]]|[t [Ht E0]]].
    - destruct (skel_in t' t q fi' (eq_sym E0) Hq) as [fi [Hfi [Ef _]]].
      destruct (opposing fi) as [[j r]|] eqn:Eo; [|exists i, t, q, fi; auto].
      exfalso. pose proof (proj1 (iv_opp _ _ _ I i t q fi Ht Hfi j r) Eo) as [Hne HS].
      destruct (in_dec Nat.eq_dec j R) as [HR|HR].
      + destruct HS as [u [g [Hu [Hg Eg]]]].
        destruct (in_dec Nat.eq_dec (face g) G) as [HG|HG].
        * apply Hn. apply (pl_G _ _ _ _ _ _ _ _ _ _ _ P i t q fi Ht Hfi). congruence.
        * destruct (pl_OB_R _ _ _ _ _ _ _ _ _ _ _ P j r g) as [n [q' HO]]; [split; [exact HR|now exists u]|exact HG|].
          destruct (pl_OB _ _ _ _ _ _ _ _ _ _ _ P _ _ _ _ _ HO) as [_ [HN _]].
          apply (NS n q'); [|rewrite <- Ef, <- Eg; exact (NEW n q' g HN)].
          specialize (FRESH n q' g HN). specialize (OLD i t Ht). lia.
      + apply (NS j r Hne). rewrite <- Ef. exact (KEEP j r (face fi) HS HR).
    - destruct (skel_in t' t q fi' (eq_sym E0) Hq) as [fi [Hfi [Ef _]]].
      assert (HN : inN N i q fi) by (now exists t). pose proof (FRESH i q fi HN) as Fi.
      destruct (lt_dec (face fi) (next_face s)) as [Hlt|Hge].
      + destruct (pl_OB_N _ _ _ _ _ _ _ _ _ _ _ P i q fi HN Hlt) as [r [q0 HO]].
        destruct (pl_OB _ _ _ _ _ _ _ _ _ _ _ P _ _ _ _ _ HO) as [[HrR [u [Hu Hq0]]] [_ NG]].
        destruct (opposing fi) as [[j r']|] eqn:Eo; [|exists r, u, q0, fi; auto].
        exfalso. pose proof (proj1 (iv_opp _ _ _ I r u q0 fi Hu Hq0 j r') Eo) as [Hne HS].
        destruct HS as [v [g [Hv [Hg Eg]]]].
        destruct (in_dec Nat.eq_dec j R) as [HR|HR].
        * destruct (pl_OB_R _ _ _ _ _ _ _ _ _ _ _ P j r' g) as [n [q' HO']]; [split; [exact HR|now exists v]|congruence|].
          pose proof (NoDup_map_eq _ OB _ _ (pl_OB_nodup _ _ _ _ _ _ _ _ _ _ _ P) HO HO' (eq_sym Eg)) as X.
          injection X as X _ _ _ _. congruence.
        * apply (NS j r'); [specialize (OLD j v Hv); lia|]. rewrite <- Ef. apply KEEP; [now exists v, g|exact HR].
      + destruct (pl_PR_N _ _ _ _ _ _ _ _ _ _ _ P i q fi HN) as [_ [n' [q' [HP|HP]]]]; [lia| |];
          destruct (pl_PR _ _ _ _ _ _ _ _ _ _ _ P _ _ _ _ _ HP) as [_ [Hne [[g [g' [G1 [G2 [G3 [G4 _]]]]]] _]]].
        * exfalso. apply (NS n' q'); [congruence|]. rewrite <- Ef, <- G4. now apply NEW.
        * exfalso. apply (NS n' q'); [congruence|]. rewrite <- Ef, <- G2. now apply NEW.
  Qed.

  Theorem run_plan_ok s base R G F N L OB PR :
    inv d face_ok s -> plan d face_ok s base R G F N L OB PR ->
    NoDup R -> (forall r, In r R -> In r (map fst (tetras s))) ->
    NoDup G -> (forall g, In g G -> In g (map fst (faces s))) ->
    last_insertion base = last_insertion s ->
    exists s1 s', insert_all base (map snd N) = Some s1 /\ set_all s1 L = Some s' /\
      inv d face_ok s' /\ replaced s s' R N /\ num_points s' = num_points base /\
      length (faces s') + length G = length (faces s) + length F.
  Proof.
    intros I P NR HR NG HG HL.
    destruct (plan_run d face_ok face_ok_perm s base R G F N L OB PR I P) as [s1 [s' [E [H1 [H2 S]]]]].
    exists s1, s'. split; [exact H1|]. split; [exact H2|].
    split; [exact (surgery_inv d face_ok face_ok_perm _ _ _ _ _ _ _ _ _ _ _ I S)|].
    pose proof (su_built _ _ _ _ _ _ _ _ _ _ _ _ _ S) as B.
    split; [constructor|split].
    - intros i t' H. destruct (result_tetra d face_ok _ _ _ _ _ _ _ _ _ _ _ S i t' H) as [[t [Ht [Hn E0]]]|[t [Ht E0]]].
      + left. exists t. split; [exact Ht|]. split; [exact Hn|]. exact E0.
      + right. exists t. split; [exact Ht|]. exact E0.
    - intros i t H Hn. destruct (result_old d face_ok _ _ _ _ _ _ _ _ _ _ _ S i t H Hn) as [t' [H' E0]].
      exists t'. split; [exact H'|]. exact E0.
    - intros i t H. destruct (result_new d face_ok _ _ _ _ _ _ _ _ _ _ _ S i t H) as [t' [H' E0]].
      exists t'. split; [exact H'|]. exact E0.
    - exact (pl_ids _ _ _ _ _ _ _ _ _ _ _ P).
    - auto.
    - rewrite (bt_next _ _ _ _ B), (pl_base_next _ _ _ _ _ _ _ _ _ _ _ P). reflexivity.
    - rewrite (bt_last _ _ _ _ B). exact HL.
    - assert (X : length (tetras s') = length (tetras base) + length N).
      { pose proof (f_equal (@length _) (bt_skels _ _ _ _ B)) as X. unfold skels in X.
        rewrite app_length, !map_length in X. exact X. }
      rewrite X, (pl_base_tetras _ _ _ _ _ _ _ _ _ _ _ P).
      pose proof (filter_ids_length (tetras s) R (iv_ids d face_ok s I) NR HR). lia.
    - exact (run_plan_hull s base s' R G F N L E OB PR I P S).
    - intros f ps H Hlt. rewrite (bt_faces _ _ _ _ B), (pl_base_faces _ _ _ _ _ _ _ _ _ _ _ P) in H.
      apply in_app_or in H. destruct H as [H|H]; [apply filter_In in H; tauto|].
      exfalso. assert (X : In f (map fst F)) by (change f with (fst (f, ps)); now apply in_map).
      apply (pl_F_fresh _ _ _ _ _ _ _ _ _ _ _ P) in X. lia.
    - exact (bt_points _ _ _ _ B).
    - rewrite (bt_faces _ _ _ _ B), (pl_base_faces _ _ _ _ _ _ _ _ _ _ _ P), app_length.
      pose proof (filter_ids_length (faces s) G (iv_fids d face_ok s I) NG HG). lia.
  Qed.
End Result.
