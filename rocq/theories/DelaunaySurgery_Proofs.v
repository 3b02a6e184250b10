(** Replacing some tetras by others keeps a triangulation sound: the general statement behind
    splits and flips in two and three dimensions. *)
From Coq Require Import List Arith Lia Bool Permutation.
From Verif Require Import Delaunay_Model Delaunay_Spec DelaunayBuild_Proofs.
Import ListNotations.

Definition kpoints (k : list (nat * nat * bool)) : list nat := map (fun e => fst (fst e)) k.
Lemma kpoints_skel t : kpoints (skel t) = points_of t.
Proof. unfold kpoints, skel, points_of. rewrite map_map. reflexivity. Qed.

Lemma in_skels (a : arena tetra) i k :
  In (i, k) (skels a) <-> exists t, In (i, t) a /\ skel t = k.
Proof.
  unfold skels. rewrite in_map_iff. split.
  - intros [[j t] [E H]]. cbn in E. injection E as -> <-. now exists t.
  - intros [t [H <-]]. now exists (i, t).
Qed.
Lemma in_skel (t : tetra) q f b :
  In (q, f, b) (skel t) <-> exists fi, In (q, fi) t /\ face fi = f /\ flipped fi = b.
Proof.
  unfold skel. rewrite in_map_iff. split.
  - intros [[p fi] [E H]]. cbn in E. injection E as -> <- <-. now exists fi.
  - intros [fi [H [<- <-]]]. now exists (q, fi).
Qed.
Lemma sideb_skels (a : arena tetra) i q f b :
  sideb (skels a) i q f b <-> exists t fi, In (i, t) a /\ In (q, fi) t /\ face fi = f /\ flipped fi = b.
Proof.
  unfold sideb. split.
  - intros [k [H K]]. apply in_skels in H. destruct H as [t [H <-]].
    apply in_skel in K. destruct K as [fi K]. exists t, fi. tauto.
  - intros [t [fi [H K]]]. exists (skel t). split; [apply in_skels; now exists t|].
    apply in_skel. now exists fi.
Qed.
Lemma has_side_sideb s i q f : has_side s i q f <-> exists b, sideb (skels (tetras s)) i q f b.
Proof.
  unfold has_side. split.
  - intros [t [fi [H [K E]]]]. exists (flipped fi). apply sideb_skels. now exists t, fi.
  - intros [b H]. apply sideb_skels in H. destruct H as [t [fi H]]. exists t, fi. tauto.
Qed.

Lemma NoDup_ids_eq {A} (a : arena A) i x y : NoDup (map fst a) -> In (i, x) a -> In (i, y) a -> x = y.
Proof.
  intros ND H K. apply (In_arena_get _ _ _ ND) in H. apply (In_arena_get _ _ _ ND) in K. congruence.
Qed.

Lemma NoDup_app_left {A} (l m : list A) : NoDup (l ++ m) -> NoDup l.
Proof.
  induction l as [|x l IH]; cbn; [constructor|]. intro H. inversion H as [|? ? H1 H2]; subst.
  constructor; [|auto]. intro K. apply H1. apply in_or_app. now left.
Qed.
Lemma NoDup_map_eq {A B} (g : A -> B) (l : list A) x y :
  NoDup (map g l) -> In x l -> In y l -> g x = g y -> x = y.
Proof.
  induction l as [|z l IH]; cbn; [tauto|]. intros ND H K E. inversion ND as [|? ? N1 N2]; subst.
  destruct H as [->|H]; destruct K as [->|K]; auto.
  - exfalso. apply N1. rewrite E. now apply in_map.
  - exfalso. apply N1. rewrite <- E. now apply in_map.
Qed.

Section Inv.
  Variable d : nat.
  Variable face_ok : list nat -> nat -> list nat -> bool -> Prop.
  Hypothesis face_ok_perm : forall pts q ps b, face_ok pts q ps b -> Permutation (q :: ps) pts.

  Record inv (s : triangulation) : Prop := {
    iv_ids : NoDup (map fst (tetras s));
    iv_fids : NoDup (map fst (faces s));
    iv_fresh : forall i, In i (map fst (tetras s)) -> i < next_tetra s;
    iv_ffresh : forall f, In f (map fst (faces s)) -> f < next_face s;
    iv_corners : forall i t, In (i, t) (tetras s) ->
      length t = S d /\ NoDup (points_of t) /\ forall p, In p (points_of t) -> p < num_points s;
    iv_faces : forall i t q fi, In (i, t) (tetras s) -> In (q, fi) t ->
      exists ps, In (face fi, ps) (faces s) /\ face_ok (points_of t) q ps (flipped fi);
    iv_opp : forall i t q fi, In (i, t) (tetras s) -> In (q, fi) t ->
      forall j r, opposing fi = Some (Conn j r) <-> (j <> i /\ has_side s j r (face fi));
    iv_flip : forall i t q fi j u r gi, In (i, t) (tetras s) -> In (q, fi) t -> In (j, u) (tetras s) -> In (r, gi) u ->
      face fi = face gi -> i <> j -> flipped gi = negb (flipped fi);
    iv_leak : forall f ps, In (f, ps) (faces s) -> exists i q, has_side s i q f;
    iv_points : forall p, p < num_points s -> exists i t, In (i, t) (tetras s) /\ In p (points_of t);
    iv_conn : connected s
  }.

  Lemma inv_consistent s : inv s -> consistent d s.
  Proof.
    intros [a1 a2 a3 a4 a5 a6 a7 a7' a8 a9 a10]. constructor; auto.
    intros i t q fi H K. destruct (a6 i t q fi H K) as [ps [P1 P2]]. exists ps. split; [exact P1|].
    eapply face_ok_perm. exact P2.
  Qed.

  Lemma perm_head_eq (q q' : nat) (ps l : list nat) : Permutation (q :: ps) l -> Permutation (q' :: ps) l -> q = q'.
  Proof.
    intros H K. assert (P : Permutation (q :: ps) (q' :: ps)) by (rewrite H, K; reflexivity).
    destruct (Nat.eq_dec q q') as [E|N]; [exact E|]. exfalso.
    assert (C : count_occ Nat.eq_dec (q :: ps) q = count_occ Nat.eq_dec (q' :: ps) q).
    { apply Permutation_count_occ. exact P. }
    cbn in C. destruct (Nat.eq_dec q q) as [_|]; [|congruence].
    destruct (Nat.eq_dec q' q) as [E|_]; [congruence|]. lia.
  Qed.

  (** Within one tetra the face determines the corner and the entry. *)
  Lemma entry_unique (t : tetra) (Fs : arena (list nat)) q fi q' fi' :
    NoDup (map fst Fs) -> NoDup (points_of t) ->
    (forall q fi, In (q, fi) t -> exists ps, In (face fi, ps) Fs /\ face_ok (points_of t) q ps (flipped fi)) ->
    In (q, fi) t -> In (q', fi') t -> face fi = face fi' -> q = q' /\ fi = fi'.
  Proof.
    intros NF NP HF H K E.
    destruct (HF q fi H) as [ps [A1 A2]]. destruct (HF q' fi' K) as [ps' [B1 B2]].
    rewrite E in A1. assert (ps = ps') by (eapply NoDup_ids_eq; eauto). subst ps'.
    assert (Eq : q = q') by (eapply perm_head_eq; eapply face_ok_perm; eassumption).
    split; [exact Eq|]. subst q'.
    unfold points_of in NP. eapply (NoDup_ids_eq t); eassumption.
  Qed.

  Lemma inv_entry_unique s i t q fi q' fi' : inv s ->
    In (i, t) (tetras s) -> In (q, fi) t -> In (q', fi') t -> face fi = face fi' -> q = q' /\ fi = fi'.
  Proof.
    intros I H. apply (entry_unique t (faces s)).
    - apply (iv_fids s I).
    - apply (iv_corners s I i t H).
    - intros q0 fi0. apply (iv_faces s I i t q0 fi0 H).
  Qed.

  Lemma find_face_unique (t : tetra) q fi :
    (forall q' fi', In (q', fi') t -> face fi' = face fi -> fi' = fi) ->
    In (q, fi) t -> find_face t (face fi) = Some fi.
  Proof.
    intros U H. destruct (find_face_exists t (face fi) q (flipped fi)) as [x E].
    - apply in_skel. now exists fi.
    - rewrite E. f_equal. apply find_face_In in E. destruct E as [q' [K Ef]]. eapply U; eauto.
  Qed.

  Lemma inv_opp_in s i t q fi : inv s -> In (i, t) (tetras s) -> In (q, fi) t ->
    opp_in (tetras s) i (face fi) = Some (opposing fi).
  Proof.
    intros I H K. unfold opp_in. rewrite (In_arena_get _ _ _ (iv_ids s I) H). cbn.
    rewrite (find_face_unique t q fi); [reflexivity| |exact K].
    intros q' fi' K' E. now destruct (inv_entry_unique s i t q' fi' q fi I H K' K E).
  Qed.

  Lemma lookup_event_In E i f c : lookup_event E i f = Some c -> In (i, f, c) E.
  Proof.
    unfold lookup_event. destruct (find _ E) as [[[i' f'] c']|] eqn:H; cbn; [|discriminate].
    intros [= <-]. apply find_some in H. destruct H as [H K]. cbn in K.
    apply andb_prop in K. destruct K as [K1 K2]. apply Nat.eqb_eq in K1, K2. now subst.
  Qed.
  Lemma lookup_event_None E i f c : lookup_event E i f = None -> ~ In (i, f, c) E.
  Proof.
    unfold lookup_event. destruct (find _ E) as [x|] eqn:H; cbn; [discriminate|].
    intros _ K. apply (find_none _ _ H) in K. cbn in K. rewrite !Nat.eqb_refl in K. discriminate.
  Qed.

  Lemma reachable_trans s i j k : reachable s i j -> reachable s j k -> reachable s i k.
  Proof. intros H K. induction K as [|x y z K1 IH A]; [exact H|]. exact (reach_step s i y z (IH H) A). Qed.
  Lemma adjacent_sym s i j : adjacent s i j -> adjacent s j i.
  Proof. intros [f [q [r [N [A B]]]]]. exists f, r, q. auto. Qed.
  Lemma reachable_sym s i j : reachable s i j -> reachable s j i.
  Proof.
    intro H. induction H; [constructor|]. eapply reachable_trans; [|exact IHreachable].
    eapply reach_step; [constructor|]. now apply adjacent_sym.
  Qed.

  Section Surgery.
    Variables (s base s' : triangulation) (R G : list nat) (F : arena (list nat)) (N : arena tetra).
    Variables (L E : list event).
    Definition inR (r q : nat) (fi : face_info) : Prop :=
      In r R /\ exists t, In (r, t) (tetras s) /\ In (q, fi) t.
    Definition inN (n q : nat) (fi : face_info) : Prop := exists t, In (n, t) N /\ In (q, fi) t.
    (* outer faces of the cavity: (removed tetra, its corner, new tetra, its corner, entry) *)
    Variable OB : list (nat * nat * nat * nat * face_info).
    (* inner faces of the cavity: face and its two sides *)
    Variable PR : list (nat * (nat * nat) * (nat * nat)).

    Record surgery : Prop := {
      su_built : built base N E s';
      su_base_tetras : tetras base = filter (fun e => negb (existsb (Nat.eqb (fst e)) R)) (tetras s);
      su_base_faces : faces base = filter (fun e => negb (existsb (Nat.eqb (fst e)) G)) (faces s) ++ F;
      su_R : exists r u, In r R /\ In (r, u) (tetras s);
      su_base_next : next_tetra base = next_tetra s;
      su_base_next_face : next_face s <= next_face base;
      su_base_points : num_points s <= num_points base;
      su_fresh : forall n t, In (n, t) N -> next_tetra s <= n;
      su_F_ids : NoDup (map fst F);
      su_F_fresh : forall f, In f (map fst F) -> next_face s <= f < next_face base;
      su_E : forall e, In e E -> In e L \/ exists n q fi o, inN n q fi /\ opposing fi = Some o /\
                         e = (conn_tetra o, face fi, Conn n q);
      su_E' : forall n q fi o, inN n q fi -> opposing fi = Some o -> In (conn_tetra o, face fi, Conn n q) E;
      su_L : forall e, In e L -> In e E;
      su_OB : forall r q n q' fi, In (r, q, n, q', fi) OB -> inR r q fi /\ inN n q' fi /\ ~ In (face fi) G;
      su_OB_nodup : NoDup (map (fun e => face (snd e)) OB);
      su_OB_N : forall n q' fi, inN n q' fi -> face fi < next_face s -> exists r q, In (r, q, n, q', fi) OB;
      su_OB_R : forall r q fi, inR r q fi -> ~ In (face fi) G -> exists n q', In (r, q, n, q', fi) OB;
      su_G : forall i t q fi, In (i, t) (tetras s) -> In (q, fi) t -> In (face fi) G -> In i R;
      su_PR_nodup : NoDup (map (fun e => fst (fst e)) PR);
      su_PR : forall f n q n' q', In (f, (n, q), (n', q')) PR -> next_face s <= f /\ n <> n' /\
        (exists fi fi', inN n q fi /\ face fi = f /\ inN n' q' fi' /\ face fi' = f /\ flipped fi' = negb (flipped fi)) /\
        In (n, f, Conn n' q') L /\ In (n', f, Conn n q) L;
      su_PR_N : forall n q fi, inN n q fi -> next_face s <= face fi -> opposing fi = None /\
        exists n' q', In (face fi, (n, q), (n', q')) PR \/ In (face fi, (n', q'), (n, q)) PR;
      su_L_PR : forall i f c, In (i, f, c) L -> exists n q n' q', In (f, (n, q), (n', q')) PR /\
        (i = n /\ c = Conn n' q' \/ i = n' /\ c = Conn n q);
      su_corners : forall n t, In (n, t) N ->
        length t = S d /\ NoDup (points_of t) /\ forall p, In p (points_of t) -> p < num_points base;
      su_face_ok : forall n t q fi, In (n, t) N -> In (q, fi) t ->
        exists ps, In (face fi, ps) (faces base) /\ face_ok (points_of t) q ps (flipped fi);
      su_F_used : forall f ps, In (f, ps) F -> exists n q fi, inN n q fi /\ face fi = f;
      su_points_R : forall r t p, In r R -> In (r, t) (tetras s) -> In p (points_of t) ->
        exists n u, In (n, u) N /\ In p (points_of u);
      su_points_new : forall p, num_points s <= p < num_points base -> exists n u, In (n, u) N /\ In p (points_of u);
      su_conn : exists n0, In n0 (map fst N) /\ forall n, In n (map fst N) -> n = n0 \/
        exists f q q0, In (f, (n0, q0), (n, q)) PR \/ In (f, (n, q), (n0, q0)) PR
    }.

    Hypothesis I : inv s.
    Hypothesis S : surgery.

    Lemma in_R_dec i : existsb (Nat.eqb i) R = true <-> In i R.
    Proof.
      rewrite existsb_exists. split.
      - intros [x [H K]]. apply Nat.eqb_eq in K. now subst.
      - intro H. exists i. split; [exact H|apply Nat.eqb_refl].
    Qed.
    Lemma base_tetra i t : In (i, t) (tetras base) <-> In (i, t) (tetras s) /\ ~ In i R.
    Proof.
      rewrite (su_base_tetras S), filter_In. cbn [fst]. rewrite negb_true_iff.
      rewrite <- (in_R_dec i). destruct (existsb (Nat.eqb i) R); intuition congruence.
    Qed.
    Lemma base_face f ps : In (f, ps) (faces base) <-> (In (f, ps) (faces s) /\ ~ In f G) \/ In (f, ps) F.
    Proof.
      rewrite (su_base_faces S), in_app_iff, filter_In. cbn [fst]. rewrite negb_true_iff.
      assert (H : existsb (Nat.eqb f) G = true <-> In f G).
      { rewrite existsb_exists. split.
        - intros [x [H K]]. apply Nat.eqb_eq in K. now subst.
        - intro H. exists f. split; [exact H|apply Nat.eqb_refl]. }
      rewrite <- H. destruct (existsb (Nat.eqb f) G); intuition congruence.
    Qed.

    (* the tetras of the result, up to connections *)
    Lemma result_skel i k : In (i, k) (skels (tetras s')) <->
      (exists t, In (i, t) (tetras s) /\ ~ In i R /\ skel t = k) \/ (exists t, In (i, t) N /\ skel t = k).
    Proof.
      rewrite (bt_skels _ _ _ _ (su_built S)), in_app_iff, !in_skels. split.
      - intros [[t [H E0]]|[t [H E0]]]; [left|right]; exists t.
        + apply base_tetra in H. tauto.
        + tauto.
      - intros [[t [H [NR E0]]]|[t [H E0]]]; [left|right]; exists t.
        + split; [apply base_tetra; tauto|exact E0].
        + tauto.
    Qed.

    Lemma result_tetra i t' : In (i, t') (tetras s') ->
      (exists t, In (i, t) (tetras s) /\ ~ In i R /\ skel t = skel t') \/ (exists t, In (i, t) N /\ skel t = skel t').
    Proof. intro H. apply result_skel. apply in_skels. now exists t'. Qed.

    Lemma result_side i q f : has_side s' i q f <->
      (~ In i R /\ has_side s i q f) \/ exists fi, inN i q fi /\ face fi = f.
    Proof.
      rewrite has_side_sideb. unfold sideb. split.
      - intros [b [k [H K]]]. apply result_skel in H. destruct H as [[t [H [NR <-]]]|[t [H <-]]];
          apply in_skel in K; destruct K as [fi [K [E1 E2]]].
        + left. split; [exact NR|]. now exists t, fi.
        + right. exists fi. split; [now exists t|exact E1].
      - intros [[NR [t [fi [H [K E0]]]]]|[fi [[t [H K]] E0]]];
          exists (flipped fi), (skel t); (split; [apply result_skel|apply in_skel; now exists fi]).
        + left. now exists t.
        + right. now exists t.
    Qed.

    Lemma surgery_faces_nodup : NoDup (map fst (faces base)).
    Proof.
      rewrite (su_base_faces S), map_app.
      assert (X : NoDup (map fst (filter (fun e => negb (existsb (Nat.eqb (fst e)) G)) (faces s)))).
      { pose proof (iv_fids s I) as ND. revert ND. induction (faces s) as [|e l IH]; cbn; [auto|].
        intro ND. inversion ND as [|? ? N1 N2]; subst.
        destruct (negb _); cbn; [|now apply IH]. constructor; [|now apply IH].
        intro Hin. apply N1. apply in_map_iff in Hin. destruct Hin as [y [E0 Hy]]. apply filter_In in Hy.
        rewrite <- E0. apply in_map. tauto. }
      assert (Hlt : forall y, In y (map fst (filter (fun e => negb (existsb (Nat.eqb (fst e)) G)) (faces s))) -> y < next_face s).
      { intros y Hy. apply in_map_iff in Hy. destruct Hy as [z [<- Hz]]. apply filter_In in Hz.
        apply (iv_ffresh s I). apply in_map. tauto. }
      revert X Hlt. generalize (map fst (filter (fun e => negb (existsb (Nat.eqb (fst e)) G)) (faces s))) as m.
      induction m as [|y m IHm]; cbn; intros X Hlt; [apply (su_F_ids S)|].
      inversion X; subst. constructor; [|apply IHm; auto].
      rewrite in_app_iff. intros [Z|Z]; [tauto|]. apply (su_F_fresh S) in Z.
      specialize (Hlt y (or_introl eq_refl)). lia.
    Qed.

    Lemma in_opp_inN n t q fi : In (n, t) N -> In (q, fi) t -> opp_in (tetras base ++ N) n (face fi) = Some (opposing fi).
    Proof.
      intros H K. unfold opp_in.
      rewrite (In_arena_get _ n t (bt_ids _ _ _ _ (su_built S))); [|apply in_or_app; now right].
      cbn. rewrite (find_face_unique t q fi); [reflexivity| |exact K].
      intros q' fi' K' Ef.
      pose proof surgery_faces_nodup as NF.
      assert (HF : forall q0 fi0, In (q0, fi0) t -> exists ps, In (face fi0, ps) (faces base) /\
                     face_ok (points_of t) q0 ps (flipped fi0)).
      { intros q0 fi0 Hq. apply (su_face_ok S n t q0 fi0 H Hq). }
      destruct (su_corners S n t H) as [_ [NP _]].
      destruct (entry_unique t (faces base) q' fi' q fi NF NP HF K' K Ef) as [_ X]. exact X.
    Qed.

    Lemma old_not_new i t n u : In (i, t) (tetras s) -> In (n, u) N -> i <> n.
    Proof.
      intros H K ->. assert (n < next_tetra s).
      { apply (iv_fresh s I). change n with (fst (n, t)). now apply in_map. }
      pose proof (su_fresh S n u K). lia.
    Qed.
    Lemma face_lt i t q fi : In (i, t) (tetras s) -> In (q, fi) t -> face fi < next_face s.
    Proof.
      intros H K. destruct (iv_faces s I i t q fi H K) as [ps [P _]]. apply (iv_ffresh s I).
      change (face fi) with (fst (face fi, ps)). now apply in_map.
    Qed.
    Lemma OB_unique e e' : In e OB -> In e' OB -> face (snd e) = face (snd e') -> e = e'.
    Proof. exact (NoDup_map_eq (fun e => face (snd e)) OB e e' (su_OB_nodup S)). Qed.
    Lemma PR_unique f a b a' b' : In (f, a, b) PR -> In (f, a', b') PR -> a = a' /\ b = b'.
    Proof.
      intros H K. pose proof (NoDup_map_eq _ PR _ _ (su_PR_nodup S) H K eq_refl) as X. now injection X.
    Qed.

    (* an old face that is an outer face of the cavity, seen from an old tetra *)
    Lemma E_old i f c : f < next_face s -> In (i, f, c) E ->
      exists r q n q' fi, In (r, q, n, q', fi) OB /\ face fi = f /\ c = Conn n q' /\
                          exists r', opposing fi = Some (Conn i r').
    Proof.
      intros Hf H. apply (su_E S) in H. destruct H as [H|[n [q [fi [o [H [Ho E0]]]]]]].
      - apply (su_L_PR S) in H. destruct H as [n [q [n' [q' [H _]]]]]. apply (su_PR S) in H. lia.
      - injection E0 as -> -> ->. destruct (su_OB_N S n q fi H Hf) as [r [q0 HO]].
        exists r, q0, n, q, fi. repeat split; auto. destruct o as [j r']. now exists r'.
    Qed.

    Lemma opp_inv : forall i t' q fi', In (i, t') (tetras s') -> In (q, fi') t' ->
      forall j r, opp_in (tetras s') i (face fi') = Some (Some (Conn j r)) <-> (j <> i /\ has_side s' j r (face fi')).
    Proof.
      intros i t' q fi' Hi Hq j r.
      assert (HS : has_side s' i q (face fi')) by (now exists t', fi').
      rewrite (bt_opp _ _ _ _ (su_built S)). generalize dependent (face fi'). intros f HS.
      rewrite result_side. apply result_side in HS.
      destruct HS as [[NR [t [fi [Ht [Hfi <-]]]]]|[fi [[t [Ht Hfi]] <-]]].
      - (* an old tetra *)
        pose proof (face_lt i t q fi Ht Hfi) as Hlt.
        assert (NG : ~ In (face fi) G) by (intro X; apply NR; eapply (su_G S); eauto).
        pose proof (iv_opp s I i t q fi Ht Hfi) as OPP.
        destruct (lookup_event E i (face fi)) as [c|] eqn:EL.
        + apply lookup_event_In in EL. destruct (E_old i (face fi) c Hlt EL) as [r0 [q0 [n [q' [g [HO [Eg [-> [r' Hg]]]]]]]]].
          destruct (su_OB S _ _ _ _ _ HO) as [[Hr0 [t0 [Ht0 Hg0]]] [HN0 _]].
          split.
          * intros [= <- <-]. split.
            -- destruct HN0 as [u [Hu _]]. intro X. symmetry in X. revert X. eapply old_not_new; eauto.
            -- right. exists g. split; [exact HN0|congruence].
          * intros [Hj [[NRj Hs]|[g' [HN' Eg']]]].
            -- exfalso.
               assert (X : opposing fi = Some (Conn j r)) by (apply OPP; auto).
               assert (Y : opposing fi = Some (Conn r0 q0)).
               { apply OPP. split; [intros ->; tauto|]. exists t0, g. auto. }
               rewrite X in Y. injection Y as -> _. tauto.
            -- assert (Hlt' : face g' < next_face s) by (rewrite Eg'; exact Hlt).
               destruct (su_OB_N S j r g' HN' Hlt') as [r1 [q1 HO1]].
               pose proof (OB_unique _ _ HO HO1) as X. cbn in X. rewrite Eg, Eg' in X.
               specialize (X eq_refl). injection X as _ _ -> -> _. reflexivity.
        + (* no event: the neighbour was not removed *)
          assert (HB : opp_in (tetras base ++ N) i (face fi) = Some (opposing fi)).
          { rewrite <- (inv_opp_in s i t q fi I Ht Hfi). unfold opp_in. rewrite arena_get_app.
            assert (NDb : NoDup (map fst (tetras base))).
            { pose proof (bt_ids _ _ _ _ (su_built S)) as ND. rewrite map_app in ND.
              apply NoDup_app_left in ND. exact ND. }
            rewrite (In_arena_get (tetras base) i t NDb); [|apply base_tetra; tauto].
            rewrite (In_arena_get (tetras s) i t (iv_ids s I) Ht). reflexivity. }
          rewrite HB. split.
          * intros [= X]. pose proof (proj1 (OPP j r) X) as [Hj Hs]. split; [exact Hj|]. left. split; [|exact Hs].
            intro HR. destruct Hs as [u [g [Hu [Hg Eg]]]].
            assert (HinR : inR j r g) by (split; [exact HR|now exists u]).
            rewrite <- Eg in NG. destruct (su_OB_R S j r g HinR NG) as [n [q' HO]].
            destruct (su_OB S _ _ _ _ _ HO) as [_ [HN0 _]].
            assert (Hopp : opposing g = Some (Conn i q)).
            { apply (iv_opp s I j u r g Hu Hg). split; [auto|]. exists t, fi. auto. }
            apply (lookup_event_None E i (face fi) (Conn n q')) in EL. apply EL.
            rewrite <- Eg. exact (su_E' S n q' g (Conn i q) HN0 Hopp).
          * intros [Hj [[NRj Hs]|[g' [HN' Eg']]]].
            -- f_equal. apply OPP. auto.
            -- exfalso. assert (Hlt' : face g' < next_face s) by (rewrite Eg'; exact Hlt).
               destruct (su_OB_N S j r g' HN' Hlt') as [r1 [q1 HO]].
               destruct (su_OB S _ _ _ _ _ HO) as [[Hr1 [t1 [Ht1 Hg1]]] _].
               assert (Hopp : opposing g' = Some (Conn i q)).
               { apply (iv_opp s I r1 t1 q1 g' Ht1 Hg1). split; [intros ->; tauto|]. exists t, fi. auto. }
               apply (lookup_event_None E i (face fi) (Conn j r)) in EL. apply EL.
               rewrite <- Eg'. exact (su_E' S j r g' (Conn i q) HN' Hopp).
      - (* a new tetra *)
        assert (HN : inN i q fi) by (now exists t).
        destruct (lt_dec (face fi) (next_face s)) as [Hlt|Hge].
        + destruct (su_OB_N S i q fi HN Hlt) as [r0 [q0 HO]].
          destruct (su_OB S _ _ _ _ _ HO) as [[Hr0 [t0 [Ht0 Hg0]]] [_ NG]].
          pose proof (iv_opp s I r0 t0 q0 fi Ht0 Hg0) as OPP.
          assert (EL : lookup_event E i (face fi) = None).
          { destruct (lookup_event E i (face fi)) as [c|] eqn:EL; [|reflexivity]. exfalso.
            apply lookup_event_In in EL. destruct (E_old i (face fi) c Hlt EL) as [r1 [q1 [n [q' [g [HO1 [Eg [_ [r' Hg]]]]]]]]].
            destruct (su_OB S _ _ _ _ _ HO1) as [[Hr1 [t1 [Ht1 Hg1]]] _].
            apply (iv_opp s I r1 t1 q1 g Ht1 Hg1) in Hg. destruct Hg as [_ [u [x [Hu _]]]].
            exact (old_not_new i u i t Hu Ht eq_refl). }
          rewrite EL, (in_opp_inN i t q fi Ht Hfi). split.
          * intros [= X]. apply OPP in X. destruct X as [Hj Hs]. pose proof Hs as Hs'.
            destruct Hs' as [u [g [Hu [Hg Eg]]]]. split.
            -- eapply old_not_new; eauto.
            -- left. split; [|exact Hs]. intro HR.
               assert (HinR : inR j r g) by (split; [exact HR|now exists u]).
               assert (NG' : ~ In (face g) G) by (rewrite Eg; exact NG).
               destruct (su_OB_R S j r g HinR NG') as [n [q' HO1]].
               pose proof (OB_unique _ _ HO HO1) as X. cbn in X. rewrite Eg in X. specialize (X eq_refl).
               injection X as X _ _ _ _. congruence.
          * intros [Hj [[NRj Hs]|[g' [HN' Eg']]]].
            -- f_equal. apply OPP. split; [|exact Hs]. intros ->. tauto.
            -- exfalso. assert (Hlt' : face g' < next_face s) by (rewrite Eg'; exact Hlt).
               destruct (su_OB_N S j r g' HN' Hlt') as [r1 [q1 HO1]].
               pose proof (OB_unique _ _ HO HO1) as X. cbn in X. rewrite Eg' in X. specialize (X eq_refl).
               injection X as _ _ X _ _. congruence.
        + (* a new face *)
          assert (Hge' : next_face s <= face fi) by lia.
          destruct (su_PR_N S i q fi HN Hge') as [_ [n' [q' HP]]].
          assert (Hsym : exists fi2, inN n' q' fi2 /\ face fi2 = face fi /\ i <> n' /\ In (i, face fi, Conn n' q') L).
          { destruct HP as [HP|HP]; apply (su_PR S) in HP; destruct HP as [_ [H1 [[x [y [H2 [H3 [H4 [H5 _]]]]]] [H6 H7]]]].
            - exists y. auto.
            - exists x. auto. }
          destruct Hsym as [fi2 [HN2 [Ef2 [Hne HL]]]].
          assert (HE : forall c, In (i, face fi, c) E -> c = Conn n' q').
          { intros c Hc. apply (su_E S) in Hc. destruct Hc as [Hc|[n [q2 [g [o [Hg [Ho Ec]]]]]]].
            - apply (su_L_PR S) in Hc. destruct Hc as [a [qa [b [qb [HP' [[-> ->]|[-> ->]]]]]]];
                destruct HP as [HP|HP]; destruct (PR_unique _ _ _ _ _ HP HP') as [X Y]; congruence.
            - exfalso. injection Ec as _ Ef _. destruct (su_PR_N S n q2 g Hg) as [Hn _]; [lia|]. congruence. }
          assert (EL : lookup_event E i (face fi) = Some (Conn n' q')).
          { destruct (lookup_event E i (face fi)) as [c|] eqn:EL.
            - apply lookup_event_In in EL. f_equal. now apply HE.
            - exfalso. apply (lookup_event_None E i (face fi) (Conn n' q') EL). apply (su_L S). exact HL. }
          rewrite EL. split.
          * intros [= <- <-]. split; [auto|]. right. now exists fi2.
          * intros [Hj [[NRj Hs]|[g' [HN' Eg']]]].
            -- exfalso. destruct Hs as [u [g [Hu [Hg Eg]]]]. pose proof (face_lt j u r g Hu Hg). lia.
            -- f_equal. f_equal.
               destruct (su_PR_N S j r g' HN') as [_ [n3 [q3 HP3]]]; [lia|]. rewrite Eg' in HP3.
               destruct HP as [HP|HP]; destruct HP3 as [HP3|HP3];
                 destruct (PR_unique _ _ _ _ _ HP HP3) as [X Y]; congruence.
    Qed.

    Lemma skel_entry (t t' : tetra) q fi' : skel t = skel t' -> In (q, fi') t' ->
      exists fi, In (q, fi) t /\ face fi = face fi' /\ flipped fi = flipped fi'.
    Proof.
      intros E0 H. assert (K : In (q, face fi', flipped fi') (skel t)).
      { rewrite E0. apply in_skel. now exists fi'. }
      apply in_skel in K. exact K.
    Qed.
    Lemma skel_points (t t' : tetra) : skel t = skel t' -> points_of t = points_of t'.
    Proof. intro E0. rewrite <- !kpoints_skel. congruence. Qed.
    Lemma skel_length (t t' : tetra) : skel t = skel t' -> length t = length t'.
    Proof. intro E0. apply (f_equal (@length _)) in E0. unfold skel in E0. now rewrite !map_length in E0. Qed.

    Lemma result_new n t : In (n, t) N -> exists t', In (n, t') (tetras s') /\ skel t' = skel t.
    Proof.
      intro H. assert (K : In (n, skel t) (skels (tetras s'))) by (apply result_skel; right; now exists t).
      apply in_skels in K. exact K.
    Qed.
    Lemma result_old i t : In (i, t) (tetras s) -> ~ In i R -> exists t', In (i, t') (tetras s') /\ skel t' = skel t.
    Proof.
      intros H NR. assert (K : In (i, skel t) (skels (tetras s'))) by (apply result_skel; left; now exists t).
      apply in_skels in K. exact K.
    Qed.

    Lemma surgery_faces : forall i t' q fi', In (i, t') (tetras s') -> In (q, fi') t' ->
      exists ps, In (face fi', ps) (faces s') /\ face_ok (points_of t') q ps (flipped fi').
    Proof.
      intros i t' q fi' H K. rewrite (bt_faces _ _ _ _ (su_built S)).
      apply result_tetra in H. destruct H as [[t [H [NR E0]]]|[t [H E0]]];
        destruct (skel_entry t t' q fi' E0 K) as [fi [Hfi [Ef Efl]]];
        rewrite <- (skel_points t t' E0), <- Ef, <- Efl.
      - destruct (iv_faces s I i t q fi H Hfi) as [ps [P1 P2]]. exists ps. split; [|exact P2].
        apply base_face. left. split; [exact P1|]. intro X. apply NR. eapply (su_G S); eauto.
      - apply (su_face_ok S i t q fi H Hfi).
    Qed.

    Lemma surgery_corners : forall i t', In (i, t') (tetras s') ->
      length t' = Datatypes.S d /\ NoDup (points_of t') /\ forall p, In p (points_of t') -> p < num_points s'.
    Proof.
      intros i t' H. rewrite (bt_points _ _ _ _ (su_built S)).
      apply result_tetra in H. destruct H as [[t [H [NR E0]]]|[t [H E0]]];
        rewrite <- (skel_points t t' E0), <- (skel_length t t' E0).
      - destruct (iv_corners s I i t H) as [A [B C]]. split; [exact A|]. split; [exact B|].
        intros p Hp. apply C in Hp. pose proof (su_base_points S). lia.
      - apply (su_corners S i t H).
    Qed.

    Lemma surgery_ids : NoDup (map fst (tetras s')).
    Proof. rewrite (built_ids _ _ _ _ (su_built S)). apply (bt_ids _ _ _ _ (su_built S)). Qed.

    (* connectedness: removed tetras are represented by one of the new ones *)
    Lemma adjacent_PR f n q n' q' : In (f, (n, q), (n', q')) PR -> adjacent s' n n'.
    Proof.
      intro H. apply (su_PR S) in H. destruct H as [_ [Hne [[x [y [H1 [H2 [H3 [H4 _]]]]]] _]]].
      exists f, q, q'. split; [exact Hne|]. split; apply result_side; right; [now exists x|now exists y].
    Qed.

    Lemma surgery_connected : connected s'.
    Proof.
      destruct (su_conn S) as [n0 [Hn0 HC]].
      assert (RN : forall n, In n (map fst N) -> reachable s' n0 n).
      { intros n Hn. destruct (HC n Hn) as [->|[f [q [q0 [HP|HP]]]]]; [constructor| |].
        - eapply reach_step; [constructor|]. eapply adjacent_PR; eauto.
        - eapply reach_step; [constructor|]. apply adjacent_sym. eapply adjacent_PR; eauto. }
      pose (phi := fun i => if existsb (Nat.eqb i) R then n0 else i).
      assert (phiR : forall i, In i R -> phi i = n0).
      { intros i Hi. unfold phi. apply in_R_dec in Hi. now rewrite Hi. }
      assert (phiN : forall i, ~ In i R -> phi i = i).
      { intros i Hi. unfold phi. destruct (existsb (Nat.eqb i) R) eqn:X; [|reflexivity].
        apply in_R_dec in X. tauto. }
      (* a removed tetra next to a kept one *)
      assert (OUT : forall i j f q r, i <> j -> In i R -> ~ In j R -> has_side s i q f -> has_side s j r f ->
                    reachable s' n0 j).
      { intros i j f q r Hne Hi Hj Hsi Hsj.
        destruct Hsi as [t [fi [Ht [Hfi Ef]]]]. destruct Hsj as [u [g [Hu [Hg Eg]]]].
        assert (NG : ~ In (face fi) G).
        { intro X. apply Hj. apply (su_G S j u r g Hu Hg). now rewrite Eg, <- Ef. }
        destruct (su_OB_R S i q fi) as [n [q' HO]]; [split; [exact Hi|now exists t]|exact NG|].
        destruct (su_OB S _ _ _ _ _ HO) as [_ [[v [Hv Hq']] _]].
        apply (reachable_trans s' n0 n j).
        - apply RN. change n with (fst (n, v)). now apply in_map.
        - eapply reach_step; [constructor|]. exists f, q', r. split.
          + intro X. symmetry in X. revert X. eapply old_not_new; eauto.
          + split; apply result_side.
            * right. exists fi. split; [now exists v|exact Ef].
            * left. split; [exact Hj|]. exists u, g. auto. }
      assert (STEP : forall i j, adjacent s i j -> reachable s' (phi i) (phi j)).
      { intros i j [f [q [r [Hne [Hsi Hsj]]]]].
        destruct (in_dec Nat.eq_dec i R) as [Ri|Ri]; destruct (in_dec Nat.eq_dec j R) as [Rj|Rj].
        - rewrite (phiR i Ri), (phiR j Rj). constructor.
        - rewrite (phiR i Ri), (phiN j Rj). eapply OUT; eauto.
        - rewrite (phiN i Ri), (phiR j Rj). apply reachable_sym. eapply (OUT j i); eauto.
        - rewrite (phiN i Ri), (phiN j Rj). eapply reach_step; [constructor|]. exists f, q, r.
          split; [exact Hne|]. split; apply result_side; left; auto. }
      assert (PATH : forall i j, reachable s i j -> reachable s' (phi i) (phi j)).
      { intros i j H. induction H; [constructor|]. eapply reachable_trans; [exact IHreachable|]. now apply STEP. }
      destruct (su_R S) as [r0 [u0 [Hr0 Hu0]]].
      assert (ALL : forall i t', In (i, t') (tetras s') -> reachable s' n0 i).
      { intros i t' H. apply result_tetra in H. destruct H as [[t [H [NR E0]]]|[t [H E0]]].
        - rewrite <- (phiN i NR), <- (phiR r0 Hr0). apply PATH. exact (iv_conn s I r0 i u0 t Hu0 H).
        - apply RN. change i with (fst (i, t)). now apply in_map. }
      intros i j t u Hi Hj. eapply reachable_trans; [apply reachable_sym|]; eapply ALL; eassumption.
    Qed.

    Lemma inN_unique n q fi fi' : inN n q fi -> inN n q fi' -> fi = fi'.
    Proof.
      intros [t [H K]] [t' [H' K']].
      assert (ND : NoDup (map fst N)).
      { pose proof (bt_ids _ _ _ _ (su_built S)) as X. rewrite map_app in X.
        revert X. generalize (map fst (tetras base)) as l. induction l as [|x l IH]; cbn; [auto|].
        intro X. inversion X; auto. }
      rewrite (NoDup_ids_eq N n t' t ND H' H) in K'.
      destruct (su_corners S n t H) as [_ [NP _]]. exact (NoDup_ids_eq t q fi fi' NP K K').
    Qed.

    Lemma surgery_flip : forall i t q fi j u r gi, In (i, t) (tetras s') -> In (q, fi) t -> In (j, u) (tetras s') ->
      In (r, gi) u -> face fi = face gi -> i <> j -> flipped gi = negb (flipped fi).
    Proof.
      assert (ON : forall i t q fi j g r, In (i, t) (tetras s) -> ~ In i R -> In (q, fi) t -> inN j r g ->
                face fi = face g -> flipped g = negb (flipped fi)).
      { intros i t q fi j g r Ht Hi Hq HN Ef.
        pose proof (face_lt i t q fi Ht Hq) as Hlt. rewrite Ef in Hlt.
        destruct (su_OB_N S j r g HN Hlt) as [r0 [q0 HO]].
        destruct (su_OB S _ _ _ _ _ HO) as [[Hr0 [t0 [Ht0 Hg0]]] _].
        apply (iv_flip s I i t q fi r0 t0 q0 g Ht Hq Ht0 Hg0 Ef). intros ->. tauto. }
      intros i t' q fi' j u' r gi' Hi Hq Hj Hr Ef Hne.
      apply result_tetra in Hi. apply result_tetra in Hj.
      destruct Hi as [[t [Ht [NRi E0]]]|[t [Ht E0]]]; destruct Hj as [[u [Hu [NRj E1]]]|[u [Hu E1]]];
        destruct (skel_entry t t' q fi' E0 Hq) as [fi [Hfi [Ef1 Efl1]]];
        destruct (skel_entry u u' r gi' E1 Hr) as [gi [Hgi [Eg1 Egl1]]];
        rewrite <- Efl1, <- Egl1; rewrite <- Ef1, <- Eg1 in Ef.
      - exact (iv_flip s I i t q fi j u r gi Ht Hfi Hu Hgi Ef Hne).
      - apply (ON i t q fi j gi r Ht NRi Hfi); [now exists u|exact Ef].
      - rewrite (ON j u r gi i fi q Hu NRj Hgi); [now rewrite negb_involutive|now exists t|auto].
      - assert (HN1 : inN i q fi) by (now exists t). assert (HN2 : inN j r gi) by (now exists u).
        destruct (lt_dec (face fi) (next_face s)) as [Hlt|Hge].
        + exfalso. destruct (su_OB_N S i q fi HN1 Hlt) as [r0 [q0 HO]].
          rewrite Ef in Hlt. destruct (su_OB_N S j r gi HN2 Hlt) as [r1 [q1 HO1]].
          pose proof (OB_unique _ _ HO HO1 Ef) as X. injection X as _ _ X _ _. congruence.
        + destruct (su_PR_N S i q fi HN1) as [_ [n1 [q1 HP1]]]; [lia|].
          destruct (su_PR_N S j r gi HN2) as [_ [n2 [q2 HP2]]]; [lia|]. rewrite <- Ef in HP2.
          assert (X : In (face fi, (i, q), (j, r)) PR \/ In (face fi, (j, r), (i, q)) PR).
          { destruct HP1 as [HP1|HP1]; destruct HP2 as [HP2|HP2]; destruct (PR_unique _ _ _ _ _ HP1 HP2) as [X Y];
              try (injection X as -> ->); try (injection Y as -> ->); try congruence; auto. }
          destruct X as [X|X]; apply (su_PR S) in X; destruct X as [_ [_ [[x [y [A1 [_ [A2 [_ A3]]]]]] _]]].
          * rewrite (inN_unique i q fi x HN1 A1), (inN_unique j r gi y HN2 A2). exact A3.
          * rewrite (inN_unique i q fi y HN1 A2), (inN_unique j r gi x HN2 A1), A3. now rewrite negb_involutive.
    Qed.

    Theorem surgery_inv : inv s'.
    Proof.
      constructor.
      - exact surgery_ids.
      - rewrite (bt_faces _ _ _ _ (su_built S)). exact surgery_faces_nodup.
      - intros i H. rewrite (built_ids _ _ _ _ (su_built S)) in H. now apply (bt_fresh _ _ _ _ (su_built S)).
      - intros f H. rewrite (bt_faces _ _ _ _ (su_built S)) in H. rewrite (bt_next_face _ _ _ _ (su_built S)).
        apply in_map_iff in H. destruct H as [[f' ps] [E0 H]]. cbn in E0. subst f'.
        apply base_face in H. destruct H as [[H _]|H].
        + apply Nat.lt_le_trans with (next_face s); [|apply (su_base_next_face S)].
          apply (iv_ffresh s I). change f with (fst (f, ps)). now apply in_map.
        + apply (su_F_fresh S). change f with (fst (f, ps)). now apply in_map.
      - exact surgery_corners.
      - exact surgery_faces.
      - intros i t' q fi' H K j r. rewrite <- (opp_inv i t' q fi' H K j r).
        assert (X : opp_in (tetras s') i (face fi') = Some (opposing fi')).
        { unfold opp_in. rewrite (In_arena_get _ _ _ surgery_ids H). cbn.
          rewrite (find_face_unique t' q fi'); [reflexivity| |exact K].
          intros q2 fi2 K2 E2.
          assert (NF : NoDup (map fst (faces s'))) by (rewrite (bt_faces _ _ _ _ (su_built S)); exact surgery_faces_nodup).
          destruct (entry_unique t' (faces s') q2 fi2 q fi' NF) as [_ Y]; auto.
          - apply (surgery_corners i t' H).
          - intros q0 fi0. apply (surgery_faces i t' q0 fi0 H). }
        rewrite X. split; [intros ->; reflexivity|now intros [= ->]].
      - exact surgery_flip.
      - intros f ps H. rewrite (bt_faces _ _ _ _ (su_built S)) in H. apply base_face in H.
        destruct H as [[H NG]|H].
        + destruct (iv_leak s I f ps H) as [i [q Hs]].
          destruct (in_dec Nat.eq_dec i R) as [Hi|Hi].
          * destruct Hs as [t [fi [Ht [Hfi Ef]]]].
            destruct (su_OB_R S i q fi) as [n [q' HO]]; [split; [exact Hi|now exists t]|now rewrite Ef|].
            destruct (su_OB S _ _ _ _ _ HO) as [_ [HN _]].
            exists n, q'. apply result_side. right. now exists fi.
          * exists i, q. apply result_side. left. auto.
        + destruct (su_F_used S f ps H) as [n [q [fi [HN Ef]]]]. exists n, q. apply result_side. right. now exists fi.
      - intros p Hp. rewrite (bt_points _ _ _ _ (su_built S)) in Hp.
        assert (X : (exists n u, In (n, u) N /\ In p (points_of u)) \/
                    (exists i t, In (i, t) (tetras s) /\ ~ In i R /\ In p (points_of t))).
        { destruct (lt_dec p (num_points s)) as [Hlt|Hge].
          - destruct (iv_points s I p Hlt) as [i [t [Ht Hpt]]].
            destruct (in_dec Nat.eq_dec i R) as [Hi|Hi].
            + left. eapply (su_points_R S); eauto.
            + right. now exists i, t.
          - left. apply (su_points_new S). lia. }
        destruct X as [[n [u [Hu Hpu]]]|[i [t [Ht [Hi Hpt]]]]].
        + destruct (result_new n u Hu) as [t' [H' E0]]. exists n, t'. split; [exact H'|].
          now rewrite (skel_points t' u E0).
        + destruct (result_old i t Ht Hi) as [t' [H' E0]]. exists i, t'. split; [exact H'|].
          now rewrite (skel_points t' t E0).
      - exact surgery_connected.
    Qed.
  End Surgery.
End Inv.
