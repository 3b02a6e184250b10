(** How the arenas change when tetras are inserted and connections are set. *)
From Coq Require Import List Arith Lia Bool Permutation.
From Verif Require Import Delaunay_Model Delaunay_Spec.
Import ListNotations.

Definition skel (t : tetra) : list (nat * nat * bool) :=
  map (fun e => (fst e, face (snd e), flipped (snd e))) t.
Definition skels (a : arena tetra) : list (nat * list (nat * nat * bool)) :=
  map (fun e => (fst e, skel (snd e))) a.
Definition opp_in (a : arena tetra) (i f : nat) : option (option connection) :=
  do t <- arena_get a i; do fi <- find_face t f; Some (opposing fi).
Definition sideb (k : list (nat * list (nat * nat * bool))) (i q f : nat) (b : bool) : Prop :=
  exists t, In (i, t) k /\ In (q, f, b) t.

Lemma skels_ids a : map fst (skels a) = map fst a.
Proof. unfold skels. rewrite map_map. reflexivity. Qed.
Lemma skels_app a b : skels (a ++ b) = skels a ++ skels b.
Proof. apply map_app. Qed.

Lemma arena_get_In {A} (a : arena A) i v : arena_get a i = Some v -> In (i, v) a.
Proof.
  unfold arena_get. destruct (find _ a) as [[j w]|] eqn:E; cbn; [|discriminate].
  intros [= <-]. apply find_some in E. destruct E as [E K]. cbn in K. apply Nat.eqb_eq in K. now subst.
Qed.
Lemma In_arena_get {A} (a : arena A) i v :
  NoDup (map fst a) -> In (i, v) a -> arena_get a i = Some v.
Proof.
  unfold arena_get. induction a as [|[j w] a IH]; cbn; [tauto|].
  intros ND [E|H].
  - injection E as -> ->. now rewrite Nat.eqb_refl.
  - inversion ND as [|? ? N1 N2]; subst. destruct (Nat.eqb_spec j i) as [->|Hne].
    + exfalso. apply N1. change i with (fst (i, v)). now apply in_map.
    + now apply IH.
Qed.
Lemma arena_get_None {A} (a : arena A) i : arena_get a i = None <-> ~ In i (map fst a).
Proof.
  unfold arena_get. induction a as [|[j w] a IH]; cbn; [tauto|].
  destruct (Nat.eqb_spec j i) as [->|Hne]; cbn.
  - split; [discriminate|tauto].
  - rewrite IH. tauto.
Qed.
Lemma arena_get_app {A} (a b : arena A) i :
  arena_get (a ++ b) i = match arena_get a i with Some v => Some v | None => arena_get b i end.
Proof.
  unfold arena_get. induction a as [|[j w] a IH]; cbn; [reflexivity|].
  destruct (j =? i); cbn; [reflexivity|exact IH].
Qed.
Lemma arena_get_set {A} (a : arena A) i v j :
  arena_get (arena_set a i v) j =
  if j =? i then match arena_get a i with Some _ => Some v | None => None end else arena_get a j.
Proof.
  unfold arena_get, arena_set. induction a as [|[k w] a IH]; cbn; [destruct (j =? i); reflexivity|].
  destruct (Nat.eqb_spec j i) as [Eji|Nji].
  - subst j. destruct (Nat.eqb_spec k i) as [Eki|Nki]; cbn.
    + destruct (Nat.eqb_spec k i); [reflexivity|congruence].
    + destruct (Nat.eqb_spec k i); [congruence|]. exact IH.
  - destruct (Nat.eqb_spec k i) as [Eki|Nki]; cbn.
    + destruct (Nat.eqb_spec k j); [congruence|]. exact IH.
    + destruct (k =? j); [reflexivity|exact IH].
Qed.

Lemma find_face_In t f fi : find_face t f = Some fi -> exists q, In (q, fi) t /\ face fi = f.
Proof.
  unfold find_face. intro E. apply find_some in E. destruct E as [H K].
  apply in_map_iff in H. destruct H as [[q g] [<- H]]. cbn in *. apply Nat.eqb_eq in K. now exists q.
Qed.
Lemma find_face_exists t f q b : In (q, f, b) (skel t) -> exists fi, find_face t f = Some fi.
Proof.
  unfold skel, find_face. intro H. apply in_map_iff in H. destruct H as [[p g] [E H]]. cbn in E.
  injection E as -> <- <-.
  destruct (find _ (map snd t)) as [x|] eqn:F; [now exists x|].
  exfalso. pose proof (find_none _ _ F g) as K. cbn in K. rewrite Nat.eqb_refl in K.
  enough (true = false) by discriminate. apply K. change g with (snd (q, g)). now apply in_map.
Qed.

Lemma set_in_spec t f c q b :
  In (q, f, b) (skel t) ->
  exists t', set_in t f c = Some t' /\ skel t' = skel t /\
    forall f', (do fi <- find_face t' f'; Some (opposing fi)) =
               if f' =? f then Some (Some c) else (do fi <- find_face t f'; Some (opposing fi)).
Proof.
  induction t as [|[p fi] t IH]; cbn; [tauto|].
  intro H. destruct (Nat.eqb_spec (face fi) f) as [Ef|Nf].
  - eexists. split; [reflexivity|]. split; [cbn; reflexivity|].
    intro f'. unfold find_face. cbn. rewrite Ef.
    destruct (Nat.eqb_spec f' f) as [Hff|Hne].
    + subst f'. now rewrite Nat.eqb_refl.
    + destruct (Nat.eqb_spec f f') as [Hff|_]; [congruence|]. reflexivity.
  - destruct H as [H|H]; [injection H; congruence|].
    destruct (IH H) as [t' [E [Sk F]]]. rewrite E. cbn. eexists. split; [reflexivity|].
    split; [unfold skel in *; cbn; now rewrite Sk|].
    intro f'. specialize (F f'). unfold find_face in *. cbn.
    destruct (Nat.eqb_spec (face fi) f') as [Hf|Hf].
    + destruct (Nat.eqb_spec f' f) as [Hff|_]; [congruence|]. reflexivity.
    + exact F.
Qed.

Lemma skels_set (a : arena tetra) i t t' :
  NoDup (map fst a) -> In (i, t) a -> skel t' = skel t -> skels (arena_set a i t') = skels a.
Proof.
  unfold skels, arena_set. induction a as [|[j u] a IH]; cbn; [tauto|].
  intros ND H E. inversion ND as [|? ? N1 N2]; subst. destruct (Nat.eqb_spec j i) as [->|Hne]; cbn.
  - destruct H as [H|H].
    + injection H as ->. unfold skel in E; rewrite E. f_equal.
      clear IH ND N2 E. induction a as [|[k w] a IHa]; cbn; [reflexivity|].
      destruct (Nat.eqb_spec k i) as [->|Hki]; [exfalso; apply N1; now left|].
      cbn. f_equal. apply IHa. intro Hin. apply N1. now right.
    + exfalso. apply N1. change i with (fst (i, t)). now apply in_map.
  - destruct H as [H|H]; [injection H; congruence|]. f_equal. now apply IH.
Qed.

(** Setting one connection. *)
Lemma set_opposing_spec s i f c q b :
  NoDup (map fst (tetras s)) -> sideb (skels (tetras s)) i q f b ->
  exists s', set_opposing s i f c = Some s' /\ skels (tetras s') = skels (tetras s) /\
    next_tetra s' = next_tetra s /\ faces s' = faces s /\ next_face s' = next_face s /\
    num_points s' = num_points s /\ last_insertion s' = last_insertion s /\
    forall i' f', opp_in (tetras s') i' f' =
      if (i' =? i) && (f' =? f) then Some (Some c) else opp_in (tetras s) i' f'.
Proof.
  intros ND [k [H K]]. unfold skels in H. apply in_map_iff in H. destruct H as [[j t] [E H]].
  cbn in E. injection E as -> <-.
  destruct (set_in_spec t f c q b K) as [t' [E [Sk F]]].
  unfold set_opposing. rewrite (In_arena_get _ _ _ ND H). cbn. rewrite E. cbn.
  eexists. split; [reflexivity|]. cbn. split; [now apply (skels_set _ _ t)|].
  repeat split; auto. intros i' f'. unfold opp_in. rewrite arena_get_set.
  destruct (Nat.eqb_spec i' i) as [->|Hne]; cbn [andb].
  - rewrite (In_arena_get _ _ _ ND H). cbn. rewrite F. reflexivity.
  - reflexivity.
Qed.

(** The state after some insertions and assignments, relative to a base state. *)
Notation event := (nat * nat * connection)%type.
Definition lookup_event (E : list event) (i f : nat) : option connection :=
  option_map snd (find (fun e => (fst (fst e) =? i) && (snd (fst e) =? f)) E).
Definition links (n : nat) (t : tetra) : list event :=
  flat_map (fun e => match opposing (snd e) with
                     | Some o => [(conn_tetra o, face (snd e), Conn n (fst e))]
                     | None => []
                     end) t.

Record built (base : triangulation) (N : arena tetra) (E : list event) (s : triangulation) : Prop := {
  bt_skels : skels (tetras s) = skels (tetras base) ++ skels N;
  bt_next : next_tetra s = next_tetra base + length N;
  bt_faces : faces s = faces base;
  bt_next_face : next_face s = next_face base;
  bt_points : num_points s = num_points base;
  bt_last : last_insertion s = last_insertion base;
  bt_ids : NoDup (map fst (tetras base ++ N));
  bt_fresh : forall i, In i (map fst (tetras base ++ N)) -> i < next_tetra s;
  bt_opp : forall i f, opp_in (tetras s) i f =
    match lookup_event E i f with
    | Some c => Some (Some c)
    | None => opp_in (tetras base ++ N) i f
    end
}.

Lemma built_ids base N E s : built base N E s -> map fst (tetras s) = map fst (tetras base ++ N).
Proof.
  intro B. rewrite <- skels_ids, (bt_skels _ _ _ _ B), <- skels_app, skels_ids. reflexivity.
Qed.

Lemma built_start base :
  NoDup (map fst (tetras base)) -> (forall i, In i (map fst (tetras base)) -> i < next_tetra base) ->
  built base [] [] base.
Proof.
  intros ND F. constructor; auto; rewrite ?app_nil_r; auto.
Qed.

Lemma built_set base N E s i f c q b :
  built base N E s -> sideb (skels (tetras base ++ N)) i q f b ->
  exists s', set_opposing s i f c = Some s' /\ built base N ((i, f, c) :: E) s'.
Proof.
  intros B H.
  assert (ND : NoDup (map fst (tetras s))) by (rewrite (built_ids _ _ _ _ B); apply (bt_ids _ _ _ _ B)).
  rewrite skels_app, <- (bt_skels _ _ _ _ B) in H.
  destruct (set_opposing_spec s i f c q b ND H) as [s' [E1 [E2 [E3 [E4 [E5 [E6 [E7 E8]]]]]]]].
  exists s'. split; [exact E1|]. destruct B as [b1 b2 b3 b4 b5 b6 b7 b8 b9]. constructor; try congruence.
  - intros j Hj. rewrite E3. now apply b8.
  - intros i' f'. rewrite E8. unfold lookup_event. cbn [find fst snd].
    rewrite (Nat.eqb_sym i i'), (Nat.eqb_sym f f').
    destruct ((i' =? i) && (f' =? f)); [reflexivity|]. apply b9.
Qed.

Lemma update_connections_built base N n t : forall r s E,
  built base N E s ->
  (forall e o, In e r -> opposing (snd e) = Some o ->
     exists q b, sideb (skels (tetras base ++ N)) (conn_tetra o) q (face (snd e)) b) ->
  incl r t ->
  exists s', update_connections s n r = Some s' /\ built base N (rev (links n r) ++ E) s'.
Proof.
  induction r as [|[p fi] r IH]; intros s E B H I; cbn.
  - exists s. split; [reflexivity|exact B].
  - destruct (opposing fi) as [o|] eqn:Eo.
    + destruct (H (p, fi) o (or_introl eq_refl) Eo) as [q [b Hs]]. cbn in Hs.
      destruct (built_set _ _ _ _ _ _ (Conn n p) _ _ B Hs) as [s1 [E1 B1]].
      rewrite E1. cbn.
      destruct (IH s1 _ B1) as [s2 [E2 B2]].
      * intros e o' He. apply H. now right.
      * intros e He. apply I. now right.
      * exists s2. split; [exact E2|]. cbn. rewrite <- app_assoc. exact B2.
    + destruct (IH s E B) as [s2 [E2 B2]].
      * intros e o' He. apply H. now right.
      * intros e He. apply I. now right.
      * exists s2. split; [exact E2|]. exact B2.
Qed.

Lemma opp_in_app_fresh (a b : arena tetra) n t i f :
  ~ In n (map fst (a ++ b)) ->
  opp_in (a ++ b ++ [(n, t)]) i f =
  if i =? n then (do fi <- find_face t f; Some (opposing fi)) else opp_in (a ++ b) i f.
Proof.
  intro Hn. unfold opp_in. rewrite app_assoc. rewrite (arena_get_app (a ++ b)).
  destruct (Nat.eqb_spec i n) as [->|Hne].
  - rewrite (proj2 (arena_get_None (a ++ b) n) Hn). unfold arena_get. cbn. rewrite Nat.eqb_refl. reflexivity.
  - destruct (arena_get (a ++ b) i); [reflexivity|]. unfold arena_get. cbn.
    destruct (Nat.eqb_spec n i); [congruence|]. reflexivity.
Qed.

Lemma push_built base N E s t :
  built base N E s ->
  (forall e, In e E -> fst (fst e) <> next_tetra s) ->
  built base (N ++ [(next_tetra s, t)]) E (push_tetra s t).
Proof.
  intros B HE. pose proof B as B0. destruct B0 as [b1 b2 b3 b4 b5 b6 b7 b8 b9].
  assert (Hn : ~ In (next_tetra s) (map fst (tetras base ++ N))).
  { intro H. apply b8 in H. lia. }
  constructor; cbn; auto.
  - rewrite skels_app, b1, skels_app, app_assoc. reflexivity.
  - rewrite app_length. cbn. lia.
  - rewrite app_assoc, map_app. cbn.
    apply (Permutation_NoDup (l := next_tetra s :: map fst (tetras base ++ N))).
    + apply Permutation_cons_append.
    + constructor; auto.
  - intros i. rewrite app_assoc, map_app, in_app_iff. cbn. intros [H|[<-|[]]]; [|lia].
    apply b8 in H. lia.
  - intros i f. specialize (b9 i f).
    rewrite (opp_in_app_fresh _ _ _ _ _ _ Hn).
    assert (Hids : ~ In (next_tetra s) (map fst (tetras s ++ []))).
    { rewrite app_nil_r, (built_ids _ _ _ _ B). exact Hn. }
    pose proof (opp_in_app_fresh (tetras s) [] (next_tetra s) t i f Hids) as K.
    cbn in K. rewrite app_nil_r in K. rewrite K.
    destruct (Nat.eqb_spec i (next_tetra s)) as [->|Hne].
    + destruct (lookup_event E (next_tetra s) f) as [c|] eqn:F; [|reflexivity].
      exfalso. unfold lookup_event in F.
      destruct (find _ E) as [e|] eqn:G; [|discriminate].
      apply find_some in G. destruct G as [G1 G2]. apply andb_prop in G2. destruct G2 as [G2 _].
      apply Nat.eqb_eq in G2. apply (HE e G1 G2).
    + exact b9.
Qed.

(** Inserting one tetra. *)
Lemma built_insert base N E s t n :
  built base N E s -> n = next_tetra base + length N ->
  (forall e, In e E -> fst (fst e) < n) ->
  debug_faces base t = true ->
  (forall e o, In e t -> opposing (snd e) = Some o ->
     exists q b, sideb (skels (tetras base)) (conn_tetra o) q (face (snd e)) b) ->
  exists s', insert_tetra s t = Some (n, s') /\
             built base (N ++ [(n, t)]) (rev (links n t) ++ E) s'.
Proof.
  intros B Hn HE D H.
  assert (En : next_tetra s = n) by (rewrite (bt_next _ _ _ _ B); lia).
  unfold insert_tetra.
  assert (D' : debug_faces s t = true).
  { unfold debug_faces in *. rewrite (bt_faces _ _ _ _ B). exact D. }
  rewrite D'. cbn [guard bind].
  assert (B1 : built base (N ++ [(n, t)]) E (push_tetra s t)).
  { rewrite <- En. apply push_built; [exact B|]. intros e He. apply HE in He. lia. }
  destruct (update_connections_built base (N ++ [(n, t)]) n t t _ _ B1) as [s' [E1 B2]].
  - intros e o He Ho. destruct (H e o He Ho) as [q [b [k [K1 K2]]]]. exists q, b, k.
    split; [|exact K2]. rewrite skels_app. apply in_or_app. now left.
  - apply incl_refl.
  - rewrite En, E1. cbn. exists s'. split; [reflexivity|exact B2].
Qed.
