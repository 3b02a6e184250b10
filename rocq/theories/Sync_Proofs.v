(** Proofs about the mirrors of entities. *)
From Coq Require Import List Arith NArith Lia Bool Permutation.
From Verif Require Import DataByRank_Model DataByRank_Spec DataByRank_Proofs Exchange_Model Exchange_Spec ParticleExchange_Model Sync_Spec Sync_Model.
Import ListNotations.

Lemma entity_eqb_eq a b : entity_eqb a b = true <-> a = b.
Proof.
  destruct a as [g i], b as [g' i']. unfold entity_eqb. cbn. rewrite andb_true_iff, !N.eqb_eq. split; [intros [-> ->]; reflexivity|intro H; injection H; auto].
Qed.
Lemma entity_dec (a b : entity) : {a = b} + {a <> b}.
Proof. decide equality; apply N.eq_dec. Qed.
Lemma bits_inj a b : (index a < 2 ^ 32)%N -> (index b < 2 ^ 32)%N -> to_bits a = to_bits b -> a = b.
Proof.
  destruct a as [g i], b as [g' i']. unfold to_bits. cbn [generation index]. intros H1 H2 E.
  assert (g = g') by (apply (N.mul_cancel_r _ _ (2 ^ 32)); nia). subst g'. f_equal. lia.
Qed.
Lemma from_to_bits e : (index e < 2 ^ 32)%N -> from_bits (to_bits e) = e.
Proof.
  destruct e as [g i]. unfold from_bits, to_bits. cbn [generation index]. intro H. f_equal.
  - rewrite N.div_add_l by discriminate. rewrite N.div_small by exact H. lia.
  - rewrite N.add_comm, N.mod_add by discriminate. now apply N.mod_small.
Qed.

Section Maps.
  Context {K V : Type} (eqb : K -> K -> bool).
  Hypothesis eqb_eq : forall a b, eqb a b = true <-> a = b.
  Lemma hget_some (m : list (K * V)) k v : NoDup (map fst m) -> hget eqb m k = Some v <-> In (k, v) m.
  Proof.
    unfold hget. induction m as [|[k' v'] m IH]; cbn [map find fst In]; intro N.
    - split; [discriminate|intros []].
    - inversion N as [|? ? N1 N2]; subst. destruct (eqb k' k) eqn:B.
      + apply eqb_eq in B. subst k'. cbn. split; [intro H; injection H as ->; now left|].
        intros [H|H]; [injection H as ->; reflexivity|]. destruct N1. apply in_map_iff. now exists (k, v).
      + rewrite (IH N2). split; [now right|]. intros [H|H]; [|exact H]. injection H as -> ->.
        assert (eqb k k = true) by now apply eqb_eq. congruence.
  Qed.
  Lemma hget_none (m : list (K * V)) k : hget eqb m k = None <-> ~ In k (map fst m).
  Proof.
    unfold hget. induction m as [|[k' v'] m IH]; cbn [map find fst In].
    - split; [intros _ []|reflexivity].
    - destruct (eqb k' k) eqn:B.
      + apply eqb_eq in B. subst k'. cbn. split; [discriminate|]. intro H. destruct H. now left.
      + rewrite IH. split; intros H; [|tauto]. intros [->|H']; [|tauto].
        assert (eqb k k = true) by now apply eqb_eq. congruence.
  Qed.
  Lemma in_hremove (m : list (K * V)) k k' v : In (k', v) (hremove eqb m k) <-> In (k', v) m /\ k' <> k.
  Proof.
    unfold hremove. rewrite filter_In. cbn [fst]. split; intros [H1 H2]; (split; [exact H1|]).
    - intros ->. assert (eqb k k = true) by now apply eqb_eq. rewrite H in H2. discriminate.
    - destruct (eqb k' k) eqn:B; [apply eqb_eq in B; tauto|reflexivity].
  Qed.
  Lemma nodup_filter_fst (m : list (K * V)) f : NoDup (map fst m) -> NoDup (map fst (filter f m)).
  Proof.
    induction m as [|[k v] m IH]; intro N; [constructor|]. inversion N as [|? ? N1 N2]; subst. cbn [filter].
    destruct (f (k, v)); [|exact (IH N2)]. cbn [map fst]. constructor; [|exact (IH N2)].
    intro H. apply N1. apply in_map_iff in H. destruct H as [p [H1 H2]]. apply filter_In in H2. apply in_map_iff. exists p. tauto.
  Qed.
  Lemma hremove_absent (m : list (K * V)) k : ~ In k (map fst m) -> hremove eqb m k = m.
  Proof.
    unfold hremove. induction m as [|[k' v] m IH]; intro H; [reflexivity|]. cbn [filter fst].
    destruct (eqb k' k) eqn:B.
    - apply eqb_eq in B. subst k'. destruct H. now left.
    - cbn. rewrite IH; [reflexivity|]. intro H'. apply H. now right.
  Qed.
  Lemma nodup_hinsert (m : list (K * V)) k v : NoDup (map fst m) -> NoDup (map fst (hinsert eqb m k v)).
  Proof.
    intro N. unfold hinsert. rewrite map_app. cbn. apply (Permutation_NoDup (l := k :: map fst (hremove eqb m k))).
    - apply Permutation_cons_append.
    - constructor; [|now apply nodup_filter_fst]. intro H. apply in_map_iff in H. destruct H as [[k' v'] [H1 H2]]. cbn in H1. subst k'.
      apply in_hremove in H2. tauto.
  Qed.
  Lemma in_hinsert (m : list (K * V)) k v k' v' : In (k', v') (hinsert eqb m k v) <-> (k' = k /\ v' = v) \/ (k' <> k /\ In (k', v') m).
  Proof.
    unfold hinsert. rewrite in_app_iff, in_hremove. cbn. split.
    - intros [[H1 H2]|[H|[]]]; [right; tauto|]. injection H as -> ->. now left.
    - intros [[-> ->]|[H1 H2]]; [right; now left|left; tauto].
  Qed.
End Maps.

Lemma in_fst {A B} (a : A) (b : B) l : In (a, b) l -> In a (map fst l).
Proof. intro H. apply in_map_iff. now exists (a, b). Qed.
Lemma in_snd {A B} (a : A) (b : B) l : In (a, b) l -> In b (map snd l).
Proof. intro H. apply in_map_iff. now exists (a, b). Qed.
Lemma fst_in {A B} (a : A) (l : list (A * B)) : In a (map fst l) -> exists b, In (a, b) l.
Proof. intro H. apply in_map_iff in H. destruct H as [[a' b] [E H]]. cbn in E. subst. now exists b. Qed.
Lemma snd_in {A B} (b : B) (l : list (A * B)) : In b (map snd l) -> exists a, In (a, b) l.
Proof. intro H. apply in_map_iff in H. destruct H as [[a b'] [E H]]. cbn in E. subst. now exists a. Qed.
Lemma nodup_fst {A B} (l : list (A * B)) a b b' : NoDup (map fst l) -> In (a, b) l -> In (a, b') l -> b = b'.
Proof.
  induction l as [|[x y] l IH]; cbn [map fst]; intros N H H'; [destruct H|]. inversion N as [|? ? N1 N2]; subst.
  destruct H as [H|H], H' as [H'|H'].
  - congruence.
  - injection H as -> ->. destruct N1. now apply in_fst in H'.
  - injection H' as -> ->. destruct N1. now apply in_fst in H.
  - exact (IH N2 H H').
Qed.

Lemma nodup_snd {A B} (l : list (A * B)) a a' b : NoDup (map snd l) -> In (a, b) l -> In (a', b) l -> a = a'.
Proof.
  induction l as [|[x y] l IH]; cbn [map snd]; intros N H H'; [destruct H|]. inversion N as [|? ? N1 N2]; subst.
  destruct H as [H|H], H' as [H'|H'].
  - congruence.
  - injection H as -> ->. destruct N1. now apply in_snd in H'.
  - injection H' as -> ->. destruct N1. now apply in_snd in H.
  - exact (IH N2 H H').
Qed.
Lemma nodup_app_not {A} (l m : list A) x : NoDup (l ++ m) -> In x l -> In x m -> False.
Proof.
  induction l as [|y l IH]; intros N H H'; [destruct H|]. inversion N as [|? ? N1 N2]; subst. destruct H as [<-|H]; [|exact (IH N2 H H')].
  apply N1. apply in_app_iff. now right.
Qed.
Lemma nodup_app_r {A} (l m : list A) : NoDup (l ++ m) -> NoDup m.
Proof. induction l as [|y l IH]; intro N; [exact N|]. inversion N; subst. now apply IH. Qed.

Section Sync.
  Context {T : Type}.
  Variable n : nat.
  Variable order_sync : list (entity * T) -> list (entity * T).
  Variable order_keys : list N -> list N.
  Variable alloc : list (entity * T) -> entity.
  Hypothesis order_sync_ok : forall l, Permutation (order_sync l) l.
  Hypothesis order_keys_ok : forall l, Permutation (order_keys l) l.
  Hypothesis alloc_ok : forall w, ~ In (alloc w) (map fst w).

  Lemma absorb_ok (data : list (N * T)) : NoDup (map fst data) -> forall w known nm upd, NoDup (map fst w) -> NoDup (map fst known) ->
    exists new added nm' upds, absorb alloc data w known nm upd = (w ++ new, known ++ added, nm', upd ++ upds)
      /\ (forall q, In q nm' <-> In q nm /\ ~ (In q (map fst data) /\ In q (map fst known)))
      /\ (NoDup nm -> NoDup nm')
      /\ NoDup (map fst (w ++ new))
      /\ NoDup (map fst (known ++ added))
      /\ (forall k, In k (map fst added) <-> In k (map fst data) /\ ~ In k (map fst known))
      /\ map snd added = map fst new
      /\ (forall k e, In (k, e) added -> exists d, In (k, d) data /\ In (e, d) new)
      /\ (forall e d, In (e, d) upds <-> exists k, In (k, d) data /\ In (k, e) known).
  Proof.
    induction data as [|[k d] data IH]; intros N w known nm upd Nw Nk.
    - exists [], [], nm, []. cbn [absorb]. rewrite !app_nil_r. split; [reflexivity|].
      split; [intro q; split; [intro H; split; [exact H|intros [[] _]]|tauto]|].
      split; [auto|]. split; [exact Nw|]. split; [exact Nk|]. split; [intro k; split; [intros []|intros [[] _]]|].
      split; [reflexivity|]. split; [intros ? ? []|]. intros e d. split; [intros []|intros [? [[] _]]].
    - inversion N as [|? ? N1 N2]; subst. cbn [absorb]. destruct (hget N.eqb known k) as [e|] eqn:G.
      + apply (hget_some _ N.eqb_eq) in G; [|exact Nk].
        destruct (IH N2 w known (filter (fun q => negb (q =? k)%N) nm) (upd ++ [(e, d)]) Nw Nk)
          as (new & added & nm' & upds & E & H1 & H2 & H3 & H4 & H5 & H6 & H7 & H8).
        exists new, added, nm', ((e, d) :: upds). rewrite E, <- app_assoc. split; [reflexivity|].
        assert (Kk : In k (map fst known)) by exact (in_fst _ _ _ G).
        split; [|split; [|split; [exact H3|split; [exact H4|split; [|split; [exact H6|split]]]]]].
        * intro q. rewrite H1, filter_In. cbn [map fst In]. destruct (N.eqb_spec q k) as [->|Hq]; cbn; [intuition congruence|]. intuition congruence.
        * intro H. apply H2. now apply NoDup_filter.
        * intro q. rewrite H5. cbn [map fst In]. split; [tauto|]. intros [[<-|H] H']; tauto.
        * intros k' e' H. destruct (H7 _ _ H) as [d' [A B]]. exists d'. split; [now right|exact B].
        * intros e' d'. cbn [In]. rewrite H8. split.
          -- intros [H|[k' [A B]]]; [injection H as <- <-; exists k; split; [now left|exact G]|]. exists k'. tauto.
          -- intros [k' [[A|A] B]]; [|right; exists k'; tauto]. injection A as <- <-. left. f_equal. exact (nodup_fst _ _ _ _ Nk G B).
      + apply (hget_none _ N.eqb_eq) in G. unfold spawn. unfold hinsert. rewrite (hremove_absent _ N.eqb_eq) by exact G.
        assert (Nw1 : NoDup (map fst (w ++ [(alloc w, d)]))).
        { rewrite map_app. cbn. apply (Permutation_NoDup (l := alloc w :: map fst w)); [apply Permutation_cons_append|]. constructor; [apply alloc_ok|exact Nw]. }
        assert (Nk1 : NoDup (map fst (known ++ [(k, alloc w)]))).
        { rewrite map_app. cbn. apply (Permutation_NoDup (l := k :: map fst known)); [apply Permutation_cons_append|]. now constructor. }
        destruct (IH N2 _ _ nm upd Nw1 Nk1) as (new & added & nm' & upds & E & H1 & H2 & H3 & H4 & H5 & H6 & H7 & H8).
        exists ((alloc w, d) :: new), ((k, alloc w) :: added), nm', upds. rewrite E, <- !app_assoc. split; [reflexivity|].
        rewrite <- app_assoc in H3, H4.
        assert (Kq : forall q, In q (map fst (known ++ [(k, alloc w)])) <-> In q (map fst known) \/ q = k).
        { intro q. rewrite map_app, in_app_iff. cbn. intuition congruence. }
        split; [|split; [exact H2|split; [exact H3|split; [exact H4|split; [|split; [|split]]]]]].
        * intro q. rewrite H1, Kq. cbn [map fst In]. split; intros [A B]; (split; [exact A|]); intros [C D].
          -- destruct C as [C|C]; [subst q; exact (G D)|]. apply B. tauto.
          -- destruct D as [D|D]; [apply B; tauto|]. subst q. exact (N1 C).
        * intro q. cbn [map fst In]. rewrite H5, Kq. split.
          -- intros [<-|[A B]]; [tauto|]. tauto.
          -- intros [[A|A] B]; [now left|]. right. split; [exact A|]. intros [C|C]; [tauto|]. congruence.
        * cbn. now rewrite H6.
        * intros k' e' [H|H].
          -- injection H as <- <-. exists d. split; now left.
          -- destruct (H7 _ _ H) as [d' [A B]]. exists d'. split; now right.
        * intros e' d'. rewrite H8. split; intros [k' [A B]]; exists k'.
          -- split; [now right|]. apply in_app_iff in B. destruct B as [B|[B|[]]]; [exact B|]. injection B as <- <-. destruct N1. exact (in_fst _ _ _ A).
          -- split; [|apply in_app_iff; now left]. destruct A as [A|A]; [|exact A]. injection A as <- <-. destruct G. exact (in_fst _ _ _ B).
  Qed.

  Lemma forget_ok (keys : list N) : NoDup keys -> forall known del, NoDup (map fst known) -> (forall k, In k keys -> In k (map fst known)) ->
    exists known' l, forget keys known del = Some (known', del ++ l)
      /\ NoDup (map fst known')
      /\ (forall k e, In (k, e) known' <-> In (k, e) known /\ ~ In k keys)
      /\ (forall e, In e l <-> exists k, In k keys /\ In (k, e) known).
  Proof.
    induction keys as [|k keys IH]; intros N known del Nk Hk; cbn [forget].
    - exists known, []. rewrite app_nil_r. split; [reflexivity|]. split; [exact Nk|]. split.
      + intros. cbn. tauto.
      + intro e. split; [intros []|intros [? [[] _]]].
    - inversion N as [|? ? N1 N2]; subst. destruct (fst_in _ _ (Hk k (or_introl eq_refl))) as [e He].
      assert (G : hget N.eqb known k = Some e) by now apply (hget_some _ N.eqb_eq).
      rewrite G. destruct (IH N2 (hremove N.eqb known k) (del ++ [e])) as (known' & l & E & H1 & H2 & H3).
      + now apply nodup_filter_fst.
      + intros k' H. destruct (fst_in _ _ (Hk k' (or_intror H))) as [e' He']. apply (in_fst _ e'). apply (in_hremove _ N.eqb_eq). split; [exact He'|]. congruence.
      + exists known', (e :: l). rewrite E, <- app_assoc. split; [reflexivity|]. split; [exact H1|]. split.
        * intros k' e'. rewrite H2, (in_hremove _ N.eqb_eq). cbn [In]. intuition congruence.
        * intro e'. cbn [In]. rewrite H3. split.
          -- intros [<-|[k' [A B]]]; [exists k; tauto|]. apply (in_hremove _ N.eqb_eq) in B. exists k'. tauto.
          -- intros [k' [[<-|A] B]]; [left; exact (nodup_fst _ _ _ _ Nk He B)|]. right. exists k'. split; [exact A|]. apply (in_hremove _ N.eqb_eq). split; [exact B|]. congruence.
  Qed.

  (** One rank: what is known afterwards is what was mentioned. *)
  Definition rank_ok (data : list (N * T)) (known known' : list (N * entity)) (new upds : list (entity * T)) (del : list entity) : Prop :=
    NoDup (map fst known')
    /\ (forall k, In k (map fst known') <-> In k (map fst data))
    /\ (forall k e, In (k, e) known -> In k (map fst data) -> In (k, e) known')
    /\ (forall k e, In (k, e) known' -> In (k, e) known \/ ~ In k (map fst known) /\ exists d, In (k, d) data /\ In (e, d) new)
    /\ (forall e, In e (map fst new) -> In e (map snd known'))
    /\ (forall e d, In (e, d) upds <-> exists k, In (k, d) data /\ In (k, e) known)
    /\ (forall e, In e del <-> exists k, In (k, e) known /\ ~ In k (map fst data)).

  Lemma receive_rank_ok data w known : NoDup (map fst data) -> NoDup (map fst w) -> NoDup (map fst known) ->
    (forall e, In e (map snd known) -> In e (map fst w)) -> (forall k k' e, In (k, e) known -> In (k', e) known -> k = k') ->
    exists new known' upds del, receive_rank order_keys alloc data w known = Some (w ++ new, known', upds, del)
      /\ NoDup (map fst (w ++ new)) /\ rank_ok data known known' new upds del
      /\ (forall k k' e, In (k, e) known' -> In (k', e) known' -> k = k').
  Proof.
    intros N Nw Nk Kw Ki. destruct (absorb_ok data N w known (map fst known) [] Nw Nk) as (new & added & nm & upds & E & H1 & H2 & H3 & H4 & H5 & H6 & H7 & H8).
    unfold receive_rank. rewrite E.
    assert (P : forall q, In q (order_keys nm) <-> In q (map fst known) /\ ~ In q (map fst data)).
    { intro q. split; intro H.
      - apply (Permutation_in _ (order_keys_ok nm)) in H. apply H1 in H. tauto.
      - apply (Permutation_in _ (Permutation_sym (order_keys_ok nm))). apply H1. tauto. }
    destruct (forget_ok (order_keys nm)) with (known := known ++ added) (del := @nil entity) as (known' & l & F & G1 & G2 & G3).
    - apply (Permutation_NoDup (l := nm)); [symmetry; apply order_keys_ok|]. exact (H2 Nk).
    - exact H4.
    - intros k H. apply P in H. rewrite map_app, in_app_iff. tauto.
    - exists new, known', upds, l. rewrite F. cbn [app]. split; [reflexivity|]. split; [exact H3|].
      assert (Ka : forall k e, In (k, e) (known ++ added) <-> In (k, e) known \/ In (k, e) added) by (intros; apply in_app_iff).
      assert (Kn : forall k e, In (k, e) added -> In k (map fst data) /\ ~ In k (map fst known)).
      { intros k e H. apply H5. exact (in_fst _ _ _ H). }
      split; [split; [exact G1|split; [|split; [|split; [|split; [|split]]]]]|].
      + intro k. split; intro H.
        * destruct (fst_in _ _ H) as [e He]. apply G2 in He. rewrite Ka, P in He. destruct He as [[He|He] Hn].
          -- destruct (in_dec N.eq_dec k (map fst data)) as [Y|Y]; [exact Y|]. destruct Hn. split; [exact (in_fst _ _ _ He)|exact Y].
          -- exact (proj1 (Kn _ _ He)).
        * destruct (in_dec N.eq_dec k (map fst known)) as [Y|Y].
          -- destruct (fst_in _ _ Y) as [e He]. apply (in_fst _ e). apply G2. rewrite Ka, P. tauto.
          -- assert (Z : In k (map fst added)) by (apply H5; tauto). destruct (fst_in _ _ Z) as [e He]. apply (in_fst _ e). apply G2. rewrite Ka, P. tauto.
      + intros k e A B. apply G2. rewrite Ka, P. tauto.
      + intros k e H. apply G2 in H. rewrite Ka, P in H. destruct H as [[H|H] _]; [now left|]. right. split; [exact (proj2 (Kn _ _ H))|]. exact (H7 _ _ H).
      + intros e H. rewrite <- H6 in H. destruct (snd_in _ _ H) as [k Hk]. apply (in_snd k). apply G2. rewrite Ka, P. specialize (Kn _ _ Hk). tauto.
      + exact H8.
      + intro e. rewrite G3. split; intros [k [A B]]; exists k.
        * apply P in A. apply Ka in B. destruct B as [B|B]; [tauto|]. specialize (Kn _ _ B). tauto.
        * rewrite P, Ka. split; [|tauto]. split; [exact (in_fst _ _ _ A)|exact B].
      + assert (Kd : forall k k' e, In (k, e) known -> In (k', e) added -> False).
        { intros k k' e A B. apply in_snd in A. apply Kw in A. apply in_snd in B. rewrite H6 in B. rewrite map_app in H3.
          exact (nodup_app_not _ _ _ H3 A B). }
        assert (Na : NoDup (map snd added)) by (rewrite H6; rewrite map_app in H3; exact (nodup_app_r _ _ H3)).
        intros k k' e A B. apply G2 in A. apply G2 in B. destruct A as [A _], B as [B _]. apply Ka in A. apply Ka in B.
        destruct A as [A|A], B as [B|B].
        * exact (Ki _ _ _ A B).
        * destruct (Kd _ _ _ A B).
        * destruct (Kd _ _ _ B A).
        * exact (nodup_snd _ _ _ _ Na A B).
  Qed.

  Lemma dmodify_ok {A} (v : dbr A) q f x : dindex v q = Some x ->
    exists v', dmodify v q f = Some v' /\ length v' = length v /\ forall p, nth_error v' p = if p =? q then Some (Some (f x)) else nth_error v p.
  Proof.
    intro H. unfold dmodify. rewrite H. apply set_slot_some. unfold dindex, dget in H.
    destruct (nth_error v q) eqn:E; [|discriminate]. apply nth_error_Some. congruence.
  Qed.
  Lemma dindex_eq {A} (v v' : dbr A) q : nth_error v q = nth_error v' q -> dindex v q = dindex v' q.
  Proof. unfold dindex, dget. now intros ->. Qed.

  Definition same_elsewhere {A} (xs : list nat) (v v' : dbr A) : Prop :=
    length v' = length v /\ forall q, ~ In q xs -> nth_error v' q = nth_error v q.

  Lemma receive_ranks_ok (D K : nat -> _) xs : NoDup xs -> forall w known r,
    NoDup (map fst w) ->
    (forall x, In x xs -> NoDup (map fst (D x)) /\ dindex known x = Some (K x) /\ NoDup (map fst (K x))
      /\ (forall e, In e (map snd (K x)) -> In e (map fst w)) /\ (forall k k' e, In (k, e) (K x) -> In (k', e) (K x) -> k = k')) ->
    (forall x, In x xs -> dindex (updated r) x = Some [] /\ dindex (deleted r) x = Some []) ->
    exists new known' r' K' N U L,
      receive_ranks order_keys alloc (map (fun x => (x, D x)) xs) w known r = Some (w ++ new, known', r')
      /\ NoDup (map fst (w ++ new))
      /\ same_elsewhere xs known known' /\ same_elsewhere xs (updated r) (updated r') /\ same_elsewhere xs (deleted r) (deleted r')
      /\ (forall x, In x xs -> dindex known' x = Some (K' x) /\ dindex (updated r') x = Some (U x) /\ dindex (deleted r') x = Some (L x)
           /\ rank_ok (D x) (K x) (K' x) (N x) (U x) (L x) /\ (forall k k' e, In (k, e) (K' x) -> In (k', e) (K' x) -> k = k')
           /\ incl (N x) new)
      /\ (forall p, In p new -> exists x, In x xs /\ In p (N x))
      /\ (forall x x' e, In x xs -> In x' xs -> In e (map fst (N x)) -> In e (map fst (N x')) -> x = x').
  Proof.
    induction xs as [|x xs IH]; intros Nx w known r Nw HK HR.
    - exists [], known, r, (fun _ => []), (fun _ => []), (fun _ => []), (fun _ => []). cbn. rewrite app_nil_r. split; [reflexivity|]. split; [exact Nw|].
      repeat split; try tauto; intros; try tauto.
    - inversion Nx as [|? ? N1 N2]; subst. cbn [map receive_ranks].
      destruct (HR x (or_introl eq_refl)) as [R1 R2]. destruct (HK x (or_introl eq_refl)) as (A1 & A2 & A3 & A4 & A5).
      rewrite R1, R2, A2.
      destruct (receive_rank_ok (D x) w (K x) A1 Nw A3 A4 A5) as (new & k' & upds & del & E & B1 & B2 & B3). rewrite E.
      destruct (dmodify_ok known x (fun _ => k') _ A2) as (known1 & E1 & L1 & M1).
      destruct (dmodify_ok (updated r) x (fun l => l ++ upds) _ R1) as (u1 & E2 & L2 & M2).
      destruct (dmodify_ok (deleted r) x (fun l => l ++ del) _ R2) as (d1 & E3 & L3 & M3).
      cbn [app] in M2, M3. rewrite E1, E2, E3.
      assert (Ne : forall q, In q xs -> (q =? x) = false).
      { intros q H. apply Nat.eqb_neq. intros ->. exact (N1 H). }
      destruct (IH N2 (w ++ new) known1 (SyncResult u1 d1) B1) as (new2 & known2 & r2 & K2 & Nw2 & U2 & D2 & F & C1 & C2 & C3 & C4 & C5 & C6 & C7).
      + intros q H. destruct (HK q (or_intror H)) as (P1 & P2 & P3 & P4 & P5). split; [exact P1|]. split.
        * rewrite <- P2. apply dindex_eq. now rewrite M1, (Ne q H).
        * split; [exact P3|]. split; [|exact P5]. intros e He. rewrite map_app, in_app_iff. left. exact (P4 e He).
      + intros q H. destruct (HR q (or_intror H)) as [P1 P2]. cbn [updated deleted]. split.
        * rewrite <- P1. apply dindex_eq. now rewrite M2, (Ne q H).
        * rewrite <- P2. apply dindex_eq. now rewrite M3, (Ne q H).
      + cbn [updated deleted] in C3, C4.
        exists (new ++ new2), known2, r2, (fun q => if q =? x then k' else K2 q), (fun q => if q =? x then new else Nw2 q),
          (fun q => if q =? x then upds else U2 q), (fun q => if q =? x then del else D2 q).
        rewrite app_assoc. split; [exact F|]. split; [exact C1|].
        assert (Sx : forall A (v v1 v2 : dbr A) y, length v1 = length v -> (forall p, nth_error v1 p = if p =? x then Some (Some y) else nth_error v p) ->
          same_elsewhere xs v1 v2 -> same_elsewhere (x :: xs) v v2 /\ dindex v2 x = Some y).
        { intros A v v1 v2 y Hl Hn [Q1 Q2]. split; [split|].
          - now rewrite Q1.
          - intros q Hq. rewrite Q2, Hn by (intro; apply Hq; now right). destruct (Nat.eqb_spec q x) as [->|]; [destruct Hq; now left|reflexivity].
          - unfold dindex, dget. rewrite Q2 by exact N1. now rewrite Hn, Nat.eqb_refl. }
        destruct (Sx _ _ _ _ _ L1 M1 C2) as [S1 S1'], (Sx _ _ _ _ _ L2 M2 C3) as [S2 S2'], (Sx _ _ _ _ _ L3 M3 C4) as [S3 S3'].
        split; [exact S1|]. split; [exact S2|]. split; [exact S3|]. split; [|split].
        * intros q [<-|H].
          -- rewrite Nat.eqb_refl. repeat (split; [first [exact S1'|exact S2'|exact S3'|exact B2|exact B3]|]). apply incl_appl, incl_refl.
          -- rewrite (Ne q H). destruct (C5 q H) as (P1 & P2 & P3 & P4 & P5 & P6). repeat (split; [assumption|]). now apply incl_appr.
        * intros p H. apply in_app_iff in H. destruct H as [H|H].
          -- exists x. rewrite Nat.eqb_refl. split; [now left|exact H].
          -- destruct (C6 p H) as [q [P1 P2]]. exists q. rewrite (Ne q P1). split; [now right|exact P2].
        * assert (Dj : forall q e, In q xs -> In e (map fst new) -> In e (map fst (Nw2 q)) -> False).
          { intros q e H G1 G2. destruct (C5 q H) as (_ & _ & _ & _ & _ & P6). rewrite map_app in C1.
            apply (nodup_app_not _ _ e C1); [rewrite map_app, in_app_iff; now right|]. apply in_map_iff in G2. destruct G2 as [p [G2 G3]]. apply in_map_iff. exists p. split; [exact G2|exact (P6 _ G3)]. }
          intros q q' e [<-|H] [<-|H'] G1 G2.
          -- reflexivity.
          -- rewrite Nat.eqb_refl in G1. rewrite (Ne q' H') in G2. destruct (Dj _ _ H' G1 G2).
          -- rewrite Nat.eqb_refl in G2. rewrite (Ne q H) in G1. destruct (Dj _ _ H G2 G1).
          -- rewrite (Ne q H) in G1. rewrite (Ne q' H') in G2. exact (C7 q q' e H H' G1 G2).
  Qed.

  Lemma others_in x y : In x (others n y) <-> x < n /\ x <> y.
  Proof.
    unfold others. rewrite filter_In, in_seq. split; intros [H1 H2]; (split; [lia|]).
    - intros ->. now rewrite Nat.eqb_refl in H2.
    - apply negb_true_iff, Nat.eqb_neq. exact H2.
  Qed.
  Lemma others_nodup y : NoDup (others n y).
  Proof. apply NoDup_filter, seq_NoDup. Qed.
  Lemma enum_map {B} (g : nat -> B) y m : forall i, enum_some i (map (fun x => if x =? y then None else Some (g x)) (seq i m))
    = map (fun x => (x, g x)) (filter (fun x => negb (x =? y)) (seq i m)).
  Proof.
    induction m as [|m IH]; intro i; [reflexivity|]. cbn [seq map enum_some filter]. destruct (i =? y); cbn [negb map]; now rewrite IH.
  Qed.
  Lemma exchange_iter {B} (data : nat -> dbr (list B)) y :
    dinto_iter (exchange_result n data y) = Some (map (fun x => (x, addressed (data x) y)) (others n y)).
  Proof. rewrite dinto_iter_spec. unfold diter, exchange_result. now rewrite enum_map. Qed.

  Lemma closure_index {A} (v : A) x y : dindex (dfrom_closure v n (Some y)) x = if in_dec Nat.eq_dec x (others n y) then Some v else None.
  Proof.
    pose proof (dfrom_closure_contents v n (Some y) x) as H. unfold contents in H. unfold dindex, dget.
    destruct (in_dec Nat.eq_dec x (others n y)) as [I|I]; rewrite others_in in I.
    - destruct (Nat.ltb_spec x n); [|lia]. destruct (Nat.eqb_spec x y); [tauto|]. destruct (nth_error _ x) as [[]|]; congruence.
    - destruct (Nat.ltb_spec x n); [destruct (Nat.eqb_spec x y); [|tauto]|]; destruct (nth_error _ x) as [[]|]; congruence.
  Qed.
  Lemma in_concat_diter {A} (v : dbr (list A)) p : In p (concat (map snd (diter v))) <-> exists q l, dindex v q = Some l /\ In p l.
  Proof.
    rewrite in_concat. split.
    - intros [l [H1 H2]]. apply in_map_iff in H1. destruct H1 as [[q l'] [H1 H3]]. cbn in H1. subst l'.
      unfold diter in H3. apply enum_in in H3. rewrite Nat.sub_0_r in H3. exists q, l. split; [|exact H2]. unfold dindex, dget. now rewrite (proj2 H3).
    - intros [q [l [H1 H2]]]. exists l. split; [|exact H2]. apply in_map_iff. exists (q, l). split; [reflexivity|]. unfold diter. apply enum_in.
      rewrite Nat.sub_0_r. split; [lia|]. unfold dindex, dget in H1. destruct (nth_error v q) as [[]|]; congruence.
  Qed.

  Lemma update_ok (l : list (entity * T)) : forall w,
    let w' := fold_left (fun w p => map (fun q => if entity_eqb (fst q) (fst p) then (fst q, snd p) else q) w) l w in
    map fst w' = map fst w
    /\ (forall e d, In (e, d) w -> ~ In e (map fst l) -> In (e, d) w')
    /\ (forall e d, In e (map fst w) -> In (e, d) l -> (forall d', In (e, d') l -> d' = d) -> In (e, d) w').
  Proof.
    induction l as [|[e0 d0] l IH]; intro w; cbn [fold_left fst snd].
    - split; [reflexivity|]. split; [auto|]. intros ? ? ? [].
    - set (w1 := map _ w). destruct (IH w1) as (A & B & C).
      assert (F : map fst w1 = map fst w).
      { unfold w1. rewrite map_map. apply map_ext. intros [e d]. cbn. now destruct (entity_eqb e e0). }
      split; [now rewrite A|]. split.
      + intros e d H1 H2. cbn [map fst In] in H2. apply B; [|tauto]. unfold w1. apply in_map_iff. exists (e, d). cbn.
        destruct (entity_eqb e e0) eqn:Q; [apply entity_eqb_eq in Q; intuition congruence|]. split; [reflexivity|exact H1].
      + intros e d H1 H2 H3. destruct (in_dec entity_dec e (map fst l)) as [I|I].
        * destruct (fst_in _ _ I) as [d' Hd']. assert (d' = d) by (apply H3; now right). subst d'.
          apply C; [now rewrite F|exact Hd'|]. intros d' H. apply H3. now right.
        * destruct H2 as [H2|H2]; [|destruct I; exact (in_fst _ _ _ H2)]. injection H2 as -> ->. apply B; [|exact I].
          destruct (fst_in _ _ H1) as [d' Hd']. unfold w1. apply in_map_iff. exists (e, d'). cbn. split; [|exact Hd'].
          assert (Q : entity_eqb e e = true) by now apply entity_eqb_eq. now rewrite Q.
  Qed.
  Lemma despawn_ok (l : list entity) : forall w : list (entity * T), NoDup (map fst w) ->
    let w' := fold_left (fun w e => hremove entity_eqb w e) l w in
    NoDup (map fst w') /\ (forall e d, In (e, d) w' <-> In (e, d) w /\ ~ In e l).
  Proof.
    induction l as [|e0 l IH]; intros w N; cbn [fold_left].
    - split; [exact N|]. intros. cbn. tauto.
    - destruct (IH (hremove entity_eqb w e0)) as [A B]; [now apply nodup_filter_fst|]. split; [exact A|].
      intros e d. rewrite B, (in_hremove _ entity_eqb_eq). cbn [In]. intuition congruence.
  Qed.

  (** What one rank knows: [K x] are the mirrors of the entities of rank [x]. *)
  Definition consistent (y : nat) (known : dbr (list (N * entity))) (w : list (entity * T)) (K : nat -> list (N * entity)) : Prop :=
    length known = n
    /\ (forall x, In x (others n y) -> dindex known x = Some (K x) /\ NoDup (map fst (K x))
         /\ (forall k k' e, In (k, e) (K x) -> In (k', e) (K x) -> k = k'))
    /\ NoDup (map fst w)
    /\ (forall e, In e (map fst w) <-> exists x, In x (others n y) /\ In e (map snd (K x)))
    /\ (forall x x' e, In x (others n y) -> In x' (others n y) -> In e (map snd (K x)) -> In e (map snd (K x')) -> x = x').

  Lemma receive_ok y (s : world) (data : nat -> dbr (list (N * T))) K :
    consistent y (known (comms s y)) (live s y) K ->
    (forall x, In x (others n y) -> NoDup (map fst (addressed (data x) y))) ->
    exists c w K', receive n order_keys alloc s data y = Some (c, w)
      /\ to_sync c = [] /\ consistent y (known c) w K'
      /\ (forall x, In x (others n y) ->
            (forall k, In k (map fst (K' x)) <-> In k (map fst (addressed (data x) y)))
            /\ (forall k e, In (k, e) (K x) -> In k (map fst (addressed (data x) y)) -> In (k, e) (K' x))
            /\ (forall k e d, In (k, d) (addressed (data x) y) -> In (k, e) (K' x) -> In (e, d) w)).
  Proof.
    intros (I1 & I2 & I3 & I4 & I5) HD. set (D := fun x => addressed (data x) y).
    unfold receive, receive_sync. rewrite exchange_iter. cbn [drained known to_sync ddrain snd].
    fold D. change (fun x => (x, addressed (data x) y)) with (fun x => (x, D x)).
    set (z := dfrom_closure [] n (Some y)) at 1. set (z2 := dfrom_closure [] n (Some y)).
    destruct (receive_ranks_ok D K (others n y) (others_nodup y) (live s y) (known (comms s y)) (SyncResult z z2) I3)
      as (new & known' & r' & K' & Nw & U & L & F & C1 & C2 & C3 & C4 & C5 & C6 & C7).
    - intros x H. destruct (I2 x H) as (P1 & P2 & P3). split; [exact (HD x H)|]. split; [exact P1|]. split; [exact P2|]. split; [|exact P3].
      intros e He. apply I4. now exists x.
    - intros x H. cbn [updated deleted]. unfold z, z2. rewrite !closure_index. destruct (in_dec Nat.eq_dec x (others n y)); tauto.
    - rewrite F. cbn [updated deleted] in C3, C4.
      assert (QU : forall p, In p (concat (map snd (diter (updated r')))) <-> exists x, In x (others n y) /\ In p (U x)).
      { intro p. rewrite in_concat_diter. split.
        - intros [q [l [H1 H2]]]. destruct (in_dec Nat.eq_dec q (others n y)) as [I|I].
          + exists q. split; [exact I|]. rewrite (proj1 (proj2 (C5 q I))) in H1. injection H1 as <-. exact H2.
          + pose proof (dindex_eq _ _ _ (proj2 C3 q I)) as Q. rewrite H1 in Q. unfold z in Q. rewrite closure_index in Q.
            destruct (in_dec Nat.eq_dec q (others n y)); [tauto|discriminate].
        - intros [x [H1 H2]]. exists x, (U x). split; [exact (proj1 (proj2 (C5 x H1)))|exact H2]. }
      assert (QL : forall p, In p (concat (map snd (diter (deleted r')))) <-> exists x, In x (others n y) /\ In p (L x)).
      { intro p. rewrite in_concat_diter. split.
        - intros [q [l [H1 H2]]]. destruct (in_dec Nat.eq_dec q (others n y)) as [I|I].
          + exists q. split; [exact I|]. rewrite (proj1 (proj2 (proj2 (C5 q I)))) in H1. injection H1 as <-. exact H2.
          + pose proof (dindex_eq _ _ _ (proj2 C4 q I)) as Q. rewrite H1 in Q. unfold z2 in Q. rewrite closure_index in Q.
            destruct (in_dec Nat.eq_dec q (others n y)); [tauto|discriminate].
        - intros [x [H1 H2]]. exists x, (L x). split; [exact (proj1 (proj2 (proj2 (C5 x H1))))|exact H2]. }
      set (us := concat (map snd (diter (updated r')))) in *. set (ls := concat (map snd (diter (deleted r')))) in *.
      destruct (update_ok us (live s y ++ new)) as (V1 & V2 & V3). cbv zeta in V1, V2, V3.
      set (w2 := fold_left _ us (live s y ++ new)) in *.
      destruct (despawn_ok ls w2) as [Y1 Y2]; [rewrite V1; exact C1|]. cbv zeta in Y1, Y2.
      set (w3 := fold_left _ ls w2) in *.
      (* the entities known before and those that are new are different *)
      assert (Old : forall x k e, In x (others n y) -> In (k, e) (K x) -> In e (map fst (live s y))).
      { intros x k e H1 H2. apply I4. exists x. split; [exact H1|exact (in_snd _ _ _ H2)]. }
      assert (Sep : forall e, In e (map fst (live s y)) -> In e (map fst new) -> False).
      { intros e H1 H2. rewrite map_app in C1. exact (nodup_app_not _ _ _ C1 H1 H2). }
      assert (Nin : forall x e, In x (others n y) -> In e (map fst (Nw x)) -> In e (map fst new)).
      { intros x e H1 H2. destruct (C5 x H1) as (_ & _ & _ & _ & _ & P). destruct (fst_in _ _ H2) as [d Hd]. exact (in_fst _ _ _ (P _ Hd)). }
      assert (From : forall x e, In x (others n y) -> In e (map snd (K' x)) -> In e (map snd (K x)) \/ In e (map fst (Nw x))).
      { intros x e H1 H2. destruct (snd_in _ _ H2) as [k Hk]. destruct (C5 x H1) as (_ & _ & _ & P & _). destruct P as (_ & _ & _ & P4 & _).
        destruct (P4 _ _ Hk) as [Q|[_ [d [_ Q]]]]; [left; exact (in_snd _ _ _ Q)|right; exact (in_fst _ _ _ Q)]. }
      assert (Inj : forall x x' e, In x (others n y) -> In x' (others n y) -> In e (map snd (K' x)) -> In e (map snd (K' x')) -> x = x').
      { intros x x' e H1 H2 G1 G2. destruct (From x e H1 G1) as [Q1|Q1], (From x' e H2 G2) as [Q2|Q2].
        - exact (I5 x x' e H1 H2 Q1 Q2).
        - destruct (Sep e); [|exact (Nin _ _ H2 Q2)]. apply I4. now exists x.
        - destruct (Sep e); [|exact (Nin _ _ H1 Q1)]. apply I4. now exists x'.
        - exact (C7 x x' e H1 H2 Q1 Q2). }
      (* an entity that is deleted is not known any more *)
      assert (Del : forall x e, In x (others n y) -> In e (map snd (K' x)) -> ~ In e ls).
      { intros x e H1 H2 H3. apply QL in H3. destruct H3 as [x' [G1 G2]]. destruct (C5 x' G1) as (_ & _ & _ & P & _).
        destruct P as (_ & P2 & _ & _ & _ & _ & P7). apply P7 in G2. destruct G2 as [k [G2 G3]].
        destruct (From x e H1 H2) as [Q|Q].
        - assert (x = x') by (apply (I5 x x' e H1 G1 Q); exact (in_snd _ _ _ G2)). subst x'.
          destruct (snd_in _ _ H2) as [k' Hk']. destruct (C5 x H1) as (_ & _ & _ & P' & _). destruct P' as (_ & P2' & _ & P4' & _).
          destruct (P4' _ _ Hk') as [R|[_ [d [_ R]]]].
          + assert (k = k') by exact (proj2 (proj2 (I2 x H1)) _ _ _ G2 R). subst k'. apply G3. apply P2'. exact (in_fst _ _ _ Hk').
          + apply (Sep e); [exact (Old _ _ _ H1 G2)|]. apply (Nin x); [exact H1|exact (in_fst _ _ _ R)].
        - apply (Sep e); [exact (Old _ _ _ G1 G2)|exact (Nin _ _ H1 Q)]. }
      assert (All : forall e, In e (map fst w2) <-> In e (map fst (live s y)) \/ In e (map fst new)).
      { intro e. rewrite V1, map_app, in_app_iff. tauto. }
      eexists _, w3, K'. split; [reflexivity|]. cbn [to_sync known]. split; [reflexivity|]. split; [|].
      + split; [now rewrite (proj1 C2)|]. split; [|split; [exact Y1|split; [|exact Inj]]].
        * intros x H. destruct (C5 x H) as (P1 & _ & _ & P4 & P5 & _). split; [exact P1|]. split; [exact (proj1 P4)|exact P5].
        * intro e. split.
          -- intro H. destruct (fst_in _ _ H) as [d Hd]. apply Y2 in Hd. destruct Hd as [Hd Hn]. apply in_fst in Hd. apply All in Hd. destruct Hd as [Hd|Hd].
             ++ apply I4 in Hd. destruct Hd as [x [H1 H2]]. exists x. split; [exact H1|]. destruct (snd_in _ _ H2) as [k Hk].
                destruct (C5 x H1) as (_ & _ & _ & P & _). destruct P as (_ & _ & P3 & _ & _ & _ & P7).
                destruct (in_dec N.eq_dec k (map fst (D x))) as [Y|Y]; [exact (in_snd _ _ _ (P3 _ _ Hk Y))|].
                destruct Hn. apply QL. exists x. split; [exact H1|]. apply P7. now exists k.
             ++ destruct (fst_in _ _ Hd) as [d' Hd']. destruct (C6 _ Hd') as [x [H1 H2]]. exists x. split; [exact H1|].
                destruct (C5 x H1) as (_ & _ & _ & P & _). destruct P as (_ & _ & _ & _ & P5 & _). apply P5. exact (in_fst _ _ _ H2).
          -- intros [x [H1 H2]]. assert (A : In e (map fst w2)).
             { apply All. destruct (From x e H1 H2) as [Q|Q]; [left; apply I4; now exists x|right; exact (Nin _ _ H1 Q)]. }
             destruct (fst_in _ _ A) as [d Hd]. apply (in_fst _ d). apply Y2. split; [exact Hd|exact (Del x e H1 H2)].
      + intros x H. destruct (C5 x H) as (_ & _ & _ & P & P5' & _). destruct P as (P1 & P2 & P3 & P4 & P5 & P6 & P7).
        split; [exact P2|]. split; [exact P3|]. intros k e d G1 G2. apply Y2. split; [|apply (Del x); [exact H|exact (in_snd _ _ _ G2)]].
        assert (Uni : forall d', In (e, d') us -> d' = d).
        { intros d' Hu. apply QU in Hu. destruct Hu as [x' [A1 A2]]. destruct (C5 x' A1) as (_ & _ & _ & P' & _). destruct P' as (_ & _ & P3' & _ & _ & P6' & _).
          apply P6' in A2. destruct A2 as [k' [A2 A3]]. pose proof (P3' _ _ A3 (in_fst _ _ _ A2)) as A4.
          assert (x' = x) by exact (Inj x' x e A1 H (in_snd _ _ _ A4) (in_snd _ _ _ G2)). subst x'.
          assert (k' = k) by exact (P5' _ _ _ A4 G2). subst k'. exact (nodup_fst _ _ _ _ (HD x H) A2 G1). }
        destruct (P4 _ _ G2) as [Q|[_ [d' [Q1 Q2]]]].
        * apply V3; [rewrite map_app, in_app_iff; left; exact (Old _ _ _ H Q)| |exact Uni]. apply QU. exists x. split; [exact H|]. apply P6. now exists k.
        * assert (d' = d) by exact (nodup_fst _ _ _ _ (HD x H) Q1 G1). subst d'.
          destruct (C5 x H) as (_ & _ & _ & _ & _ & Pi). apply V2; [apply in_app_iff; right; exact (Pi _ Q2)|].
          intro Hu. destruct (fst_in _ _ Hu) as [d' Hd']. apply QU in Hd'. destruct Hd' as [x' [A1 A2]].
          destruct (C5 x' A1) as (_ & _ & _ & P' & _). destruct P' as (_ & _ & _ & _ & _ & P6' & _). apply P6' in A2. destruct A2 as [k' [_ A3]].
          apply (Sep e); [exact (Old _ _ _ A1 A3)|]. exact (in_fst _ _ _ (Pi _ Q2)).
  Qed.

  Lemma all_outgoing_ok (s : world) (o : nat -> dbr (list (N * T))) m : (forall x, x < m -> outgoing order_sync (comms s x) = Some (o x)) ->
    all_outgoing order_sync s m = Some (map o (seq 0 m)).
  Proof.
    induction m as [|m IH]; intro H; [reflexivity|]. cbn [all_outgoing]. rewrite IH by (intros; apply H; lia). rewrite H by lia.
    now rewrite seq_S, map_app.
  Qed.
  Lemma all_receive_ok (s : world) data (P : nat -> sync -> mirrors -> Prop) m :
    (forall y, y < m -> exists c w, receive n order_keys alloc s data y = Some (c, w) /\ P y c w) ->
    exists s', all_receive n order_keys alloc s data m = Some s' /\ forall y, y < m -> P y (comms s' y) (live s' y).
  Proof.
    induction m as [|m IH]; intro H; cbn [all_receive]; [exists s; split; [reflexivity|intros; lia]|].
    destruct IH as [s' [E Q]]; [intros; apply H; lia|]. destruct (H m (Nat.lt_succ_diag_r m)) as (c & w & E' & Q'). rewrite E, E'.
    eexists. split; [reflexivity|]. intros y Hy. cbn [comms live]. destruct (Nat.eqb_spec y m) as [->|]; [exact Q'|]. apply Q. lia.
  Qed.

  Lemma collect_enum {A B} (g : A -> B) (v : dbr A) q : forall i acc,
    fold_left (fun acc e => if fst e =? q then Some (snd e) else acc) (map (fun rd => (fst rd, g (snd rd))) (enum_some i v)) acc
    = if q <? i then acc else match nth_error v (q - i) with Some (Some x) => Some (g x) | _ => acc end.
  Proof.
    induction v as [|o v IH]; intros i acc; cbn [enum_some].
    - cbn [map fold_left]. destruct (q <? i); [reflexivity|]. now destruct (q - i).
    - destruct (Nat.ltb_spec q i) as [H|H].
      + destruct o; cbn [map fold_left fst snd]; rewrite IH; destruct (Nat.ltb_spec q (S i)); try lia.
        * destruct (Nat.eqb_spec i q); [lia|reflexivity].
        * reflexivity.
      + destruct (Nat.eq_dec q i) as [->|Hq].
        * rewrite Nat.sub_diag. cbn [nth_error]. destruct o; cbn [map fold_left fst snd]; rewrite IH; (destruct (Nat.ltb_spec i (S i)); [|lia]); [now rewrite Nat.eqb_refl|reflexivity].
        * replace (q - i) with (S (q - S i)) by lia. cbn [nth_error].
          destruct o; cbn [map fold_left fst snd]; rewrite IH; (destruct (Nat.ltb_spec q (S i)); [lia|]); [|reflexivity].
          destruct (Nat.eqb_spec i q); [lia|reflexivity].
  Qed.
  Lemma outgoing_ok (c : sync) : exists o, outgoing order_sync c = Some o
    /\ forall y, addressed o y = match dindex (to_sync c) y with Some m => map (fun p => (to_bits (fst p), snd p)) (order_sync m) | None => [] end.
  Proof.
    unfold outgoing, dfrom_iter. cbn [ddrain fst].
    destruct (dinsert_all_spec (map (fun rd : nat * list (entity * T) => (fst rd, map (fun p => (to_bits (fst p), snd p)) (order_sync (snd rd)))) (enum_some 0 (to_sync c))) dempty)
      as (o & E & C & _).
    exists o. split; [exact E|]. intro y. specialize (C y).
    rewrite (collect_enum (fun m => map (fun p => (to_bits (fst p), snd p)) (order_sync m)) (to_sync c) y 0) in C.
    cbn [Nat.ltb Nat.leb] in C. rewrite Nat.sub_0_r in C. unfold addressed, dindex, dget. unfold contents in C at 1.
    destruct (nth_error (to_sync c) y) as [[m|]|].
    - destruct (nth_error o y) as [[]|]; congruence.
    - assert (contents (@dempty (list (N * T))) y = None) by (now destruct y). destruct (nth_error o y) as [[]|]; congruence.
    - assert (contents (@dempty (list (N * T))) y = None) by (now destruct y). destruct (nth_error o y) as [[]|]; congruence.
  Qed.

  (** ** Whole runs *)
  Definition possible (o : sync_op entity T) : Prop :=
    match o with
    | Send x y e d => x < n /\ y < n /\ x <> y /\ (index e < 2 ^ 32)%N
    | Round => True
    end.
  Lemma said_in (ops : list (sync_op entity T)) x y e d : said ops x y e d -> In (Send x y e d) ops.
  Proof. intro H. induction H; apply in_app_iff; [right; now left|now left]. Qed.
  Lemma said_possible (ops : list (sync_op entity T)) x y e d : Forall possible ops -> said ops x y e d -> x < n /\ y < n /\ x <> y /\ (index e < 2 ^ 32)%N.
  Proof. intros F H. rewrite Forall_forall in F. exact (F _ (said_in _ _ _ _ _ H)). Qed.
  Lemma said_send (ops : list (sync_op entity T)) x y e d x' y' e' d' : said (ops ++ [Send x' y' e' d']) x y e d <->
    ((x, y, e) = (x', y', e') /\ d = d') \/ ((x, y, e) <> (x', y', e') /\ said ops x y e d).
  Proof.
    split.
    - intro H. inversion H as [o ? ? ? ? E|o ? ? ? ? ? ? ? ? H1 H2 E]; apply app_inj_tail in E; destruct E as [-> E]; injection E; intros; subst.
      + left. split; reflexivity.
      + right. split; [congruence|exact H1].
    - intros [[E ->]|[H1 H2]].
      + injection E as -> -> ->. constructor.
      + constructor; [exact H2|congruence].
  Qed.
  Lemma said_round ops (x y : nat) (e : entity) (d : T) : ~ said (ops ++ [Round]) x y e d.
  Proof. intro H. inversion H as [o ? ? ? ? E|o ? ? ? ? ? ? ? ? H1 H2 E]; apply app_inj_tail in E; destruct E as [_ E]; discriminate. Qed.
  Lemma told_send_iff ops (x y : nat) (e : entity) (d : T) x' y' e' d' : told (ops ++ [Send x' y' e' d']) x y e d <-> told ops x y e d.
  Proof.
    split; [|apply told_send]. intro H. inversion H as [o ? ? ? ? H1 E|o ? ? ? ? ? ? ? ? H1 E]; apply app_inj_tail in E; destruct E as [-> E]; [discriminate|exact H1].
  Qed.
  Lemma told_round_iff ops (x y : nat) (e : entity) (d : T) : told (ops ++ [Round]) x y e d <-> said ops x y e d.
  Proof.
    split; [|apply told_round]. intro H. inversion H as [o ? ? ? ? H1 E|o ? ? ? ? ? ? ? ? H1 E]; apply app_inj_tail in E; destruct E as [-> E]; [exact H1|discriminate].
  Qed.

  Definition receivers_ok (ops : list (sync_op entity T)) (s : world) : Prop := forall y, y < n -> exists K,
    consistent y (known (comms s y)) (live s y) K
    /\ (forall x, In x (others n y) ->
          (forall k, In k (map fst (K x)) <-> exists e d, told ops x y e d /\ k = to_bits e)
          /\ (forall e d e', told ops x y e d -> In (to_bits e, e') (K x) -> In (e', d) (live s y))).
  Definition senders_ok (ops : list (sync_op entity T)) (s : world) : Prop :=
    (~ In Round ops /\ forall x y, x < n -> In y (others n x) ->
        exists m, dindex (to_sync (comms s x)) y = Some m /\ NoDup (map fst m) /\ forall e d, In (e, d) m <-> said ops x y e d)
    \/ (In Round ops /\ (forall x, x < n -> to_sync (comms s x) = []) /\ forall x y e d, ~ said ops x y e d).

  Lemma start_ok : senders_ok [] (start n) /\ receivers_ok [] (start n).
  Proof.
    split.
    - left. split; [intros []|]. intros x y Hx Hy. exists []. cbn [comms start new_sync to_sync]. rewrite closure_index.
      destruct (in_dec Nat.eq_dec y (others n x)); [|tauto]. split; [reflexivity|]. split; [constructor|]. intros e d. split; [intros []|].
      intro H. inversion H as [o ? ? ? ? E|o ? ? ? ? ? ? ? ? H1 H2 E]; destruct o; discriminate.
    - intros y Hy. exists (fun _ => []). cbn [comms live start new_sync known]. split.
      + split; [unfold dfrom_closure; now rewrite map_length, seq_length|]. split; [|split; [constructor|split]].
        * intros x Hx. rewrite closure_index. destruct (in_dec Nat.eq_dec x (others n y)); [|tauto]. split; [reflexivity|]. split; [constructor|intros ? ? ? []].
        * intro e. split; [intros []|intros [x [_ []]]].
        * intros x x' e _ _ [].
      + intros x _. assert (Nt : forall e d, ~ told (@nil (sync_op entity T)) x y e d).
        { intros e d H. inversion H as [o ? ? ? ? H1 E|o ? ? ? ? ? ? ? ? H1 E]; destruct o; discriminate. }
        split.
        * intro k. split; [intros []|intros [e [d [H _]]]; destruct (Nt _ _ H)].
        * intros e d e' H. destruct (Nt _ _ H).
  Qed.

  Lemma send_ok ops s x y e d : senders_ok ops s -> receivers_ok ops s -> x < n -> In y (others n x) ->
    match send s x y e d with
    | Some s' => ~ In Round ops /\ senders_ok (ops ++ [Send x y e d]) s' /\ receivers_ok (ops ++ [Send x y e d]) s'
    | None => In Round ops
    end.
  Proof.
    intros HS HR Hx Hy. unfold send, send_sync. destruct HS as [[NR HS]|[IR [HS _]]].
    - destruct (HS x y Hx Hy) as (m & M1 & M2 & M3).
      destruct (dmodify_ok (to_sync (comms s x)) y (fun m => hinsert entity_eqb m e d) _ M1) as (v & E & _ & V). rewrite E. cbn [option_map].
      split; [exact NR|]. split.
      + left. split; [rewrite in_app_iff; cbn; intuition discriminate|]. intros x' y' Hx' Hy'. cbn [comms].
        destruct (Nat.eqb_spec x' x) as [->|Nx].
        * cbn [to_sync]. destruct (Nat.eq_dec y' y) as [->|Ny].
          -- exists (hinsert entity_eqb m e d). split; [unfold dindex, dget; now rewrite V, Nat.eqb_refl|]. split; [now apply (nodup_hinsert _ entity_eqb_eq)|].
             intros e' d'. rewrite (in_hinsert _ entity_eqb_eq), said_send, M3. split.
             ++ intros [[-> ->]|[H1 H2]]; [left; split; reflexivity|right; split; [congruence|exact H2]].
             ++ intros [[H ->]|[H1 H2]]; [injection H as ->; left; split; reflexivity|right; split; [congruence|exact H2]].
          -- destruct (HS x y' Hx Hy') as (m' & P1 & P2 & P3). exists m'. split; [|split; [exact P2|]].
             ++ rewrite <- P1. apply dindex_eq. rewrite V. destruct (Nat.eqb_spec y' y); [tauto|reflexivity].
             ++ intros e' d'. rewrite P3, said_send. split; [intro H; right; split; [congruence|exact H]|]. intros [[H _]|[_ H]]; [congruence|exact H].
        * destruct (HS x' y' Hx' Hy') as (m' & P1 & P2 & P3). exists m'. split; [exact P1|]. split; [exact P2|].
          intros e' d'. rewrite P3, said_send. split; [intro H; right; split; [congruence|exact H]|]. intros [[H _]|[_ H]]; [congruence|exact H].
      + intros z Hz. destruct (HR z Hz) as (K & C & HK). exists K. cbn [comms live]. split.
        * destruct (z =? x) eqn:Q; [apply Nat.eqb_eq in Q; subst z; exact C|exact C].
        * intros q Hq. destruct (HK q Hq) as [A B]. split.
          -- intro k. rewrite A. split; intros (e' & d' & H1 & H2); exists e', d'; (split; [|exact H2]); [now apply told_send_iff|now apply told_send_iff in H1].
          -- intros e' d' e'' H. apply told_send_iff in H. exact (B _ _ _ H).
    - unfold dmodify, dindex, dget. rewrite (HS x Hx). destruct y; exact IR.
  Qed.

  Lemma round_ok ops s : Forall possible ops -> senders_ok ops s -> receivers_ok ops s ->
    exists s', round n order_sync order_keys alloc s = Some s' /\ senders_ok (ops ++ [Round]) s' /\ receivers_ok (ops ++ [Round]) s'.
  Proof.
    intros F HS HR. unfold round.
    set (o := fun x => match outgoing order_sync (comms s x) with Some o => o | None => [] end).
    rewrite (all_outgoing_ok s o).
    2:{ intros x _. unfold o. destruct (outgoing_ok (comms s x)) as (q & E & _). now rewrite E. }
    set (data := fun x => nth x (map o (seq 0 n)) []).
    assert (Hd : forall x y, x < n -> In y (others n x) -> NoDup (map fst (addressed (data x) y))
      /\ forall k d, In (k, d) (addressed (data x) y) <-> exists e, k = to_bits e /\ said ops x y e d).
    { intros x y Hx Hy. assert (E : data x = o x).
      { unfold data. rewrite (nth_indep _ [] (o 0)) by (now rewrite map_length, seq_length). rewrite map_nth, seq_nth by exact Hx. reflexivity. }
      rewrite E. unfold o. destruct (outgoing_ok (comms s x)) as (q & Eq & Aq). rewrite Eq, Aq. clear E Eq Aq.
      destruct HS as [[_ HS]|[_ [HS NS]]].
      - destruct (HS x y Hx Hy) as (m & M1 & M2 & M3). rewrite M1.
        assert (Mo : NoDup (map fst (order_sync m))).
        { apply (Permutation_NoDup (l := map fst m)); [|exact M2]. apply Permutation_map. symmetry. apply order_sync_ok. }
        assert (Mi : forall e d, In (e, d) (order_sync m) <-> said ops x y e d).
        { intros e d. rewrite <- M3. split; apply Permutation_in; [apply order_sync_ok|symmetry; apply order_sync_ok]. }
        split.
        + rewrite map_map. cbn [fst].
          assert (Bd : forall e, In e (map fst (order_sync m)) -> (index e < 2 ^ 32)%N).
          { intros e He. destruct (fst_in _ _ He) as [d Hd]. apply Mi in Hd. exact (proj2 (proj2 (proj2 (said_possible _ _ _ _ _ F Hd)))). }
          rewrite <- (map_map fst to_bits). revert Mo Bd. generalize (map fst (order_sync m)). clear. intros l. induction l as [|e l IH]; intros N B; [constructor|].
          inversion N as [|? ? N1 N2]; subst. cbn [map]. constructor; [|apply IH; [exact N2|intros; apply B; now right]].
          intro H. apply in_map_iff in H. destruct H as [e' [H1 H2]]. apply bits_inj in H1; [subst; tauto|apply B; now right|apply B; now left].
        + intros k d. rewrite in_map_iff. split.
          * intros [[e d'] [H1 H2]]. cbn in H1. injection H1 as <- <-. exists e. split; [reflexivity|now apply Mi].
          * intros [e [-> H]]. exists (e, d). split; [reflexivity|now apply Mi].
      - unfold dindex, dget. rewrite (HS x Hx). assert (Ny : nth_error (@nil (option (list (entity * T)))) y = None) by (now destruct y). rewrite Ny.
        split; [constructor|]. intros k d. split; [intros []|]. intros [e [_ H]]. destruct (NS _ _ _ _ H). }
    destruct (all_receive_ok s data (fun y c w => to_sync c = [] /\ exists K, consistent y (known c) w K
      /\ (forall x, In x (others n y) ->
          (forall k, In k (map fst (K x)) <-> exists e d, said ops x y e d /\ k = to_bits e)
          /\ (forall e d e', said ops x y e d -> In (to_bits e, e') (K x) -> In (e', d) w))) n) as [s' [E Q]].
    - intros y Hy. destruct (HR y Hy) as (K & C & _).
      destruct (receive_ok y s data K C) as (c & w & K' & R1 & R2 & R3 & R4).
      + intros x Hx. apply others_in in Hx. apply Hd; [tauto|]. apply others_in. split; [exact Hy|]. intros ->. tauto.
      + exists c, w. split; [exact R1|]. split; [exact R2|]. exists K'. split; [exact R3|]. intros x Hx. destruct (R4 x Hx) as (P1 & _ & P3).
        assert (Hx' : x < n /\ In y (others n x)) by (rewrite others_in in *; split; [tauto|split; [exact Hy|intros ->; tauto]]).
        destruct (Hd x y (proj1 Hx') (proj2 Hx')) as [_ Hi]. split.
        * intro k. rewrite P1. split.
          -- intro H. destruct (fst_in _ _ H) as [d Hk]. apply Hi in Hk. destruct Hk as [e [G1 G2]]. now exists e, d.
          -- intros (e & d & H1 & ->). apply (in_fst _ d). apply Hi. now exists e.
        * intros e d e' H1 H2. apply (P3 (to_bits e)); [|exact H2]. apply Hi. now exists e.
    - exists s'. split; [exact E|]. split.
      + right. split; [apply in_app_iff; right; now left|]. split; [intros x Hx; exact (proj1 (Q x Hx))|]. intros. apply said_round.
      + intros y Hy. destruct (Q y Hy) as (_ & K & C & HK). exists K. split; [exact C|]. intros x Hx. destruct (HK x Hx) as [A B]. split.
        * intro k. rewrite A. split; intros (e & d & H1 & H2); exists e, d; (split; [|exact H2]); [now apply told_round_iff|now apply told_round_iff in H1].
        * intros e d e' H. apply told_round_iff in H. exact (B _ _ _ H).
  Qed.

  Lemma run_snoc ops o : run n order_sync order_keys alloc (ops ++ [o]) = perform n order_sync order_keys alloc (run n order_sync order_keys alloc ops) o.
  Proof. unfold run. now rewrite fold_left_app. Qed.

  Lemma run_inv ops s : Forall possible ops -> run n order_sync order_keys alloc ops = Some s -> senders_ok ops s /\ receivers_ok ops s.
  Proof.
    revert s. induction ops as [|o ops IH] using rev_ind; intros s F E.
    - injection E as <-. exact start_ok.
    - apply Forall_app in F. destruct F as [F Fo]. inversion Fo as [|? ? Po _]; subst. rewrite run_snoc in E.
      destruct (run n order_sync order_keys alloc ops) as [s0|]; [|now destruct o]. destruct (IH s0 F eq_refl) as [HS HR]. destruct o as [x y e d|]; cbn [perform] in E.
      + destruct Po as (P1 & P2 & P3 & P4). pose proof (send_ok ops s0 x y e d HS HR P1) as H. rewrite E in H.
        assert (Hy : In y (others n x)) by (apply others_in; auto). exact (proj2 (H Hy)).
      + destruct (round_ok ops s0 F HS HR) as (s' & E' & A). rewrite E' in E. injection E as <-. exact A.
  Qed.

  Theorem run_mirrors ops s y : Forall possible ops -> run n order_sync order_keys alloc ops = Some s -> y < n ->
    exists mirror, exact_mirrors n (fun x e d => told ops x y e d) mirror (live s y).
  Proof.
    intros F E Hy. destruct (run_inv ops s F E) as [_ HR]. destruct (HR y Hy) as (K & (I1 & I2 & I3 & I4 & I5) & HK).
    assert (Tp : forall x e d, told ops x y e d -> x < n /\ In x (others n y) /\ (index e < 2 ^ 32)%N).
    { intros x e d H. assert (P : x < n /\ y < n /\ x <> y /\ (index e < 2 ^ 32)%N).
      { clear - F H. induction H as [? ? ? ? ? H|? ? ? ? ? ? ? ? ? H IH]; apply Forall_app in F; destruct F as [F _]; [exact (said_possible _ _ _ _ _ F H)|exact (IH F)]. }
      rewrite others_in. tauto. }
    exists (fun x e e' => In x (others n y) /\ (index e < 2 ^ 32)%N /\ In (to_bits e, e') (K x)).
    split; [exact I3|]. split; [|split; [|split]].
    - intros x e d _ H. destruct (Tp _ _ _ H) as (P1 & P2 & P3). destruct (HK x P2) as [A B].
      assert (Q : In (to_bits e) (map fst (K x))) by (apply A; now exists e, d). destruct (fst_in _ _ Q) as [e' He']. exists e'. split; [tauto|]. exact (B _ _ _ H He').
    - intros e' d H. destruct (proj1 (I4 e') (in_fst _ _ _ H)) as [x [H1 H2]]. destruct (snd_in _ _ H2) as [k Hk]. destruct (HK x H1) as [A B].
      destruct (proj1 (A k) (in_fst _ _ _ Hk)) as (e & d' & G1 & ->). pose proof (B _ _ _ G1 Hk) as G2. assert (d' = d) by exact (nodup_fst _ _ _ _ I3 G2 H). subst d'.
      exists x, e. destruct (Tp _ _ _ G1) as (P1 & P2 & P3). tauto.
    - intros x e x' e' r (H1 & H2 & H3) (G1 & G2 & G3). assert (x = x') by exact (I5 _ _ _ H1 G1 (in_snd _ _ _ H3) (in_snd _ _ _ G3)). subst x'. split; [reflexivity|].
      apply bits_inj; [exact H2|exact G2|]. exact (proj2 (proj2 (I2 x H1)) _ _ _ H3 G3).
    - intros x e r r' (H1 & H2 & H3) (_ & _ & G3). exact (nodup_fst _ _ _ _ (proj1 (proj2 (I2 x H1))) H3 G3).
  Qed.

  (** A run goes on as long as no rank sends after a round. *)
  Theorem run_goes_on ops : Forall possible ops -> (run n order_sync order_keys alloc ops <> None <-> sends_first ops).
  Proof.
    induction ops as [|o ops IH] using rev_ind; intro F.
    - split; [|discriminate]. intros _. exists [], 0. split; [reflexivity|intros []].
    - apply Forall_app in F. destruct F as [F Fo]. inversion Fo as [|? ? Po _]; subst. rewrite run_snoc.
      destruct (run n order_sync order_keys alloc ops) as [s0|] eqn:E.
      + assert (Sf : sends_first ops) by (apply (IH F); discriminate). destruct (run_inv ops s0 F E) as [HS HR]. destruct o as [x y e d|]; cbn [perform].
        * destruct Po as (P1 & P2 & P3 & P4). assert (Hy : In y (others n x)) by (apply others_in; auto).
          pose proof (send_ok ops s0 x y e d HS HR P1 Hy) as H. destruct (send s0 x y e d).
          -- split; [|discriminate]. intros _. exists (ops ++ [Send x y e d]), 0. split; [now rewrite app_nil_r|]. rewrite in_app_iff. cbn. intuition discriminate.
          -- split; [tauto|]. intros (l & m & Q1 & Q2). exfalso. destruct m as [|m].
             ++ cbn in Q1. rewrite app_nil_r in Q1. apply Q2. rewrite <- Q1. apply in_app_iff. now left.
             ++ rewrite <- Nat.add_1_r, repeat_app, app_assoc in Q1. apply app_inj_tail in Q1. destruct Q1 as [_ Q1]. discriminate.
        * destruct (round_ok ops s0 F HS HR) as (s' & E' & _). rewrite E'. split; [|discriminate]. intros _. destruct Sf as (l & m & -> & Q).
          exists l, (S m). split; [|exact Q]. now rewrite <- app_assoc, <- Nat.add_1_r, repeat_app.
      + split; [now destruct o|]. intros (l & m & Q1 & Q2). exfalso. apply (proj2 (IH F)); [|reflexivity]. destruct m as [|m].
        * cbn in Q1. rewrite app_nil_r in Q1. exists ops, 0. split; [cbn; now rewrite app_nil_r|]. intro H. apply Q2. rewrite <- Q1. apply in_app_iff. now left.
        * rewrite <- Nat.add_1_r, repeat_app, app_assoc in Q1. apply app_inj_tail in Q1. destruct Q1 as [-> _]. now exists l, m.
  Qed.
End Sync.

(** For the examples: an allocator, and some sends. *)
Definition next_entity (w : list (entity * nat)) : entity := E 0 (1 + fold_right N.max 0 (map (fun p => index (fst p)) w))%N.
Lemma next_entity_ok w : ~ In (next_entity w) (map fst w).
Proof.
  intro H. assert (L : forall e, In e (map fst w) -> (index e <= fold_right N.max 0%N (map (fun p => index (fst p)) w))%N).
  { clear. induction w as [|[a b] w IH]; intros e H; [destruct H|]. destruct H as [H|H].
    - cbn in H. subst. cbn. lia.
    - cbn. specialize (IH e H). lia. }
  specialize (L _ H). unfold next_entity in L. cbn [index] in L. lia.
Qed.
Definition some_sends : list (sync_op entity nat) :=
  [Send 0 1 (E 0 7) 10; Send 0 1 (E 1 7) 11; Send 2 1 (E 0 7) 12; Send 0 1 (E 0 7) 13; Send 1 0 (E 0 3) 14].
