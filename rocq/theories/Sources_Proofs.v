(** Proofs about the deposition of sources. *)
From Coq Require Import List Arith NArith QArith Lia Lqa Permutation.
From Verif Require Import Decomp_Model Decomp_Spec Decomp_Proofs Hilbert_Model Hilbert_Proofs Ownership_Proofs ParticleExchange_Proofs.
From Verif Require Import Sources_Model Sources_Spec.
Import ListNotations.
Local Open Scope Q_scope.

Lemma add_at_ok : forall terms i r, (i < length terms)%nat -> exists t', add_at i r terms = Some t'
  /\ length t' = length terms /\ forall j, nth j t' 0 == nth j terms 0 + (if (i =? j)%nat then r else 0).
Proof.
  induction terms as [|t terms IH]; intros i r H; cbn in H; [lia|]. destruct i as [|i]; cbn [add_at].
  - eexists. split; [reflexivity|]. split; [reflexivity|]. intros [|j]; cbn; [reflexivity|ring].
  - destruct (IH i r) as (t' & E & L & N); [lia|]. rewrite E. eexists. split; [reflexivity|]. cbn [length]. split; [congruence|].
    intros [|j]; cbn [nth Nat.eqb]; [ring|]. apply N.
Qed.

Lemma rate_where_cons : forall f s l, rate_where f (s :: l) == (if f s then s_rate s else 0) + rate_where f l.
Proof. intros f s l. unfold rate_where, total_rate, qsum. cbn [filter]. destruct (f s); cbn [map fold_right]; ring. Qed.

Section S.
  Variable nearest : list pos -> pos -> nat.
  Hypothesis Hnear : finds nearest.

  Lemma deposit_ok : forall owner rank ps all terms, length ps = length terms ->
    (forall s, In s all -> owner (s_pos s) = rank -> ps <> []) ->
    exists r, deposit nearest owner rank ps all terms = Some r /\ length r = length terms
      /\ forall j, nth j r 0 == nth j terms 0
           + rate_where (fun s => (owner (s_pos s) =? rank) && (nearest ps (s_pos s) =? j))%nat all.
  Proof.
    intros owner rank ps all. induction all as [|s all IH]; intros terms Hl Hne; cbn [deposit].
    - exists terms. split; [reflexivity|]. split; [reflexivity|]. intro j. unfold rate_where, total_rate. cbn. ring.
    - destruct (Nat.eqb_spec (owner (s_pos s)) rank) as [E|E].
      + assert (Hp : ps <> []) by (apply (Hne s); [left; reflexivity|exact E]).
        destruct (add_at_ok terms (nearest ps (s_pos s)) (s_rate s)) as (t' & Ea & La & Na).
        { rewrite <- Hl. apply Hnear. exact Hp. }
        rewrite Ea. destruct (IH t') as (r & Er & Lr & Nr); [congruence|intros; apply (Hne s0); [right; assumption|assumption]|].
        exists r. split; [exact Er|]. split; [congruence|]. intro j. rewrite Nr, Na, rate_where_cons.
        rewrite E, Nat.eqb_refl. cbn [andb]. destruct (nearest ps (s_pos s) =? j)%nat; ring.
      + destruct (IH terms) as (r & Er & Lr & Nr); [exact Hl|intros; apply (Hne s0); [right; assumption|assumption]|].
        exists r. split; [exact Er|]. split; [exact Lr|]. intro j. rewrite Nr, rate_where_cons.
        destruct (Nat.eqb_spec (owner (s_pos s)) rank); [contradiction|]. cbn [andb]. ring.
  Qed.

  (** Total on one rank. *)
  Lemma qsum_add_at : forall terms i r t', add_at i r terms = Some t' -> qsum t' == qsum terms + r.
  Proof.
    induction terms as [|t terms IH]; intros [|i] r t' H; try discriminate H; cbn [add_at] in H.
    - injection H as <-. unfold qsum. cbn. ring.
    - destruct (add_at i r terms) as [t2|] eqn:E; [|discriminate]. cbn in H. injection H as <-. unfold qsum in *. cbn.
      rewrite (IH _ _ _ E). ring.
  Qed.
  Lemma deposit_sum : forall owner rank ps all terms r, deposit nearest owner rank ps all terms = Some r ->
    qsum r == qsum terms + rate_where (fun s => owner (s_pos s) =? rank)%nat all.
  Proof.
    intros owner rank ps all. induction all as [|s all IH]; intros terms r H; cbn [deposit] in H.
    - injection H as <-. unfold rate_where, total_rate. cbn. ring.
    - rewrite rate_where_cons. destruct (owner (s_pos s) =? rank)%nat.
      + destruct (add_at _ _ _) as [t'|] eqn:E; [|discriminate]. rewrite (IH _ _ H), (qsum_add_at _ _ _ _ E). ring.
      + rewrite (IH _ _ H). ring.
  Qed.

  (** Sum over ranks. *)
  Lemma rate_split : forall (f : source -> nat) all n,
    qsum (map (fun r => rate_where (fun s => f s =? r)%nat all) (seq 0 n)) == rate_where (fun s => f s <? n)%nat all.
  Proof.
    intros f all. induction n as [|n IH].
    - unfold rate_where, total_rate. cbn. induction all as [|s all IHa]; cbn; [reflexivity|]. exact IHa.
    - rewrite seq_S, map_app. cbn [map Nat.add].
      assert (A : forall l q, qsum (l ++ [q]) == qsum l + q).
      { clear. intros l q. unfold qsum. induction l as [|a l IH]; cbn; [ring|]. rewrite IH. ring. }
      rewrite A, IH. clear. induction all as [|s all IHa].
      + unfold rate_where, total_rate. cbn. ring.
      + rewrite !rate_where_cons, <- IHa.
        destruct (Nat.ltb_spec (f s) n), (Nat.eqb_spec (f s) n), (Nat.ltb_spec (f s) (S n)); try lia; ring.
  Qed.

  Definition owner_of (mn mx : pos) (cuts : list N) (p : pos) : nat := owning_rank cuts (point_key_3d bits_3d mn mx p).

  Lemma opt_all_combine : forall (A B : Type) (f : nat * A -> option B) l i r,
    opt_all f (combine (seq i (length l)) l) = Some r ->
    length r = length l /\ forall j, (j < length l)%nat -> forall da db, f ((i + j)%nat, nth j l da) = Some (nth j r db).
  Proof.
    intros A B f l. induction l as [|a l IH]; intros i r H; cbn in H.
    - injection H as <-. split; [reflexivity|]. cbn. intros. lia.
    - destruct (f (i, a)) as [b|] eqn:E; [|discriminate]. destruct (opt_all f _) as [r'|] eqn:E'; [|discriminate].
      injection H as <-. destruct (IH (S i) r' E') as [L N]. split; [cbn; congruence|].
      intros [|j] Hj da db; cbn.
      + rewrite Nat.add_0_r. exact E.
      + rewrite <- Nat.add_succ_comm. apply N. cbn in Hj. lia.
  Qed.
  Lemma opt_all_combine_some : forall (A B : Type) (f : nat * A -> option B) l i da,
    (forall j, (j < length l)%nat -> exists b, f ((i + j)%nat, nth j l da) = Some b) ->
    exists r, opt_all f (combine (seq i (length l)) l) = Some r.
  Proof.
    intros A B f l. induction l as [|a l IH]; intros i da H; cbn; [eauto|].
    destruct (H 0%nat) as (b & E); [cbn; lia|]. rewrite Nat.add_0_r in E. cbn in E. rewrite E.
    destruct (IH (S i) da) as (r & Er).
    - intros j Hj. specialize (H (S j)). cbn [nth length] in H. rewrite <- Nat.add_succ_comm in H. apply H. lia.
    - rewrite Er. eauto.
  Qed.

  Lemma set_terms_ok : forall mn mx cuts sources particles,
    (forall s, In s (concat sources) -> nth (owner_of mn mx cuts (s_pos s)) particles [] = [] ->
       (length particles <= owner_of mn mx cuts (s_pos s))%nat) ->
    exists r, set_source_terms nearest mn mx cuts sources particles = Some r /\ length r = length particles
      /\ (forall rank j, (rank < length particles)%nat -> 
           length (nth rank r []) = length (nth rank particles [])
           /\ nth j (nth rank r []) 0 == nth j (map snd (nth rank particles [])) 0
             + rate_where (fun s => (owner_of mn mx cuts (s_pos s) =? rank)
                  && (nearest (map fst (nth rank particles [])) (s_pos s) =? j))%nat (concat sources))
      /\ qsum (map qsum r) == qsum (map (fun ps => qsum (map snd ps)) particles)
           + rate_where (fun s => owner_of mn mx cuts (s_pos s) <? length particles)%nat (concat sources).
  Proof.
    intros mn mx cuts sources particles Hne. unfold set_source_terms. cbv zeta.
    set (f := fun '(rank, ps) => deposit nearest _ rank (map fst ps) (concat sources) (map snd ps)).
    assert (D : forall rank, (rank < length particles)%nat -> exists t, f (rank, nth rank particles []) = Some t
        /\ length t = length (nth rank particles [])
        /\ forall j, nth j t 0 == nth j (map snd (nth rank particles [])) 0
             + rate_where (fun s => (owner_of mn mx cuts (s_pos s) =? rank)
                  && (nearest (map fst (nth rank particles [])) (s_pos s) =? j))%nat (concat sources)).
    { intros rank Hr.
      destruct (deposit_ok (owner_of mn mx cuts) rank (map fst (nth rank particles [])) (concat sources) (map snd (nth rank particles []))) as (t & E & L & N).
      - rewrite !map_length. reflexivity.
      - intros s Hs Ho Hnil. apply map_eq_nil in Hnil. rewrite <- Ho in Hnil. specialize (Hne s Hs Hnil). lia.
      - exists t. split; [exact E|]. split; [rewrite L, map_length; reflexivity|exact N]. }
    destruct (opt_all_combine_some _ _ f particles 0 []) as (r & Er).
    { intros j Hj. destruct (D j Hj) as (t & E & _). exists t. exact E. }
    exists r. split; [exact Er|]. destruct (opt_all_combine _ _ f particles 0 r Er) as [L N]. split; [exact L|]. split.
    - intros rank j Hr. destruct (D rank Hr) as (t & E & Lt & Nt). specialize (N rank Hr [] []). cbn [Nat.add] in N.
      rewrite E in N. injection N as <-. auto.
    - assert (S1 : forall rank, (rank < length particles)%nat -> qsum (nth rank r []) == qsum (map snd (nth rank particles []))
                + rate_where (fun s => owner_of mn mx cuts (s_pos s) =? rank)%nat (concat sources)).
      { intros rank Hr. specialize (N rank Hr [] []). cbn [Nat.add] in N. exact (deposit_sum _ _ _ _ _ _ N). }
      rewrite <- rate_split.
      assert (G : forall n, (n <= length particles)%nat -> 
         qsum (map (fun i => qsum (nth i r [])) (seq 0 n)) == qsum (map (fun i => qsum (map snd (nth i particles []))) (seq 0 n))
          + qsum (map (fun i => rate_where (fun s => owner_of mn mx cuts (s_pos s) =? i)%nat (concat sources)) (seq 0 n))).
      { assert (A : forall l q, qsum (l ++ [q]) == qsum l + q).
        { clear. intros l q. unfold qsum. induction l as [|a l IH]; cbn; [ring|]. rewrite IH. ring. }
        induction n as [|n IH]; intro Hn; [cbn; ring|]. rewrite seq_S, !map_app. cbn [map Nat.add]. rewrite !A, IH by lia.
        rewrite S1 by lia. ring. }
      assert (M : forall (X : Type) (g : X -> Q) (l : list X) d, map (fun i => g (nth i l d)) (seq 0 (length l)) = map g l).
      { clear. intros X g l d. rewrite <- (map_map (fun i => nth i l d) g). f_equal.
        induction l as [|a l IH]; cbn; [reflexivity|]. f_equal. rewrite <- seq_shift, map_map. exact IH. }
      specialize (G _ (le_n _)). rewrite <- L in G at 1. rewrite M in G.
      rewrite (M _ (fun ps => qsum (map snd ps)) particles []) in G. exact G.
  Qed.

  (** All sources whose key is at most the largest key of a particle are deposited. *)
  Lemma all_deposited : forall mn mx (points : list (list pos)) maxd n cuts loads keys sources particles,
    (forall p, In p (concat points) -> inside_3d mn mx p) ->
    Forall2 (fun ks ps => Permutation ks (map (point_key_3d bits_3d mn mx) ps)) keys points ->
    decompose kmax_3d maxd keys n = Some (cuts, loads) ->
    length particles = n -> Forall (fun ps => ps <> []) particles ->
    (forall s, In s (concat sources) -> exists p, In p (concat points)
       /\ (point_key_3d bits_3d mn mx (s_pos s) <= point_key_3d bits_3d mn mx p)%N) ->
    exists r, set_source_terms nearest mn mx cuts sources particles = Some r
      /\ qsum (map qsum r) == qsum (map (fun ps => qsum (map snd ps)) particles) + total_rate (concat sources).
  Proof.
    intros mn mx points maxd n cuts loads keys sources particles Hin Hk Hd Hn Hne Hs.
    assert (Ho : forall s, In s (concat sources) -> (owner_of mn mx cuts (s_pos s) < n)%nat).
    { intros s H. destruct (Hs s H) as (p & Hp & Hle).
      destruct (particles_owned_3d mn mx points maxd n cuts loads keys Hin Hk Hd p Hp) as [A _]. apply A. exact Hle. }
    destruct (set_terms_ok mn mx cuts sources particles) as (r & E & _ & _ & T).
    { intros s H Hnil. exfalso. rewrite Forall_forall in Hne. specialize (Ho s H).
      apply (Hne (nth (owner_of mn mx cuts (s_pos s)) particles [])); [apply nth_In; lia|exact Hnil]. }
    exists r. split; [exact E|]. rewrite T.
    assert (A : rate_where (fun s => owner_of mn mx cuts (s_pos s) <? length particles)%nat (concat sources) == total_rate (concat sources)).
    { rewrite Hn. revert Ho. generalize (concat sources). clear. induction l as [|s l IH]; intro H; [reflexivity|].
      rewrite rate_where_cons, IH by (intros; apply H; right; assumption).
      destruct (Nat.ltb_spec (owner_of mn mx cuts (s_pos s)) n); [|specialize (H s (or_introl eq_refl)); lia].
      unfold total_rate, qsum. cbn. ring. }
    rewrite A. reflexivity.
  Qed.
End S.
