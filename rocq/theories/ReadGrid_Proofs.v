(** Proofs about the grid read from a file. *)
From Coq Require Import List Arith Lia ZArith QArith Permutation.
From Verif Require Import Decomp_Model FileDist_Model ParticleExchange_Proofs Collective_Model Collective_Proofs.
From Verif Require Import ReadGrid_Model ReadGrid_Spec.
Import ListNotations.
Local Open Scope nat_scope.

(** ** The lookup *)

Lemma replies_to_In m l id p : In (id, p) (replies_to m l) <-> In id l /\ hget id m = Some p.
Proof.
  induction l as [|a l IH]; cbn [replies_to In]; [tauto|].
  destruct (hget a m) as [q|] eqn:E; cbn [In]; rewrite IH; split.
  - intros [F|[H1 H2]]; [injection F as -> ->; auto|auto].
  - intros [[->|H1] H2]; [left; congruence|auto].
  - intros [H1 H2]. auto.
  - intros [[->|H1] H2]; [congruence|auto].
Qed.

Lemma extend_spec (P : nat -> pid -> Prop) replies : forall m, (forall id p, hget id m = Some p -> P id p) ->
  (forall id p, In (id, p) replies -> P id p) -> (forall id p q, P id p -> P id q -> p = q) ->
  forall id p, hget id (extend m replies) = Some p <-> hget id m = Some p \/ In (id, p) replies.
Proof.
  induction replies as [|[a q] l IH]; intros m Hm Hr Hu id p; unfold extend; cbn [fold_left In]; [tauto|].
  change (fold_left _ l ?m0) with (extend m0 l). cbn [fst snd].
  assert (Hq : P a q) by (apply Hr; now left).
  assert (Hm' : forall id p, hget id (hput a q m) = Some p -> P id p).
  { intros i p'. rewrite hget_hput. destruct (a =? i)%nat eqn:E; [|auto].
    apply Nat.eqb_eq in E as ->. intro F. injection F as <-. exact Hq. }
  rewrite (IH _ Hm') by (auto; intros; apply Hr; now right). rewrite hget_hput.
  destruct (a =? id)%nat eqn:E.
  - apply Nat.eqb_eq in E as ->. split.
    + intros [F|F]; [injection F as ->; auto|auto].
    + intros [F|[F|F]]; [left|left|auto].
      * f_equal. apply (Hu id); [exact Hq|auto].
      * congruence.
  - split; [tauto|]. intros [F|[F|F]]; auto. injection F as -> ->. rewrite Nat.eqb_refl in E. discriminate.
Qed.

Lemma hput_NoDup {A} e (a : A) m : NoDup (map fst m) -> NoDup (map fst (hput e a m)).
Proof.
  intro H. destruct (in_dec Nat.eq_dec e (map fst m)) as [I|I].
  - now rewrite keys_hput.
  - rewrite hput_new by exact I. rewrite map_app. cbn. apply (Permutation_NoDup (l := e :: map fst m)).
    + apply Permutation_cons_append.
    + now constructor.
Qed.

Lemma extend_NoDup r : forall m, NoDup (map fst m) -> NoDup (map fst (extend m r)).
Proof.
  induction r as [|a r IH]; intros m H; [exact H|]. unfold extend. cbn [fold_left]. apply IH. now apply hput_NoDup.
Qed.

Lemma extend_all (P : nat -> pid -> Prop) ls : forall m, (forall id p, hget id m = Some p -> P id p) ->
  (forall l id p, In l ls -> In (id, p) l -> P id p) -> (forall id p q, P id p -> P id q -> p = q) ->
  forall id p, hget id (fold_left extend ls m) = Some p <-> hget id m = Some p \/ exists l, In l ls /\ In (id, p) l.
Proof.
  induction ls as [|l ls IH]; intros m Hm Hl Hu id p; cbn [fold_left].
  - split; [auto|]. intros [H|(l & [] & _)]. exact H.
  - assert (E := extend_spec P l m Hm (fun i q => Hl l i q (or_introl eq_refl)) Hu).
    rewrite IH.
    + rewrite E. split.
      * intros [[H|H]|(l' & H1 & H2)]; [auto|right; exists l|right; exists l']; split; auto; [now left|now right].
      * intros [H|(l' & [<-|H1] & H2)]; [auto|auto|]. right. exists l'. auto.
    + intros i q H. apply E in H as [H|H]; [auto|]. apply (Hl l); [now left|exact H].
    + intros l' i q H. apply Hl. now right.
    + exact Hu.
Qed.

Section Lookup.
  Variable n : nat.
  Variable tables : list (list (nat * pid)).
  Hypothesis Hlen : length tables = n.
  Hypothesis Huniq : NoDup (map fst (concat tables)).

  Lemma stored_concat id p : stored tables id p <-> In (id, p) (concat tables).
  Proof.
    unfold stored. rewrite in_concat. split.
    - intros (y & H). exists (nth y tables []). split; [|exact H].
      destruct (Nat.lt_ge_cases y (length tables)) as [L|L]; [now apply nth_In|].
      rewrite nth_overflow in H by exact L. destruct H.
    - intros (l & H1 & H2). apply (In_nth _ _ []) in H1 as (y & _ & <-). exists y. exact H2.
  Qed.

  Lemma stored_unique id p q : stored tables id p -> stored tables id q -> p = q.
  Proof.
    rewrite !stored_concat. apply NoDup_fst_unique. exact Huniq.
  Qed.

  Lemma round_lookup chunks maps :
    length maps = n ->
    (forall x id p, In (id, p) (nth x tables []) -> hget id (nth x maps []) = Some p) ->
    (forall x id p, hget id (nth x maps []) = Some p -> stored tables id p) ->
    let maps' := exchange_request_chunk n chunks maps in
    length maps' = n
    /\ forall x, x < n -> forall id p, hget id (nth x maps' []) = Some p
         <-> hget id (nth x maps []) = Some p \/ In id (nth x chunks []) /\ stored tables id p.
  Proof.
    intros Hl Hown Htrue maps'. unfold maps', exchange_request_chunk. split; [now rewrite map_length, seq_length|].
    intros x Hx id p. rewrite nth_map_seq by exact Hx.
    rewrite (extend_all (stored tables)).
    - split.
      + intros [H|(l & Hl' & H)]; [auto|]. right. apply in_map_iff in Hl' as (y & <- & Hy).
        apply replies_to_In in H as [H1 H2]. split; [exact H1|]. exact (Htrue y id p H2).
      + intros [H|[H1 (y & H2)]]; [auto|]. destruct (Nat.eq_dec y x) as [->|Hne]; [left; exact (Hown x id p H2)|].
        right. exists (replies_to (nth y maps []) (nth x chunks [])). split.
        * apply in_map_iff. exists y. split; [reflexivity|]. apply other_ranks_In. split; [|exact Hne].
          destruct (Nat.lt_ge_cases y n) as [L|L]; [exact L|]. rewrite nth_overflow in H2 by lia. destruct H2.
        * apply replies_to_In. auto.
    - exact (Htrue x).
    - intros l i q Hl' H. apply in_map_iff in Hl' as (y & <- & Hy). apply replies_to_In in H as [_ H].
      exact (Htrue y i q H).
    - exact stored_unique.
  Qed.

  Lemma rounds_lookup steps : forall maps,
    length maps = n ->
    (forall x id p, In (id, p) (nth x tables []) -> hget id (nth x maps []) = Some p) ->
    (forall x id p, hget id (nth x maps []) = Some p -> stored tables id p) ->
    let maps' := fold_left (fun maps chunks => exchange_request_chunk n chunks maps) steps maps in
    length maps' = n
    /\ forall x, x < n -> forall id p, hget id (nth x maps' []) = Some p
         <-> hget id (nth x maps []) = Some p
             \/ In id (concat (map (fun ch => nth x ch []) steps)) /\ stored tables id p.
  Proof.
    induction steps as [|chunks steps IH]; intros maps Hl Hown Htrue; cbn [fold_left map concat].
    - split; [exact Hl|]. intros x Hx id p. cbn. tauto.
    - destruct (round_lookup chunks maps Hl Hown Htrue) as [L1 H1].
      set (maps1 := exchange_request_chunk n chunks maps) in *.
      assert (Hover : forall x, n <= x -> forall (ms : list idmap), length ms = n -> nth x ms [] = []).
      { intros x Hx ms Hms. apply nth_overflow. lia. }
      destruct (IH maps1 L1) as [L2 H2].
      + intros x id p Hin. destruct (Nat.lt_ge_cases x n) as [Hx|Hx].
        * apply (H1 x Hx). left. auto.
        * rewrite nth_overflow in Hin by lia. destruct Hin.
      + intros x id p Hin. destruct (Nat.lt_ge_cases x n) as [Hx|Hx].
        * apply (H1 x Hx) in Hin as [Hin|[_ Hin]]; [exact (Htrue x id p Hin)|exact Hin].
        * rewrite Hover in Hin by assumption. discriminate.
      + split; [exact L2|]. intros x Hx id p. rewrite (H2 x Hx), (H1 x Hx), in_app_iff. tauto.
  Qed.

  Theorem lookup_spec c requests maps : 1 <= c -> length requests = n -> length maps = n ->
    (forall x id p, In (id, p) (nth x tables []) -> hget id (nth x maps []) = Some p) ->
    (forall x id p, hget id (nth x maps []) = Some p -> stored tables id p) ->
    let maps' := perform_lookup n c requests maps in
    length maps' = n
    /\ forall x, x < n -> forall id p, hget id (nth x maps' []) = Some p
         <-> hget id (nth x maps []) = Some p \/ In id (nth x requests []) /\ stored tables id p.
  Proof.
    intros Hc Hr Hm Hown Htrue maps'.
    destruct (rounds_lookup (rounds_of c requests) maps Hm Hown Htrue) as [L H]. split; [exact L|].
    intros x Hx id p. unfold maps', perform_lookup. rewrite (H x Hx). rewrite rounds_of_concat by lia. reflexivity.
  Qed.
End Lookup.

Lemma perform_lookup_NoDup n c requests maps x : x < length (perform_lookup n c requests maps) -> length maps = n ->
  (forall x, NoDup (map fst (nth x maps []))) -> NoDup (map fst (nth x (perform_lookup n c requests maps) [])).
Proof.
  intros _ Hl H. unfold perform_lookup. revert maps Hl H.
  induction (rounds_of c requests) as [|ch steps IH]; intros maps Hl H; cbn [fold_left]; [apply H|].
  apply IH; unfold exchange_request_chunk; [now rewrite map_length, seq_length|].
  intro y. destruct (Nat.lt_ge_cases y n) as [L|L].
  - rewrite nth_map_seq by exact L. generalize (map (fun y0 => replies_to (nth y0 maps []) (nth y ch [])) (other_ranks n y)).
    intro ls. specialize (H y). revert H. generalize (nth y maps []). induction ls as [|l ls IHl]; intros m H; [exact H|].
    cbn [fold_left]. apply IHl. now apply extend_NoDup.
  - rewrite nth_overflow by (rewrite map_length, seq_length; exact L). constructor.
Qed.

(** ** Connection types *)


Lemma land_pow2_pos z i : (0 <= i)%Z -> (0 <? Z.land z (2 ^ i))%Z = Z.testbit z i.
Proof.
  intro Hi. assert (E : Z.land z (2 ^ i) = if Z.testbit z i then (2 ^ i)%Z else 0%Z).
  { apply Z.bits_inj'. intros k Hk. rewrite Z.land_spec, Z.pow2_bits_eqb by exact Hi.
    destruct (Z.testbit z i) eqn:B.
    - rewrite Z.pow2_bits_eqb by exact Hi. destruct (i =? k)%Z eqn:F; [|now rewrite Bool.andb_false_r].
      apply Z.eqb_eq in F as ->. now rewrite B.
    - rewrite Z.bits_0. destruct (i =? k)%Z eqn:F; [|now rewrite Bool.andb_false_r].
      apply Z.eqb_eq in F as ->. now rewrite B. }
  rewrite E. destruct (Z.testbit z i); [|reflexivity]. apply Z.ltb_lt. apply Z.pow_pos_nonneg; lia.
Qed.

Lemma connection_type_spec z :
  connection_type z = if accepted z then Some (bit z 0, bit z 2) else None.
Proof.
  unfold connection_type, accepted, bit, flags_from_bits.
  assert (H0 : (0 <? Z.land (Z.land z (1 + 2)) 1)%Z = Z.testbit z 0).
  { rewrite <- Z.land_assoc. change (Z.land (1 + 2) 1) with (2 ^ 0)%Z. now apply land_pow2_pos. }
  assert (H1 : (0 <? Z.land (Z.land z (1 + 2)) 2)%Z = Z.testbit z 1).
  { rewrite <- Z.land_assoc. change (Z.land (1 + 2) 2) with (2 ^ 1)%Z. now apply land_pow2_pos. }
  assert (H2 : (0 <? Z.land (Z.shiftr (Z.land z (4 + 8)) 2) 1)%Z = Z.testbit z 2).
  { change 1%Z with (2 ^ 0)%Z. rewrite land_pow2_pos by lia. rewrite Z.shiftr_spec by lia. rewrite Z.land_spec.
    change (Z.testbit (4 + 8) (0 + 2)) with true. apply Bool.andb_true_r. }
  assert (H3 : (0 <? Z.land (Z.shiftr (Z.land z (4 + 8)) 2) 2)%Z = Z.testbit z 3).
  { change 2%Z with (2 ^ 1)%Z at 2. rewrite land_pow2_pos by lia. rewrite Z.shiftr_spec by lia. rewrite Z.land_spec.
    change (Z.testbit (4 + 8) (1 + 2)) with true. apply Bool.andb_true_r. }
  rewrite H0, H1, H2, H3.
  destruct (z =? -1)%Z; [reflexivity|].
  destruct (Z.testbit z 0), (Z.testbit z 1), (Z.testbit z 2), (Z.testbit z 3); reflexivity.
Qed.

(** ** The cells *)

Lemma push_at_spec i nb cells : i < length cells ->
  exists cells', push_at i nb cells = Some cells' /\ length cells' = length cells
  /\ forall j, nth j cells' [] = nth j cells [] ++ (if i =? j then [nb] else []).
Proof.
  revert i. induction cells as [|c cells IH]; intros i Hi; cbn [length] in Hi; [lia|].
  destruct i as [|i]; cbn [push_at].
  - exists ((c ++ [nb]) :: cells). split; [reflexivity|]. split; [reflexivity|].
    intros [|j]; cbn [nth Nat.eqb]; [reflexivity|]. now rewrite app_nil_r.
  - destruct (IH i) as (cs & E & L & H); [lia|]. rewrite E. exists (c :: cs). split; [reflexivity|].
    split; [cbn; now rewrite L|]. intros [|j]; cbn [nth Nat.eqb]; [now rewrite app_nil_r|]. apply H.
Qed.

Lemma index_spec (us : list nat) : NoDup us -> forall u i,
  hget u (hcollect (combine us (seq 0 (length us)))) = Some i <-> nth_error us i = Some u.
Proof.
  intros H u i.
  assert (K : map fst (combine us (seq 0 (length us))) = us).
  { generalize 0. induction us as [|a us IH]; intro s; cbn; [reflexivity|]. f_equal. inversion H. auto. }
  rewrite hcollect_id by (rewrite K; exact H). rewrite hget_iff by (rewrite K; exact H).
  clear H K. assert (G : forall s, In (u, i) (combine us (seq s (length us))) <-> s <= i /\ nth_error us (i - s) = Some u).
  { revert i. induction us as [|a us IH]; intros i s; cbn [combine length seq In].
    - split; [intros []|]. intros [_ F]. destruct (i - s); discriminate.
    - rewrite IH. split.
      + intros [F|[F1 F2]].
        * injection F as -> ->. split; [lia|]. now rewrite Nat.sub_diag.
        * split; [lia|]. replace (i - s) with (S (i - S s)) by lia. exact F2.
      + intros [F1 F2]. destruct (Nat.eq_dec i s) as [->|N].
        * left. rewrite Nat.sub_diag in F2. cbn in F2. congruence.
        * right. split; [lia|]. replace (i - s) with (S (i - S s)) in F2 by lia. exact F2. }
  rewrite G. rewrite Nat.sub_0_r. split; [tauto|]. intro. split; [lia|assumption].
Qed.

Definition sees (tbl : list (nat * pid)) (x id : nat) (periodic : bool) : ptype :=
  if periodic then Boundary
  else match hget id tbl with
       | Some p => if (fst p =? x) then Local p else Remote p
       | None => Boundary
       end.

Definition contrib (tbl : list (nat * pid)) (x u : nat) (c : connection) : list (face * ptype) :=
  (if ((id1 c =? u) && negb (periodic1 c))%bool
   then [((area c, vopp (normal c)), sees tbl x (id2 c) (periodic2 c))] else [])
  ++ (if ((id2 c =? u) && negb (periodic2 c))%bool
      then [((area c, normal c), sees tbl x (id1 c) (periodic1 c))] else []).

Section Cells.
  Variable x : nat.
  Variable allow_periodic : bool.
  Variable tbl : list (nat * pid).
  Variable us : list nat.
  Hypothesis Hus : NoDup us.
  (** The local particles are those which the table assigns to this rank. *)
  Hypothesis Hloc : forall u p, hget u tbl = Some p -> (fst p = x <-> In u us).

  Let index := hcollect (combine us (seq 0 (length us))).

  Lemma add_neighbour_spec u f t cells : In u us -> length cells = length us ->
    exists cells', add_neighbour index u f t cells = Some cells' /\ length cells' = length us
    /\ forall j v, nth_error us j = Some v ->
         nth j cells' [] = nth j cells [] ++ (if u =? v then [(f, t)] else []).
  Proof.
    intros Hu Hl. apply In_nth_error in Hu as [i Hi]. unfold add_neighbour.
    assert (E := proj2 (index_spec us Hus u i) Hi). fold index in E. rewrite E.
    assert (Hil : i < length us) by (apply nth_error_Some; congruence).
    destruct (push_at_spec i (f, t) cells) as (cs & E' & L & H); [lia|].
    exists cs. split; [exact E'|]. split; [lia|]. intros j v Hv. rewrite H. f_equal.
    destruct (i =? j) eqn:F.
    - apply Nat.eqb_eq in F as ->. assert (u = v) as -> by congruence. now rewrite Nat.eqb_refl.
    - destruct (u =? v) eqn:F2; [|reflexivity]. apply Nat.eqb_eq in F2 as ->. exfalso.
      apply Nat.eqb_neq in F. apply F. apply (proj1 (NoDup_nth_error us) Hus); [exact Hil|congruence].
  Qed.

  Variable m : idmap.

  Lemma type_spec id per p : hget id m = Some p -> hget id tbl = Some p ->
    (allow_periodic = true -> per = false) ->
    get_particle_type x allow_periodic m id per = Some (sees tbl x id per).
  Proof.
    intros E1 E2 Hp. unfold get_particle_type, sees. rewrite E1, E2.
    destruct per, (fst p =? x), allow_periodic; try reflexivity; discriminate (Hp eq_refl).
  Qed.

  Definition good_conn (c : connection) : Prop :=
    (exists p, hget (id1 c) m = Some p /\ hget (id1 c) tbl = Some p)
    /\ (exists p, hget (id2 c) m = Some p /\ hget (id2 c) tbl = Some p)
    /\ (allow_periodic = true -> periodic1 c = false /\ periodic2 c = false).

  Lemma local_sees id per p : hget id tbl = Some p ->
    type_is_local (sees tbl x id per) = (negb per && existsb (Nat.eqb id) us)%bool.
  Proof.
    intro E. unfold sees. rewrite E. destruct per; [reflexivity|]. cbn [negb andb].
    destruct (fst p =? x) eqn:F; cbn [type_is_local].
    - apply Nat.eqb_eq in F. symmetry. apply existsb_exists. exists id. split; [|apply Nat.eqb_refl].
      apply (Hloc id p E). exact F.
    - symmetry. apply Bool.not_true_is_false. intro G. apply existsb_exists in G as (i & Hi & Ei).
      apply Nat.eqb_eq in Ei as <-. apply (Hloc id p E) in Hi. apply Nat.eqb_neq in F. auto.
  Qed.

  Lemma add_connection_spec c cells : good_conn c -> length cells = length us ->
    exists cells', add_connection x allow_periodic m index c cells = Some cells' /\ length cells' = length us
    /\ forall j v, nth_error us j = Some v -> nth j cells' [] = nth j cells [] ++ contrib tbl x v c.
  Proof.
    intros ((p1 & A1 & A2) & (p2 & B1 & B2) & Hper) Hl. unfold add_connection.
    rewrite (type_spec _ _ p1 A1 A2) by tauto. rewrite (type_spec _ _ p2 B1 B2) by tauto.
    rewrite (local_sees _ _ p1 A2), (local_sees _ _ p2 B2).
    assert (S1 : exists cells1,
      (if (negb (periodic1 c) && existsb (Nat.eqb (id1 c)) us)%bool
       then add_neighbour index (id1 c) (area c, vopp (normal c)) (sees tbl x (id2 c) (periodic2 c)) cells
       else Some cells) = Some cells1 /\ length cells1 = length us
      /\ forall j v, nth_error us j = Some v -> nth j cells1 [] = nth j cells [] ++
           (if ((id1 c =? v) && negb (periodic1 c))%bool
            then [((area c, vopp (normal c)), sees tbl x (id2 c) (periodic2 c))] else [])).
    { destruct (negb (periodic1 c)) eqn:P; cbn [andb].
      - destruct (existsb (Nat.eqb (id1 c)) us) eqn:X.
        + apply existsb_exists in X as (i & Hi & Ei). apply Nat.eqb_eq in Ei as <-.
          destruct (add_neighbour_spec (id1 c) (area c, vopp (normal c)) (sees tbl x (id2 c) (periodic2 c)) cells Hi Hl)
            as (cs & E & L & H). exists cs. split; [exact E|]. split; [exact L|]. intros j v Hv.
          rewrite (H j v Hv). now rewrite Bool.andb_true_r.
        + exists cells. split; [reflexivity|]. split; [exact Hl|]. intros j v Hv. rewrite Bool.andb_true_r.
          destruct (id1 c =? v) eqn:F; [|now rewrite app_nil_r]. apply Nat.eqb_eq in F as <-.
          exfalso. apply Bool.not_true_iff_false in X. apply X. apply existsb_exists. exists (id1 c).
          split; [exact (nth_error_In _ _ Hv)|apply Nat.eqb_refl].
      - exists cells. split; [reflexivity|]. split; [exact Hl|]. intros j v Hv. rewrite Bool.andb_false_r. now rewrite app_nil_r. }
    destruct S1 as (cells1 & E1 & L1 & H1). rewrite E1. clear E1.
    destruct (negb (periodic2 c)) eqn:P; cbn [andb].
    - destruct (existsb (Nat.eqb (id2 c)) us) eqn:X.
      + apply existsb_exists in X as (i & Hi & Ei). apply Nat.eqb_eq in Ei as <-.
        destruct (add_neighbour_spec (id2 c) (area c, normal c) (sees tbl x (id1 c) (periodic1 c)) cells1 Hi L1)
          as (cs & E & L & H). exists cs. split; [exact E|]. split; [exact L|]. intros j v Hv.
        rewrite (H j v Hv), (H1 j v Hv). unfold contrib. rewrite P, Bool.andb_true_r. now rewrite app_assoc.
      + exists cells1. split; [reflexivity|]. split; [exact L1|]. intros j v Hv. rewrite (H1 j v Hv).
        unfold contrib. rewrite P, Bool.andb_true_r.
        destruct (id2 c =? v) eqn:F; [|now rewrite app_nil_r]. apply Nat.eqb_eq in F as <-.
        exfalso. apply Bool.not_true_iff_false in X. apply X. apply existsb_exists. exists (id2 c).
        split; [exact (nth_error_In _ _ Hv)|apply Nat.eqb_refl].
    - exists cells1. split; [reflexivity|]. split; [exact L1|]. intros j v Hv. rewrite (H1 j v Hv).
      unfold contrib. rewrite P, Bool.andb_false_r. now rewrite app_nil_r.
  Qed.

  Lemma add_all_spec l : forall cells, (forall c, In c l -> good_conn c) -> length cells = length us ->
    exists cells', add_all x allow_periodic m index l cells = Some cells' /\ length cells' = length us
    /\ forall j v, nth_error us j = Some v -> nth j cells' [] = nth j cells [] ++ flat_map (contrib tbl x v) l.
  Proof.
    induction l as [|c l IH]; intros cells Hg Hl; cbn [add_all flat_map].
    - exists cells. split; [reflexivity|]. split; [exact Hl|]. intros. now rewrite app_nil_r.
    - destruct (add_connection_spec c cells (Hg c (or_introl eq_refl)) Hl) as (cs & E & L & H). rewrite E.
      destruct (IH cs) as (cs' & E' & L' & H'); [intros; apply Hg; now right|exact L|].
      exists cs'. split; [exact E'|]. split; [exact L'|]. intros j v Hv.
      rewrite (H' j v Hv), (H j v Hv). now rewrite app_assoc.
  Qed.
End Cells.

(** ** Requests *)

Lemma set_insert_In id l i : In i (set_insert id l) <-> i = id \/ In i l.
Proof.
  unfold set_insert. destruct (existsb (Nat.eqb id) l) eqn:E.
  - apply existsb_exists in E as (j & Hj & Ej). apply Nat.eqb_eq in Ej as <-. split; [auto|]. intros [->|H]; auto.
  - rewrite in_app_iff. cbn. intuition.
Qed.

Lemma add_request_In x m id l i : In i (add_lookup_request x m id l) <-> (i = id /\ is_local x m id = false) \/ In i l.
Proof.
  unfold add_lookup_request. destruct (is_local x m id) eqn:E.
  - split; [auto|]. intros [[_ F]|F]; [discriminate|exact F].
  - rewrite set_insert_In. intuition.
Qed.

Lemma lookup_requests_In x m l i :
  In i (lookup_requests x m l) <-> is_local x m i = false /\ exists c, In c l /\ (i = id1 c \/ i = id2 c).
Proof.
  unfold lookup_requests.
  assert (G : forall rs, In i (fold_left (fun rs c => add_lookup_request x m (id2 c) (add_lookup_request x m (id1 c) rs)) l rs)
     <-> In i rs \/ (is_local x m i = false /\ exists c, In c l /\ (i = id1 c \/ i = id2 c))).
  { induction l as [|c l IH]; intro rs; cbn [fold_left].
    - split; [auto|]. intros [H|(_ & c & [] & _)]. exact H.
    - rewrite IH, !add_request_In. split.
      + intros [[[-> F]|[[-> F]|H]]|(F & c' & H1 & H2)].
        * right. split; [exact F|]. exists c. split; [now left|auto].
        * right. split; [exact F|]. exists c. split; [now left|auto].
        * auto.
        * right. split; [exact F|]. exists c'. split; [now right|auto].
      + intros [H|(F & c' & [<-|H1] & H2)].
        * auto.
        * destruct H2 as [->| ->]; auto.
        * right. split; [exact F|]. exists c'. auto. }
  rewrite G. cbn. tauto.
Qed.

(** ** The whole construction *)

Section Whole.
  Variable drain : list nat -> list nat.
  Hypothesis Hdrain : forall l, Permutation (drain l) l.
  Variables n chunk_size : nat.
  Variable allow_periodic : bool.
  Variable particles : list (list (pid * nat)).
  Variable file : list entry.
  Hypothesis Hc : 1 <= chunk_size.
  Hypothesis Hn : length particles = n.
  Hypothesis Hrank : forall x p u, In (p, u) (nth x particles []) -> fst p = x.
  Hypothesis Hu : NoDup (map snd (concat particles)).
  Hypothesis Hp : NoDup (map fst (concat particles)).
  Hypothesis Hids : forall c, In c (read_connections file) ->
    In (id1 c) (map snd (concat particles)) /\ In (id2 c) (map snd (concat particles)).
  Hypothesis Hper : allow_periodic = true -> forall c, In c (read_connections file) ->
    periodic1 c = false /\ periodic2 c = false.

  Definition swap (p : pid * nat) : nat * pid := (snd p, fst p).
  Definition tables : list (list (nat * pid)) := map (map swap) particles.
  Definition tbl : list (nat * pid) := concat tables.
  Notation conns := (read_connections file).

  Lemma tbl_eq : tbl = map swap (concat particles).
  Proof. unfold tbl, tables. now rewrite concat_map. Qed.

  Lemma tbl_keys : map fst tbl = map snd (concat particles).
  Proof. rewrite tbl_eq, map_map. reflexivity. Qed.

  Lemma nth_tables x : nth x tables [] = map swap (nth x particles []).
  Proof. unfold tables. change (@nil (nat * pid)) with (map swap []). apply map_nth. Qed.

  Lemma NoDup_nth {A B} (f : A -> B) (l : list (list A)) x : NoDup (map f (concat l)) -> NoDup (map f (nth x l [])).
  Proof.
    revert x. induction l as [|a l IH]; intros x H; [destruct x; constructor|].
    cbn [concat] in H. rewrite map_app in H. apply NoDup_app_split in H as (H1 & H2 & _).
    destruct x; cbn [nth]; auto.
  Qed.

  Lemma maps_eq : map (fun ps => hcollect (map (fun p => (snd p, fst p)) ps)) particles = tables.
  Proof.
    unfold tables. apply map_ext_in. intros ps Hps. apply hcollect_id. rewrite map_map.
    apply (In_nth _ _ []) in Hps as (x & _ & <-). apply (NoDup_nth snd). exact Hu.
  Qed.

  Lemma in_concat_nth {A} (a : A) l : In a (concat l) <-> exists x, x < length l /\ In a (nth x l []).
  Proof.
    rewrite in_concat. split.
    - intros (l' & H1 & H2). apply (In_nth _ _ []) in H1 as (x & Hx & <-). exists x. auto.
    - intros (x & Hx & H). exists (nth x l []). split; [now apply nth_In|exact H].
  Qed.

  Lemma hget_tbl u p : hget u tbl = Some p <-> exists x, x < n /\ In (p, u) (nth x particles []).
  Proof.
    rewrite hget_iff by (rewrite tbl_keys; exact Hu). rewrite tbl_eq, in_map_iff. split.
    - intros ([p' u'] & E & H). unfold swap in E. cbn in E. injection E as -> ->.
      apply in_concat_nth in H as (x & Hx & H). exists x. split; [lia|exact H].
    - intros (x & Hx & H). exists (p, u). split; [reflexivity|]. apply in_concat_nth. exists x. split; [lia|exact H].
  Qed.

  Lemma stored_tbl u p : stored tables u p <-> hget u tbl = Some p.
  Proof.
    rewrite (hget_iff u p tbl) by (rewrite tbl_keys; exact Hu). apply stored_concat.
  Qed.

  Lemma rank_lt x p u : In (p, u) (nth x particles []) -> x < n.
  Proof.
    intro H. destruct (Nat.lt_ge_cases x n) as [L|L]; [exact L|]. rewrite nth_overflow in H by lia. destruct H.
  Qed.

  Lemma Hloc x u p : hget u tbl = Some p -> (fst p = x <-> In u (map snd (nth x particles []))).
  Proof.
    intro E. assert (E' := E). apply hget_tbl in E as (y & Hy & H). rewrite (Hrank y p u H). split.
    - intros <-. apply in_map_iff. exists (p, u). auto.
    - intro G. apply in_map_iff in G as ([p' u'] & Eu & G). cbn in Eu. subst u'.
      assert (E2 : hget u tbl = Some p').
      { apply hget_tbl. exists x. split; [exact (rank_lt _ _ _ G)|exact G]. }
      rewrite E' in E2. injection E2 as <-. rewrite <- (Hrank x p u G). symmetry. exact (Hrank y p u H).
  Qed.

  Lemma own_table x id p : hget id (nth x tables []) = Some p <-> In (p, id) (nth x particles []).
  Proof.
    rewrite hget_iff.
    - rewrite nth_tables, in_map_iff. split.
      + intros ([p' u'] & E & H). unfold swap in E. cbn in E. injection E as -> ->. exact H.
      + intro H. exists (p, id). auto.
    - apply NoDup_nth. fold tbl. rewrite tbl_keys. exact Hu.
  Qed.

  Lemma is_local_spec x id : is_local x (nth x tables []) id = true <-> In id (map snd (nth x particles [])).
  Proof.
    unfold is_local. destruct (hget id (nth x tables [])) as [p|] eqn:E.
    - apply own_table in E. rewrite (Hrank x p id E), Nat.eqb_refl. split; [|reflexivity].
      intros _. apply in_map_iff. exists (p, id). auto.
    - split; [discriminate|]. intro H. apply in_map_iff in H as ([p u] & Eu & H). cbn in Eu. subst u.
      apply own_table in H. congruence.
  Qed.

  Definition rel (x : nat) : list connection := relevant x (nth x tables []) conns.
  Definition requests : list (list nat) := map (fun x => drain (lookup_requests x (nth x tables []) (rel x))) (seq 0 n).
  Definition maps' : list idmap := perform_lookup n chunk_size requests tables.

  Lemma tables_length : length tables = n.
  Proof. unfold tables. now rewrite map_length. Qed.

  Lemma maps'_spec : length maps' = n /\ forall x, x < n -> forall id p,
    hget id (nth x maps' []) = Some p <-> hget id tbl = Some p /\
      (fst p = x \/ exists c, In c (rel x) /\ (id = id1 c \/ id = id2 c)).
  Proof.
    destruct (lookup_spec n tables tables_length) with (c := chunk_size) (requests := requests) (maps := tables) as [L H].
    - fold tbl. rewrite tbl_keys. exact Hu.
    - exact Hc.
    - unfold requests. now rewrite map_length, seq_length.
    - exact tables_length.
    - intros x id p Hin. apply own_table. rewrite nth_tables in Hin. apply in_map_iff in Hin as ([p' u'] & E & Hin).
      unfold swap in E. cbn in E. injection E as -> ->. exact Hin.
    - intros x id p Hin. apply stored_tbl, hget_tbl. apply own_table in Hin. exists x. split; [exact (rank_lt _ _ _ Hin)|exact Hin].
    - fold maps' in L, H. split; [exact L|]. intros x Hx id p. rewrite (H x Hx), own_table, stored_tbl.
      unfold requests. rewrite nth_map_seq by exact Hx.
      assert (Hreq : In id (drain (lookup_requests x (nth x tables []) (rel x)))
                <-> is_local x (nth x tables []) id = false /\ exists c, In c (rel x) /\ (id = id1 c \/ id = id2 c)).
      { rewrite <- lookup_requests_In. split; apply Permutation_in; [apply Hdrain|symmetry; apply Hdrain]. }
      rewrite Hreq. split.
      + intros [F|[[F1 F2] F3]].
        * split; [apply hget_tbl; exists x; auto|]. left. exact (Hrank x p id F).
        * auto.
      + intros [F1 F2]. destruct (is_local x (nth x tables []) id) eqn:E.
        * left. apply is_local_spec in E. apply in_map_iff in E as ([p' u'] & Eu & E). cbn in Eu. subst u'.
          assert (G : hget id tbl = Some p') by (apply hget_tbl; exists x; auto). congruence.
        * destruct F2 as [F2|F2]; [|auto]. apply (Hloc x id p F1) in F2. apply is_local_spec in F2. congruence.
  Qed.

  Lemma flat_map_filter {A B} (f : A -> list B) (t : A -> bool) l :
    (forall a, In a l -> t a = false -> f a = []) -> flat_map f (filter t l) = flat_map f l.
  Proof.
    induction l as [|a l IH]; intro H; cbn [filter flat_map]; [reflexivity|].
    destruct (t a) eqn:E; cbn [flat_map]; rewrite IH by (intros; apply H; [now right|assumption]); [reflexivity|].
    now rewrite (H a (or_introl eq_refl) E).
  Qed.

  Definition haloes (x : nat) : list pid := filter (fun p => negb (fst p =? x)%nat) (map snd (nth x maps' [])).

  Theorem read_grid_exact : exists r, read_grid drain n chunk_size allow_periodic particles file = Some r
    /\ length r = n
    /\ forall x, x < n ->
         length (fst (nth x r ([], []))) = length (nth x particles [])
         /\ (forall j p u, nth_error (nth x particles []) j = Some (p, u) ->
               nth j (fst (nth x r ([], []))) [] = flat_map (contrib tbl x u) conns)
         /\ snd (nth x r ([], [])) = haloes x.
  Proof.
    unfold read_grid. rewrite maps_eq.
    change (map (fun x => drain (lookup_requests x (nth x tables []) (relevant x (nth x tables []) conns))) (seq 0 n)) with requests.
    fold maps'.
    set (cellsof x := match add_all x allow_periodic (nth x maps' [])
            (hcollect (combine (map snd (nth x particles [])) (seq 0 (length (nth x particles [])))))
            (rel x) (map (fun _ => []) (nth x particles [])) with Some c => c | None => [] end).
    assert (Hcells : forall x, x < n ->
       add_all x allow_periodic (nth x maps' [])
            (hcollect (combine (map snd (nth x particles [])) (seq 0 (length (nth x particles [])))))
            (rel x) (map (fun _ => []) (nth x particles [])) = Some (cellsof x)
       /\ length (cellsof x) = length (nth x particles [])
       /\ forall j p u, nth_error (nth x particles []) j = Some (p, u) -> nth j (cellsof x) [] = flat_map (contrib tbl x u) conns).
    { intros x Hx.
      destruct (add_all_spec x allow_periodic tbl (map snd (nth x particles [])) (NoDup_nth snd particles x Hu) (Hloc x) (nth x maps' [])
                  (rel x) (map (fun _ => []) (nth x particles []))) as (cs & E & L & H).
      - intros c Hin. assert (Hin' := Hin). unfold rel, relevant in Hin'. apply filter_In in Hin' as [Hin1 _].
        destruct (Hids c Hin1) as [K1 K2].
        assert (G : forall id, In id (map snd (concat particles)) -> id = id1 c \/ id = id2 c ->
                  exists p, hget id (nth x maps' []) = Some p /\ hget id tbl = Some p).
        { intros id Hid Hor. rewrite <- tbl_keys in Hid. destruct (hget_key _ _ Hid) as [p Ep]. exists p.
          split; [|exact Ep]. apply (proj2 maps'_spec x Hx). split; [exact Ep|]. right. exists c. auto. }
        split; [exact (G _ K1 (or_introl eq_refl))|]. split; [exact (G _ K2 (or_intror eq_refl))|].
        intro Ha. exact (Hper Ha c Hin1).
      - now rewrite !map_length.
      - rewrite map_length in E. unfold cellsof. rewrite E. split; [reflexivity|]. rewrite map_length in L.
        split; [exact L|]. intros j p u Hj.
        assert (Hv : nth_error (map snd (nth x particles [])) j = Some u) by (rewrite nth_error_map, Hj; reflexivity).
        rewrite (H j u Hv).
        replace (nth j (map (fun _ => []) (nth x particles [])) []) with (@nil (face * ptype)).
        2:{ clear. revert j. induction (nth x particles []) as [|a l IH]; intros [|j]; cbn; auto. }
        cbn [app]. unfold rel, relevant. apply flat_map_filter. intros c Hin Hf.
        apply Bool.orb_false_iff in Hf as [Hf1 Hf2].
        assert (Hu' : In u (map snd (nth x particles []))) by exact (nth_error_In _ _ Hv).
        apply is_local_spec in Hu'. unfold contrib.
        destruct (id1 c =? u) eqn:F1; [apply Nat.eqb_eq in F1; congruence|].
        destruct (id2 c =? u) eqn:F2; [apply Nat.eqb_eq in F2; congruence|]. reflexivity. }
    exists (map (fun x => (cellsof x, haloes x)) (seq 0 n)). split; [|split].
    - apply opt_all_map. intros x Hx. apply in_seq in Hx. cbv beta zeta. fold (rel x).
      destruct (Hcells x) as [E _]; [lia|]. rewrite E. reflexivity.
    - now rewrite map_length, seq_length.
    - intros x Hx. rewrite nth_map_seq by exact Hx. cbn [fst snd]. destruct (Hcells x Hx) as (_ & L & H). auto.
  Qed.

  (** *** Consequences *)

  Lemma flip_vopp f : flip f = (fst f, vopp (snd f)).
  Proof. destruct f as [a [[x y] z]]. reflexivity. Qed.
  Lemma vopp_vopp v : vopp (vopp v) = v.
  Proof. destruct v as [[x y] z]. unfold vopp. now rewrite !Qopp_involutive || (destruct x, y, z; unfold Qopp; cbn; rewrite !Z.opp_involutive). Qed.
  Lemma flip_flip f : flip (flip f) = f.
  Proof. destruct f as [a v]. rewrite !flip_vopp. cbn. now rewrite vopp_vopp. Qed.

  Lemma towards_app p a b : towards p (a ++ b) = towards p a ++ towards p b.
  Proof. unfold towards. now rewrite filter_app, map_app. Qed.
  Lemma boundary_app a b : boundary_faces (a ++ b) = boundary_faces a ++ boundary_faces b.
  Proof. unfold boundary_faces. now rewrite filter_app, map_app. Qed.

  Lemma pid_eqb_eq p q : pid_eqb p q = true <-> p = q.
  Proof.
    unfold pid_eqb. rewrite Bool.andb_true_iff, !Nat.eqb_eq. destruct p, q; cbn. split; [intros [-> ->]; reflexivity|].
    intro E. injection E. auto.
  Qed.

  Lemma pid_unique u v p : hget u tbl = Some p -> hget v tbl = Some p -> u = v.
  Proof.
    intros H1 H2. apply hget_iff in H1; [|rewrite tbl_keys; exact Hu]. apply hget_iff in H2; [|rewrite tbl_keys; exact Hu].
    rewrite tbl_eq in H1, H2. apply in_map_iff in H1 as ([p1 u1] & E1 & H1). apply in_map_iff in H2 as ([p2 u2] & E2 & H2).
    unfold swap in E1, E2. cbn in E1, E2. injection E1 as -> ->. injection E2 as -> ->.
    assert (G : forall l, NoDup (map fst l) -> In (p, u) l -> In (p, v) l -> u = v).
    { clear. induction l as [|[q w] l IH]; intros H H1 H2; [destruct H1|]. inversion H as [|? ? H3 H4]; subst.
      destruct H1 as [H1|H1], H2 as [H2|H2]; auto.
      - congruence.
      - injection H1 as -> ->. exfalso. apply H3. apply in_map_iff. exists (p, v). auto.
      - injection H2 as -> ->. exfalso. apply H3. apply in_map_iff. exists (p, u). auto. }
    exact (G _ Hp H1 H2).
  Qed.

  Lemma sees_towards x id per p v : In id (map snd (concat particles)) -> hget v tbl = Some p ->
    (match nb_id (sees tbl x id per) with Some q => pid_eqb q p | None => false end) = (negb per && (id =? v))%bool.
  Proof.
    intros Hid Hv. unfold sees. destruct per; [reflexivity|]. cbn [negb andb].
    rewrite <- tbl_keys in Hid. destruct (hget_key _ _ Hid) as [q Eq]. rewrite Eq.
    transitivity (pid_eqb q p); [destruct (fst q =? x); reflexivity|].
    destruct (id =? v) eqn:E.
    - apply Nat.eqb_eq in E as ->. apply pid_eqb_eq. congruence.
    - apply Bool.not_true_is_false. intro F. apply pid_eqb_eq in F as ->.
      apply Nat.eqb_neq in E. apply E. exact (pid_unique _ _ _ Eq Hv).
  Qed.

  Lemma contrib_towards x u v p c : In c conns -> hget v tbl = Some p -> u <> v ->
    towards p (contrib tbl x u c) = joining [c] u v.
  Proof.
    intros Hin Hv Huv. destruct (Hids c Hin) as [K1 K2].
    unfold contrib, joining. cbn [flat_map]. rewrite app_nil_r, towards_app.
    assert (T : forall (b : bool) f id per, In id (map snd (concat particles)) ->
        towards p (if b then [(f, sees tbl x id per)] else []) = if (b && negb per && (id =? v))%bool then [f] else []).
    { intros b f id per Hid. destruct b; [|reflexivity]. unfold towards. cbn [filter snd].
      rewrite (sees_towards x id per p v Hid Hv). cbn [andb].
      destruct (negb per && (id =? v))%bool; reflexivity. }
    rewrite (T _ _ _ _ K1), (T _ _ _ _ K2). rewrite flip_vopp. cbn [fst snd].
    destruct (periodic1 c), (periodic2 c); cbn [negb orb]; rewrite ?Bool.andb_false_r, ?Bool.andb_true_r; cbn [app andb]; try reflexivity.
    destruct (id1 c =? u) eqn:E1, (id2 c =? v) eqn:E2; cbn [andb app].
    - apply Nat.eqb_eq in E1, E2.
      destruct (id2 c =? u) eqn:E3; [apply Nat.eqb_eq in E3; congruence|]. reflexivity.
    - apply Nat.eqb_eq in E1. destruct (id1 c =? v) eqn:E4; [apply Nat.eqb_eq in E4; congruence|].
      rewrite Bool.andb_false_r. reflexivity.
    - apply Nat.eqb_eq in E2. destruct (id2 c =? u) eqn:E3; [apply Nat.eqb_eq in E3; congruence|].
      cbn [andb app]. rewrite Bool.andb_false_r. reflexivity.
    - rewrite (Bool.andb_comm (id1 c =? v)). destruct (id2 c =? u), (id1 c =? v); reflexivity.
  Qed.

  Lemma joining_app a b u v : joining (a ++ b) u v = joining a u v ++ joining b u v.
  Proof. unfold joining. apply flat_map_app. Qed.

  Lemma towards_cell x u v p : hget v tbl = Some p -> u <> v ->
    towards p (flat_map (contrib tbl x u) conns) = joining conns u v.
  Proof.
    intros Hv Huv.
    assert (G : forall l, incl l conns -> towards p (flat_map (contrib tbl x u) l) = joining l u v).
    { induction l as [|c l IH]; intro Hi; [reflexivity|]. cbn [flat_map]. rewrite towards_app.
      rewrite (contrib_towards x u v p c (Hi c (or_introl eq_refl)) Hv Huv). rewrite IH by (intros a Ha; apply Hi; now right).
      change (c :: l) with ([c] ++ l). symmetry. apply joining_app. }
    apply G. apply incl_refl.
  Qed.

  Lemma contrib_boundary x u c : In c conns -> boundary_faces (contrib tbl x u c) = ending [c] u.
  Proof.
    intro Hin. destruct (Hids c Hin) as [K1 K2].
    unfold contrib, ending. cbn [flat_map]. rewrite app_nil_r, boundary_app.
    assert (T : forall (b : bool) f id per, In id (map snd (concat particles)) ->
        boundary_faces (if b then [(f, sees tbl x id per)] else []) = if (b && per)%bool then [f] else []).
    { intros b f id per Hid. destruct b; [|reflexivity]. unfold boundary_faces. cbn [filter snd].
      unfold sees. destruct per; [reflexivity|]. rewrite <- tbl_keys in Hid. destruct (hget_key _ _ Hid) as [q Eq]. rewrite Eq.
      destruct (fst q =? x); reflexivity. }
    rewrite (T _ _ _ _ K1), (T _ _ _ _ K2). rewrite flip_vopp. reflexivity.
  Qed.

  Lemma boundary_cell x u : boundary_faces (flat_map (contrib tbl x u) conns) = ending conns u.
  Proof.
    assert (G : forall l, incl l conns -> boundary_faces (flat_map (contrib tbl x u) l) = ending l u).
    { induction l as [|c l IH]; intro Hi; [reflexivity|]. cbn [flat_map]. rewrite boundary_app.
      rewrite (contrib_boundary x u c (Hi c (or_introl eq_refl))). rewrite IH by (intros a Ha; apply Hi; now right).
      unfold ending. cbn [flat_map]. rewrite app_nil_r. reflexivity. }
    apply G. apply incl_refl.
  Qed.

  Lemma joining_flip l u v : u <> v -> joining l u v = map flip (joining l v u).
  Proof.
    intro Huv. induction l as [|c l IH]; [reflexivity|]. change (c :: l) with ([c] ++ l).
    rewrite !joining_app, map_app, IH. f_equal. unfold joining. cbn [flat_map]. rewrite !app_nil_r.
    destruct (periodic1 c || periodic2 c)%bool; [reflexivity|].
    destruct (id1 c =? u) eqn:E1, (id2 c =? v) eqn:E2; cbn [andb].
    - apply Nat.eqb_eq in E1, E2. destruct (id1 c =? v) eqn:E3; [apply Nat.eqb_eq in E3; congruence|]. reflexivity.
    - apply Nat.eqb_eq in E1. destruct (id1 c =? v) eqn:E3; [apply Nat.eqb_eq in E3; congruence|]. reflexivity.
    - apply Nat.eqb_eq in E2. destruct (id2 c =? u) eqn:E3; [apply Nat.eqb_eq in E3; congruence|].
      rewrite !Bool.andb_false_r. reflexivity.
    - destruct ((id1 c =? v) && (id2 c =? u))%bool; [|reflexivity]. cbn [map]. now rewrite flip_flip.
  Qed.

  Lemma cell_types x u nb : In nb (flat_map (contrib tbl x u) conns) ->
    match snd nb with
    | Local p => fst p = x /\ In p (map fst (concat particles))
    | Remote p => fst p <> x /\ In p (map fst (concat particles))
    | Boundary => True
    end.
  Proof.
    intro H. apply in_flat_map in H as (c & Hc' & H).
    assert (G : forall id per, match sees tbl x id per with
        | Local p => fst p = x /\ In p (map fst (concat particles))
        | Remote p => fst p <> x /\ In p (map fst (concat particles)) | Boundary => True end).
    { intros id per. unfold sees. destruct per; [exact I|]. destruct (hget id tbl) as [q|] eqn:E; [|exact I].
      assert (K : In q (map fst (concat particles))).
      { apply hget_tbl in E as (y & Hy & E). apply in_map_iff. exists (q, id). split; [reflexivity|].
        apply in_concat_nth. exists y. split; [lia|exact E]. }
      destruct (fst q =? x) eqn:F; [apply Nat.eqb_eq in F|apply Nat.eqb_neq in F]; auto. }
    unfold contrib in H. apply in_app_or in H as [H|H];
    match type of H with In _ (if ?b then _ else _) => destruct b end; cbn in H; try contradiction;
    destruct H as [<-|[]]; apply G.
  Qed.

  Lemma haloes_spec x : x < n -> NoDup (haloes x) /\ forall p, In p (haloes x) <->
    fst p <> x /\ exists u v q c, hget u tbl = Some p /\ In (q, v) (nth x particles []) /\ In c conns
      /\ ((id1 c = u /\ id2 c = v) \/ (id1 c = v /\ id2 c = u)).
  Proof.
    intro Hx. destruct maps'_spec as [L H].
    assert (ND : NoDup (map fst (nth x maps' []))).
    { apply perform_lookup_NoDup; [fold maps'; lia|exact tables_length|]. intro y. apply (NoDup_nth fst). fold tbl.
      rewrite tbl_keys. exact Hu. }
    split.
    - unfold haloes. apply NoDup_filter.
      assert (G : forall m, NoDup (map fst m) -> (forall id p, In (id, p) m -> hget id tbl = Some p) -> NoDup (map snd m)).
      { induction m as [|[i q] m IH]; intros Hm Hin; cbn; [constructor|]. inversion Hm as [|? ? H1 H2]; subst. constructor.
        - intro F. apply in_map_iff in F as ([i' q'] & Eq & F). cbn in Eq. subst q'.
          assert (i = i').
          { apply (pid_unique i i' q); [apply Hin; now left|apply Hin; now right]. }
          subst i'. apply H1. apply in_map_iff. exists (i, q). auto.
        - apply IH; [exact H2|]. intros id p F. apply Hin. now right. }
      apply G; [exact ND|]. intros id p F. apply (hget_iff id p _ ND) in F. apply (H x Hx) in F. tauto.
    - intro p. unfold haloes. rewrite filter_In, in_map_iff. split.
      + intros [([id p'] & Ep & Hin) F]. cbn in Ep. subst p'. apply Bool.negb_true_iff, Nat.eqb_neq in F.
        split; [exact F|]. apply (hget_iff id p _ ND) in Hin. apply (H x Hx) in Hin as [E [G|(c & Hc1 & Hc2)]]; [contradiction|].
        unfold rel, relevant in Hc1. apply filter_In in Hc1 as [Hc1 Hc3].
        assert (NL : ~ In id (map snd (nth x particles []))).
        { intro Q. apply (Hloc x id p E) in Q. contradiction. }
        apply Bool.orb_true_iff in Hc3. rewrite !is_local_spec in Hc3.
        destruct Hc3 as [Hc3|Hc3]; destruct Hc2 as [->| ->]; try contradiction;
          apply in_map_iff in Hc3 as ([q v] & Ev & Hq); cbn in Ev; subst v.
        * exists (id2 c), (id1 c), q, c. auto 6.
        * exists (id1 c), (id2 c), q, c. auto 6.
      + intros [F (u & v & q & c & Eu & Hv & Hc1 & Hor)]. split.
        * exists (u, p). split; [reflexivity|]. apply (hget_iff u p _ ND). apply (H x Hx). split; [exact Eu|].
          right. exists c. split.
          -- unfold rel, relevant. apply filter_In. split; [exact Hc1|]. apply Bool.orb_true_iff. rewrite !is_local_spec.
             assert (In v (map snd (nth x particles []))) by (apply in_map_iff; exists (q, v); auto).
             destruct Hor as [[_ <-]|[<- _]]; auto.
          -- destruct Hor as [[<- _]|[_ <-]]; auto.
        * apply Bool.negb_true_iff, Nat.eqb_neq. exact F.
  Qed.
End Whole.

Section Final.
  Variable drain : list nat -> list nat.
  Hypothesis Hdrain : forall l, Permutation (drain l) l.
  Variables n chunk_size : nat.
  Variable allow_periodic : bool.
  Variable particles : list (list (pid * nat)).
  Variable file : list entry.
  Hypothesis Hc : 1 <= chunk_size.
  Hypothesis Hok : input_ok n allow_periodic particles file.
  Notation conns := (read_connections file).

  Theorem read_grid_cells : exists r, read_grid drain n chunk_size allow_periodic particles file = Some r
    /\ length r = n
    /\ (forall x, x < n -> length (fst (nth x r ([], []))) = length (nth x particles []))
    /\ (forall x i pu u y j pv v,
         nth_error (nth x particles []) i = Some (pu, u) -> nth_error (nth y particles []) j = Some (pv, v) -> u <> v ->
         towards pv (cell_of r x i) = joining conns u v
         /\ towards pv (cell_of r x i) = map flip (towards pu (cell_of r y j)))
    /\ (forall x i pu u, nth_error (nth x particles []) i = Some (pu, u) ->
         boundary_faces (cell_of r x i) = ending conns u
         /\ forall nb, In nb (cell_of r x i) ->
              match snd nb with
              | Local p => fst p = x /\ In p (map fst (concat particles))
              | Remote p => fst p <> x /\ In p (map fst (concat particles))
              | Boundary => True
              end)
    /\ (forall x, x < n -> NoDup (haloes_of r x)
         /\ forall p, In p (haloes_of r x) <-> fst p <> x
              /\ exists u v q c, In (p, u) (concat particles) /\ In (q, v) (nth x particles []) /\ In c conns
                   /\ ((id1 c = u /\ id2 c = v) \/ (id1 c = v /\ id2 c = u))).
  Proof.
    destruct Hok as [H1 H2 H3 H4 H5 H6].
    destruct (read_grid_exact drain Hdrain n chunk_size allow_periodic particles file Hc H1 H2 H3 H5 H6) as (r & E & L & H).
    exists r. split; [exact E|]. split; [exact L|]. split; [intros x Hx; apply (H x Hx)|].
    assert (Hcell : forall x i pu u, nth_error (nth x particles []) i = Some (pu, u) ->
              cell_of r x i = flat_map (contrib (tbl particles) x u) conns).
    { intros x i pu u Hi. assert (Hx : x < n) by exact (rank_lt n chunk_size particles Hc H1 x pu u (nth_error_In _ _ Hi)).
      destruct (H x Hx) as (_ & G & _). exact (G i pu u Hi). }
    assert (Htbl : forall x i pu u, nth_error (nth x particles []) i = Some (pu, u) -> hget u (tbl particles) = Some pu).
    { intros x i pu u Hi. apply (hget_tbl n chunk_size particles Hc H1 H3). exists x.
      split; [exact (rank_lt n chunk_size particles Hc H1 x pu u (nth_error_In _ _ Hi))|exact (nth_error_In _ _ Hi)]. }
    split; [|split].
    - intros x i pu u y j pv v Hi Hj Huv. rewrite (Hcell _ _ _ _ Hi), (Hcell _ _ _ _ Hj).
      rewrite (towards_cell particles file H3 H4 H5 x u v pv (Htbl _ _ _ _ Hj) Huv).
      rewrite (towards_cell particles file H3 H4 H5 y v u pu (Htbl _ _ _ _ Hi) (not_eq_sym Huv)).
      split; [reflexivity|]. apply joining_flip. exact Huv.
    - intros x i pu u Hi. rewrite (Hcell _ _ _ _ Hi). split.
      + apply (boundary_cell particles file H5).
      + intros nb. exact (cell_types n chunk_size particles file Hc H1 H3 x u nb).
    - intros x Hx. unfold haloes_of. destruct (H x Hx) as (_ & _ & ->).
      destruct (haloes_spec drain Hdrain n chunk_size particles file Hc H1 H2 H3 H4 x Hx) as [ND HI].
      split; [exact ND|]. intro p. rewrite HI.
      split; intros [F (u & v & q & c & A & B)]; (split; [exact F|]); exists u, v, q, c; (split; [|exact B]).
      + apply (hget_tbl n chunk_size particles Hc H1 H3) in A as (y & Hy & A). apply in_concat_nth. exists y. split; [lia|exact A].
      + apply (hget_tbl n chunk_size particles Hc H1 H3). apply in_concat_nth in A as (y & Hy & A). exists y. split; [lia|exact A].
  Qed.
End Final.
