(** Proofs about rings. *)
From Coq Require Import List Arith Lia Bool Permutation.
From Verif Require Import Cyclic_Model Cyclic_Spec.
Import ListNotations.

(** ** Windows *)

Lemma windows_all {A} (d : A) values : 2 <= length values ->
  forall fuel k, length values - k < fuel -> k <= length values ->
  windows_from fuel values d k = combine (skipn k values) (skipn (S k) values ++ [nth 0 values d]).
Proof.
  intros H2. induction fuel as [|fuel IH]; intros k Hf Hk; [lia|].
  cbn [windows_from]. unfold windows_next.
  destruct (Nat.ltb_spec (length values) 2); [lia|].
  destruct (Nat.leb_spec (length values) k).
  - rewrite (skipn_all2 values H0). reflexivity.
  - assert (E : skipn k values = nth k values d :: skipn (S k) values).
    { clear - H0. revert k H0. induction values as [|a l IH]; intros k H; cbn in H; [lia|].
      destruct k; [reflexivity|]. cbn [skipn nth]. apply IH. lia. }
    destruct (Nat.eqb_spec k (length values - 1)) as [Ek|Ek].
    + rewrite IH by lia. rewrite E. rewrite (skipn_all2 values (n := S k)) by lia. reflexivity.
    + rewrite IH by lia. rewrite E.
      assert (E2 : skipn (S k) values = nth (k + 1) values d :: skipn (S (S k)) values).
      { assert (Hk1 : S k < length values) by lia. replace (k + 1) with (S k) by lia. clear - Hk1. revert Hk1. generalize (S k). clear k.
        induction values as [|a l IH]; intros k H; cbn in H; [lia|]. destruct k; [reflexivity|]. cbn [skipn nth]. apply IH. lia. }
      rewrite E2. cbn [app combine]. reflexivity.
Qed.

Theorem windows_spec {A} (d : A) values :
  periodic_windows_2 values d = if length values <? 2 then [] else around values.
Proof.
  unfold periodic_windows_2. destruct (Nat.ltb_spec (length values) 2).
  - cbn [windows_from]. unfold windows_next. destruct (Nat.ltb_spec (length values) 2); [reflexivity|lia].
  - rewrite windows_all by lia. destruct values as [|a l]; [cbn in H; lia|]. reflexivity.
Qed.

(** ** The cyclic arrangement *)

Section Ring.
  Variable related : nat -> nat -> bool.
  Variable n : nat.
  Notation R := (fun i j => related i j = true).
  Hypothesis Hsym : forall i j, i < n -> j < n -> related i j = related j i.
  Hypothesis Htwo : two_related R n.
  Hypothesis Hconn : connected R n.

  (** A path: distinct items, consecutive ones related. *)
  Fixpoint chain (l : list nat) : Prop :=
    match l with
    | a :: (b :: _) as l' => related b a = true /\ chain l'
    | _ => True
    end.

  (** The path is kept in reverse: the head is [visiting], the last element is 0. *)
  Definition path (l : list nat) : Prop :=
    NoDup l /\ Forall (fun i => i < n) l /\ chain l.

  Lemma interior l1 b l2 a c : path (l1 ++ c :: b :: a :: l2) ->
    forall j, j < n -> j <> b -> related b j = true -> j = a \/ j = c.
  Proof.
    intros (ND & Hlt & Hch) j Hj Hne Hr.
    assert (Hb : b < n). { rewrite Forall_forall in Hlt. apply Hlt. apply in_or_app. right. right. now left. }
    assert (Ha : a < n). { rewrite Forall_forall in Hlt. apply Hlt. apply in_or_app. right. right. right. now left. }
    assert (Hc : c < n). { rewrite Forall_forall in Hlt. apply Hlt. apply in_or_app. right. now left. }
    assert (C : related b c = true /\ related a b = true).
    { clear - Hch. induction l1 as [|x l1 IH].
      - cbn in Hch. tauto.
      - apply IH. destruct l1; cbn in Hch; cbn; tauto. }
    destruct C as [C1 C2]. rewrite Hsym in C2 by assumption.
    assert (D : c <> b /\ a <> b /\ a <> c).
    { clear - ND. induction l1 as [|x l1 IH].
      - cbn in ND. inversion ND as [|? ? N1 N2]; subst. inversion N2 as [|? ? N3 N4]; subst.
        repeat split; intros ->; [apply N1; now left|apply N3; now left|apply N1; right; now left].
      - apply IH. cbn in ND. now inversion ND. }
    destruct D as (D1 & D2 & D3).
    destruct (Htwo b Hb) as (p & q & _ & _ & _ & _ & _ & H).
    apply H in C1; [|exact Hc|exact D1]. apply H in C2; [|exact Ha|exact D2]. apply H in Hr; [|exact Hj|exact Hne].
    lia.
  Qed.

  (** If the last item of a path of at least three is related only to visited ones, the
      path is closed and contains everything. *)
  Lemma stuck v l : path (v :: l) -> last (v :: l) 0 = 0 -> 2 <= length l ->
    (forall j, j < n -> j <> v -> related v j = true -> In j l) ->
    related v 0 = true /\ forall i, i < n -> In i (v :: l).
  Proof.
    intros HP Hlast Hlen Hst. assert (HP' := HP). destruct HP as (ND & Hlt & Hch).
    destruct l as [|u l]; [cbn in Hlen; lia|]. destruct l as [|u' l0]; [cbn in Hlen; lia|].
    set (l := u' :: l0) in *.
    assert (Hv : v < n) by (now inversion Hlt).
    assert (Hu : u < n) by (inversion Hlt as [|? ? ? G]; now inversion G).
    assert (Hvu : v <> u) by (inversion ND as [|? ? N1 N2]; subst; intros ->; apply N1; now left).
    assert (Ruv : related v u = true). { cbn in Hch. rewrite Hsym by assumption. tauto. }
    (* the other related item of v *)
    assert (Hw : exists w, w < n /\ w <> v /\ w <> u /\ related v w = true
                  /\ forall j, j < n -> j <> v -> related v j = true -> j = u \/ j = w).
    { destruct (Htwo v Hv) as (p & q & A1 & A2 & A3 & A4 & A5 & H).
      assert (u = p \/ u = q) as [->| ->] by (apply H; auto).
      - exists q. split; [exact A5|]. split; [exact A3|]. split; [auto|]. split; [apply H; auto|].
        intros j Hj Hjv Hr. apply H in Hr; auto.
      - exists p. split; [exact A4|]. split; [exact A2|]. split; [auto|]. split; [apply H; auto|].
        intros j Hj Hjv Hr. apply H in Hr; auto. tauto. }
    destruct Hw as (w & Hw1 & Hw2 & Hw3 & Hw4 & Hw5).
    assert (Hwl : In w l).
    { destruct (Hst w Hw1 Hw2 Hw4) as [F|F]; [congruence|exact F]. }
    (* w is the last item *)
    assert (Hw0 : w = 0).
    { apply in_split in Hwl as (la & lb & El). destruct lb as [|x lb].
      - rewrite El in Hlast. rewrite !app_comm_cons in Hlast. rewrite last_last in Hlast. exact Hlast.
      - exfalso.
        assert (E : exists l1 c, v :: u :: l = l1 ++ c :: w :: x :: lb /\ (c = u \/ In c l) /\ c <> v).
        { destruct la as [|y la _] using rev_ind.
          - exists [v], u. rewrite El. split; [reflexivity|]. split; [now left|]. auto.
          - exists (v :: u :: la), y. rewrite El. rewrite <- !app_assoc. cbn. split; [reflexivity|].
            split; [right; apply in_or_app; right; now left|].
            intros ->. inversion ND as [|? ? N1 N2]; subst. apply N1. right. rewrite El.
            apply in_or_app. left. apply in_or_app. right. now left. }
        destruct E as (l1 & c & E & Hc1 & Hc2). rewrite E in HP'.
        assert (Hwv : related w v = true) by (rewrite Hsym by assumption; exact Hw4).
        destruct (interior l1 w lb x c HP' v Hv (not_eq_sym Hw2) Hwv) as [F|F]; [|congruence].
        subst x. inversion ND as [|? ? N1 N2]; subst. apply N1. right. rewrite El. apply in_or_app. right. right. now left. }
    subst w. split; [exact Hw4|].
    (* the path is closed under the relation *)
    intros i Hi. apply (Hconn (fun i => In i (v :: u :: l))); [|clear i Hi|exact Hi].
    - right. right. exact Hwl.
    - intros i j Hi Hj Hij Hin Hr.
      destruct Hin as [<-|Hin].
      { destruct (Hw5 j Hj (not_eq_sym Hij) Hr) as [->| ->]; [right; now left|right; right; exact Hwl]. }
      apply in_split in Hin as (la & lb & El). destruct lb as [|x lb].
      + (* i is the last item, that is 0 *)
        assert (Ei : i = 0).
        { rewrite El in Hlast. rewrite app_comm_cons in Hlast. rewrite last_last in Hlast. exact Hlast. }
        subst i. destruct la as [|y la _] using rev_ind.
        { cbn in El. injection El as _ F. discriminate F. }
        rewrite <- app_assoc in El. cbn [app] in El.
        (* 0 is related to v and to y *)
        assert (Hyn : y < n /\ y <> 0 /\ y <> v /\ related 0 y = true).
        { assert (Hc : chain ((v :: la) ++ [y; 0])) by (cbn [app]; rewrite <- El; exact Hch).
          assert (Hf : In y (v :: u :: l)) by (rewrite El; right; apply in_or_app; right; now left).
          split; [rewrite Forall_forall in Hlt; apply Hlt; exact Hf|].
          inversion ND as [|? ? N1 N2]; subst. rewrite El in N1, N2. split; [|split].
          - intros ->. apply NoDup_remove_2 in N2. apply N2. apply in_or_app. right. now left.
          - intros ->. apply N1. apply in_or_app. right. now left.
          - clear - Hc. revert Hc. generalize (v :: la). intro k. induction k as [|a k IH]; [cbn; tauto|].
            intro Hc. apply IH. destruct k; cbn in Hc; cbn; tauto. }
        destruct Hyn as (Y1 & Y2 & Y3 & Y4).
        assert (Z : related 0 v = true) by (rewrite Hsym by assumption; exact Hw4).
        destruct (Htwo 0 Hi) as (p & q & _ & _ & _ & _ & _ & H).
        apply H in Z; [|exact Hv|auto]. apply H in Y4; [|exact Y1|exact Y2]. apply H in Hr; [|exact Hj|auto].
        assert (J : j = v \/ j = y) by lia. destruct J as [->| ->]; [now left|].
        right. rewrite El. apply in_or_app. right. now left.
      + assert (E : exists l1 c, v :: u :: l = l1 ++ c :: i :: x :: lb).
        { destruct la as [|y la _] using rev_ind.
          - exists [], v. rewrite El. reflexivity.
          - exists (v :: la), y. rewrite El. rewrite <- !app_assoc. reflexivity. }
        destruct E as (l1 & c & E). rewrite E in HP'.
        destruct (interior l1 i lb x c HP' j Hj (not_eq_sym Hij) Hr) as [->| ->]; rewrite E; apply in_or_app; right; cbn; tauto.
  Qed.

  Lemma n_ge_3 : 1 <= n -> 3 <= n.
  Proof. intro H. destruct (Htwo 0 H) as (a & b & A). lia. Qed.

  (** One step of the iteration. *)
  Lemma step_spec v l : path (v :: l) -> last (v :: l) 0 = 0 -> S (length l) < n ->
    exists j s, cyclic_next related n (Cyclic l v) = Item v j s /\ s = Cyclic (v :: l) j
      /\ related v j = true /\ path (j :: v :: l).
  Proof.
    intros HP Hlast Hlen. assert (HP' := HP). destruct HP as (ND & Hlt & Hch).
    assert (Hv : v < n) by now inversion Hlt.
    assert (N3 := n_ge_3 ltac:(lia)).
    unfold cyclic_next. cbn [visited visiting].
    destruct (Nat.ltb_spec n 2); [lia|]. destruct (Nat.eqb_spec n (length l)); [lia|]. cbn [orb].
    destruct (Nat.eqb_spec (length l) (n - 1)); [lia|].
    set (f := fun i => negb (i =? v) && negb (is_visited (Cyclic l v) i) && related v i).
    destruct (find f (seq 0 n)) as [j|] eqn:E.
    - apply find_some in E as [Hj Hf]. apply in_seq in Hj. unfold f in Hf.
      apply andb_true_iff in Hf as [Hf1 Hr]. apply andb_true_iff in Hf1 as [Hf1 Hf2].
      apply negb_true_iff in Hf1, Hf2. apply Nat.eqb_neq in Hf1.
      assert (Hnin : ~ In j l).
      { intro F. apply not_true_iff_false in Hf2. apply Hf2. unfold is_visited. cbn [visited].
        apply existsb_exists. exists j. split; [exact F|apply Nat.eqb_refl]. }
      exists j. eexists. split; [reflexivity|]. split; [reflexivity|]. split; [exact Hr|].
      split; [|split].
      + constructor; [|exact ND]. intros [F|F]; [congruence|contradiction].
      + constructor; [lia|exact Hlt].
      + cbn. split; [exact Hr|exact Hch].
    - exfalso. assert (Hst : forall j, j < n -> j <> v -> related v j = true -> In j l).
      { intros j Hj Hjv Hr. assert (F := find_none _ _ E j). unfold f in F. rewrite Hr in F.
        specialize (F ltac:(apply in_seq; lia)). rewrite andb_true_r in F.
        apply andb_false_iff in F as [F|F]; apply negb_false_iff in F.
        - apply Nat.eqb_eq in F. contradiction.
        - unfold is_visited in F. cbn [visited] in F. apply existsb_exists in F as (k & Hk & Ek).
          apply Nat.eqb_eq in Ek as <-. exact Hk. }
      destruct (le_lt_dec 2 (length l)) as [H2|H2].
      + destruct (stuck v l HP' Hlast H2 Hst) as [_ Hall].
        assert (Hincl : incl (seq 0 n) (v :: l)) by (intros i Hi; apply in_seq in Hi; apply Hall; lia).
        assert (L := NoDup_incl_length (seq_NoDup n 0) Hincl). rewrite seq_length in L. cbn in L. lia.
      + destruct (Htwo v Hv) as (a & b & A1 & A2 & A3 & A4 & A5 & A6).
        assert (Ia : In a l) by (apply Hst; auto; apply A6; auto).
        assert (Ib : In b l) by (apply Hst; auto; apply A6; auto).
        destruct l as [|x [|y l]]; cbn in H2; [destruct Ia| |lia].
        destruct Ia as [<-|[]]. destruct Ib as [<-|[]]. congruence.
  Qed.

  Lemma last_step v l : path (v :: l) -> last (v :: l) 0 = 0 -> S (length l) = n ->
    related v 0 = true.
  Proof.
    intros HP Hlast Hlen. assert (N3 := n_ge_3 ltac:(lia)).
    apply (stuck v l HP Hlast ltac:(lia)).
    intros j Hj Hjv _. destruct HP as (ND & Hlt & _).
    assert (Hincl : incl (v :: l) (seq 0 n)).
    { intros i Hi. rewrite Forall_forall in Hlt. apply in_seq. specialize (Hlt i Hi). lia. }
    assert (I := NoDup_length_incl ND (l' := seq 0 n)).
    rewrite seq_length in I. specialize (I ltac:(cbn; lia) Hincl j ltac:(apply in_seq; lia)).
    destruct I as [<-|I]; [congruence|exact I].
  Qed.

  (** The rest of the iteration, from a path [v :: l]. *)
  Lemma walk fuel : forall v l, path (v :: l) -> last (v :: l) 0 = 0 -> length l < n ->
    n - length l < fuel ->
    exists rest, cyclic_from related n fuel (Cyclic l v) = Some (combine (v :: rest) (rest ++ [0]))
      /\ path (rev rest ++ v :: l) /\ length rest + length l + 1 = n
      /\ (forall i j, In (i, j) (combine (v :: rest) (rest ++ [0])) -> related i j = true).
  Proof.
    induction fuel as [|fuel IH]; intros v l HP Hlast Hl Hf; [lia|]. cbn [cyclic_from].
    destruct (Nat.eq_dec (S (length l)) n) as [E|E].
    - assert (Hr := last_step v l HP Hlast E). assert (N3 := n_ge_3 ltac:(lia)).
      unfold cyclic_next. cbn [visited visiting].
      destruct (Nat.ltb_spec n 2); [lia|]. destruct (Nat.eqb_spec n (length l)); [lia|]. cbn [orb].
      destruct (Nat.eqb_spec (length l) (n - 1)); [|lia]. rewrite Hr.
      destruct fuel as [|fuel]; [lia|]. cbn [cyclic_from]. unfold cyclic_next. cbn [visited visiting length].
      destruct (Nat.ltb_spec n 2); [lia|]. destruct (Nat.eqb_spec n (S (length l))); [|lia]. cbn [orb option_map].
      exists []. split; [reflexivity|]. split; [exact HP|]. split; [cbn; lia|].
      intros i j [F|[]]. injection F as <- <-. exact Hr.
    - destruct (step_spec v l HP Hlast ltac:(lia)) as (j & s & E1 & -> & Hr & HP').
      rewrite E1. destruct (IH j (v :: l)) as (rest & E2 & HP2 & L2 & R2).
      + exact HP'.
      + exact Hlast.
      + cbn. lia.
      + cbn [length]. lia.
      + rewrite E2. exists (j :: rest). split; [reflexivity|]. split; [|split].
        * cbn [rev]. rewrite <- app_assoc. exact HP2.
        * cbn [length] in *. lia.
        * cbn [combine app]. intros i k [F|F]; [injection F as <- <-; exact Hr|apply R2; exact F].
  Qed.

  Theorem arrange_spec : 1 <= n ->
    exists ring, arrange_cyclic_by related n = Some (around (0 :: ring))
      /\ Permutation (0 :: ring) (seq 0 n)
      /\ forall i j, In (i, j) (around (0 :: ring)) -> related i j = true.
  Proof.
    intro Hn. destruct (walk (S n) 0 []) as (rest & E & HP & L & HR).
    - split; [constructor; [intros []|constructor]|]. split; [constructor; [lia|constructor]|exact I].
    - reflexivity.
    - cbn. lia.
    - cbn. lia.
    - exists rest. split; [exact E|]. split; [|exact HR].
      destruct HP as (ND & Hlt & _).
      apply NoDup_Permutation_bis.
      + apply (Permutation_NoDup (l := rev rest ++ [0])); [|exact ND].
        rewrite Permutation_app_comm. cbn. constructor. symmetry. apply Permutation_rev.
      + rewrite seq_length. cbn in *. lia.
      + intros i Hi. apply in_seq. rewrite Forall_forall in Hlt. specialize (Hlt i).
        rewrite in_app_iff, <- in_rev in Hlt. cbn in Hi, Hlt. split; [lia|]. apply Hlt. tauto.
  Qed.
End Ring.

Theorem around_once {A} (ring : list A) :
  map fst (around ring) = ring /\ Permutation (map snd (around ring)) ring.
Proof.
  destruct ring as [|a l]; [split; [reflexivity|constructor]|]. unfold around.
  assert (L : length (a :: l) = length (l ++ [a])) by (rewrite app_length; cbn; lia).
  assert (G : forall (B C : Type) (x : list B) (y : list C), length x = length y ->
            map fst (combine x y) = x /\ map snd (combine x y) = y).
  { clear. intros B C. induction x as [|b x IH]; intros y H; destruct y as [|c y]; cbn in H; try lia; [split; reflexivity|].
    destruct (IH y ltac:(lia)) as [E1 E2]. cbn. rewrite E1, E2. split; reflexivity. }
  destruct (G A A (a :: l) (l ++ [a]) L) as [E1 E2]. rewrite E1, E2. split; [reflexivity|].
  apply Permutation_sym. apply Permutation_cons_append.
Qed.

Lemma arrange_small related :
  arrange_cyclic_by related 0 = Some [] /\ arrange_cyclic_by related 1 = Some []
  /\ (related 0 1 = true -> related 1 0 = true -> arrange_cyclic_by related 2 = Some (around [0; 1])).
Proof.
  split; [reflexivity|]. split; [reflexivity|]. intros H1 H2.
  unfold arrange_cyclic_by. cbn. rewrite H1. cbn. rewrite H2. reflexivity.
Qed.
