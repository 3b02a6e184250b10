(** The insertion of a point: the search for the tetra that contains it, the split and the stack
    of flip checks, for any predicates and in any dimension. *)
From Coq Require Import List Arith Lia Bool Permutation.
From Verif Require Import Delaunay_Model Delaunay_Spec DelaunayBuild_Proofs DelaunaySurgery_Proofs DelaunayPlan_Proofs.
Import ListNotations.

Lemma in_ids {A} (a : arena A) i : In i (map fst a) <-> exists v, In (i, v) a.
Proof.
  rewrite in_map_iff. split.
  - intros [[j v] [<- H]]. now exists v.
  - intros [v H]. now exists (i, v).
Qed.
Lemma find_in {A} (l : list A) f x : (forall y, In y l -> f y = true -> y = x) -> In x l -> f x = true -> find f l = Some x.
Proof.
  intros U H K. destruct (find f l) as [y|] eqn:E.
  - apply find_some in E. destruct E as [E1 E2]. f_equal. now apply U.
  - exfalso. rewrite (find_none _ _ E _ H) in K. discriminate.
Qed.

Lemma NoDup_app_intro {A} (l1 l2 : list A) : NoDup l1 -> NoDup l2 -> (forall x, In x l1 -> ~ In x l2) -> NoDup (l1 ++ l2).
Proof.
  induction l1 as [|x l1 IH]; cbn; intros N1 N2 H; [exact N2|]. inversion N1 as [|? ? X1 X2]; subst.
  constructor; [|apply IH; auto]. intro X. apply in_app_or in X. destruct X as [X|X]; [contradiction|]. apply (H x); auto.
Qed.

Definition alive (s : triangulation) (i : nat) : Prop := In i (map fst (tetras s)).
Definition last_ok (s : triangulation) : Prop := forall i, last_insertion s = Some i -> alive s i.
Definition containing (s : triangulation) (p i : nat) : Prop := exists t, In (i, t) (tetras s) /\ In p (points_of t).

(** The tetras that do not contain point [p]. *)
Definition outsiders (p : nat) (s : triangulation) : list nat :=
  map fst (filter (fun e => negb (existsb (Nat.eqb p) (points_of (snd e)))) (tetras s)).
Lemma existsb_eqb p l : existsb (Nat.eqb p) l = true <-> In p l.
Proof.
  rewrite existsb_exists. split.
  - intros [x [H K]]. apply Nat.eqb_eq in K. now subst.
  - intro H. exists p. split; [exact H|apply Nat.eqb_refl].
Qed.
Lemma in_outsiders p s i : In i (outsiders p s) <-> exists t, In (i, t) (tetras s) /\ ~ In p (points_of t).
Proof.
  unfold outsiders. rewrite in_ids. split; intros [t H]; exists t.
  - apply filter_In in H. destruct H as [H K]. split; [exact H|]. cbn [snd] in K. intro X.
    apply existsb_eqb in X. rewrite X in K. discriminate.
  - apply filter_In. split; [tauto|]. cbn [snd]. destruct (existsb _ _) eqn:E; [|reflexivity].
    apply existsb_eqb in E. tauto.
Qed.
Lemma NoDup_map_filter {A B} (g : A -> B) f l : NoDup (map g l) -> NoDup (map g (filter f l)).
Proof.
  induction l as [|x l IH]; cbn; [auto|]. intro H. inversion H as [|? ? H1 H2]; subst.
  destruct (f x); cbn; [|auto]. constructor; [|auto]. intro X. apply H1.
  apply in_map_iff in X. destruct X as [y [E Y]]. apply filter_In in Y. rewrite <- E. apply in_map. tauto.
Qed.
Lemma outsiders_le p s : length (outsiders p s) <= length (tetras s).
Proof.
  unfold outsiders. rewrite map_length. induction (tetras s) as [|e l IH]; cbn; [lia|].
  destruct (negb _); cbn; lia.
Qed.

Section Insertion.
  Variable d : nat.
  Variable face_ok : list nat -> nat -> list nat -> bool -> Prop.
  Hypothesis face_ok_perm : forall pts q ps b, face_ok pts q ps b -> Permutation (q :: ps) pts.
  Notation inv := (inv d face_ok).

  Variable split : triangulation -> nat -> nat -> option (list nat * triangulation).
  Variable flip : triangulation -> nat -> nat -> option (list nat * triangulation).
  Variable in_circle : list nat -> nat -> option bool.
  Variable inside : list nat -> nat -> option bool.
  Variable pop : nat -> list nat -> nat.
  (* a further condition on a triangulation, used for the number of faces *)
  Variable K : triangulation -> Prop.
  Hypothesis K_last : forall s i, K s -> K (set_last s i).

  Definition flip_effect (s s' : triangulation) (ct p : nat) (new : list nat) : Prop :=
    (new = [] /\ s' = s) \/
    (exists R N o, new = map fst N /\ N <> [] /\ length N <= 3 /\ replaced s s' R N /\ inv s' /\
       num_points s' = num_points s /\ In ct R /\ In o R /\
       (forall u, In (o, u) (tetras s) -> ~ In p (points_of u)) /\
       (forall i t, In (i, t) N -> In p (points_of t)) /\ (K s -> K s')).
  Hypothesis flip_spec : forall s ct t c fc oj q new s',
    inv s -> In (ct, t) (tetras s) -> In (c, fc) t -> opposing fc = Some (Conn oj q) -> ~ In q (points_of t) ->
    flip s ct (face fc) = Some (new, s') -> flip_effect s s' ct c new.
  Hypothesis split_spec : forall s old t new s', inv s -> In (old, t) (tetras s) ->
    split (push_point s) old (num_points s) = Some (new, s') ->
    exists N, new = map fst N /\ N <> [] /\ replaced s s' [old] N /\ inv s' /\ num_points s' = S (num_points s) /\
      (forall i t, In (i, t) N -> In (num_points s) (points_of t)) /\ (K s -> K s').
  Hypothesis corners : corners_not_inside in_circle.

  Lemma reachable_last s i a b : reachable s a b -> reachable (set_last s i) a b.
  Proof.
    intro H. induction H as [a|a b c H IH Hc]; [constructor|].
    eapply reach_step; [exact IH|]. exact Hc.
  Qed.
  Lemma inv_last s i : inv s -> inv (set_last s i).
  Proof.
    intros [a1 a2 a3 a4 a5 a6 a7 a7' a8 a9 a10]. constructor; auto.
    intros x y t u Hx Hy. apply reachable_last. exact (a10 x y t u Hx Hy).
  Qed.

  (** All live entries of the stack contain the new point, and every tetra that contains the point
      is on the stack. *)
  Record stack_inv (p : nat) (s : triangulation) (l : list nat) : Prop := {
    si_inv : inv s;
    si_star : forall i t, In i l -> In (i, t) (tetras s) -> In p (points_of t);
    si_all : forall i, containing s p i -> In i l;
    si_lt : forall i, In i l -> i < next_tetra s
  }.
  Lemma stack_inv_last p s l i : stack_inv p s l -> stack_inv p (set_last s i) l.
  Proof. intros [a1 a2 a3 a4]. constructor; auto. now apply inv_last. Qed.
  Lemma stack_inv_same p s l l' : (forall i, In i l <-> In i l') -> stack_inv p s l -> stack_inv p s l'.
  Proof.
    intros E [a1 a2 a3 a4]. constructor; auto.
    - intros i t H. apply a2. now apply E.
    - intros i H. apply E. auto.
    - intros i H. apply a4. now apply E.
  Qed.

  Lemma rp_lt s s' R N i t' : replaced s s' R N -> In (i, t') (tetras s') -> i < next_tetra s ->
    exists t, In (i, t) (tetras s) /\ ~ In i R /\ skel t = skel t'.
  Proof.
    intros RP H L. destruct (rp_old _ _ _ _ RP i t' H) as [X|[t [X _]]]; [exact X|].
    exfalso. assert (Y : In i (map fst N)) by (apply in_ids; eauto).
    rewrite (rp_ids _ _ _ _ RP) in Y. apply in_seq in Y. lia.
  Qed.
  Lemma rp_N_ids s s' R N i : replaced s s' R N -> In i (map fst N) -> next_tetra s <= i < next_tetra s'.
  Proof. intros RP H. rewrite (rp_ids _ _ _ _ RP) in H. apply in_seq in H. rewrite (rp_next _ _ _ _ RP). lia. Qed.
  Lemma rp_N_alive s s' R N i : replaced s s' R N -> In i (map fst N) -> alive s' i.
  Proof.
    intros RP H. apply in_ids in H. destruct H as [t H]. destruct (rp_new _ _ _ _ RP i t H) as [t' [H' _]].
    apply in_ids. eauto.
  Qed.

  Lemma stack_inv_replaced p s s' l R N : stack_inv p s l -> replaced s s' R N -> inv s' ->
    (forall i t, In (i, t) N -> In p (points_of t)) -> stack_inv p s' (l ++ map fst N).
  Proof.
    intros [a1 a2 a3 a4] RP I' HN. constructor.
    - exact I'.
    - intros i t' Hi Ht'. apply in_app_or in Hi. destruct Hi as [Hi|Hi].
      + destruct (rp_lt _ _ _ _ _ _ RP Ht' (a4 i Hi)) as [t [Ht [_ E]]].
        rewrite <- (skel_points t t' E). eapply a2; eauto.
      + apply in_ids in Hi. destruct Hi as [t Ht]. destruct (rp_new _ _ _ _ RP i t Ht) as [t'' [Ht'' E]].
        rewrite (NoDup_ids_eq _ _ _ _ (iv_ids _ _ _ I') Ht' Ht''), (skel_points t'' t E). eapply HN; eauto.
    - intros i [t' [Ht' Hp]]. apply in_or_app. destruct (rp_old _ _ _ _ RP i t' Ht') as [[t [Ht [_ E]]]|[t [Ht _]]].
      + left. apply a3. exists t. split; [exact Ht|]. now rewrite (skel_points t t' E).
      + right. apply in_ids. eauto.
    - intros i Hi. apply in_app_or in Hi. destruct Hi as [Hi|Hi].
      + specialize (a4 i Hi). rewrite (rp_next _ _ _ _ RP). lia.
      + apply (rp_N_ids _ _ _ _ _ RP Hi).
  Qed.

  Lemma outsiders_drop p s s' R N o : inv s -> inv s' -> replaced s s' R N ->
    (forall i t, In (i, t) N -> In p (points_of t)) -> In o R ->
    (forall u, In (o, u) (tetras s) -> ~ In p (points_of u)) ->
    length (outsiders p s') < length (outsiders p s).
  Proof.
    intros I I' RP HN HoR Ho.
    assert (X : NoDup (o :: outsiders p s')).
    { constructor.
      - intro H. apply in_outsiders in H. destruct H as [t' [Ht' Hp]].
        destruct (rp_old _ _ _ _ RP o t' Ht') as [[t [_ [Hn _]]]|[t [Ht E]]]; [contradiction|].
        apply Hp. rewrite <- (skel_points t t' E). eapply HN; eauto.
      - apply NoDup_map_filter, (iv_ids _ _ _ I'). }
    assert (Y : incl (o :: outsiders p s') (outsiders p s)).
    { intros i [<-|H].
      - apply in_outsiders. destruct (rp_gone _ _ _ _ RP) as [_ G]. specialize (G o HoR). apply in_ids in G.
        destruct G as [u Hu]. exists u. auto.
      - apply in_outsiders in H. destruct H as [t' [Ht' Hp]]. apply in_outsiders.
        destruct (rp_old _ _ _ _ RP i t' Ht') as [[t [Ht [_ E]]]|[t [Ht E]]].
        + exists t. split; [exact Ht|]. now rewrite (skel_points t t' E).
        + exfalso. apply Hp. rewrite <- (skel_points t t' E). eapply HN; eauto. }
    pose proof (NoDup_incl_length X Y) as Z. cbn in Z. lia.
  Qed.

  (** One round of the loop on a live entry. *)
  Lemma find_face_opposite_some (t : tetra) p : In p (points_of t) -> exists fi, In (p, fi) t /\ find_face_opposite t p = Some fi.
  Proof.
    intro H. unfold points_of in H. apply in_ids in H. destruct H as [fi H].
    unfold find_face_opposite. destruct (find _ t) as [[q g]|] eqn:E.
    - apply find_some in E. destruct E as [E1 E2]. cbn in E2. apply Nat.eqb_eq in E2. subst q. exists g. auto.
    - exfalso. apply (find_none _ _ E) in H. cbn in H. rewrite Nat.eqb_refl in H. discriminate.
  Qed.
  Lemma find_face_inv s i t q fi : inv s -> In (i, t) (tetras s) -> In (q, fi) t -> find_face t (face fi) = Some fi.
  Proof.
    intros I Ht Hq. apply find_in.
    - intros y Hy Ey. apply Nat.eqb_eq in Ey. apply in_map_iff in Hy. destruct Hy as [[q' y'] [<- Hy]]. cbn in *.
      now destruct (inv_entry_unique d face_ok face_ok_perm s i t q' y' q fi I Ht Hy Hq Ey).
    - change fi with (snd (q, fi)). now apply in_map.
    - apply Nat.eqb_refl.
  Qed.
  Lemma flip_check_effect s i t p fi new s' : inv s -> In (i, t) (tetras s) -> In (p, fi) t ->
    flip_check flip in_circle s i (face fi) = Some (new, s') -> flip_effect s s' i p new.
  Proof.
    intros I Ht Hp H. unfold flip_check, face_is_invalid in H.
    rewrite (In_arena_get _ _ _ (iv_ids _ _ _ I) Ht), (find_face_inv s i t p fi I Ht Hp) in H. cbn [bind] in H.
    destruct (opposing fi) as [[oj q]|] eqn:Eo; cbn [bind conn_point] in H.
    - destruct (in_circle (points_of t) q) as [[|]|] eqn:Ec; cbn [bind] in H; [| |discriminate].
      + apply (flip_spec s i t p fi oj q new s' I Ht Hp Eo); [|exact H].
        intro X. exact (corners _ _ X Ec).
      + injection H as <- <-. now left.
    - injection H as <- <-. now left.
  Qed.

  (** Every outer face of the star of [p] among the entries [l] passes the test. *)
  Definition legal (p : nat) (s : triangulation) (l : list nat) : Prop :=
    forall i t fi j q, In i l -> In (i, t) (tetras s) -> In (p, fi) t -> opposing fi = Some (Conn j q) ->
      In q (points_of t) \/ in_circle (points_of t) q = Some false.
  Definition flip_moves : Prop := forall s ct cf s', flip s ct cf <> Some ([], s').

  Lemma perm_nodup_head (q : nat) (ps l : list nat) : Permutation (q :: ps) l -> NoDup l -> ~ In q ps.
  Proof. intros P ND. apply Permutation_sym in P. apply (Permutation_NoDup P) in ND. now inversion ND. Qed.

  Lemma legal_replaced p s s' l R N : inv s -> (forall i, In i l -> i < next_tetra s) -> legal p s l -> replaced s s' R N -> inv s' ->
    (forall i t, In (i, t) N -> In p (points_of t)) -> legal p s' l.
  Proof.
    intros I LT LG RP I' HN i t' fi' j q Hi Ht' Hp Ho.
    destruct (rp_lt _ _ _ _ _ _ RP Ht' (LT i Hi)) as [t [Ht [HnR E]]].
    destruct (skel_in t' t p fi' (eq_sym E) Hp) as [fi [Hfi [Ef _]]].
    pose proof (proj1 (iv_opp _ _ _ I' i t' p fi' Ht' Hp j q) Ho) as [Hne [u' [gi' [Hu' [Hq' Eg]]]]].
    destruct (rp_old _ _ _ _ RP j u' Hu') as [[u [Hu [_ Eu]]]|[u [Hu Eu]]].
    - destruct (skel_in u' u q gi' (eq_sym Eu) Hq') as [gi [Hgi [Egi _]]].
      rewrite <- (skel_points t t' E). apply (LG i t fi j q Hi Ht Hfi).
      apply (iv_opp _ _ _ I i t p fi Ht Hfi). split; [exact Hne|]. exists u, gi. split; [exact Hu|].
      split; [exact Hgi|]. congruence.
    - left.
      destruct (iv_faces _ _ _ I' i t' p fi' Ht' Hp) as [ps [P1 P2]]. apply face_ok_perm in P2.
      destruct (iv_faces _ _ _ I' j u' q gi' Hu' Hq') as [qs [Q1 Q2]]. apply face_ok_perm in Q2.
      rewrite Eg in Q1. rewrite <- (NoDup_ids_eq _ _ _ _ (iv_fids _ _ _ I') P1 Q1) in Q2.
      assert (Hpu : In p (points_of u')) by (rewrite <- (skel_points u u' Eu); eapply HN; eauto).
      apply (Permutation_in _ (Permutation_sym Q2)) in Hpu. destruct Hpu as [<-|Hpu].
      + change q with (fst (q, fi')). unfold points_of. now apply in_map.
      + exfalso. exact (perm_nodup_head _ _ _ P2 (proj1 (proj2 (iv_corners _ _ _ I' _ _ Ht'))) Hpu).
  Qed.

  (** The condition on the tetra from which the next search starts. *)
  Definition some_alive (s : triangulation) (todo : list nat) : Prop :=
    (exists j, last_insertion s = Some j /\ alive s j) \/ (exists i, In i todo /\ alive s i).

  Notation loop := (perform_flip_checks flip in_circle).

  Record loop_result (p : nat) (s : triangulation) (new : list nat) (s' : triangulation) : Prop := {
    lr_stack : stack_inv p s' new;
    lr_last : exists j, last_insertion s' = Some j /\ alive s' j;
    lr_points : num_points s' = num_points s;
    lr_K : K s -> K s';
    lr_legal : flip_moves -> legal p s' new
  }.

  Lemma loop_ok p fuel : forall s done todo new s',
    stack_inv p s (done ++ todo) -> some_alive s todo -> (flip_moves -> legal p s done) ->
    loop fuel s p done todo = Some (new, s') -> loop_result p s new s' .
  Proof.
    induction fuel as [|fuel IH]; intros s done todo new s' SI SA LG H; destruct todo as [|i rest]; cbn [perform_flip_checks] in H.
    - injection H as <- <-. rewrite app_nil_r in SI. constructor; auto.
      destruct SA as [X|[i [[] _]]]. exact X.
    - discriminate.
    - injection H as <- <-. rewrite app_nil_r in SI. constructor; auto.
      destruct SA as [X|[i [[] _]]]. exact X.
    - destruct (arena_get (tetras s) i) as [t|] eqn:Et.
      + pose proof (arena_get_In _ _ _ Et) as Ht.
        assert (Hp : In p (points_of t)).
        { apply (si_star _ _ _ SI i t); [|exact Ht]. apply in_or_app. right. now left. }
        destruct (find_face_opposite_some t p Hp) as [fi [Hfi Efi]]. rewrite Efi in H. cbn [bind] in H.
        destruct (flip_check flip in_circle s i (face fi)) as [[new1 s1]|] eqn:Ef; cbn [bind] in H; [|discriminate].
        pose proof (flip_check_effect s i t p fi new1 s1 (si_inv _ _ _ SI) Ht Hfi Ef) as FE.
        assert (X : stack_inv p s1 ((done ++ [i]) ++ rest ++ new1) /\ (K s -> K s1) /\ num_points s1 = num_points s /\
                    some_alive (set_last s1 i) (rest ++ new1) /\ (flip_moves -> legal p s1 (done ++ [i]))).
        { destruct FE as [[-> ->]|[R [N [o [-> [NE [LN [RP [I' [NP [HcR [HoR [Ho [HN HK]]]]]]]]]]]]]].
          - split; [|split; [auto|split; [auto|split]]].
            + revert SI. apply stack_inv_same. intro x. rewrite !in_app_iff. cbn. tauto.
            + left. exists i. split; [reflexivity|]. apply in_ids. eauto.
            + intros FM i' t' fi' j' q' Hi' Ht' Hf' Ho'. apply in_app_or in Hi'. destruct Hi' as [Hi'|[<-|[]]].
              * exact (LG FM i' t' fi' j' q' Hi' Ht' Hf' Ho').
              * rewrite (NoDup_ids_eq _ _ _ _ (iv_ids _ _ _ (si_inv _ _ _ SI)) Ht' Ht) in *.
                rewrite (NoDup_ids_eq t _ _ _ (proj1 (proj2 (iv_corners _ _ _ (si_inv _ _ _ SI) _ _ Ht))) Hf' Hfi) in *.
                unfold flip_check, face_is_invalid in Ef.
                rewrite Et, (find_face_inv s i t p fi (si_inv _ _ _ SI) Ht Hfi) in Ef. cbn [bind] in Ef.
                rewrite Ho' in Ef. cbn [conn_point] in Ef.
                destruct (in_circle (points_of t) q') as [[|]|] eqn:C; cbn [bind] in Ef; [|now right|discriminate].
                exfalso. exact (FM _ _ _ _ Ef).
          - split; [|split; [auto|split; [auto|split]]].
            + apply (stack_inv_same p s1 ((done ++ i :: rest) ++ map fst N)).
              { intro x. rewrite !in_app_iff. cbn. tauto. }
              eapply stack_inv_replaced; eauto.
            + right. destruct N as [|[n0 t0] N]; [congruence|]. exists n0.
              split; [apply in_or_app; right; now left|].
              exact (rp_N_alive s s1 R _ n0 RP (or_introl eq_refl)).
            + intros FM i' t' fi' j' q' Hi' Ht' Hf' Ho'. apply in_app_or in Hi'. destruct Hi' as [Hi'|[<-|[]]].
              * refine (legal_replaced p s s1 done R N (si_inv _ _ _ SI) _ (LG FM) RP I' HN i' t' fi' j' q' Hi' Ht' Hf' Ho').
                intros x Hx. apply (si_lt _ _ _ SI). apply in_or_app. now left.
              * exfalso. destruct (rp_lt _ _ _ _ _ _ RP Ht') as [t'' [_ [Y _]]]; [|contradiction].
                apply (si_lt _ _ _ SI). apply in_or_app. right. now left. }
        destruct X as [X1 [X2 [X3 [X4 X5]]]].
        apply IH in H; [|now apply stack_inv_last|exact X4|exact X5].
        destruct H as [b1 b2 b3 b4 b5]. constructor; auto.
        cbn in b3. congruence.
      + apply IH in H.
        * destruct H as [b1 b2 b3 b4 b5]. constructor; auto.
        * revert SI. apply stack_inv_same. intro x. rewrite !in_app_iff. cbn. tauto.
        * destruct SA as [X|[j [[<-|Hj] Aj]]]; [now left| |right; eauto].
          exfalso. apply in_ids in Aj. destruct Aj as [t Ht].
          rewrite (In_arena_get _ _ _ (iv_ids _ _ _ (si_inv _ _ _ SI)) Ht) in Et. discriminate.
        * intros FM i' t' fi' j' q' Hi' Ht' Hf' Ho'. apply in_app_or in Hi'. destruct Hi' as [Hi'|[<-|[]]].
          -- exact (LG FM i' t' fi' j' q' Hi' Ht' Hf' Ho').
          -- rewrite (In_arena_get _ _ _ (iv_ids _ _ _ (si_inv _ _ _ SI)) Ht') in Et. discriminate.
  Qed.

  (** The number of rounds is bounded, whatever the predicates answer. *)
  Definition rounds (p : nat) (s : triangulation) (todo : list nat) : nat := length todo + 3 * length (outsiders p s).
  Lemma loop_step p s done i rest t fi new s1 : stack_inv p s (done ++ i :: rest) -> arena_get (tetras s) i = Some t ->
    find_face_opposite t p = Some fi -> flip_check flip in_circle s i (face fi) = Some (new, s1) ->
    stack_inv p (set_last s1 i) ((done ++ [i]) ++ rest ++ new) /\
    rounds p (set_last s1 i) (rest ++ new) < rounds p s (i :: rest).
  Proof.
    intros SI Et Efi Ef.
    pose proof (arena_get_In _ _ _ Et) as Ht.
    assert (Hfi : In (p, fi) t) by exact (arena_get_In t p fi Efi).
    pose proof (flip_check_effect s i t p fi new s1 (si_inv _ _ _ SI) Ht Hfi Ef) as FE.
    destruct FE as [[-> ->]|[R [N [o [-> [NE [LN [RP [I' [NP [HcR [HoR [Ho [HN HK]]]]]]]]]]]]]].
    - split.
      + apply stack_inv_last. revert SI. apply stack_inv_same. intro x. rewrite !in_app_iff. cbn. tauto.
      + unfold rounds. rewrite app_nil_r. change (outsiders p (set_last s i)) with (outsiders p s). cbn [length]. lia.
    - split.
      + apply stack_inv_last. apply (stack_inv_same p s1 ((done ++ i :: rest) ++ map fst N)).
        { intro x. rewrite !in_app_iff. cbn. tauto. }
        eapply stack_inv_replaced; eauto.
      + pose proof (outsiders_drop p s s1 R N o (si_inv _ _ _ SI) I' RP HN HoR Ho) as X.
        unfold rounds. rewrite app_length, map_length. change (outsiders p (set_last s1 i)) with (outsiders p s1).
        cbn [length]. lia.
  Qed.
  Lemma loop_dead p s done i rest : stack_inv p s (done ++ i :: rest) -> stack_inv p s ((done ++ [i]) ++ rest).
  Proof. apply stack_inv_same. intro x. rewrite !in_app_iff. cbn. tauto. Qed.

  Lemma loop_fuel p fuel : forall fuel' s done todo, stack_inv p s (done ++ todo) ->
    rounds p s todo <= fuel -> rounds p s todo <= fuel' ->
    loop fuel s p done todo = loop fuel' s p done todo.
  Proof.
    induction fuel as [|fuel IH]; intros fuel' s done todo SI L1 L2; destruct todo as [|i rest].
    - destruct fuel'; reflexivity.
    - exfalso. unfold rounds in L1. cbn in L1. lia.
    - destruct fuel'; reflexivity.
    - destruct fuel' as [|fuel']; [exfalso; unfold rounds in L2; cbn in L2; lia|].
      cbn [perform_flip_checks].
      destruct (arena_get (tetras s) i) as [t|] eqn:Et.
      + destruct (find_face_opposite t p) as [fi|] eqn:Efi; cbn [bind]; [|reflexivity].
        destruct (flip_check flip in_circle s i (face fi)) as [[new1 s1]|] eqn:Ef; cbn [bind]; [|reflexivity].
        destruct (loop_step p s done i rest t fi new1 s1 SI Et Efi Ef) as [S1 S2].
        apply IH; [exact S1|lia|lia].
      + apply IH; [now apply loop_dead| |]; unfold rounds in *; cbn [length] in *; lia.
  Qed.

  (** If neither the tests nor the flips fail, the loop does not fail. *)
  Hypothesis split_total : forall s old t, inv s -> In (old, t) (tetras s) ->
    split (push_point s) old (num_points s) <> None.
  Lemma loop_total_gen p fuel (P : triangulation -> Prop) :
    (forall s i t fi j q, P s -> inv s -> In (i, t) (tetras s) -> In (p, fi) t -> opposing fi = Some (Conn j q) -> ~ In q (points_of t) ->
       in_circle (points_of t) q = Some true -> flip s i (face fi) <> None) ->
    (forall s i, P s -> P (set_last s i)) ->
    (forall s i t fi j q new s1, P s -> In (i, t) (tetras s) -> In (p, fi) t -> opposing fi = Some (Conn j q) ->
       in_circle (points_of t) q = Some true -> flip s i (face fi) = Some (new, s1) -> P s1) ->
    (forall s i t fi j q, P s -> In (i, t) (tetras s) -> In (p, fi) t -> opposing fi = Some (Conn j q) ->
       in_circle (points_of t) q <> None) ->
    forall s done todo, stack_inv p s (done ++ todo) -> P s ->
    rounds p s todo <= fuel -> loop fuel s p done todo <> None.
  Proof.
    intros FT PL PF TC. induction fuel as [|fuel IH]; intros s done todo SI HP L1; destruct todo as [|i rest];
      cbn [perform_flip_checks]; try discriminate.
    - exfalso. unfold rounds in L1. cbn in L1. lia.
    - destruct (arena_get (tetras s) i) as [t|] eqn:Et.
      + pose proof (arena_get_In _ _ _ Et) as Ht.
        assert (Hp : In p (points_of t)).
        { apply (si_star _ _ _ SI i t); [|exact Ht]. apply in_or_app. right. now left. }
        destruct (find_face_opposite_some t p Hp) as [fi [Hfi Efi]]. rewrite Efi. cbn [bind].
        destruct (flip_check flip in_circle s i (face fi)) as [[new1 s1]|] eqn:Ef; cbn [bind].
        * destruct (loop_step p s done i rest t fi new1 s1 SI Et Efi Ef) as [S1 S2].
          apply IH; [exact S1| |lia]. apply PL.
          unfold flip_check, face_is_invalid in Ef.
          rewrite Et, (find_face_inv s i t p fi (si_inv _ _ _ SI) Ht Hfi) in Ef. cbn [bind] in Ef.
          destruct (opposing fi) as [[oj q]|] eqn:Eo; cbn [bind conn_point] in Ef; [|injection Ef as _ <-; exact HP].
          destruct (in_circle (points_of t) q) as [[|]|] eqn:Ec; cbn [bind] in Ef; [| |discriminate].
          -- exact (PF s i t fi oj q new1 s1 HP Ht Hfi Eo Ec Ef).
          -- injection Ef as _ <-. exact HP.
        * exfalso. unfold flip_check, face_is_invalid in Ef.
          rewrite Et, (find_face_inv s i t p fi (si_inv _ _ _ SI) Ht Hfi) in Ef. cbn [bind] in Ef.
          destruct (opposing fi) as [[oj q]|] eqn:Eo; cbn [bind conn_point] in Ef; [|discriminate].
          destruct (in_circle (points_of t) q) as [[|]|] eqn:Ec; cbn [bind] in Ef; [| |exact (TC _ _ _ _ _ _ HP Ht Hfi Eo Ec)]; [|discriminate].
          apply (FT s i t fi oj q HP (si_inv _ _ _ SI) Ht Hfi Eo); [|exact Ec|exact Ef].
          intro X. exact (corners _ _ X Ec).
      + apply IH; [now apply loop_dead|exact HP|]. unfold rounds in *; cbn [length] in *; lia.
  Qed.

  (** ** The search for the tetra *)
  Lemma take_nth_spec n (l : list nat) : n < length l -> exists x r, take_nth n l = Some (x, r) /\ Permutation (x :: r) l.
  Proof.
    revert n. induction l as [|y l IH]; intros n H; cbn in H; [lia|]. destruct n as [|n]; cbn [take_nth].
    - exists y, l. auto.
    - destruct (IH n) as [x [r [E P]]]; [lia|]. rewrite E. cbn [bind]. exists x, (y :: r). split; [reflexivity|].
      rewrite perm_swap. now constructor.
  Qed.

  Lemma push_neighbours_spec s : forall (t : tetra) checked to_check,
    (forall q fi o, In (q, fi) t -> opposing fi = Some o -> alive s (conn_tetra o)) ->
    exists add, push_neighbours s t checked to_check = Some (add ++ checked, add ++ to_check) /\
      (forall i, In i add -> alive s i /\ ~ In i checked) /\ NoDup add /\
      (forall q fi o, In (q, fi) t -> opposing fi = Some o -> In (conn_tetra o) (add ++ checked)).
  Proof.
    induction t as [|[q fi] t IH]; intros checked to_check H; cbn [push_neighbours].
    - exists []. split; [reflexivity|]. split; [intros i []|]. split; [constructor|intros ? ? ? []].
    - assert (H' : forall q fi o, In (q, fi) t -> opposing fi = Some o -> alive s (conn_tetra o)).
      { intros q' fi' o X. apply (H q' fi' o). now right. }
      destruct (opposing fi) as [o|] eqn:Eo.
      + destruct (existsb (Nat.eqb (conn_tetra o)) checked) eqn:Ee.
        * destruct (IH checked to_check H') as [add [E1 [E2 [E3 E4]]]]. exists add. split; [exact E1|].
          split; [exact E2|]. split; [exact E3|].
          intros q' fi' o' [X|X] Y; [injection X as <- <-|eauto].
          rewrite Eo in Y. injection Y as <-. apply existsb_eqb in Ee. apply in_or_app. now right.
        * assert (A : alive s (conn_tetra o)) by (eapply H; [now left|exact Eo]).
          destruct (arena_get (tetras s) (conn_tetra o)) as [u|] eqn:Eu; cbn [bind].
          2: { exfalso. apply in_ids in A. destruct A as [u A]. unfold arena_get in Eu.
               destruct (find _ (tetras s)) eqn:Ef; [discriminate|]. apply (find_none _ _ Ef) in A. cbn in A.
               rewrite Nat.eqb_refl in A. discriminate. }
          destruct (IH (conn_tetra o :: checked) (conn_tetra o :: to_check) H') as [add [E1 [E2 [E3 E4]]]].
          exists (add ++ [conn_tetra o]). rewrite <- !app_assoc. cbn [app]. split; [exact E1|].
          split; [|split].
          -- intros i Hi. apply in_app_or in Hi. destruct Hi as [Hi|[<-|[]]].
             ++ destruct (E2 i Hi) as [X Y]. split; [exact X|]. intro Z. apply Y. now right.
             ++ split; [exact A|]. intro Z. apply existsb_eqb in Z. congruence.
          -- apply Permutation_NoDup with (l := conn_tetra o :: add).
             ++ apply Permutation_cons_append.
             ++ constructor; [|exact E3]. intro Z. apply (E2 _ Z). now left.
          -- intros q' fi' o' [X|X] Y; [injection X as <- <-|exact (E4 q' fi' o' X Y)].
             rewrite Eo in Y. injection Y as <-. apply in_or_app. right. now left.
      + destruct (IH checked to_check H') as [add [E1 [E2 [E3 E4]]]]. exists add. split; [exact E1|].
        split; [exact E2|]. split; [exact E3|].
        intros q' fi' o' [X|X] Y; [injection X as <- <-; congruence|eauto].
  Qed.

  (** Popped entries do not contain the point, and all their neighbours have been pushed. *)
  Record search_inv (s : triangulation) (point : nat) (checked to_check : list nat) : Prop := {
    se_alive : forall i, In i checked -> alive s i;
    se_nodup : NoDup checked;
    se_nodup' : NoDup to_check;
    se_incl : incl to_check checked;
    se_done : forall i t, In i checked -> ~ In i to_check -> In (i, t) (tetras s) ->
      inside (points_of t) point = Some false /\
      forall q fi o, In (q, fi) t -> opposing fi = Some o -> In (conn_tetra o) checked
  }.
  Lemma opposing_alive s i t q fi o : inv s -> In (i, t) (tetras s) -> In (q, fi) t -> opposing fi = Some o -> alive s (conn_tetra o).
  Proof.
    intros I Ht Hq Ho. destruct o as [j r]. apply (iv_opp _ _ _ I i t q fi Ht Hq) in Ho.
    destruct Ho as [_ [u [gi [Hu _]]]]. apply in_ids. eauto.
  Qed.

  Lemma closed_all s point checked : inv s -> checked <> [] -> search_inv s point checked [] ->
    forall i t, In (i, t) (tetras s) -> inside (points_of t) point = Some false.
  Proof.
    intros I NE SE i t Hi.
    assert (X : In i checked); [|now apply (se_done _ _ _ _ SE i t X)].
    destruct checked as [|c0 rest]; [congruence|].
    assert (A : alive s c0) by (apply (se_alive _ _ _ _ SE); now left).
    apply in_ids in A. destruct A as [t0 A].
    pose proof (iv_conn _ _ _ I c0 i t0 t A Hi) as RE. clear Hi.
    assert (C0 : In c0 (c0 :: rest)) by now left. remember (c0 :: rest) as cs eqn:Ecs. clear Ecs NE A.
    induction RE as [a|a b c RE IH [f [q [r [Hne [[u [fi [Hu [Hq Ef]]]] [v [gi [Hv [Hr Eg]]]]]]]]]]; [exact C0|].
    specialize (IH C0).
    apply (proj2 (se_done _ _ _ _ SE b u IH (fun x => x) Hu) q fi (Conn c r) Hq).
    apply (iv_opp _ _ _ I b u q fi Hu Hq). split; [congruence|]. exists v, gi. split; [exact Hv|]. split; [exact Hr|]. congruence.
  Qed.

  Lemma search_ok s point : inv s -> forall fuel checked to_check,
    checked <> [] -> search_inv s point checked to_check ->
    length (tetras s) + length to_check <= fuel + length checked ->
    match find_breadth_first inside pop fuel s point checked to_check with
    | Some (Some i) => exists t, In (i, t) (tetras s) /\ inside (points_of t) point = Some true
    | Some None => forall i t, In (i, t) (tetras s) -> inside (points_of t) point = Some false
    | None => exists i t, In (i, t) (tetras s) /\ inside (points_of t) point = None
    end.
  Proof.
    intros I fuel. induction fuel as [|fuel IH]; intros checked to_check NE SE L; destruct to_check as [|c0 rest0];
      cbn [find_breadth_first]; try (apply closed_all with (checked := checked); assumption).
    - exfalso. assert (X : length checked <= length (tetras s)).
      { rewrite <- (map_length fst (tetras s)). apply NoDup_incl_length; [apply SE|]. intros i Hi. now apply (se_alive _ _ _ _ SE). }
      cbn in L. lia.
    - set (tc := c0 :: rest0) in *.
      destruct (take_nth_spec (pop point tc mod length tc) tc) as [i [rest [Et P]]].
      { apply Nat.mod_upper_bound. cbn. lia. }
      rewrite Et. cbn [bind].
      assert (Hi : In i checked).
      { apply (se_incl _ _ _ _ SE). apply (Permutation_in _ P). now left. }
      assert (A : alive s i) by now apply (se_alive _ _ _ _ SE).
      apply in_ids in A. destruct A as [t Ht]. rewrite (In_arena_get _ _ _ (iv_ids _ _ _ I) Ht). cbn [bind].
      destruct (inside (points_of t) point) as [[|]|] eqn:Ei; cbn [bind]; [exists t; auto| |exists i, t; auto].
      destruct (push_neighbours_spec s t checked rest) as [add [E1 [E2 [E3 E4]]]].
      { intros q fi o Hq Ho. eapply opposing_alive; eauto. }
      rewrite E1. cbn [bind].
      assert (ND : NoDup (i :: rest)).
      { apply (Permutation_NoDup (Permutation_sym P)). apply SE. }
      inversion ND as [|? ? ND1 ND2]; subst.
      apply IH.
      + destruct checked; [congruence|]. destruct add; discriminate.
      + constructor.
        * intros j Hj. apply in_app_or in Hj. destruct Hj as [Hj|Hj]; [now apply E2|now apply (se_alive _ _ _ _ SE)].
        * apply NoDup_app_intro; [exact E3|apply SE|]. intros j Hj. now apply E2.
        * apply NoDup_app_intro; [exact E3|exact ND2|]. intros j Hj X. apply (E2 j Hj).
          apply (se_incl _ _ _ _ SE). apply (Permutation_in _ P). now right.
        * intros j Hj. apply in_app_or in Hj. apply in_or_app. destruct Hj as [Hj|Hj]; [now left|right].
          apply (se_incl _ _ _ _ SE). apply (Permutation_in _ P). now right.
        * intros j u Hj Hn Hu. destruct (Nat.eq_dec j i) as [->|Nj].
          -- rewrite (NoDup_ids_eq _ _ _ _ (iv_ids _ _ _ I) Hu Ht) in *. split; [exact Ei|]. exact E4.
          -- apply in_app_or in Hj. destruct Hj as [Hj|Hj]; [exfalso; apply Hn, in_or_app; now left|].
             assert (Hn' : ~ In j tc).
             { intro X. apply (Permutation_in _ (Permutation_sym P)) in X. destruct X as [X|X]; [congruence|].
               apply Hn, in_or_app. now right. }
             destruct (se_done _ _ _ _ SE j u Hj Hn' Hu) as [X Y]. split; [exact X|].
             intros q fi o Hq Ho. apply in_or_app. right. eapply Y; eauto.
      + rewrite !app_length. apply Permutation_length in P. cbn [length] in P. lia.
  Qed.

  Lemma find_linear_ok (l : arena tetra) point :
    match find_linear inside l point with
    | Some (Some i) => exists t, In (i, t) l /\ inside (points_of t) point = Some true
    | Some None => forall i t, In (i, t) l -> inside (points_of t) point = Some false
    | None => exists i t, In (i, t) l /\ inside (points_of t) point = None
    end.
  Proof.
    induction l as [|[i t] l IH]; cbn [find_linear]; [intros i t []|].
    destruct (inside (points_of t) point) as [[|]|] eqn:E; cbn [bind].
    - exists t. split; [now left|exact E].
    - destruct (find_linear inside l point) as [[j|]|].
      + destruct IH as [u [H1 H2]]. exists u. split; [now right|exact H2].
      + intros j u [X|X]; [injection X as <- <-; exact E|eauto].
      + destruct IH as [j [u [H1 H2]]]. exists j, u. split; [now right|exact H2].
    - exists i, t. split; [now left|exact E].
  Qed.

  Theorem find_containing_ok s point : inv s -> last_ok s ->
    match find_containing_tetra inside pop s point with
    | Some (Some i) => exists t, In (i, t) (tetras s) /\ inside (points_of t) point = Some true
    | Some None => forall i t, In (i, t) (tetras s) -> inside (points_of t) point = Some false
    | None => exists i t, In (i, t) (tetras s) /\ inside (points_of t) point = None
    end.
  Proof.
    intros I LO. unfold find_containing_tetra. destruct (last_insertion s) as [i|] eqn:El; [|apply find_linear_ok].
    apply search_ok; [exact I|discriminate| |cbn; lia].
    constructor.
    - intros j [<-|[]]. now apply LO.
    - constructor; [cbn; tauto|constructor].
    - constructor; [cbn; tauto|constructor].
    - intros j Hj. exact Hj.
    - intros j t Hj Hn. contradiction.
  Qed.

  (** ** One insertion *)
  Record inserted (s : triangulation) (p : nat) (new : list nat) (s' : triangulation) : Prop := {
    in_inv : inv s';
    in_last : last_ok s';
    in_point : p = num_points s;
    in_points : num_points s' = S (num_points s);
    in_K : K s -> K s';
    (* the reported tetras that still exist are those around the new point *)
    in_new : forall i, alive s' i -> (In i new <-> containing s' p i);
    in_legal : flip_moves -> legal p s' new
  }.
  Lemma find_containing_push s p : find_containing_tetra inside pop (push_point s) p = find_containing_tetra inside pop s p.
  Proof.
    unfold find_containing_tetra. cbn [push_point last_insertion tetras].
    destruct (last_insertion s) as [i|]; [|reflexivity].
    assert (A : forall t c r, push_neighbours (push_point s) t c r = push_neighbours s t c r).
    { induction t as [|[q fi] t IH]; intros c r; cbn [push_neighbours]; [reflexivity|].
      destruct (opposing fi) as [o|]; [|apply IH]. destruct (existsb _ c); [apply IH|].
      cbn [push_point tetras]. destruct (arena_get (tetras s) (conn_tetra o)); cbn [bind]; [apply IH|reflexivity]. }
    assert (B : forall fuel c r, find_breadth_first inside pop fuel (push_point s) p c r = find_breadth_first inside pop fuel s p c r).
    { induction fuel as [|fuel IH]; intros c r; destruct r as [|r0 r]; cbn [find_breadth_first]; auto.
      destruct (take_nth _ _) as [[x y]|]; cbn [bind]; [|reflexivity]. cbn [push_point tetras].
      destruct (arena_get (tetras s) x) as [t|]; cbn [bind]; [|reflexivity].
      destruct (inside (points_of t) p) as [[|]|]; cbn [bind]; [reflexivity| |reflexivity].
      rewrite A. destruct (push_neighbours s t c y) as [[c' r']|]; cbn [bind]; [apply IH|reflexivity]. }
    apply B.
  Qed.

  Lemma split_stack s old t N s1 : inv s -> In (old, t) (tetras s) -> replaced s s1 [old] N -> inv s1 ->
    (forall i t, In (i, t) N -> In (num_points s) (points_of t)) -> N <> [] ->
    stack_inv (num_points s) s1 (map fst N) /\ some_alive s1 (map fst N).
  Proof.
    intros I Ht RP I1 HN NE. split.
    - apply (stack_inv_replaced (num_points s) s s1 [] [old] N); auto. constructor; auto.
      + intros i u [].
      + intros i [u [Hu Hp]]. exfalso. pose proof (proj2 (proj2 (iv_corners _ _ _ I _ _ Hu)) _ Hp). lia.
      + intros i [].
    - right. destruct N as [|[n0 t0] N]; [congruence|]. exists n0. split; [now left|].
      exact (rp_N_alive s s1 _ _ n0 RP (or_introl eq_refl)).
  Qed.

  Notation insert := (insert split flip in_circle inside pop).
  Theorem insert_ok s p new s' : inv s -> last_ok s -> insert s = Some (p, new, s') -> inserted s p new s'.
  Proof.
    intros I LO H. unfold Delaunay_Model.insert in H. rewrite find_containing_push in H.
    pose proof (find_containing_ok s (num_points s) I LO) as FC.
    destruct (find_containing_tetra inside pop s (num_points s)) as [[old|]|]; cbn [bind] in H; try discriminate.
    destruct FC as [t [Ht _]].
    destruct (split (push_point s) old (num_points s)) as [[new1 s1]|] eqn:Es; cbn [bind] in H; [|discriminate].
    destruct (split_spec s old t new1 s1 I Ht Es) as [N [-> [NE [RP [I1 [NP [HN HK]]]]]]].
    destruct (split_stack s old t N s1 I Ht RP I1 HN NE) as [SI SA].
    destruct (loop _ s1 (num_points s) [] (map fst N)) as [[new2 s2]|] eqn:El; cbn [bind] in H; [|discriminate].
    injection H as <- <- <-.
    apply loop_ok in El; [|exact SI|exact SA|intros _ ? ? ? ? ? []].
    destruct El as [b1 [j [b2 b2']] b3 b4 b5]. constructor.
    - apply b1.
    - intros i E. congruence.
    - reflexivity.
    - congruence.
    - auto.
    - intros i A. apply in_ids in A. destruct A as [u Hu]. split; [|apply b1].
      intro X. exists u. split; [exact Hu|]. exact (si_star _ _ _ b1 i u X Hu).
    - exact b5.
  Qed.

  (** The bound on the number of rounds is no restriction. *)
  Theorem insert_rounds s old t new1 s1 fuel : inv s -> In (old, t) (tetras s) ->
    split (push_point s) old (num_points s) = Some (new1, s1) ->
    length new1 + 3 * length (tetras s1) <= fuel ->
    loop fuel s1 (num_points s) [] new1 = loop (length new1 + 3 * length (tetras s1)) s1 (num_points s) [] new1.
  Proof.
    intros I Ht Es L. destruct (split_spec s old t new1 s1 I Ht Es) as [N [-> [NE [RP [I1 [NP [HN HK]]]]]]].
    destruct (split_stack s old t N s1 I Ht RP I1 HN NE) as [SI SA].
    pose proof (outsiders_le (num_points s) s1).
    apply loop_fuel; [exact SI| |]; unfold rounds; lia.
  Qed.

  Theorem insert_total_gen s (P : triangulation -> Prop) : inv s -> last_ok s ->
    (forall s0 i t fi j q, P s0 -> inv s0 -> In (i, t) (tetras s0) -> In (num_points s, fi) t -> opposing fi = Some (Conn j q) -> ~ In q (points_of t) ->
       in_circle (points_of t) q = Some true -> flip s0 i (face fi) <> None) ->
    (forall s i, P s -> P (set_last s i)) ->
    (forall s0 i t fi j q new s1, P s0 -> In (i, t) (tetras s0) -> In (num_points s, fi) t -> opposing fi = Some (Conn j q) ->
       in_circle (points_of t) q = Some true -> flip s0 i (face fi) = Some (new, s1) -> P s1) ->
    (forall s0 i t fi j q, P s0 -> In (i, t) (tetras s0) -> In (num_points s, fi) t -> opposing fi = Some (Conn j q) ->
       in_circle (points_of t) q <> None) ->
    (forall old t new1 s1, In (old, t) (tetras s) -> inside (points_of t) (num_points s) = Some true ->
       split (push_point s) old (num_points s) = Some (new1, s1) -> P s1) ->
    (forall i t, In (i, t) (tetras s) -> inside (points_of t) (num_points s) <> None) ->
    (exists i t, In (i, t) (tetras s) /\ inside (points_of t) (num_points s) = Some true) ->
    exists new s', insert s = Some (num_points s, new, s').
  Proof.
    intros I LO FT PL PF TC PS TI [i0 [t0 [Hi0 Hin0]]]. unfold Delaunay_Model.insert. rewrite find_containing_push.
    pose proof (find_containing_ok s (num_points s) I LO) as FC.
    destruct (find_containing_tetra inside pop s (num_points s)) as [[old|]|]; cbn [bind].
    - destruct FC as [t [Ht Hin]].
      destruct (split (push_point s) old (num_points s)) as [[new1 s1]|] eqn:Es; cbn [bind].
      + destruct (split_spec s old t new1 s1 I Ht Es) as [N [-> [NE [RP [I1 [NP [HN HK]]]]]]].
        destruct (split_stack s old t N s1 I Ht RP I1 HN NE) as [SI SA].
        destruct (loop _ s1 (num_points s) [] (map fst N)) as [[new2 s2]|] eqn:El; cbn [bind]; [eauto|].
        exfalso. revert El. apply (loop_total_gen _ _ P FT PL PF TC); [exact SI|exact (PS _ _ _ _ Ht Hin Es)|].
        pose proof (outsiders_le (num_points s) s1). unfold rounds. lia.
      + exfalso. exact (split_total s old t I Ht Es).
    - exfalso. specialize (FC i0 t0 Hi0). congruence.
    - exfalso. destruct FC as [i [t [Ht Hn]]]. exact (TI i t Ht Hn).
  Qed.
  Hypothesis flip_total : forall s ct t c fc oj q,
    inv s -> In (ct, t) (tetras s) -> In (c, fc) t -> opposing fc = Some (Conn oj q) -> ~ In q (points_of t) ->
    flip s ct (face fc) <> None.
  Theorem insert_total_if s (P : triangulation -> Prop) : inv s -> last_ok s ->
    (forall s i, P s -> P (set_last s i)) ->
    (forall s0 i t fi j q new s1, P s0 -> In (i, t) (tetras s0) -> In (num_points s, fi) t -> opposing fi = Some (Conn j q) ->
       in_circle (points_of t) q = Some true -> flip s0 i (face fi) = Some (new, s1) -> P s1) ->
    (forall s0 i t fi j q, P s0 -> In (i, t) (tetras s0) -> In (num_points s, fi) t -> opposing fi = Some (Conn j q) ->
       in_circle (points_of t) q <> None) ->
    (forall old t new1 s1, In (old, t) (tetras s) -> inside (points_of t) (num_points s) = Some true ->
       split (push_point s) old (num_points s) = Some (new1, s1) -> P s1) ->
    (forall i t, In (i, t) (tetras s) -> inside (points_of t) (num_points s) <> None) ->
    (exists i t, In (i, t) (tetras s) /\ inside (points_of t) (num_points s) = Some true) ->
    exists new s', insert s = Some (num_points s, new, s').
  Proof.
    intros I LO. apply (insert_total_gen s P I LO). intros s0 i t fi j q _ I0 Ht Hp Ho Hq _. exact (flip_total s0 i t _ fi j q I0 Ht Hp Ho Hq).
  Qed.
  Theorem insert_total s : inv s -> last_ok s -> (forall ps q, in_circle ps q <> None) ->
    (forall i t, In (i, t) (tetras s) -> inside (points_of t) (num_points s) <> None) ->
    (exists i t, In (i, t) (tetras s) /\ inside (points_of t) (num_points s) = Some true) ->
    exists new s', insert s = Some (num_points s, new, s').
  Proof. intros I LO TC. apply (insert_total_if s (fun _ => True)); auto. Qed.

  Notation insert_many := (insert_many split flip in_circle inside pop).
  Theorem insert_many_ok n : forall s s', inv s -> last_ok s -> K s -> insert_many n s = Some s' ->
    inv s' /\ last_ok s' /\ K s' /\ num_points s' = num_points s + n.
  Proof.
    induction n as [|n IH]; intros s s' I LO HK H; cbn [Delaunay_Model.insert_many] in H.
    - injection H as <-. rewrite Nat.add_0_r. auto.
    - destruct (insert s) as [[[p new] s1]|] eqn:E; cbn [bind] in H; [|discriminate].
      destruct (insert_ok s p new s1 I LO E) as [a1 a2 a3 a4 a5 a6 a7].
      destruct (IH s1 s' a1 a2 (a5 HK) H) as [b1 [b2 [b3 b4]]]. repeat (split; [assumption|]). lia.
  Qed.
End Insertion.
