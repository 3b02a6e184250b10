(** Proofs about the check for deadlocks. *)
From Coq Require Import List Arith Bool Lia.
From Verif Require Import Sweep_Model Sweep_Spec Sweep_Util Deadlock_Model Deadlock_Spec.
Import ListNotations.
Local Open Scope nat_scope.

Lemma info_eqb_eq : forall a b, info_eqb a b = true <-> a = b.
Proof.
  intros [p l] [q m]. unfold info_eqb. cbn [fst snd]. rewrite andb_true_iff, Nat.eqb_eq.
  destruct (pid_eqb_spec p q) as [E|E]; split.
  - intros [_ ->]. now rewrite E.
  - intros H. inversion H. auto.
  - intros [H _]. discriminate H.
  - intros H. exfalso. apply E. congruence.
Qed.
Lemma dependency_eqb_eq : forall a b, dependency_eqb a b = true <-> a = b.
Proof.
  intros [a1 a2] [b1 b2]. unfold dependency_eqb. cbn [fst snd]. rewrite andb_true_iff, !info_eqb_eq. split.
  - intros [-> ->]. reflexivity.
  - intros H. inversion H. auto.
Qed.
Lemma mem_in : forall d l, mem d l = true <-> In d l.
Proof.
  intros d l. unfold mem. rewrite existsb_exists. split.
  - intros (x & Hx & E). apply dependency_eqb_eq in E. congruence.
  - intros H. exists d. split; [exact H | now apply dependency_eqb_eq].
Qed.
Lemma same_set_iff : forall l1 l2, same_set l1 l2 = true <-> forall d, In d l1 <-> In d l2.
Proof.
  intros l1 l2. unfold same_set. rewrite andb_true_iff, !forallb_forall. split.
  - intros [H1 H2] d. split; intros H; apply mem_in; auto.
  - intros H. split; intros d Hd; apply mem_in, H, Hd.
Qed.
Lemma in_for_rank : forall s l d, In d (for_rank s l) <-> In (s, d) l.
Proof.
  intros s l d. unfold for_rank. rewrite in_map_iff. split.
  - intros ([s' d'] & E & H). cbn in E. subst. apply filter_In in H. destruct H as [H E]. cbn in E.
    apply Nat.eqb_eq in E. now subst.
  - intros H. exists (s, d). split; [reflexivity|]. apply filter_In. split; [exact H | apply Nat.eqb_refl].
Qed.

Lemma gather_in : forall A B (f : A -> option (list B)) l y, gather f l = Some y ->
  forall b, In b y <-> exists a x, In a l /\ f a = Some x /\ In b x.
Proof.
  intros A B f. induction l as [|a l IH]; intros y E b; cbn in E.
  - inversion E. cbn. split; [tauto | intros (? & ? & [] & _)].
  - destruct (f a) as [x|] eqn:Ea; [|discriminate]. destruct (gather f l) as [y'|] eqn:El; [|discriminate].
    inversion E. subst y. rewrite in_app_iff, (IH y' eq_refl b). split.
    + intros [H | (a' & x' & H & E' & Hb)]; [exists a, x; cbn; auto | exists a', x'; cbn; auto].
    + intros (a' & x' & [<- | H] & E' & Hb); [left; congruence | right; exists a', x'; auto].
Qed.
Lemma gather_some : forall A B (f : A -> option (list B)) l, (forall a, In a l -> f a <> None) -> gather f l <> None.
Proof.
  intros A B f. induction l as [|a l IH]; intros H; cbn; [discriminate|].
  destruct (f a) as [x|] eqn:Ea; [|exfalso; apply (H a); cbn; auto].
  destruct (gather f l) as [y|] eqn:El; [discriminate|]. exfalso. apply IH; [|reflexivity].
  intros a' Ha. apply H. cbn. auto.
Qed.
Lemma gather_every : forall A B (f : A -> option (list B)) l y a, gather f l = Some y -> In a l -> exists x, f a = Some x.
Proof.
  intros A B f. induction l as [|a l IH]; intros y a' E H; cbn in *; [tauto|].
  destruct (f a) as [x|] eqn:Ea; [|discriminate]. destruct (gather f l) as [y'|] eqn:El; [|discriminate].
  destruct H as [<- | H]; [eauto | eapply IH; eauto].
Qed.

Section WithConfig.
  Variable G : config.

  Lemma in_active : forall r cur c, In c (active_cells G r cur) <-> In c (cells G) /\ rank_of c = r /\ cur <= lev G c.
  Proof.
    intros. unfold active_cells, own_cells. rewrite !filter_In, Nat.eqb_eq, Nat.leb_le. tauto.
  Qed.
  Lemma in_others : forall r s, In s (others G r) <-> s < nranks G /\ s <> r.
  Proof.
    intros. unfold others. rewrite filter_In, in_seq, negb_true_iff, Nat.eqb_neq. lia.
  Qed.
  Lemma own_level : forall c, In c (cells G) -> get_level G (rank_of c) c = Some (lev G c).
  Proof.
    intros c H. unfold get_level, own. rewrite Nat.eqb_refl. cbn.
    replace (existsb (pid_eqb c) (cells G)) with true; [reflexivity|]. symmetry. now apply existsb_pid.
  Qed.
  Lemma other_level : forall r p, rank_of p <> r -> get_level G r p = halo G r p.
  Proof. intros r p H. unfold get_level. apply Nat.eqb_neq in H. now rewrite H. Qed.

  (** The entries for rank [s] that rank [r] makes. *)
  Definition entry (cur r : nat) (s : nat) (d : dependency) : Prop :=
    exists c p lp, In c (cells G) /\ rank_of c = r /\ cur <= lev G c /\ rank_of p = s /\ s <> r /\ s < nranks G /\
      (exists f, In f (faces G c) /\ f_nb f = Remote p) /\ halo G r p = Some lp /\ cur <= lp /\
      d = if r <? s then ((c, lev G c), (p, lp)) else ((p, lp), (c, lev G c)).

  Lemma dependencies_entries : forall r cur l, get_dependencies G r cur = Some l ->
    forall s d, In (s, d) l <-> entry cur r s d.
  Proof.
    intros r cur l E s d. unfold get_dependencies in E. rewrite (gather_in _ _ _ _ _ E). split.
    - intros (c & x & Hc & Ex & Hx). apply in_active in Hc. destruct Hc as (Hc & Hr & Hl).
      rewrite (gather_in _ _ _ _ _ Ex) in Hx. destruct Hx as (f & y & Hf & Ey & Hy).
      unfold face_dependency in Ey. destruct (f_nb f) as [p|p|p|p|] eqn:Enb;
        try (injection Ey as <-; destruct Hy).
      unfold nb_active in Ey. destruct (get_level G r p) as [lp|] eqn:Elp; [|discriminate]. cbn [option_map] in Ey.
      destruct (cur <=? lp) eqn:Ecur; [|injection Ey as <-; destruct Hy].
      apply Nat.leb_le in Ecur.
      assert (Own : get_level G r c = Some (lev G c)) by (rewrite <- Hr; now apply own_level).
      unfold get_dependency in Ey. rewrite Own, Elp in Ey.
      destruct (is_remote_rank G r (rank_of p)) eqn:Er; [|destruct (r <? rank_of p); discriminate].
      unfold is_remote_rank in Er. apply andb_true_iff in Er. destruct Er as [E1 E2].
      apply negb_true_iff, Nat.eqb_neq in E1. apply Nat.ltb_lt in E2.
      rewrite other_level in Elp by exact E1.
      assert (Hd : rank_of p = s /\ (if r <? rank_of p then ((c, lev G c), (p, lp)) else ((p, lp), (c, lev G c))) = d).
      { destruct (r <? rank_of p); injection Ey as <-; destruct Hy as [Hy|[]]; inversion Hy; auto. }
      destruct Hd as [<- <-]. exists c, p, lp. repeat split; auto. exists f. auto.
    - intros (c & p & lp & Hc & Hr & Hl & Hp & Hsr & Hs & (f & Hf & Enb) & Hh & Hlp & Ed).
      assert (Ha : In c (active_cells G r cur)) by (apply in_active; auto).
      destruct (gather_every _ _ _ _ _ _ E Ha) as (x & Ex).
      destruct (gather_every _ _ _ _ _ _ Ex Hf) as (y & Ey).
      exists c, x. split; [exact Ha|]. split; [exact Ex|].
      rewrite (gather_in _ _ _ _ _ Ex). exists f, y. split; [exact Hf|]. split; [exact Ey|].
      unfold face_dependency in Ey. rewrite Enb in Ey. unfold nb_active in Ey.
      rewrite Hp in Ey.
      rewrite (other_level r p) in Ey by (rewrite Hp; exact Hsr). rewrite Hh in Ey. cbn [option_map] in Ey.
      apply Nat.leb_le in Hlp. rewrite Hlp in Ey.
      assert (Own : get_level G r c = Some (lev G c)) by (rewrite <- Hr; now apply own_level).
      unfold get_dependency in Ey. rewrite (other_level r p) in Ey by (rewrite Hp; exact Hsr). rewrite Own, Hh in Ey.
      assert (Er : is_remote_rank G r s = true).
      { unfold is_remote_rank. apply andb_true_iff. split; [apply negb_true_iff, Nat.eqb_neq; exact Hsr | now apply Nat.ltb_lt]. }
      rewrite Er in Ey. destruct (r <? s); injection Ey as <-; rewrite Ed; cbn; auto.
  Qed.

  (** ** What passing means. *)
  Lemma compare_passed : forall r s cur, compare G r cur = Passed -> In s (others G r) ->
    get_dependencies G s cur <> None ->
    exists lr ls, get_dependencies G r cur = Some lr /\ get_dependencies G s cur = Some ls /\
      forall d, In (r, d) ls <-> In (s, d) lr.
  Proof.
    intros r s cur C Hs Hn. unfold compare in C. destruct (get_dependencies G r cur) as [lr|] eqn:Er; [|discriminate].
    match type of C with (if ?b then _ else _) = _ => destruct b eqn:Eb; [|discriminate] end.
    rewrite forallb_forall in Eb. specialize (Eb s Hs). destruct (get_dependencies G s cur) as [ls|] eqn:Es; [|now elim Hn].
    exists lr, ls. split; [reflexivity|]. split; [reflexivity|]. intros d.
    rewrite same_set_iff in Eb. specialize (Eb d). rewrite !in_for_rank in Eb. exact Eb.
  Qed.

  Lemma entry_agreed : forall cur r s, r <> s -> r < nranks G -> s < nranks G ->
    (forall d, entry cur s r d <-> entry cur r s d) ->
    forall c p, rank_of p = s -> depends G cur r c p -> agreed G cur r c p.
  Proof.
    intros cur r s Hne Hr Hs Heq c p Hp (Hc & Hcr & Hcl & Hpr & (f & Hf & Enb) & (lp & Hh & Hlp)).
    assert (He : entry cur r s (if r <? s then ((c, lev G c), (p, lp)) else ((p, lp), (c, lev G c)))).
    { exists c, p, lp. repeat split; auto. exists f. auto. }
    apply Heq in He. destruct He as (c' & p' & lp' & Hc' & Hcr' & Hcl' & Hp' & _ & _ & (f' & Hf' & Enb') & Hh' & Hlp' & Ed).
    assert (Hcase : c' = p /\ p' = c /\ lev G c' = lp /\ lp' = lev G c).
    { destruct (Nat.ltb_spec r s), (Nat.ltb_spec s r); try lia; repeat split; congruence. }
    destruct Hcase as (-> & -> & <- & ->). unfold agreed, depends. rewrite Hp. subst r.
    repeat split; auto. exists f'. auto. exists (lev G c). auto.
  Qed.

  (** ** The executions. *)
  Record invariant (cur : nat) (w : nat -> place) : Prop := {
    i_sum : forall r, w r = AtSum -> takes_part G r cur = true;
    i_lists : forall r, w r = AtExchange \/ w r = Passed \/ w r = Differ -> get_dependencies G r cur <> None;
    i_after : forall r, r < nranks G -> takes_part G r cur = true -> w r <> Before -> w r <> AtSum ->
      forall s, s < nranks G -> takes_part G s cur = true /\ w s <> Before;
    i_task : forall r, w r = NoTask -> total_tasks G cur = 0;
    i_unknown : forall r, w r = Unknown -> get_dependencies G r cur = None;
    i_passed : forall r, w r = Passed -> compare G r cur = Passed /\ forall s, In s (others G r) -> has_sent w s = true;
    i_differ : forall r, w r = Differ -> compare G r cur = Differ
  }.

  Lemma send_lists_cases : forall r cur, send_lists G r cur = AtExchange /\ get_dependencies G r cur <> None \/
    send_lists G r cur = Unknown /\ get_dependencies G r cur = None.
  Proof. intros. unfold send_lists. destruct (get_dependencies G r cur); [left | right]; split; auto; discriminate. Qed.
  Lemma compare_cases : forall r cur, get_dependencies G r cur <> None -> compare G r cur = Passed \/ compare G r cur = Differ.
  Proof.
    intros r cur H. unfold compare. destruct (get_dependencies G r cur); [|now elim H].
    match goal with |- (if ?b then _ else _) = _ \/ _ => destruct b; auto end.
  Qed.

  Lemma execution_invariant : forall cur n w, execution G cur n w -> invariant cur w.
  Proof.
    intros cur n w E. induction E as [|n w w' E I S].
    - constructor; intros; try discriminate; try (destruct H as [|[|]]; discriminate). congruence.
    - assert (Sent : forall r x s, (forall y, w r = y -> y = Before \/ y = AtSum \/ (y = AtExchange /\ (x = Passed \/ x = Differ))) ->
        has_sent w s = true -> has_sent (set_place w r x) s = true).
      { intros r x s Hr H. unfold has_sent, set_place in *. destruct (s =? r) eqn:Es; [|exact H].
        apply Nat.eqb_eq in Es. subst s. destruct (Hr _ eq_refl) as [Ey | [Ey | [Ey [-> | ->]]]]; rewrite Ey in H; try discriminate H; reflexivity. }
      destruct S as [r Hr Hw | r Hr Hw Hall | r Hr Hw Hall].
      + (* enter *)
        assert (Cases : enter G r cur = AtSum /\ takes_part G r cur = true \/
          enter G r cur = AtExchange /\ get_dependencies G r cur <> None /\ takes_part G r cur = false \/
          enter G r cur = Unknown /\ get_dependencies G r cur = None /\ takes_part G r cur = false).
        { unfold enter. destruct (takes_part G r cur); [left; auto | right].
          destruct (send_lists_cases r cur) as [[-> H] | [-> H]]; auto. }
        assert (Nb : enter G r cur <> Before) by (destruct Cases as [[-> _] | [[-> _] | [-> _]]]; discriminate).
        constructor.
        * intros s. unfold set_place. destruct (s =? r) eqn:Es; [apply Nat.eqb_eq in Es; subst s | apply (i_sum _ _ I)].
          intros H. destruct Cases as [[_ H'] | [[H' _] | [H' _]]]; [exact H' | congruence | congruence].
        * intros s. unfold set_place. destruct (s =? r) eqn:Es; [apply Nat.eqb_eq in Es; subst s | apply (i_lists _ _ I)].
          intros H. destruct Cases as [[H' _] | [[_ [H' _]] | [H' _]]]; [rewrite H' in H; destruct H as [|[|]]; discriminate | exact H' | rewrite H' in H; destruct H as [|[|]]; discriminate].
        * intros s Hs Ht H1 H2 t Ht'. revert H1 H2. unfold set_place. destruct (s =? r) eqn:Es.
          -- apply Nat.eqb_eq in Es. subst s. intros _ H2. destruct Cases as [[H' _] | [(_ & _ & H') | (_ & _ & H')]]; congruence.
          -- intros H1 H2. destruct (i_after _ _ I s Hs Ht H1 H2 t Ht') as [H3 H4]. split; [exact H3|].
             destruct (t =? r) eqn:Et; [exact Nb | exact H4].
        * intros s. unfold set_place. destruct (s =? r) eqn:Es; [|apply (i_task _ _ I)].
          intros H. destruct Cases as [[H' _] | [[H' _] | [H' _]]]; congruence.
        * intros s. unfold set_place. destruct (s =? r) eqn:Es; [apply Nat.eqb_eq in Es; subst s | apply (i_unknown _ _ I)].
          intros H. destruct Cases as [[H' _] | [[H' _] | [_ [H' _]]]]; congruence.
        * intros s. intros H.
          assert (Hs : w s = Passed). { unfold set_place in H. destruct (s =? r); [destruct Cases as [[H' _] | [[H' _] | [H' _]]]; congruence | exact H]. }
          destruct (i_passed _ _ I s Hs) as [H1 H2]. split; [exact H1|]. intros t Ht. apply Sent; [|apply H2, Ht].
          intros y <-. auto.
        * intros s. unfold set_place. destruct (s =? r) eqn:Es; [|apply (i_differ _ _ I)].
          intros H. destruct Cases as [[H' _] | [[H' _] | [H' _]]]; congruence.
      + (* sum *)
        remember (if total_tasks G cur =? 0 then NoTask else send_lists G r cur) as x eqn:Ex.
        assert (Cases : x = NoTask /\ total_tasks G cur = 0 \/ x = AtExchange /\ get_dependencies G r cur <> None \/
          x = Unknown /\ get_dependencies G r cur = None).
        { destruct (total_tasks G cur =? 0) eqn:E0; [apply Nat.eqb_eq in E0; left; auto | right].
          destruct (send_lists_cases r cur) as [[H1 H] | [H1 H]]; rewrite H1 in Ex; auto. }
        assert (Nb : x <> Before) by (destruct Cases as [[-> _] | [[-> _] | [-> _]]]; discriminate).
        constructor.
        * intros s. unfold set_place. destruct (s =? r) eqn:Es; [|apply (i_sum _ _ I)].
          intros H. destruct Cases as [[H' _] | [[H' _] | [H' _]]]; congruence.
        * intros s. unfold set_place. destruct (s =? r) eqn:Es; [apply Nat.eqb_eq in Es; subst s | apply (i_lists _ _ I)].
          intros H. destruct Cases as [[H' _] | [[_ H'] | [H' _]]]; [rewrite H' in H; destruct H as [|[|]]; discriminate | exact H' | rewrite H' in H; destruct H as [|[|]]; discriminate].
        * intros s Hs Ht H1 H2 t Ht'. specialize (Hall t Ht'). unfold called_sum in Hall. apply andb_true_iff in Hall.
          destruct Hall as [H3 H4]. split; [exact H3|]. unfold set_place. destruct (t =? r); [exact Nb|].
          intros H5. rewrite H5 in H4. discriminate.
        * intros s. unfold set_place. destruct (s =? r) eqn:Es; [|apply (i_task _ _ I)].
          intros H. destruct Cases as [[_ H'] | [[H' _] | [H' _]]]; congruence.
        * intros s. unfold set_place. destruct (s =? r) eqn:Es; [apply Nat.eqb_eq in Es; subst s | apply (i_unknown _ _ I)].
          intros H. destruct Cases as [[H' _] | [[H' _] | [_ H']]]; congruence.
        * intros s. intros H.
          assert (Hs : w s = Passed). { unfold set_place in H. destruct (s =? r); [destruct Cases as [[H' _] | [[H' _] | [H' _]]]; congruence | exact H]. }
          destruct (i_passed _ _ I s Hs) as [H1 H2]. split; [exact H1|]. intros t Ht. apply Sent; [|apply H2, Ht].
          intros y <-. auto.
        * intros s. unfold set_place. destruct (s =? r) eqn:Es; [|apply (i_differ _ _ I)].
          intros H. destruct Cases as [[H' _] | [[H' _] | [H' _]]]; congruence.
      + (* exchange *)
        assert (Hl : get_dependencies G r cur <> None) by (apply (i_lists _ _ I); auto).
        pose proof (compare_cases r cur Hl) as Cases.
        assert (Nb : compare G r cur <> Before) by (destruct Cases as [-> | ->]; discriminate).
        constructor.
        * intros s. unfold set_place. destruct (s =? r) eqn:Es; [|apply (i_sum _ _ I)].
          intros H. destruct Cases; congruence.
        * intros s. unfold set_place. destruct (s =? r) eqn:Es; [apply Nat.eqb_eq in Es; subst s; auto | apply (i_lists _ _ I)].
        * intros s Hs Ht H1 H2 t Ht'.
          assert (Hs' : w s <> Before /\ w s <> AtSum).
          { unfold set_place in H1, H2. destruct (s =? r) eqn:Es; [apply Nat.eqb_eq in Es; subst s; split; congruence | auto]. }
          destruct (i_after _ _ I s Hs Ht (proj1 Hs') (proj2 Hs') t Ht') as [H3 H4]. split; [exact H3|].
          unfold set_place. destruct (t =? r); [exact Nb | exact H4].
        * intros s. unfold set_place. destruct (s =? r) eqn:Es; [|apply (i_task _ _ I)]. intros H. destruct Cases; congruence.
        * intros s. unfold set_place. destruct (s =? r) eqn:Es; [|apply (i_unknown _ _ I)]. intros H. destruct Cases; congruence.
        * intros s H.
          assert (Hsent : forall t, has_sent w t = true -> has_sent (set_place w r (compare G r cur)) t = true).
          { intros t Ht. apply Sent; [|exact Ht]. intros y <-. right. right. split; [exact Hw|]. exact Cases. }
          unfold set_place in H. destruct (s =? r) eqn:Es.
          -- apply Nat.eqb_eq in Es. subst s. split; [exact H|]. intros t Ht. apply Hsent, Hall, Ht.
          -- destruct (i_passed _ _ I s H) as [H1 H2]. split; [exact H1|]. intros t Ht. apply Hsent, H2, Ht.
        * intros s. unfold set_place. destruct (s =? r) eqn:Es; [apply Nat.eqb_eq in Es; subst s; auto | apply (i_differ _ _ I)].
  Qed.

  Lemma sent_lists : forall cur w s, invariant cur w -> has_sent w s = true -> get_dependencies G s cur <> None.
  Proof.
    intros cur w s I H. apply (i_lists _ _ I). unfold has_sent in H. destruct (w s); try discriminate; auto.
  Qed.

  Theorem passed_agreed : forall cur n w r, execution G cur n w -> r < nranks G -> w r = Passed ->
    (forall c p, rank_of p < nranks G -> depends G cur r c p -> agreed G cur r c p) /\
    (forall c p, rank_of p = r -> rank_of c < nranks G -> depends G cur (rank_of c) c p -> agreed G cur (rank_of c) c p).
  Proof.
    intros cur n w r E Hr Hp. pose proof (execution_invariant _ _ _ E) as I.
    destruct (i_passed _ _ I r Hp) as [Hc Hs].
    assert (Eq : forall s, s < nranks G -> s <> r -> forall d, entry cur s r d <-> entry cur r s d).
    { intros s Hsn Hne d. assert (Hin : In s (others G r)) by (apply in_others; auto).
      destruct (compare_passed r s cur Hc Hin (sent_lists _ _ _ I (Hs s Hin))) as (lr & ls & E1 & E2 & H).
      rewrite <- (dependencies_entries _ _ _ E1), <- (dependencies_entries _ _ _ E2). apply H. }
    split.
    - intros c p Hpn D. assert (Hne : rank_of p <> r) by apply D.
      apply (entry_agreed cur r (rank_of p)); auto.
    - intros c p Hpr Hcn D. assert (Hne : rank_of c <> r) by (intros H; apply D; congruence).
      apply (entry_agreed cur (rank_of c) r); auto. intros d. symmetry. apply Eq; auto.
  Qed.

  (** ** No false alarm. *)
  Hypothesis HG : consistent G.
  Hypothesis TS : two_sided G.

  Lemma consistent_lists : forall r cur, get_dependencies G r cur <> None.
  Proof.
    intros r cur. unfold get_dependencies. apply gather_some. intros c Hc. apply in_active in Hc.
    destruct Hc as (Hc & Hr & Hl). apply gather_some. intros f Hf. unfold face_dependency.
    destruct (f_nb f) as [p|p|p|p|] eqn:Enb; try discriminate.
    destruct (c_remote G HG c f p Hc Hf (or_introl Enb)) as (Hp & Hne & Hh). rewrite Hr in *.
    unfold nb_active. rewrite other_level by exact Hne. rewrite Hh. cbn [option_map].
    destruct (cur <=? lev G p); [|discriminate].
    unfold get_dependency. rewrite (other_level r p Hne), Hh. rewrite <- Hr, own_level by exact Hc.
    assert (Er : is_remote_rank G (rank_of c) (rank_of p) = true).
    { unfold is_remote_rank. apply andb_true_iff. split; [apply negb_true_iff, Nat.eqb_neq; congruence | apply Nat.ltb_lt, (c_rank G HG), Hp]. }
    rewrite Er. destruct (rank_of c <? rank_of p); discriminate.
  Qed.

  Lemma entry_sym : forall cur r s d, entry cur r s d -> entry cur s r d.
  Proof.
    intros cur r s d (c & p & lp & Hc & Hr & Hl & Hp & Hsr & Hs & (f & Hf & Enb) & Hh & Hlp & Ed).
    destruct (c_remote G HG c f p Hc Hf (or_introl Enb)) as (Hpc & Hne & Hh').
    assert (lp = lev G p) by (rewrite Hr in Hh'; congruence). subst lp.
    destruct (TS c f p Hc Hf Enb) as (f' & Hf' & Enb').
    destruct (c_remote G HG p f' c Hpc Hf' (or_introl Enb')) as (_ & _ & Hh2). rewrite Hp in Hh2.
    exists p, c, (lev G c). repeat split; auto.
    - rewrite <- Hr. apply (c_rank G HG), Hc.
    - exists f'. auto.
    - rewrite Ed. destruct (Nat.ltb_spec r s), (Nat.ltb_spec s r); try reflexivity; lia.
  Qed.

  Lemma consistent_passes : forall r cur, compare G r cur = Passed.
  Proof.
    intros r cur. unfold compare. destruct (get_dependencies G r cur) as [lr|] eqn:Er; [|now elim (consistent_lists r cur)].
    match goal with |- (if ?b then _ else _) = _ => replace b with true; [reflexivity|] end.
    symmetry. apply forallb_forall. intros s Hs. destruct (get_dependencies G s cur) as [ls|] eqn:Es; [|reflexivity].
    apply same_set_iff. intros d. rewrite !in_for_rank, (dependencies_entries _ _ _ Er), (dependencies_entries _ _ _ Es).
    split; apply entry_sym.
  Qed.

  Lemma min_ord : forall (ord : pid -> nat) l c, In c l -> exists m, In m l /\ forall x, In x l -> ord m <= ord x.
  Proof.
    intros ord l. induction l as [|a l IH]; intros c H; [destruct H|]. destruct l as [|b l].
    - exists a. split; [left; reflexivity|]. intros x [<-|[]]. lia.
    - destruct (IH b (or_introl eq_refl)) as (m & Hm & Hmin). destruct (le_lt_dec (ord a) (ord m)).
      + exists a. split; [left; reflexivity|]. intros x [<-|Hx]; [lia|]. specialize (Hmin x Hx). lia.
      + exists m. split; [right; exact Hm|]. intros x [<-|Hx]; [lia|]. auto.
  Qed.

  Lemma list_sum_ge : forall l x, In x l -> x <= list_sum l.
  Proof. induction l as [|a l IH]; intros x H; [destruct H|]. change (list_sum (a :: l)) with (a + list_sum l). destruct H as [<-|H]; [lia|]. specialize (IH x H). lia. Qed.

  Lemma some_task : forall cur c, acyclic_at G cur -> 0 < ndirs G -> In c (cells G) -> cur <= lev G c -> 0 < total_tasks G cur.
  Proof.
    intros cur c (ord & Hord) Hd Hc Hl.
    destruct (min_ord (ord 0) (filter (fun c => cur <=? lev G c) (cells G)) c) as (m & Hm & Hmin).
    { apply filter_In. split; [exact Hc | now apply Nat.leb_le]. }
    apply filter_In in Hm. destruct Hm as [Hm Hml]. apply Nat.leb_le in Hml.
    assert (Zero : missing_init G (rank_of m) cur m 0 = 0).
    { unfold missing_init. apply countb_zero. intros f Hf. apply andb_false_iff.
      destruct (match f_nb f with Local _ | Remote _ => true | _ => false end) eqn:Ek; [left | right; reflexivity].
      destruct (dep G (rank_of m) cur 0 f) eqn:Edep; [exfalso | reflexivity].
      unfold dep, dep_active in Edep. destruct (upwind f 0) eqn:Eu; [|discriminate].
      assert (Hp : exists p, nb_id (f_nb f) = Some p /\ face_to p f = true /\ In p (cells G) /\ get_level G (rank_of m) p = Some (lev G p)).
      { destruct (f_nb f) as [p|p|p|p|] eqn:Enb; try discriminate; exists p.
        - destruct (c_local G HG m f p Hm Hf (or_introl Enb)) as [H1 H2]. split; [reflexivity|].
          split; [unfold face_to; rewrite Enb; apply pid_eqb_refl|]. split; [exact H1|]. rewrite <- H2. now apply own_level.
        - destruct (c_remote G HG m f p Hm Hf (or_introl Enb)) as (H1 & H2 & H3). split; [reflexivity|].
          split; [unfold face_to; rewrite Enb; apply pid_eqb_refl|]. split; [exact H1|]. now rewrite other_level. }
      destruct Hp as (p & Enb & Eto & Hp & Elev). rewrite Enb in Edep. unfold nb_active in Edep. rewrite Elev in Edep.
      cbn in Edep. apply Nat.leb_le in Edep.
      assert (Hcount : 1 <= countb (fun f => downwind f 0 && face_to m f) (faces G p)).
      { rewrite <- (c_sym G HG m p 0 Hm Hp Hd). apply (countb_pos _ _ f); [exact Hf|]. now rewrite Eu, Eto. }
      destruct (existsb (fun f => downwind f 0 && face_to m f) (faces G p)) eqn:Eex.
      - apply existsb_exists in Eex. destruct Eex as (f' & Hf' & Eb). apply andb_true_iff in Eb. destruct Eb as [E1 E2].
        pose proof (Hord p m f' 0 Hp Hf' Hd E1 E2 Edep Hml). specialize (Hmin p).
        assert (ord 0 m <= ord 0 p); [|lia]. apply Hmin, filter_In. split; [exact Hp | now apply Nat.leb_le].
      - assert (countb (fun f => downwind f 0 && face_to m f) (faces G p) = 0); [|lia].
        apply countb_zero. intros a Ha. destruct (downwind a 0 && face_to m a) eqn:Ea; [|reflexivity].
        assert (existsb (fun f => downwind f 0 && face_to m f) (faces G p) = true); [|congruence].
        apply existsb_exists. eauto. }
    assert (Own : 1 <= num_initial_tasks G (rank_of m) cur).
    { unfold num_initial_tasks.
      match goal with |- 1 <= length ?l => assert (H : In (m, 0) l); [|destruct l; [destruct H | cbn; lia]] end.
      apply in_flat_map. exists 0. split; [apply in_seq; lia|]. apply in_map_iff. exists m. split; [reflexivity|].
      apply filter_In. split; [apply in_active; auto | now rewrite Zero]. }
    assert (num_initial_tasks G (rank_of m) cur <= total_tasks G cur); [|lia].
    unfold total_tasks. apply list_sum_ge. apply in_map_iff. exists (rank_of m). split; [reflexivity|].
    apply in_seq. pose proof (c_rank G HG m Hm). lia.
  Qed.

  Theorem no_alarm : forall cur n w r, acyclic_at G cur -> 0 < ndirs G -> execution G cur n w -> r < nranks G -> ~ panicked (w r).
  Proof.
    intros cur n w r A Hd E Hr P. pose proof (execution_invariant _ _ _ E) as I. destruct P as [P | [P | P]].
    - pose proof (i_task _ _ I r P) as Ht.
      (* a rank panics here only when it takes part in the sum *)
      assert (Tp : forall n w, execution G cur n w -> forall r, w r = NoTask -> takes_part G r cur = true).
      { clear - HG TS. intros n w E. induction E as [|n w w' E IH S]; intros r H; [discriminate|].
        pose proof (execution_invariant _ _ _ E) as I.
        destruct S as [s Hs Hw | s Hs Hw Hall | s Hs Hw Hall]; unfold set_place in H; destruct (r =? s) eqn:Es; auto.
        - exfalso. unfold enter in H. destruct (takes_part G s cur); [discriminate|]. unfold send_lists in H.
          destruct (get_dependencies G s cur); discriminate.
        - apply Nat.eqb_eq in Es. subst s. apply (i_sum _ _ I), Hw.
        - exfalso. rewrite consistent_passes in H. discriminate. }
      specialize (Tp _ _ E r P). unfold takes_part in Tp. apply negb_true_iff, Nat.eqb_neq in Tp.
      destruct (active_cells G r cur) as [|c l] eqn:Ea; [cbn in Tp; congruence|].
      assert (Hc : In c (active_cells G r cur)) by (rewrite Ea; left; reflexivity). apply in_active in Hc.
      pose proof (some_task cur c A Hd (proj1 Hc) (proj2 (proj2 Hc))). lia.
    - exact (consistent_lists r cur (i_unknown _ _ I r P)).
    - pose proof (i_differ _ _ I r P). rewrite consistent_passes in H. discriminate.
  Qed.
End WithConfig.

(** ** Ends and hangs. *)
Section Ends.
  Variable G : config.

  Definition progress (x : place) : nat := match x with Before => 0 | AtSum => 1 | AtExchange => 2 | _ => 3 end.
  Definition total (w : nat -> place) : nat := list_sum (map (fun r => progress (w r)) (seq 0 (nranks G))).

  Lemma total_set : forall l (w : nat -> place) r x, NoDup l -> In r l ->
    list_sum (map (fun s => progress (set_place w r x s)) l) + progress (w r) =
    list_sum (map (fun s => progress (w s)) l) + progress x.
  Proof.
    induction l as [|a l IH]; intros w r x Hn Hin; [destruct Hin|]. inversion Hn as [|? ? Ha Hn']. subst. cbn [map].
    change (progress (set_place w r x a) + list_sum (map (fun s => progress (set_place w r x s)) l) + progress (w r) =
      progress (w a) + list_sum (map (fun s => progress (w s)) l) + progress x).
    destruct (Nat.eq_dec a r) as [->|Hne].
    - assert (E : map (fun s => progress (set_place w r x s)) l = map (fun s => progress (w s)) l).
      { apply map_ext_in. intros s Hs. unfold set_place. destruct (s =? r) eqn:Es; [|reflexivity].
        apply Nat.eqb_eq in Es. subst. contradiction. }
      rewrite E. unfold set_place at 1. rewrite Nat.eqb_refl. lia.
    - destruct Hin as [->|Hin]; [congruence|]. specialize (IH w r x Hn' Hin).
      unfold set_place at 1. apply Nat.eqb_neq in Hne. rewrite Hne. lia.
  Qed.

  Lemma step_progress : forall cur w w', step G cur w w' -> S (total w) <= total w'.
  Proof.
    intros cur w w' S. unfold total.
    assert (H : exists r x, In r (seq 0 (nranks G)) /\ w' = set_place w r x /\ progress (w r) < progress x).
    { destruct S as [r Hr Hw | r Hr Hw Hall | r Hr Hw Hall].
      - exists r, (enter G r cur). split; [apply in_seq; lia|]. split; [reflexivity|]. rewrite Hw. unfold enter, send_lists.
        destruct (takes_part G r cur); [cbn; lia|]. destruct (get_dependencies G r cur); cbn; lia.
      - eexists r, _. split; [apply in_seq; lia|]. split; [reflexivity|]. rewrite Hw.
        destruct (total_tasks G cur =? 0); [cbn; lia|]. unfold send_lists. destruct (get_dependencies G r cur); cbn; lia.
      - eexists r, _. split; [apply in_seq; lia|]. split; [reflexivity|]. rewrite Hw. unfold compare.
        destruct (get_dependencies G r cur); [|cbn; lia].
        match goal with |- context [if ?b then _ else _] => destruct b; cbn; lia end. }
    destruct H as (r & x & Hin & -> & Hlt). pose proof (total_set _ w r x (seq_NoDup (nranks G) 0) Hin). lia.
  Qed.

  Theorem execution_bounded : forall cur n w, execution G cur n w -> n <= 3 * nranks G.
  Proof.
    intros cur n w E. assert (n <= total w).
    { induction E as [|n w w' E IH S]; [lia|]. pose proof (step_progress _ _ _ S). lia. }
    assert (total w <= 3 * nranks G); [|lia]. unfold total. rewrite <- (seq_length (nranks G) 0) at 2.
    generalize (seq 0 (nranks G)). induction l as [|a l IH]; [cbn; lia|]. cbn [map length].
    change (list_sum (progress (w a) :: map (fun r => progress (w r)) l)) with (progress (w a) + list_sum (map (fun r => progress (w r)) l)).
    destruct (w a); cbn [progress]; lia.
  Qed.

  (** A state with a rank in the first place of its kind. *)
  Lemma exists_or_none : forall (P : nat -> bool) n, (exists r, r < n /\ P r = true) \/ forall r, r < n -> P r = false.
  Proof.
    intros P n. destruct (existsb P (seq 0 n)) eqn:E.
    - left. apply existsb_exists in E. destruct E as (r & Hr & Hp). apply in_seq in Hr. exists r. split; [lia | exact Hp].
    - right. intros r Hr. destruct (P r) eqn:Ep; [|reflexivity].
      assert (existsb P (seq 0 n) = true); [|congruence]. apply existsb_exists. exists r. split; [apply in_seq; lia | exact Ep].
  Qed.

  Theorem all_pass : forall cur n w, consistent G -> two_sided G -> acyclic_at G cur -> 0 < ndirs G ->
    ((forall r, r < nranks G -> active_cells G r cur <> []) \/ (forall r, r < nranks G -> active_cells G r cur = [])) ->
    execution G cur n w ->
    (forall w', ~ step G cur w w') -> forall r, r < nranks G -> w r = Passed.
  Proof.
    intros cur n w HG TS A Hd Act E Stop.
    pose proof (execution_invariant G _ _ _ E) as I.
    assert (NoP : forall r, r < nranks G -> ~ panicked (w r)) by (intros r Hr; apply (no_alarm G HG TS cur n w r A Hd E Hr)).
    destruct (exists_or_none (fun r => match w r with Before => true | _ => false end) (nranks G)) as [(r & Hr & Hb) | NB].
    { exfalso. destruct (w r) eqn:Ew; try discriminate. exact (Stop _ (step_enter G cur w r Hr Ew)). }
    assert (AllAt : forall s, s < nranks G -> w s = AtExchange \/ w s = Passed \/ w s = AtSum).
    { intros s Hs. specialize (NB s Hs). pose proof (NoP s Hs) as NP. unfold panicked in NP. destruct (w s); try discriminate; tauto. }
    destruct (exists_or_none (fun r => match w r with AtSum => true | _ => false end) (nranks G)) as [(r & Hr & Hb) | NS].
    { exfalso. destruct (w r) eqn:Ew; try discriminate. refine (Stop _ (step_sum G cur w r Hr Ew _)).
      intros s Hs. unfold called_sum. apply andb_true_iff. split; [|specialize (NB s Hs); destruct (w s); auto; discriminate].
      assert (Hact : active_cells G s cur <> []).
      { destruct Act as [Act | Act]; [apply Act, Hs|]. pose proof (i_sum _ _ _ I r Ew) as T. unfold takes_part in T.
        rewrite (Act r Hr) in T. discriminate. }
      unfold takes_part. destruct (active_cells G s cur); [congruence | reflexivity]. }
    destruct (exists_or_none (fun r => match w r with AtExchange => true | _ => false end) (nranks G)) as [(r & Hr & Hb) | NX].
    { exfalso. destruct (w r) eqn:Ew; try discriminate. refine (Stop _ (step_exchange G cur w r Hr Ew _)).
      intros s Hs. apply in_others in Hs. unfold has_sent. destruct (AllAt s (proj1 Hs)) as [-> | [-> | Es]]; auto.
      specialize (NS s (proj1 Hs)). rewrite Es in NS. discriminate. }
    intros r Hr. destruct (AllAt r Hr) as [Es | [Es | Es]]; [|exact Es|].
    - specialize (NX r Hr). rewrite Es in NX. discriminate.
    - specialize (NS r Hr). rewrite Es in NS. discriminate.
  Qed.

  Theorem idle_hang : forall cur n w r s, r < nranks G -> s < nranks G ->
    active_cells G r cur <> [] -> active_cells G s cur = [] ->
    execution G cur n w -> forall t, t < nranks G -> w t <> Passed.
  Proof.
    intros cur n w r s Hr Hs Har Has E t Ht P. pose proof (execution_invariant G _ _ _ E) as I.
    assert (Tr : takes_part G r cur = true) by (unfold takes_part; destruct (active_cells G r cur); [congruence | reflexivity]).
    assert (Ts : takes_part G s cur = false) by (unfold takes_part; rewrite Has; reflexivity).
    assert (Wr : w r = Before \/ w r = AtSum).
    { destruct (w r) eqn:Ew; auto; exfalso;
        (assert (H1 : w r <> Before) by congruence; assert (H2 : w r <> AtSum) by congruence;
         pose proof (i_after _ _ _ I r Hr Tr H1 H2 s Hs) as [H _]; congruence). }
    destruct (Nat.eq_dec t r) as [-> | Hne]; [destruct Wr; congruence|].
    destruct (i_passed _ _ _ I t P) as [_ H]. specialize (H r). rewrite in_others in H. specialize (H (conj Hr (not_eq_sym Hne))).
    unfold has_sent in H. destruct Wr as [E1 | E1]; rewrite E1 in H; discriminate.
  Qed.
End Ends.
