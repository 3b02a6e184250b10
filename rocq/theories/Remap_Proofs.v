(** Proofs about the remapping. *)
From Coq Require Import List Arith Lia QArith Qminmax Lqa Permutation.
From Verif Require Import Decomp_Model FileDist_Model FileDist_Proofs ParticleExchange_Proofs Collective_Model Collective_Proofs.
From Verif Require Import Remap_Model Remap_Spec.
Import ListNotations.

(** ** Geometry *)

Lemma sq_dist_spec p q : (sq_dist p q == dist2 p q)%Q.
Proof. destruct p as [[a b] c], q as [[x y] z]. unfold sq_dist, dist2. ring. Qed.

Lemma sq_mono a b : (0 <= a)%Q -> (a <= b)%Q -> (a * a <= b * b)%Q.
Proof. intros H1 H2. nra. Qed.
Lemma sq_nonneg a : (0 <= a * a)%Q.
Proof. nra. Qed.

Lemma axis_dist_bound lo hi p x : (lo <= p)%Q -> (p <= hi)%Q ->
  (axis_dist lo hi x * axis_dist lo hi x <= (p - x) * (p - x))%Q.
Proof.
  intros H1 H2. unfold axis_dist.
  assert (N := sq_nonneg (p - x)).
  destruct (Q.max_spec (Qmax 0 (lo - x)) (x - hi)) as [[L E]|[_ E]]; rewrite E.
  - assert (Q0 := Q.le_max_l 0 (lo - x)).
    assert (S := sq_mono (x - hi) (x - p) ltac:(lra) ltac:(lra)). lra.
  - destruct (Q.max_spec 0 (lo - x)) as [[L E2]|[_ E2]]; rewrite E2; [|lra].
    assert (S := sq_mono (lo - x) (p - x) ltac:(lra) ltac:(lra)). lra.
Qed.

Definition ple (p q : pos) : Prop :=
  let '(a, b, c) := p in let '(x, y, z) := q in (a <= x /\ b <= y /\ c <= z)%Q.

Lemma ple_refl p : ple p p.
Proof. destruct p as [[a b] c]. unfold ple. repeat split; lra. Qed.
Lemma ple_trans p q r : ple p q -> ple q r -> ple p r.
Proof. destruct p as [[a b] c], q as [[x y] z], r as [[s t] u]. unfold ple. intros (A & B & C) (D & E & F). repeat split; lra. Qed.
Lemma pmin_l p q : ple (pmin p q) p.
Proof. destruct p as [[a b] c], q as [[x y] z]. cbn. repeat split; apply Q.le_min_l. Qed.
Lemma pmin_r p q : ple (pmin p q) q.
Proof. destruct p as [[a b] c], q as [[x y] z]. cbn. repeat split; apply Q.le_min_r. Qed.
Lemma pmax_l p q : ple p (pmax p q).
Proof. destruct p as [[a b] c], q as [[x y] z]. cbn. repeat split; apply Q.le_max_l. Qed.
Lemma pmax_r p q : ple q (pmax p q).
Proof. destruct p as [[a b] c], q as [[x y] z]. cbn. repeat split; apply Q.le_max_r. Qed.

Lemma fold_pmin ps : forall p q, q = p \/ In q ps -> ple (fold_left pmin ps p) q.
Proof.
  induction ps as [|r ps IH]; intros p q H; cbn [fold_left].
  - destruct H as [->|[]]. apply ple_refl.
  - destruct H as [->|[->|H]].
    + eapply ple_trans; [apply (IH _ _ (or_introl eq_refl))|]. apply pmin_l.
    + eapply ple_trans; [apply (IH _ _ (or_introl eq_refl))|]. apply pmin_r.
    + apply IH. now right.
Qed.
Lemma fold_pmax ps : forall p q, q = p \/ In q ps -> ple q (fold_left pmax ps p).
Proof.
  induction ps as [|r ps IH]; intros p q H; cbn [fold_left].
  - destruct H as [->|[]]. apply ple_refl.
  - destruct H as [->|[->|H]].
    + eapply ple_trans; [|apply (IH _ _ (or_introl eq_refl))]. apply pmax_l.
    + eapply ple_trans; [|apply (IH _ _ (or_introl eq_refl))]. apply pmax_r.
    + apply IH. now right.
Qed.

Lemma extent_bound ps e q p : from_positions ps = Some e -> In p ps -> (sq_dist_extent e q <= sq_dist p q)%Q.
Proof.
  destruct ps as [|p0 ps]; [discriminate|]. cbn [from_positions]. intros E Hin. injection E as <-.
  assert (H1 : ple (fold_left pmin ps p0) p) by (apply fold_pmin; destruct Hin as [->|]; auto).
  assert (H2 : ple p (fold_left pmax ps p0)) by (apply fold_pmax; destruct Hin as [->|]; auto).
  destruct (fold_left pmin ps p0) as [[a b] c], (fold_left pmax ps p0) as [[x y] z].
  destruct p as [[s t] u], q as [[i j] k]. cbn in H1, H2. cbn [sq_dist_extent sq_dist].
  destruct H1 as (A1 & A2 & A3), H2 as (B1 & B2 & B3).
  assert (C1 := axis_dist_bound a x s i A1 B1).
  assert (C2 := axis_dist_bound b y t j A2 B2).
  assert (C3 := axis_dist_bound c z u k A3 B3).
  lra.
Qed.

(** ** The replies *)

Lemma absorb_spec replies : forall m, (forall r, In r replies -> In (fst r) (map fst m)) ->
  exists m', absorb replies m = Some m' /\ map fst m' = map fst m
  /\ forall e v, hget e m = Some v ->
       exists v', hget e m' = Some v' /\ (fst v' <= fst v)%Q
         /\ (forall r, In (e, r) replies -> fst v' <= fst r)%Q
         /\ (v' = v \/ In (e, v') replies).
Proof.
  induction replies as [|[e r] replies IH]; intros m Hm; cbn [absorb].
  - exists m. split; [reflexivity|]. split; [reflexivity|]. intros e v Hv. exists v.
    split; [exact Hv|]. split; [lra|]. split; [intros ? []|now left].
  - destruct (hget_key e m (Hm _ (or_introl eq_refl))) as [prev Hp]. cbn [fst] in *. rewrite Hp.
    assert (He : In e (map fst m)) by exact (Hm _ (or_introl eq_refl)).
    set (m1 := if Qle_bool (fst prev) (fst r) then m else hput e r m).
    assert (K : map fst m1 = map fst m).
    { unfold m1. destruct (Qle_bool (fst prev) (fst r)); [reflexivity|]. now apply keys_hput. }
    destruct (IH m1) as (m' & E' & Kr & H).
    { rewrite K. intros r' Hr'. apply Hm. now right. }
    exists m'. split; [exact E'|]. split; [now rewrite Kr|]. intros e' v Hv.
    destruct (Qle_bool (fst prev) (fst r)) eqn:C; subst m1.
    + apply Qle_bool_iff in C. destruct (H e' v Hv) as (v' & A1 & A2 & A3 & A4). exists v'.
      split; [exact A1|]. split; [exact A2|]. split.
      * intros r' [E|E]; [|auto]. injection E as -> ->. rewrite Hp in Hv. injection Hv as ->. lra.
      * destruct A4; [now left|right; now right].
    + assert (C' : (fst r < fst prev)%Q).
      { apply Qnot_le_lt. intro F. apply Qle_bool_iff in F. rewrite F in C. discriminate. }
      specialize (H e'). rewrite hget_hput in H. destruct (e =? e')%nat eqn:E.
      * apply Nat.eqb_eq in E as <-. rewrite Hp in Hv. injection Hv as ->.
        destruct (H r eq_refl) as (v' & A1 & A2 & A3 & A4). exists v'.
        split; [exact A1|]. split; [lra|]. split.
        -- intros r' [E|E]; [|auto]. injection E as ->. exact A2.
        -- destruct A4 as [->|A4]; right; [now left|now right].
      * destruct (H v Hv) as (v' & A1 & A2 & A3 & A4). exists v'.
        split; [exact A1|]. split; [exact A2|]. split.
        -- intros r' [F|F]; [|auto]. injection F as -> ->. rewrite Nat.eqb_refl in E. discriminate.
        -- destruct A4; [now left|right; now right].
Qed.

(** ** The update of the particles *)

Definition upd1 (m : list (nat * reply)) (p : particle) : particle :=
  match hget (fst p) m with
  | Some (_, v) => (fst p, (fst (snd p), remap_from (snd (snd p)) v))
  | None => p
  end.

Lemma update_particle_spec e v ps : NoDup (map fst ps) -> In e (map fst ps) ->
  update_particle e v ps
  = Some (map (fun p : particle => if (e =? fst p)%nat then (fst p, (fst (snd p), remap_from (snd (snd p)) v)) else p) ps).
Proof.
  induction ps as [|[k [p w]] ps IH]; intros Hnd Hin; [destruct Hin|].
  inversion Hnd as [|? ? H1 H2]; subst. cbn [update_particle map fst snd].
  rewrite (Nat.eqb_sym k e). destruct (e =? k)%nat eqn:E.
  - apply Nat.eqb_eq in E as ->. do 2 f_equal. rewrite <- (map_id ps) at 1. apply map_ext_in.
    intros [k' p'] Hp. cbn [fst]. destruct (k =? k')%nat eqn:E; [|reflexivity].
    apply Nat.eqb_eq in E as ->. exfalso. apply H1. apply in_map_iff. exists (k', p'). auto.
  - destruct Hin as [<-|Hin]; [cbn in E; rewrite Nat.eqb_refl in E; discriminate|].
    rewrite IH by assumption. reflexivity.
Qed.

Lemma update_particles_spec m : forall ps, NoDup (map fst ps) -> NoDup (map fst m) ->
  (forall e, In e (map fst m) -> In e (map fst ps)) ->
  update_particles m ps = Some (map (upd1 m) ps).
Proof.
  induction m as [|[e [d v]] m IH]; intros ps H1 H2 H3; cbn [update_particles].
  - f_equal. rewrite <- (map_id ps) at 1. apply map_ext. intros [k p]. reflexivity.
  - inversion H2 as [|? ? H4 H5]; subst. rewrite update_particle_spec; [|exact H1|apply H3; now left].
    assert (K : forall f : particle -> particle, (forall p, fst (f p) = fst p) -> forall l, map fst (map f l) = map fst l).
    { intros f Hf l. rewrite map_map. apply map_ext. exact Hf. }
    rewrite IH.
    + f_equal. rewrite map_map. apply map_ext. intros [k [p w]]. unfold upd1. cbn [fst snd hget].
      destruct (e =? k)%nat eqn:E; cbn [fst snd]; [|reflexivity].
      apply Nat.eqb_eq in E as ->. destruct (hget k m) as [[d' v']|] eqn:G; [|reflexivity].
      exfalso. apply H4. apply hget_In in G. apply in_map_iff. exists (k, (d', v')). auto.
    + rewrite K; [exact H1|]. intros [k p]. cbn. destruct (e =? k)%nat; reflexivity.
    + exact H5.
    + intros k Hk. rewrite K; [apply H3; now right|]. intros [k' p]. cbn. destruct (e =? k')%nat; reflexivity.
Qed.

(** ** One round *)

Section Round.
  Variable nearest : list pos -> pos -> nat.
  Hypothesis Hnear : finds_nearest nearest.
  Variable n : nat.
  Variable data : list (list remap_data).
  Hypothesis Hlen : length data = n.
  Hypothesis Hne : forall y, (y < n)%nat -> nth y data [] <> [].

  Definition rep (y : nat) (q : pos) : reply :=
    match get_reply nearest (nth y data []) q with Some r => r | None => (0%Q, (0%Q, 0%Q)) end.

  Lemma rep_spec y q : (y < n)%nat ->
    get_reply nearest (nth y data []) q = Some (rep y q)
    /\ (exists p, In (p, snd (rep y q)) (nth y data []) /\ fst (rep y q) = sq_dist p q)
    /\ forall p' v', In (p', v') (nth y data []) -> (fst (rep y q) <= sq_dist p' q)%Q.
  Proof.
    intro Hy. assert (N := Hne y Hy). unfold rep. set (d := nth y data []) in *.
    destruct (Hnear (map fst d) q) as (p & Hp & Hmin).
    { destruct d; [now elim N|discriminate]. }
    unfold get_reply. rewrite nth_error_map in Hp.
    destruct (nth_error d (nearest (map fst d) q)) as [[p0 v]|] eqn:E; [|discriminate].
    cbn in Hp. injection Hp as ->. cbn [fst snd].
    split; [reflexivity|]. split.
    - exists p. split; [|reflexivity]. exact (nth_error_In _ _ E).
    - intros p' v' H'. rewrite !sq_dist_spec. apply Hmin. apply in_map_iff. exists (p', v'). auto.
  Qed.

  Definition good (q : pos) (v : reply) : Prop :=
    exists y p, (y < n)%nat /\ In (p, snd v) (nth y data []) /\ fst v = sq_dist p q
    /\ forall y' p' v', (y' < n)%nat -> In (p', v') (nth y' data []) -> (fst v <= sq_dist p' q)%Q.

  Definition answer (y : nat) (r : request) : nat * reply := (fst r, rep y (snd r)).

  Lemma replies_all y l : (y < n)%nat -> opt_all (reply_to nearest (nth y data [])) l = Some (map (answer y) l).
  Proof.
    intro Hy. apply opt_all_map. intros [e q] _. unfold reply_to. cbn [fst snd].
    destruct (rep_spec y q Hy) as [E _]. rewrite E. reflexivity.
  Qed.

  Definition asks (x : nat) (extent : pos * pos) (r : request) : bool :=
    negb (Qle_bool (fst (rep x (snd r))) (sq_dist_extent extent (snd r))).

  Lemma requests_to_spec x extent lm chunk :
    (forall r, In r chunk -> hget (fst r) lm = Some (rep x (snd r))) ->
    requests_to extent lm chunk = Some (filter (asks x extent) chunk).
  Proof.
    induction chunk as [|r chunk IH]; intro H; cbn [requests_to filter]; [reflexivity|].
    rewrite (H r (or_introl eq_refl)), IH by (intros; apply H; now right).
    change (asks x extent r) with (negb (Qle_bool (fst (rep x (snd r))) (sq_dist_extent extent (snd r)))).
    destruct (rep x (snd r)) as [d v]. cbn [fst].
    destruct (Qle_bool d (sq_dist_extent extent (snd r))); reflexivity.
  Qed.

  Definition ext (y : nat) : pos * pos :=
    match from_positions (map fst (nth y data [])) with Some e => e | None => ((0, 0, 0), (0, 0, 0))%Q end.

  Lemma ext_spec y : (y < n)%nat -> from_positions (map fst (nth y data [])) = Some (ext y).
  Proof.
    intro Hy. assert (N := Hne y Hy). unfold ext. destruct (nth y data []) as [|d l]; [now elim N|]. reflexivity.
  Qed.

  Lemma round_spec chunks particles :
    (forall x, (x < n)%nat -> NoDup (map fst (nth x chunks []))) ->
    (forall x, (x < n)%nat -> NoDup (map fst (nth x particles []))) ->
    (forall x e, (x < n)%nat -> In e (map fst (nth x chunks [])) -> In e (map fst (nth x particles []))) ->
    exists particles', exchange_request_chunk nearest n data chunks particles = Some particles'
      /\ length particles' = n
      /\ forall x, (x < n)%nat -> exists m,
           map fst m = map fst (nth x chunks [])
           /\ (forall e q, In (e, q) (nth x chunks []) -> exists v, hget e m = Some v /\ good q v)
           /\ nth x particles' [] = map (upd1 m) (nth x particles []).
  Proof.
    intros Hc Hp Hcp.
    set (lm x := map (answer x) (nth x chunks [])).
    assert (Klm : forall x, map fst (lm x) = map fst (nth x chunks [])).
    { intro x. unfold lm. rewrite map_map. reflexivity. }
    assert (E1 : for_all_ranks n (fun x => option_map hcollect (opt_all (reply_to nearest (nth x data [])) (nth x chunks [])))
            = Some (map lm (seq 0 n))).
    { apply opt_all_map. intros x Hx. apply in_seq in Hx. rewrite replies_all by lia. cbn [option_map].
      f_equal. apply hcollect_id. fold (lm x). rewrite Klm. apply Hc. lia. }
    assert (Hlm : forall x r, (x < n)%nat -> In r (nth x chunks []) -> hget (fst r) (lm x) = Some (rep x (snd r))).
    { intros x r Hx Hr. apply hget_iff; [rewrite Klm; auto|]. unfold lm. apply in_map_iff. exists r. auto. }
    set (rq x y := filter (asks x (ext y)) (nth x chunks [])).
    set (rqs x := map (fun y => (y, rq x y)) (other_ranks n x)).
    assert (E2 : for_all_ranks n (fun x => get_outgoing_requests (map (fun d => from_positions (map fst d)) data) n x
                    (nth x (map lm (seq 0 n)) []) (nth x chunks [])) = Some (map rqs (seq 0 n))).
    { apply opt_all_map. intros x Hx. apply in_seq in Hx. unfold get_outgoing_requests.
      rewrite nth_map_seq by lia. apply opt_all_map. intros y Hy. apply other_ranks_In in Hy as [Hy _].
      rewrite (nth_indep _ None (from_positions (map fst (@nil remap_data)))) by (rewrite map_length; lia).
      rewrite (map_nth (fun d => from_positions (map fst d)) data []).
      rewrite (ext_spec y Hy). rewrite (requests_to_spec x); [reflexivity|]. intros r Hr. apply Hlm; [lia|exact Hr]. }
    set (rpl y := map (fun x => (x, map (answer y) (rq x y))) (other_ranks n y)).
    assert (Hsent : forall x y, (x < n)%nat -> In y (other_ranks n x) -> sent (map rqs (seq 0 n)) x y = rq x y).
    { intros x y Hx Hy. unfold sent. rewrite nth_map_seq by exact Hx. unfold rqs.
      rewrite (hget_map_seq (rq x) _ _ Hy). reflexivity. }
    assert (E3 : for_all_ranks n (fun y =>
        opt_all (fun x => option_map (pair x) (opt_all (reply_to nearest (nth y data [])) (sent (map rqs (seq 0 n)) x y)))
          (other_ranks n y)) = Some (map rpl (seq 0 n))).
    { apply opt_all_map. intros y Hy. apply in_seq in Hy. apply opt_all_map. intros x Hx.
      apply other_ranks_In in Hx as [Hx Hxy]. rewrite Hsent; [|exact Hx|apply other_ranks_In; lia].
      rewrite replies_all by lia. reflexivity. }
    set (inc x := concat (map (fun y => sent (map rpl (seq 0 n)) y x) (other_ranks n x))).
    assert (Hinc : forall x r, (x < n)%nat ->
              In r (inc x) <-> exists y q, (y < n)%nat /\ y <> x /\ In q (rq x y) /\ r = answer y q).
    { intros x r Hx. unfold inc. rewrite in_concat. split.
      - intros (l & Hl & Hr). apply in_map_iff in Hl as (y & <- & Hy). assert (Hy' := Hy).
        apply other_ranks_In in Hy as [Hy Hne']. unfold sent in Hr. rewrite nth_map_seq in Hr by exact Hy.
        unfold rpl in Hr. rewrite (hget_map_seq (fun x => map (answer y) (rq x y))) in Hr by (apply other_ranks_In; lia).
        apply in_map_iff in Hr as (q & <- & Hq). exists y, q. auto.
      - intros (y & q & Hy & Hne' & Hq & ->). exists (map (answer y) (rq x y)). split; [|now apply in_map].
        apply in_map_iff. exists y. split; [|apply other_ranks_In; auto]. unfold sent. rewrite nth_map_seq by exact Hy.
        unfold rpl. rewrite (hget_map_seq (fun x => map (answer y) (rq x y))) by (apply other_ranks_In; lia).
        reflexivity. }
    assert (Habs : forall x, (x < n)%nat -> exists m, absorb (inc x) (lm x) = Some m
              /\ map fst m = map fst (nth x chunks [])
              /\ forall e q, In (e, q) (nth x chunks []) -> exists v, hget e m = Some v /\ good q v).
    { intros x Hx. destruct (absorb_spec (inc x) (lm x)) as (m & A1 & A2 & A3).
      { intros r Hr. apply (Hinc x r Hx) in Hr as (y & q & _ & _ & Hq & ->). rewrite Klm. apply filter_In in Hq as [Hq _].
        apply (in_map fst) in Hq. exact Hq. }
      exists m. split; [exact A1|]. split; [rewrite A2; apply Klm|]. intros e q Hin.
      destruct (A3 e (rep x q)) as (v & B1 & B2 & B3 & B4).
      { exact (Hlm x (e, q) Hx Hin). }
      exists v. split; [exact B1|].
      assert (Hsame : forall q', In (e, q') (nth x chunks []) -> q' = q).
      { intros q' H'. assert (F1 := Hlm x (e, q) Hx Hin). assert (G := Hc x Hx).
        clear - H' Hin G. induction (nth x chunks []) as [|[a b] l IH]; [destruct Hin|].
        inversion G as [|? ? G1 G2]; subst. destruct H' as [E|H'], Hin as [F|Hin].
        - congruence.
        - injection E as -> ->. exfalso. apply G1. apply in_map_iff. exists (e, q). auto.
        - injection F as -> ->. exfalso. apply G1. apply in_map_iff. exists (e, q'). auto.
        - auto. }
      assert (Hv : exists y, (y < n)%nat /\ v = rep y q).
      { destruct B4 as [->|B4]; [exists x; auto|]. apply (Hinc x _ Hx) in B4 as (y & [e' q'] & Hy & _ & Hq & Ev).
        unfold answer in Ev. cbn in Ev. injection Ev as <- ->. apply filter_In in Hq as [Hq _].
        exists y. split; [exact Hy|]. now rewrite (Hsame q' Hq). }
      destruct Hv as (y & Hy & Ev). destruct (rep_spec y q Hy) as (_ & (p & C1 & C2) & C3).
      exists y, p. rewrite Ev. split; [exact Hy|]. split; [exact C1|]. split; [exact C2|].
      rewrite <- Ev. intros y' p' v' Hy' Hin'.
      destruct (Nat.eq_dec y' x) as [->|Hne'].
      { destruct (rep_spec x q Hx) as (_ & _ & D). specialize (D p' v' Hin'). lra. }
      destruct (asks x (ext y') (e, q)) eqn:As.
      - assert (Hr : In (e, rep y' q) (inc x)).
        { apply (Hinc x _ Hx). exists y', (e, q). split; [exact Hy'|]. split; [exact Hne'|].
          split; [|reflexivity]. apply filter_In. auto. }
        specialize (B3 _ Hr). destruct (rep_spec y' q Hy') as (_ & _ & D). specialize (D p' v' Hin'). lra.
      - unfold asks in As. cbn [snd] in As. apply Bool.negb_false_iff, Qle_bool_iff in As.
        assert (D := extent_bound _ _ q p' (ext_spec y' Hy')
                       (proj2 (in_map_iff _ _ _) (ex_intro _ (p', v') (conj eq_refl Hin')))). lra. }
    set (mx x := match absorb (inc x) (lm x) with Some m => m | None => [] end).
    assert (Hmx : forall x, (x < n)%nat -> absorb (inc x) (lm x) = Some (mx x) /\ map fst (mx x) = map fst (nth x chunks [])
              /\ forall e q, In (e, q) (nth x chunks []) -> exists v, hget e (mx x) = Some v /\ good q v).
    { intros x Hx. unfold mx. destruct (Habs x Hx) as (m & A & B). rewrite A. auto. }
    exists (map (fun x => map (upd1 (mx x)) (nth x particles [])) (seq 0 n)).
    split; [|split].
    - unfold exchange_request_chunk. rewrite E1, E2, E3. apply opt_all_map. intros x Hx. apply in_seq in Hx.
      rewrite nth_map_seq by lia. fold (inc x). destruct (Hmx x) as (A1 & A2 & A3); [lia|]. rewrite A1.
      apply update_particles_spec; [apply Hp; lia|rewrite A2; apply Hc; lia|].
      intros e He. rewrite A2 in He. apply Hcp; [lia|exact He].
    - now rewrite map_length, seq_length.
    - intros x Hx. exists (mx x). destruct (Hmx x Hx) as (_ & A2 & A3).
      split; [exact A2|]. split; [exact A3|]. now rewrite nth_map_seq.
  Qed.
End Round.

(** ** All rounds *)

Definition req_of (p : particle) : request := (fst p, fst (snd p)).

Lemma upd1_req m p : req_of (upd1 m p) = req_of p.
Proof. unfold upd1, req_of. destruct (hget (fst p) m) as [[d v]|]; reflexivity. Qed.

Section Rounds.
  Variable nearest : list pos -> pos -> nat.
  Hypothesis Hnear : finds_nearest nearest.
  Variable n : nat.
  Variable data : list (list remap_data).
  Hypothesis Hlen : length data = n.
  Hypothesis Hne : forall y, (y < n)%nat -> nth y data [] <> [].

  Definition done (reqs : list request) (p p' : particle) : Prop :=
    if in_dec Nat.eq_dec (fst p) (map fst reqs) then
      exists v, good n data (fst (snd p)) v /\ p' = (fst p, (fst (snd p), remap_from (snd (snd p)) (snd v)))
    else p' = p.

  Lemma rounds_spec steps : forall particles,
    length particles = n ->
    (forall x, (x < n)%nat -> NoDup (map fst (nth x particles []))) ->
    (forall x, (x < n)%nat -> NoDup (map fst (concat (map (fun ch => nth x ch []) steps)))) ->
    (forall x r, (x < n)%nat -> In r (concat (map (fun ch => nth x ch []) steps)) -> In r (map req_of (nth x particles []))) ->
    exists particles', rounds nearest n data steps particles = Some particles' /\ length particles' = n
      /\ forall x, (x < n)%nat ->
           Forall2 (done (concat (map (fun ch => nth x ch []) steps))) (nth x particles []) (nth x particles' []).
  Proof.
    induction steps as [|chunks steps IH]; intros particles HL Hp Hs Hr; cbn [rounds].
    - exists particles. split; [reflexivity|]. split; [exact HL|]. intros x Hx. cbn [map concat].
      induction (nth x particles []); constructor; [reflexivity|auto].
    - cbn [map concat] in Hs, Hr.
      assert (Hs' : forall x, (x < n)%nat -> NoDup (map fst (nth x chunks []))
        /\ NoDup (map fst (concat (map (fun ch => nth x ch []) steps)))
        /\ forall e, In e (map fst (nth x chunks [])) -> ~ In e (map fst (concat (map (fun ch => nth x ch []) steps)))).
      { intros x Hx. specialize (Hs x Hx). rewrite map_app in Hs. exact (NoDup_app_split _ _ Hs). }
      destruct (round_spec nearest Hnear n data Hlen Hne chunks particles) as (ps1 & E1 & L1 & H1).
      { intros x Hx. apply (Hs' x Hx). }
      { exact Hp. }
      { intros x e Hx He. apply in_map_iff in He as (r & <- & Hin).
        specialize (Hr x r Hx (in_or_app _ _ _ (or_introl Hin))). apply in_map_iff in Hr as (p & <- & Hq).
        apply in_map_iff. exists p. auto. }
      rewrite E1.
      assert (K : forall x, (x < n)%nat -> map req_of (nth x ps1 []) = map req_of (nth x particles [])).
      { intros x Hx. destruct (H1 x Hx) as (m & _ & _ & ->). rewrite map_map. apply map_ext. intro p. apply upd1_req. }
      assert (K' : forall x, (x < n)%nat -> map fst (nth x ps1 []) = map fst (nth x particles [])).
      { intros x Hx. specialize (K x Hx). apply (f_equal (map fst)) in K. rewrite !map_map in K. exact K. }
      destruct (IH ps1) as (ps2 & E2 & L2 & H2).
      { exact L1. }
      { intros x Hx. rewrite K' by exact Hx. auto. }
      { intros x Hx. apply (Hs' x Hx). }
      { intros x r Hx Hin. rewrite K by exact Hx. apply (Hr x r Hx). apply in_or_app. now right. }
      exists ps2. split; [exact E2|]. split; [exact L2|]. intros x Hx.
      specialize (H2 x Hx). destruct (H1 x Hx) as (m & M1 & M2 & M3). rewrite M3 in H2.
      apply Forall2_map_left in H2. revert H2. apply Forall2_impl_in. intros p p' Hin Hd.
      destruct (Hs' x Hx) as (N1 & N2 & N3).
      unfold done in Hd |- *. cbn [map concat].
      assert (Kp : fst (upd1 m p) = fst p).
      { assert (Q := upd1_req m p). unfold req_of in Q. congruence. }
      assert (Kq : fst (snd (upd1 m p)) = fst (snd p)).
      { assert (Q := upd1_req m p). unfold req_of in Q. congruence. }
      rewrite Kp, Kq in Hd.
      destruct (in_dec Nat.eq_dec (fst p) (map fst (nth x chunks []))) as [In1|In1].
      + destruct (in_dec Nat.eq_dec (fst p) (map fst (nth x chunks [] ++ concat (map (fun ch => nth x ch []) steps)))) as [_|F].
        2:{ exfalso. apply F. rewrite map_app. apply in_or_app. now left. }
        destruct (in_dec Nat.eq_dec (fst p) (map fst (concat (map (fun ch => nth x ch []) steps)))) as [F|_].
        { exfalso. exact (N3 _ In1 F). }
        apply in_map_iff in In1 as ([e q] & Ee & Hq). cbn in Ee. subst e.
        assert (q = fst (snd p)) as ->.
        { specialize (Hr x _ Hx (in_or_app _ _ _ (or_introl Hq))). apply in_map_iff in Hr as (p2 & Ep2 & Hp2).
          assert (P2 : In (fst p, snd p2) (nth x particles [])).
          { unfold req_of in Ep2. injection Ep2 as <- _. now destruct p2. }
          assert (P1 : In (fst p, snd p) (nth x particles [])) by now destruct p.
          assert (Es := NoDup_fst_unique _ _ _ _ (Hp x Hx) P1 P2). unfold req_of in Ep2. injection Ep2 as _ <-.
          now rewrite Es. }
        destruct (M2 _ _ Hq) as (v & Hv & Hg). exists v. split; [exact Hg|].
        rewrite Hd. unfold upd1. rewrite Hv. destruct v; reflexivity.
      + assert (U : upd1 m p = p).
        { unfold upd1. destruct (hget (fst p) m) as [[d v]|] eqn:G; [|reflexivity].
          exfalso. apply In1. rewrite <- M1. apply hget_In in G. apply in_map_iff. exists (fst p, (d, v)). auto. }
        rewrite U in Hd.
        destruct (in_dec Nat.eq_dec (fst p) (map fst (concat (map (fun ch => nth x ch []) steps)))) as [I2|I2];
        destruct (in_dec Nat.eq_dec (fst p) (map fst (nth x chunks [] ++ concat (map (fun ch => nth x ch []) steps)))) as [I3|I3];
        try exact Hd.
        * exfalso. apply I3. rewrite map_app. apply in_or_app. now right.
        * exfalso. rewrite map_app in I3. apply in_app_or in I3. tauto.
  Qed.

  Lemma is_max_Qmax a b : is_max a b (Qmax a b).
  Proof.
    split; [apply Q.le_max_l|]. split; [apply Q.le_max_r|].
    destruct (Q.max_spec a b) as [[_ E]|[_ E]]; auto.
  Qed.

  Lemma good_nearest q v : good n data q v -> nearest_value (concat data) q (snd v).
  Proof.
    intros (y & p & Hy & Hin & Hd & Hmin). exists p. split.
    - apply in_concat. exists (nth y data []). split; [|exact Hin]. apply nth_In. lia.
    - intros p' v' H'. apply in_concat in H' as (l & Hl & Hp'). apply (In_nth _ _ []) in Hl as (y' & Hy' & <-).
      rewrite <- !sq_dist_spec, <- Hd. apply (Hmin y' p' v'); [lia|exact Hp'].
  Qed.

  Theorem remap_spec chunk_size particles :
    (1 <= chunk_size)%nat -> length particles = n ->
    (forall x, (x < n)%nat -> NoDup (map fst (nth x particles []))) ->
    exists particles', remap nearest n chunk_size data particles = Some particles'
      /\ length particles' = n
      /\ forall x, (x < n)%nat -> Forall2 (remapped (concat data)) (nth x particles []) (nth x particles' []).
  Proof.
    intros Hc HL Hp. unfold remap.
    change (fun p : particle => (fst p, fst (snd p))) with req_of.
    set (steps := rounds_of chunk_size (map (map req_of) particles)).
    assert (Hsteps : forall x, (x < n)%nat -> concat (map (fun ch => nth x ch []) steps) = map req_of (nth x particles [])).
    { intros x Hx. unfold steps. rewrite rounds_of_concat; [|exact Hc|rewrite map_length; lia].
      change (@nil request) with (map req_of []). apply map_nth. }
    destruct (rounds_spec steps particles HL Hp) as (ps' & E & L & H).
    - intros x Hx. rewrite Hsteps by exact Hx. rewrite map_map. exact (Hp x Hx).
    - intros x r Hx. rewrite Hsteps by exact Hx. auto.
    - exists ps'. split; [exact E|]. split; [exact L|]. intros x Hx. specialize (H x Hx).
      rewrite Hsteps in H by exact Hx. revert H. apply Forall2_impl_in. intros p p' Hin Hd. unfold done in Hd.
      destruct (in_dec Nat.eq_dec (fst p) (map fst (map req_of (nth x particles [])))) as [_|F].
      + destruct Hd as (v & Hg & ->). unfold remapped. cbn [fst snd]. split; [reflexivity|]. split; [reflexivity|].
        exists (snd v). split; [apply good_nearest; exact Hg|]. split; apply is_max_Qmax.
      + exfalso. apply F. rewrite map_map. apply (in_map (fun x => fst (req_of x))) in Hin. exact Hin.
  Qed.
End Rounds.

(** ** The redistribution *)

Lemma redistribute_In owner n data y d : length data = n -> (y < n)%nat ->
  In d (nth y (redistribute owner n data) [])
  <-> exists x, (x < n)%nat /\ In d (nth x data []) /\ destination owner n x d = y.
Proof.
  intros HL Hy. unfold redistribute. rewrite nth_map_seq by exact Hy. rewrite in_app_iff, in_concat. split.
  - intros [(l & Hl & Hd)|Hd].
    + apply in_map_iff in Hl as (x & <- & Hx). apply other_ranks_In in Hx as [Hx _].
      unfold outgoing_data in Hd. apply filter_In in Hd as [Hd E]. apply Nat.eqb_eq in E. exists x. auto.
    + unfold outgoing_data in Hd. apply filter_In in Hd as [Hd E]. apply Nat.eqb_eq in E. exists y. auto.
  - intros (x & Hx & Hd & E). destruct (Nat.eq_dec x y) as [->|Hne].
    + right. unfold outgoing_data. apply filter_In. split; [exact Hd|]. now apply Nat.eqb_eq.
    + left. exists (outgoing_data owner n data x y). split.
      * apply in_map_iff. exists x. split; [reflexivity|]. apply other_ranks_In. auto.
      * unfold outgoing_data. apply filter_In. split; [exact Hd|]. now apply Nat.eqb_eq.
Qed.

Lemma destination_lt owner n x d : (x < n)%nat -> (destination owner n x d < n)%nat.
Proof. intro H. unfold destination. destruct (n <=? owner (fst d))%nat eqn:E; [exact H|]. apply Nat.leb_gt in E. exact E. Qed.

Lemma redistribute_length owner n data : length (redistribute owner n data) = n.
Proof. unfold redistribute. now rewrite map_length, seq_length. Qed.

Lemma redistribute_all owner n data d : length data = n ->
  In d (concat (redistribute owner n data)) <-> In d (concat data).
Proof.
  intro HL. rewrite !in_concat. split.
  - intros (l & Hl & Hd). apply (In_nth _ _ []) in Hl as (y & Hy & <-). rewrite redistribute_length in Hy.
    apply (redistribute_In _ _ _ _ _ HL Hy) in Hd as (x & Hx & Hd & _).
    exists (nth x data []). split; [|exact Hd]. apply nth_In. lia.
  - intros (l & Hl & Hd). apply (In_nth _ _ []) in Hl as (x & Hx & <-).
    assert (Hy := destination_lt owner n x d ltac:(lia)).
    exists (nth (destination owner n x d) (redistribute owner n data) []). split.
    + apply nth_In. rewrite redistribute_length. exact Hy.
    + apply (redistribute_In _ _ _ _ _ HL Hy). exists x. split; [lia|]. auto.
Qed.

Theorem remap_system_spec nearest owner n chunk_size data particles :
  finds_nearest nearest -> (1 <= chunk_size)%nat ->
  length data = n -> length particles = n ->
  (forall y, (y < n)%nat -> exists x d, (x < n)%nat /\ In d (nth x data [])
     /\ (owner (fst d) = y \/ ((n <= owner (fst d))%nat /\ x = y))) ->
  (forall x, (x < n)%nat -> NoDup (map fst (nth x particles []))) ->
  exists particles', remap_system nearest owner n chunk_size data particles = Some particles'
    /\ length particles' = n
    /\ forall x, (x < n)%nat -> Forall2 (remapped (concat data)) (nth x particles []) (nth x particles' []).
Proof.
  intros Hn Hc HL HL2 Hown Hnd. unfold remap_system.
  destruct (remap_spec nearest Hn n (redistribute owner n data) (redistribute_length owner n data)) with (chunk_size := chunk_size) (particles := particles)
    as (ps & E & L & H); [|exact Hc|exact HL2|exact Hnd|].
  - intros y Hy F. destruct (Hown y Hy) as (x & d & Hx & Hd & Ho).
    assert (G : In d (nth y (redistribute owner n data) [])).
    { apply (redistribute_In _ _ _ _ _ HL Hy). exists x. split; [exact Hx|]. split; [exact Hd|].
      unfold destination. destruct Ho as [Ho|[Ho ->]].
      - destruct (n <=? owner (fst d))%nat eqn:E; [apply Nat.leb_le in E; lia|exact Ho].
      - apply Nat.leb_le in Ho. now rewrite Ho. }
    rewrite F in G. destruct G.
  - exists ps. split; [exact E|]. split; [exact L|]. intros x Hx. specialize (H x Hx). revert H.
    apply Forall2_impl_in. intros p p' _ (A & B & v & (q & Q1 & Q2) & C). split; [exact A|]. split; [exact B|].
    exists v. split; [|exact C]. exists q. split.
    + apply (redistribute_all owner n data _ HL). exact Q1.
    + intros q' v' H'. apply (Q2 q' v'). apply (redistribute_all owner n data _ HL). exact H'.
Qed.

(** ** A search by scanning, to show that the assumption on the k-d tree can be met *)

Fixpoint scan (all l : list pos) (q : pos) : nat :=
  match l with
  | [] => 0
  | p :: l' => if forallb (fun p' => Qle_bool (sq_dist p q) (sq_dist p' q)) all then 0 else S (scan all l' q)
  end.
Definition scan_nearest (ps : list pos) (q : pos) : nat := scan ps ps q.

Lemma min_exists (q : pos) l : l <> [] -> exists p, In p l /\ forall p', In p' l -> (sq_dist p q <= sq_dist p' q)%Q.
Proof.
  induction l as [|a l IH]; intro H; [now elim H|]. destruct l as [|b l].
  - exists a. split; [now left|]. intros p' [<-|[]]. lra.
  - destruct IH as (p & Hp & Hm); [discriminate|]. destruct (Qlt_le_dec (sq_dist p q) (sq_dist a q)) as [C|C].
    + exists p. split; [now right|]. intros p' [<-|H']; [lra|auto].
    + exists a. split; [now left|]. intros p' [<-|H']; [lra|]. specialize (Hm p' H'). lra.
Qed.

Lemma scan_finds all q l : (exists p, In p l /\ forall p', In p' all -> (sq_dist p q <= sq_dist p' q)%Q) ->
  exists p, nth_error l (scan all l q) = Some p /\ forall p', In p' all -> (sq_dist p q <= sq_dist p' q)%Q.
Proof.
  induction l as [|a l IH]; intros (p & Hp & Hm); [destruct Hp|]. cbn [scan].
  destruct (forallb _ all) eqn:E.
  - exists a. split; [reflexivity|]. intros p' H'. rewrite forallb_forall in E. specialize (E p' H').
    now apply Qle_bool_iff.
  - cbn [nth_error]. apply IH. exists p. split; [|exact Hm]. destruct Hp as [->|Hp]; [|exact Hp].
    exfalso. assert (F : forallb (fun p' => Qle_bool (sq_dist p q) (sq_dist p' q)) all = true).
    { apply forallb_forall. intros p' H'. apply Qle_bool_iff. auto. }
    rewrite F in E. discriminate.
Qed.

Lemma scan_nearest_ok : finds_nearest scan_nearest.
Proof.
  intros ps q H. destruct (scan_finds ps q ps (min_exists q ps H)) as (p & E & Hm).
  exists p. split; [exact E|]. intros p' H'. rewrite <- !sq_dist_spec. auto.
Qed.
