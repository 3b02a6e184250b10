(** Proofs about tree construction and iteration. *)
From Coq Require Import List Arith QArith Qabs Lia Bool Permutation Lqa.
Import ListNotations.
From Verif Require Import Box_Model Box_Spec Box_Proofs Tree_Model Tree_Spec.
Local Open Scope nat_scope.

Section Generic.
Variables E L : Type.
Variable quadrants : E -> list E.
Variable quadrant_index : E -> L -> nat.
Variable contains : E -> L -> bool.
Variable K : nat.
Hypothesis K_pos : 0 < K.
Hypothesis quadrants_length : forall e, length (quadrants e) = K.
Hypothesis quadrant_contains : forall e p, contains e p = true ->
  exists q, nth_error (quadrants e) (quadrant_index e p) = Some q /\ contains q p = true.

Local Notation T := (tree E L).
Local Notation ext := (extent_of E L).
Local Notation dat := (data_of E L).
Local Notation upd := (update_data E L).

Lemma tree_ind' : forall P : T -> Prop,
  (forall e d l, P (Leaf e d l)) -> (forall e d ch, Forall P ch -> P (Node e d ch)) -> forall t, P t.
Proof.
  intros P HL HN. fix IH 1. intros [e d l|e d ch]; [apply HL|]. apply HN.
  induction ch as [|c ch IHch]; constructor; auto.
Qed.

Section Insert.
Variable cfg : config.
Local Notation maxd := (max_depth cfg).
Local Notation maxl := (max_per_leaf cfg).
Local Notation ins := (insert E L quadrants quadrant_index cfg).

Inductive wf : nat -> T -> Prop :=
| wf_leaf : forall depth e d l, d = length l -> Forall (fun p => contains e p = true) l ->
    (depth < maxd -> length l <= S maxl) -> wf depth (Leaf e d l)
| wf_node : forall depth e d ch, depth < maxd -> map ext ch = quadrants e ->
    Forall (wf (S depth)) ch -> d = length (flat_map contents ch) ->
    Forall (fun p => contains e p = true) (flat_map contents ch) -> wf depth (Node e d ch).

Definition children_ok (depth : nat) (e : E) (ch : list T) : Prop :=
  map ext ch = quadrants e /\ Forall (wf (S depth)) ch
  /\ Forall (fun p => contains e p = true) (flat_map contents ch).

Lemma update_child_spec : forall (f : T -> option T) depth ch i c p,
  nth_error ch i = Some c -> Forall (wf depth) ch ->
  (exists c', f c = Some c' /\ wf depth c' /\ ext c' = ext c /\ Permutation (contents c') (p :: contents c)) ->
  exists ch', update_child E L f i ch = Some ch' /\ Forall (wf depth) ch'
    /\ map ext ch' = map ext ch /\ Permutation (flat_map contents ch') (p :: flat_map contents ch).
Proof.
  induction ch as [|t r IH]; intros i c p Hn Hw Hf; [destruct i; discriminate|].
  inversion Hw as [|? ? Hw1 Hw2]; subst. destruct i as [|i]; cbn in Hn |- *.
  - injection Hn as ->. destruct Hf as (c' & -> & H1 & H2 & H3).
    exists (c' :: r). split; [reflexivity|]. split; [constructor; auto|].
    split; [cbn; rewrite H2; reflexivity|]. cbn. change (p :: contents c ++ flat_map contents r)
      with ((p :: contents c) ++ flat_map contents r). apply Permutation_app_tail. exact H3.
  - destruct (IH i c p Hn Hw2 Hf) as (r' & -> & H1 & H2 & H3).
    exists (t :: r'). split; [reflexivity|]. split; [constructor; auto|].
    split; [cbn; rewrite H2; reflexivity|]. cbn. rewrite H3. symmetry. apply Permutation_middle.
Qed.

Lemma nth_error_map_ext : forall (ch : list T) i q, nth_error (map ext ch) i = Some q ->
  exists c, nth_error ch i = Some c /\ ext c = q.
Proof.
  induction ch as [|t r IH]; intros [|i] q H; cbn in *; try discriminate.
  - injection H as <-. eauto.
  - apply IH. exact H.
Qed.

Definition insert_ok (fuel depth : nat) : Prop := forall t p,
  wf depth t -> contains (ext t) p = true ->
  exists t', ins fuel depth (upd t) p = Some t' /\ wf depth t' /\ ext t' = ext t
    /\ Permutation (contents t') (p :: contents t).

Lemma insert_child_ok : forall fuel depth e ch p, insert_ok fuel (S depth) ->
  children_ok depth e ch -> contains e p = true ->
  exists ch', update_child E L (fun c => ins fuel (S depth) (upd c) p) (quadrant_index e p) ch = Some ch'
    /\ children_ok depth e ch' /\ Permutation (flat_map contents ch') (p :: flat_map contents ch).
Proof.
  intros fuel depth e ch p IH (H1 & H2 & H3) Hp.
  destruct (quadrant_contains e p Hp) as (q & Hq & Hc). rewrite <- H1 in Hq.
  destruct (nth_error_map_ext _ _ _ Hq) as (c & Hn & Ec).
  destruct (update_child_spec (fun c => ins fuel (S depth) (upd c) p) (S depth) ch (quadrant_index e p) c p Hn H2)
    as (ch' & E1 & E2 & E3 & E4).
  - assert (Hwc : wf (S depth) c) by (eapply Forall_forall in H2; [exact H2|eapply nth_error_In; eauto]).
    apply IH; [exact Hwc|rewrite Ec; exact Hc].
  - exists ch'. split; [exact E1|]. split; [|exact E4].
    split; [rewrite E3; exact H1|]. split; [exact E2|].
    eapply Permutation_Forall; [apply Permutation_sym; exact E4|]. constructor; auto.
Qed.

Lemma fold_children_ok : forall fuel depth e ps ch, insert_ok fuel (S depth) ->
  children_ok depth e ch -> Forall (fun p => contains e p = true) ps ->
  exists ch', fold_option (fun ch q => update_child E L (fun c => ins fuel (S depth) (upd c) q) (quadrant_index e q) ch) ps ch = Some ch'
    /\ children_ok depth e ch' /\ Permutation (flat_map contents ch') (ps ++ flat_map contents ch).
Proof.
  induction ps as [|p r IH]; intros ch HI Hc Hp.
  - exists ch. split; [reflexivity|]. split; [auto|reflexivity].
  - inversion Hp as [|? ? Hp1 Hp2]; subst.
    destruct (insert_child_ok fuel depth e ch p HI Hc Hp1) as (ch1 & E1 & C1 & P1).
    cbn [fold_option]. rewrite E1. destruct (IH ch1 HI C1 Hp2) as (ch2 & E2 & C2 & P2).
    exists ch2. split; [exact E2|]. split; [exact C2|].
    rewrite P2, P1. symmetry. apply Permutation_middle.
Qed.

Lemma empty_contents : forall l, flat_map contents (map (empty_leaf E L) l) = [].
Proof. induction l as [|q l IH]; [reflexivity|]. cbn. exact IH. Qed.

Lemma empty_children_ok : forall depth e, children_ok depth e (map (empty_leaf E L) (quadrants e)).
Proof.
  intros depth e.
  split; [|split].
  - rewrite map_map. apply map_id.
  - apply Forall_forall. intros t Ht. apply in_map_iff in Ht. destruct Ht as (q & <- & _).
    constructor; cbn; auto. lia.
  - rewrite empty_contents. constructor.
Qed.

Lemma children_node : forall depth e ch d, depth < maxd -> children_ok depth e ch ->
  d = length (flat_map contents ch) -> wf depth (Node e d ch).
Proof. intros depth e ch d Hd (H1 & H2 & H3) ->. constructor; auto. Qed.

Lemma insert_ok_all : forall fuel depth, depth <= maxd -> maxd - depth < fuel -> insert_ok fuel depth.
Proof.
  induction fuel as [|fuel IH]; intros depth Hd Hf; [lia|].
  intros t p Hw Hp. destruct Hw as [depth e d l Hdl Hc Hlim|depth e d ch Hdep Hq Hch Hdl Hc].
  - cbn [update_data insert].
    destruct ((depth <? maxd) && (maxl <? length l)) eqn:Hb.
    + apply andb_prop in Hb. destruct Hb as [Hb1 Hb2]. apply Nat.ltb_lt in Hb1. apply Nat.ltb_lt in Hb2.
      assert (HI : insert_ok fuel (S depth)) by (apply IH; lia).
      destruct (fold_children_ok fuel depth e l _ HI (empty_children_ok depth e) Hc) as (ch1 & E1 & C1 & P1).
      rewrite E1.
      destruct (insert_child_ok fuel depth e ch1 p HI C1 Hp) as (ch2 & E2 & C2 & P2).
      rewrite E2. exists (Node e (S d) ch2). split; [reflexivity|].
      assert (P : Permutation (flat_map contents ch2) (p :: l)).
      { rewrite P2, P1, empty_contents, app_nil_r. reflexivity. }
      split; [|split; [reflexivity|exact P]].
      apply children_node; auto. rewrite (Permutation_length P). cbn. lia.
    + exists (Leaf e (S d) (l ++ [p])). split; [reflexivity|].
      split; [|split; [reflexivity|cbn; symmetry; apply Permutation_cons_append]].
      constructor.
      * rewrite app_length. cbn. lia.
      * apply Forall_app. split; [exact Hc|constructor; auto].
      * intro Hlt. apply Nat.ltb_lt in Hlt. rewrite Hlt in Hb. cbn in Hb. apply Nat.ltb_ge in Hb.
        rewrite app_length. cbn. lia.
  - cbn [update_data insert]. 
    assert (HI : insert_ok fuel (S depth)) by (apply IH; lia).
    destruct (insert_child_ok fuel depth e ch p HI (conj Hq (conj Hch Hc)) Hp) as (ch2 & E2 & C2 & P2).
    rewrite E2. exists (Node e (S d) ch2). split; [reflexivity|].
    split; [|split; [reflexivity|exact P2]].
    apply children_node; auto. rewrite (Permutation_length P2). cbn. lia.
Qed.

Lemma build_ok : forall fuel e ps, maxd < fuel -> Forall (fun p => contains e p = true) ps ->
  exists t, build E L quadrants quadrant_index cfg fuel ps e = Some t /\ wf 0 t /\ ext t = e
    /\ Permutation (contents t) ps.
Proof.
  intros fuel e ps Hf. unfold build.
  assert (G : forall ps t0, wf 0 t0 -> ext t0 = e -> Forall (fun p => contains e p = true) ps ->
    exists t, fold_option (insert_new E L quadrants quadrant_index cfg fuel 0) ps t0 = Some t
      /\ wf 0 t /\ ext t = e /\ Permutation (contents t) (ps ++ contents t0)).
  { clear ps. induction ps as [|p r IH]; intros t0 Hw He Hp.
    - exists t0. auto.
    - inversion Hp as [|? ? Hp1 Hp2]; subst.
      destruct (insert_ok_all fuel 0 ltac:(lia) ltac:(lia) t0 p Hw Hp1) as (t1 & E1 & W1 & X1 & P1).
      cbn [fold_option]. unfold insert_new at 1. rewrite E1.
      destruct (IH t1 W1 X1 Hp2) as (t2 & E2 & W2 & X2 & P2).
      exists t2. split; [exact E2|]. split; [exact W2|]. split; [exact X2|].
      rewrite P2, P1. symmetry. apply Permutation_middle. }
  intro Hp. destruct (G ps (empty_leaf E L e)) as (t & H1 & H2 & H3 & H4); auto.
  - constructor; cbn; auto. lia.
  - exists t. cbn in H4. rewrite app_nil_r in H4. auto.
Qed.

(** * Consequences of the invariant *)
Lemma wf_data : forall depth t, wf depth t -> dat t = length (contents t).
Proof. intros depth t H. destruct H; cbn; auto. Qed.
Lemma wf_extent : forall depth t p, wf depth t -> In p (contents t) -> contains (ext t) p = true.
Proof.
  intros depth t p H Hp. destruct H as [? e d l _ H _|? e d ch _ _ _ _ H]; cbn in *;
    rewrite Forall_forall in H; auto.
Qed.
Lemma wf_subtree : forall t d s, subtree t d s -> forall depth, wf depth t -> wf (depth + d) s.
Proof.
  intros t d s H. induction H as [t|e data ch c d s Hc H IH]; intros depth Hw.
  - rewrite Nat.add_0_r. exact Hw.
  - inversion Hw as [|? ? ? ? ? ? Hch]; subst. rewrite Forall_forall in Hch.
    replace (depth + S d) with (S depth + d) by lia. apply IH. auto.
Qed.
Lemma wf_depth : forall t d s, subtree t d s -> forall depth, wf depth t -> depth <= maxd -> depth + d <= maxd.
Proof.
  intros t d s H. induction H as [t|e data ch c d s Hc H IH]; intros depth Hw Hd; [lia|].
  inversion Hw as [|? ? ? ? Hlt ? Hch]; subst. rewrite Forall_forall in Hch.
  specialize (IH (S depth) (Hch c Hc) ltac:(lia)). lia.
Qed.

Lemma build_right : forall fuel e ps, maxd < fuel -> Forall (fun p => contains e p = true) ps ->
  exists t, build E L quadrants quadrant_index cfg fuel ps e = Some t
    /\ Permutation (contents t) ps /\ counts_right t /\ extents_right contains t
    /\ depth_limited maxd t /\ leaves_limited maxd (S maxl) t.
Proof.
  intros fuel e ps Hf Hp. destruct (build_ok fuel e ps Hf Hp) as (t & H1 & H2 & H3 & H4).
  exists t. split; [exact H1|]. split; [exact H4|]. split; [|split; [|split]].
  - intros d s Hs. eapply wf_data. eapply wf_subtree; eauto.
  - intros d s p Hs. eapply wf_extent. eapply wf_subtree; eauto.
  - intros d s Hs. apply (wf_depth t d s Hs 0 H2). lia.
  - intros d e0 data l Hs Hd. pose proof (wf_subtree _ _ _ Hs 0 H2) as W. inversion W; subst. auto.
Qed.

(** Every inner node has [K] children. *)
Inductive full : T -> Prop :=
| full_leaf : forall e d l, full (Leaf e d l)
| full_node : forall e d ch, length ch = K -> Forall full ch -> full (Node e d ch).
Lemma wf_full : forall t depth, wf depth t -> full t.
Proof.
  induction t as [e d l|e d ch IH] using tree_ind'; intros depth Hw; constructor.
  - inversion Hw as [|? ? ? ? ? Hq]; subst. rewrite <- (quadrants_length e), <- Hq, map_length. reflexivity.
  - inversion Hw as [|? ? ? ? ? ? Hch]; subst. rewrite Forall_forall in *. eauto.
Qed.
End Insert.

(** * Iteration *)
Section Iterate.
Variable visit : T -> bool.
Variable include : L -> bool.
Local Notation it := (iterate E L visit include K).

Fixpoint found (t : T) : list L :=
  if visit t then
    match t with
    | Leaf _ _ l => filter include l
    | Node _ _ ch => flat_map found ch
    end
  else [].

Definition resume (fuel : nat) (o : outcome E L) : option (list L) :=
  match o with
  | Finished _ _ => Some []
  | Yield _ _ l s => match it fuel s with Some r => Some (l :: r) | None => None end
  | Continue _ _ s => it fuel s
  | Panicked _ _ => None
  end.
Definition prepend (l : list L) (o : option (list L)) : option (list L) := option_map (app l) o.

Lemma iterate_S : forall f s, it (S f) s = resume f (iter_step E L visit include K s).
Proof. intros. cbn. destruct (iter_step _ _ _ _ _ s); reflexivity. Qed.

Lemma prepend_app : forall a b o, prepend a (prepend b o) = prepend (a ++ b) o.
Proof. intros a b [r|]; cbn; [rewrite app_assoc|]; reflexivity. Qed.
Lemma prepend_nil : forall o, prepend [] o = o.
Proof. intros [r|]; reflexivity. Qed.

Lemma leaf_run : forall e d l pos rest k f, k <= length l ->
  it (S (length l - k) + f) ((Leaf e d l, pos, true) :: rest, k)
  = prepend (filter include (skipn k l)) (resume f (leave_node E L visit K pos rest 0)).
Proof.
  intros e d l pos rest k f Hk. remember (length l - k) as m. revert k Hk Heqm.
  induction m as [|m IH]; intros k Hk Hm.
  - cbn [Nat.add]. rewrite iterate_S. cbn [iter_step].
    assert (Hn : nth_error l k = None) by (apply nth_error_None; lia). rewrite Hn.
    rewrite skipn_all2 by lia. cbn [filter]. rewrite prepend_nil. reflexivity.
  - cbn [Nat.add]. rewrite iterate_S. cbn [iter_step].
    destruct (nth_error l k) as [x|] eqn:Hn; [|apply nth_error_None in Hn; lia].
    assert (Hs : skipn k l = x :: skipn (S k) l).
    { clear - Hn. revert l Hn. induction k as [|k IH]; intros [|y l] Hn; try discriminate.
      - cbn in *. congruence.
      - cbn in Hn. apply IH in Hn. exact Hn. }
    rewrite Hs. cbn [filter]. specialize (IH (S k) ltac:(lia) ltac:(lia)). cbn [Nat.add] in IH.
    destruct (include x); cbn [resume]; rewrite IH; [|reflexivity].
    destruct (resume f _); reflexivity.
Qed.

Lemma tree_run : forall t, full t -> forall pos rest, exists n, forall f,
  it (n + f) (new_item E L visit t pos :: rest, 0)
  = prepend (found t) (resume f (leave_node E L visit K pos rest 0)).
Proof.
  induction t as [e d l|e d ch IH] using tree_ind'; intros Hf pos rest.
  - unfold new_item. cbn [found]. destruct (visit (Leaf e d l)) eqn:Hv.
    + exists (S (length l)). intro f. pose proof (leaf_run e d l pos rest 0 f ltac:(lia)) as R.
      rewrite Nat.sub_0_r in R. exact R.
    + exists 1. intro f. cbn [Nat.add]. rewrite iterate_S, prepend_nil. reflexivity.
  - inversion Hf as [|? ? ? Hlen Hfull]; subst. unfold new_item. cbn [found].
    destruct (visit (Node e d ch)) eqn:Hv.
    2: { exists 1. intro f. cbn [Nat.add]. rewrite iterate_S, prepend_nil. reflexivity. }
    set (t := Node e d ch) in *.
    (* all children from the i-th on *)
    assert (HC : forall suffix i c, nth_error ch i = Some c -> suffix = skipn i ch -> exists n, forall f,
      it (n + f) (new_item E L visit c i :: (t, pos, false) :: rest, 0)
      = prepend (flat_map found suffix) (resume f (leave_node E L visit K pos rest 0))).
    { induction suffix as [|c0 suffix IHs]; intros i c Hn Hs.
      - exfalso. assert (length (skipn i ch) = 0) by (rewrite <- Hs; reflexivity).
        rewrite skipn_length in H. assert (i < length ch) by (apply nth_error_Some; congruence). lia.
      - assert (Hc0 : c0 = c /\ suffix = skipn (S i) ch).
        { clear - Hn Hs. revert i Hn Hs. induction ch as [|y l IHl]; intros [|i] Hn Hs; try discriminate.
          - cbn in *. inversion Hs; subst. split; congruence.
          - cbn in Hn, Hs. destruct (IHl i Hn Hs) as [A B]. split; [exact A|]. exact B. }
        destruct Hc0 as [-> Hs']. assert (Hin : In c ch) by (eapply nth_error_In; eauto).
        rewrite Forall_forall in IH, Hfull.
        destruct (IH c Hin (Hfull c Hin) i ((t, pos, false) :: rest)) as (n1 & R1).
        destruct (nth_error ch (S i)) as [c1|] eqn:Hn1.
        + destruct (IHs (S i) c1 Hn1 Hs') as (n2 & R2). exists (n1 + n2). intro f.
          rewrite <- Nat.add_assoc, R1. cbn [leave_node].
          assert (Hlt : S i < length ch) by (apply nth_error_Some; congruence).
          rewrite Hlen in Hlt. apply Nat.ltb_lt in Hlt. rewrite Hlt. unfold t at 1. rewrite Hn1.
          cbn [resume]. rewrite R2, prepend_app. reflexivity.
        + exists (n1 + 1). intro f. rewrite <- Nat.add_assoc, R1. cbn [leave_node].
          assert (Hge : length ch <= S i) by (apply nth_error_None; exact Hn1).
          rewrite Hlen in Hge. apply Nat.ltb_ge in Hge. rewrite Hge. cbn [resume Nat.add].
          rewrite iterate_S. cbn [iter_step goto_next_node]. 
          assert (suffix = []) as ->. { rewrite Hs'. apply skipn_all2. apply nth_error_None; exact Hn1. }
          cbn [flat_map]. rewrite app_nil_r. unfold t. cbn [iter_step goto_next_node].
          reflexivity. }
    destruct ch as [|c0 ch0]; [cbn in Hlen; lia|].
    destruct (HC (c0 :: ch0) 0 c0 eq_refl eq_refl) as (n & R).
    exists (S n). intro f. cbn [Nat.add]. rewrite iterate_S. unfold t at 1.
    cbn [iter_step goto_next_node nth_error resume]. fold t. rewrite R. reflexivity.
Qed.

Lemma iterate_found : forall t, full t -> exists n, forall fuel, n <= fuel ->
  it fuel (iter_start E L visit t) = Some (found t).
Proof.
  intros t Hf. destruct (tree_run t Hf 0 []) as (n & R). exists n. intros fuel Hn.
  replace fuel with (n + (fuel - n)) by lia. unfold iter_start. rewrite R. cbn [leave_node resume prepend option_map].
  rewrite app_nil_r. reflexivity.
Qed.

Lemma found_filter : forall t,
  (forall d s p, subtree t d s -> visit s = false -> In p (contents s) -> include p = false) ->
  found t = filter include (contents t).
Proof.
  induction t as [e d l|e d ch IH] using tree_ind'; intros H.
  - cbn [found contents]. destruct (visit (Leaf e d l)) eqn:Hv; [reflexivity|].
    assert (Hp : forall p, In p l -> include p = false) by (intros p Hp; apply (H 0 (Leaf e d l)); auto; constructor).
    clear - Hp. induction l as [|x l IHl]; [reflexivity|]. cbn. rewrite Hp by (left; auto). apply IHl. intros; apply Hp; right; auto.
  - cbn [found contents]. destruct (visit (Node e d ch)) eqn:Hv.
    + assert (Hch : forall c, In c ch -> found c = filter include (contents c)).
      { intros c Hc. rewrite Forall_forall in IH. apply (IH c Hc). intros d0 s p Hs. apply (H (S d0)).
        econstructor; eauto. }
      clear - Hch. induction ch as [|c ch IHch]; [reflexivity|]. cbn [flat_map].
      rewrite Hch by (left; auto). rewrite IHch by (intros; apply Hch; right; auto).
      symmetry. apply filter_app.
    + assert (Hp : forall p, In p (contents (Node e d ch)) -> include p = false)
        by (intros p Hp; apply (H 0 (Node e d ch)); auto; constructor).
      cbn [contents] in Hp. revert Hp. generalize (flat_map contents ch). intros l Hp.
      induction l as [|x l IHl]; [reflexivity|]. cbn. rewrite Hp by (left; auto). apply IHl. intros; apply Hp; right; auto.
Qed.
End Iterate.

(** Construction and complete iteration. *)
Lemma build_iterate : forall cfg fuel e ps, max_depth cfg < fuel -> Forall (fun p => contains e p = true) ps ->
  exists t n, build E L quadrants quadrant_index cfg fuel ps e = Some t
    /\ Permutation (contents t) ps /\ counts_right t /\ extents_right contains t
    /\ depth_limited (max_depth cfg) t /\ leaves_limited (max_depth cfg) (S (max_per_leaf cfg)) t
    /\ forall f, n <= f -> exists r, iter_all_particles K f t = Some r /\ Permutation r ps.
Proof.
  intros cfg fuel e ps Hf Hp. destruct (build_ok cfg fuel e ps Hf Hp) as (t & B & W & _ & _).
  destruct (build_right cfg fuel e ps Hf Hp) as (t' & B' & R). rewrite B in B'. injection B' as <-.
  destruct (iterate_found visit_all include_all t (wf_full cfg t 0 W)) as (n & I).
  exists t, n. split; [exact B|]. destruct R as (P & R). split; [exact P|].
  destruct R as (R1 & R2 & R3 & R4). repeat (split; [assumption|]).
  intros f Hn. exists (found visit_all include_all t). split; [apply I; exact Hn|].
  rewrite found_filter; [|intros; discriminate].
  replace (filter include_all (contents t)) with (contents t); [exact P|].
  clear. induction (contents t) as [|x l IH]; [reflexivity|]. cbn. congruence.
Qed.

(** A search with a criterion that prunes soundly. *)
Lemma build_search : forall cfg fuel e ps visit include,
  max_depth cfg < fuel -> Forall (fun p => contains e p = true) ps ->
  (forall s p, visit s = false -> contains (ext s) p = true -> include p = false) ->
  exists t n, build E L quadrants quadrant_index cfg fuel ps e = Some t
    /\ forall f, n <= f -> exists r, iterate E L visit include K f (iter_start E L visit t) = Some r
                                     /\ Permutation r (filter include ps).
Proof.
  intros cfg fuel e ps visit include Hf Hp Hv. destruct (build_ok cfg fuel e ps Hf Hp) as (t & B & W & _ & P).
  destruct (iterate_found visit include t (wf_full cfg t 0 W)) as (n & I).
  exists t, n. split; [exact B|]. intros f Hn. exists (found visit include t). split; [apply I; exact Hn|].
  rewrite found_filter.
  - clear - P. induction P; cbn; auto.
    + destruct (include x); auto.
    + destruct (include x), (include y); auto. apply perm_swap.
    + etransitivity; eauto.
  - intros d s p Hs Hvis Hin. apply (Hv s p Hvis). eapply wf_extent; [|exact Hin]. eapply wf_subtree; eauto.
Qed.
End Generic.

(** * Quadrants *)
Ltac split_bools :=
  repeat match goal with
  | H : (_ && _)%bool = true |- _ => apply andb_prop in H; destruct H
  | H : Qle_bool _ _ = true |- _ => apply Qle_bool_iff in H
  end.

Lemma quadrant_contains3 : forall e (p : vec3), contains3 e p = true ->
  exists q, nth_error (quadrants3 e) (quadrant_index3 e p) = Some q /\ contains3 q p = true.
Proof.
  intros e p H. unfold contains3 in H. split_bools. unfold quadrant_index3.
  destruct (Qltb (x3 p) (x3 (center3 e))) eqn:Ex; destruct (Qltb (y3 p) (y3 (center3 e))) eqn:Ey;
    destruct (Qltb (z3 p) (z3 (center3 e))) eqn:Ez; qltb;
    (eexists; split; [reflexivity|]); unfold contains3; cbn [min3 max3 x3 y3 z3];
    rewrite !andb_true_iff, !Qle_bool_iff; repeat split; lra.
Qed.
Lemma quadrant_contains2 : forall e (p : vec2), contains2 e p = true ->
  exists q, nth_error (quadrants2 e) (quadrant_index2 e p) = Some q /\ contains2 q p = true.
Proof.
  intros e p H. unfold contains2 in H. split_bools. unfold quadrant_index2.
  destruct (Qltb (x2 p) (x2 (center2 e))) eqn:Ex; destruct (Qltb (y2 p) (y2 (center2 e))) eqn:Ey; qltb;
    (eexists; split; [reflexivity|]); unfold contains2; cbn [min2 max2 x2 y2];
    rewrite !andb_true_iff, !Qle_bool_iff; repeat split; lra.
Qed.

(** * Pruning *)
(** One axis: a point in an interval of centre [c] and length [s] that is within
    [r] of [q] makes the interval pass the test. *)
Lemma axis_prune : forall len mn mx p q r, (0 < len)%Q -> (mn <= p)%Q -> (p <= mx)%Q ->
  (Qabs (minimize_component (q - p) len) <= r)%Q ->
  (Qabs (minimize_component ((mn + mx) / 2 - q) len) <= (mx - mn) + r)%Q.
Proof.
  intros len mn mx p q r Hl H1 H2 H.
  rewrite <- (minimize_sym (q - p) len Hl) in H.
  eapply Qle_trans; [apply (minimize_lipschitz _ (- (q - p)) len Hl)|].
  assert (Ha : (Qabs ((mn + mx) / 2 - q - - (q - p)) <= mx - mn)%Q).
  { rewrite half. apply Qabs_case; intro; lra. }
  lra.
Qed.

Lemma abs_below : forall x y r : Q, (0 < r)%Q -> (0 <= y)%Q -> (x * x + y < r * r)%Q -> (Qabs x <= r)%Q.
Proof.
  intros x y r Hr Hy H. apply Qnot_lt_le. intro C.
  assert (r * r < Qabs x * Qabs x)%Q by nra. rewrite <- sq_abs in H0. lra.
Qed.

Lemma prune3 : forall b e p pos r, proper3 b -> contains3 e p = true -> within3 b pos p r = true ->
  overlap3 b (center3 e) (sides3 e) pos (V3 r r r) = true.
Proof.
  intros b e p pos r (Bx & By & Bz) Hc Hw. unfold contains3 in Hc. split_bools.
  unfold within3 in Hw. apply andb_prop in Hw. destruct Hw as [Hr Hw]. qltb.
  unfold length_sq3, periodic_distance_vec3 in Hw. cbn [x3 y3 z3] in Hw.
  set (dx := minimize_component (x3 pos - x3 p) (x3 (sides3 b))) in *.
  set (dy := minimize_component (y3 pos - y3 p) (y3 (sides3 b))) in *.
  set (dz := minimize_component (z3 pos - z3 p) (z3 (sides3 b))) in *.
  pose proof (sq_abs dx). pose proof (sq_abs dy). pose proof (sq_abs dz).
  pose proof (Qabs_nonneg dx). pose proof (Qabs_nonneg dy). pose proof (Qabs_nonneg dz).
  assert (0 <= dx * dx)%Q by nra. assert (0 <= dy * dy)%Q by nra. assert (0 <= dz * dz)%Q by nra.
  unfold overlap3, Qabs_le. cbn [x3 y3 z3]. rewrite !andb_true_iff, !Qle_bool_iff.
  unfold periodic_distance_vec3, center3, sides3. cbn [x3 y3 z3]. split; [split|].
  - apply (axis_prune _ _ _ (x3 p)); auto; [lra|]. apply (abs_below dx (dy * dy + dz * dz)); auto; lra.
  - apply (axis_prune _ _ _ (y3 p)); auto; [lra|]. apply (abs_below dy (dx * dx + dz * dz)); auto; lra.
  - apply (axis_prune _ _ _ (z3 p)); auto; [lra|]. apply (abs_below dz (dx * dx + dy * dy)); auto; lra.
Qed.

Lemma prune2 : forall b e p pos r, proper2 b -> contains2 e p = true -> within2 b pos p r = true ->
  overlap2 b (center2 e) (sides2 e) pos (V2 r r) = true.
Proof.
  intros b e p pos r (Bx & By) Hc Hw. unfold contains2 in Hc. split_bools.
  unfold within2 in Hw. apply andb_prop in Hw. destruct Hw as [Hr Hw]. qltb.
  unfold length_sq2, periodic_distance_vec2 in Hw. cbn [x2 y2] in Hw.
  set (dx := minimize_component (x2 pos - x2 p) (x2 (sides2 b))) in *.
  set (dy := minimize_component (y2 pos - y2 p) (y2 (sides2 b))) in *.
  pose proof (sq_abs dx). pose proof (sq_abs dy).
  pose proof (Qabs_nonneg dx). pose proof (Qabs_nonneg dy).
  assert (0 <= dx * dx)%Q by nra. assert (0 <= dy * dy)%Q by nra.
  unfold overlap2, Qabs_le. cbn [x2 y2]. rewrite !andb_true_iff, !Qle_bool_iff.
  unfold periodic_distance_vec2, center2, sides2. cbn [x2 y2]. split.
  - apply (axis_prune _ _ _ (x2 p)); auto; [lra|]. apply (abs_below dx (dy * dy)); auto; lra.
  - apply (axis_prune _ _ _ (y2 p)); auto; [lra|]. apply (abs_below dy (dx * dx)); auto; lra.
Qed.

(** * The trees of the code *)
Definition c3 (e : extent3) (p : nat * vec3) : bool := contains3 e (snd p).
Definition c2 (e : extent2) (p : nat * vec2) : bool := contains2 e (snd p).

Lemma tree3 : forall cfg fuel e ps, max_depth cfg < fuel -> Forall (fun p => contains3 e (snd p) = true) ps ->
  exists t n, build3 cfg fuel ps e = Some t
    /\ Permutation (contents t) ps /\ counts_right t /\ extents_right c3 t
    /\ depth_limited (max_depth cfg) t /\ leaves_limited (max_depth cfg) (S (max_per_leaf cfg)) t
    /\ forall f, n <= f -> exists r, iter_all_particles 8 f t = Some r /\ Permutation r ps.
Proof.
  intros. apply (build_iterate extent3 (nat * vec3) quadrants3 (fun e p => quadrant_index3 e (snd p)) c3 8); auto with arith.
  - intros e0 p Hp. apply quadrant_contains3. exact Hp.
Qed.
Lemma tree2 : forall cfg fuel e ps, max_depth cfg < fuel -> Forall (fun p => contains2 e (snd p) = true) ps ->
  exists t n, build2 cfg fuel ps e = Some t
    /\ Permutation (contents t) ps /\ counts_right t /\ extents_right c2 t
    /\ depth_limited (max_depth cfg) t /\ leaves_limited (max_depth cfg) (S (max_per_leaf cfg)) t
    /\ forall f, n <= f -> exists r, iter_all_particles 4 f t = Some r /\ Permutation r ps.
Proof.
  intros. apply (build_iterate extent2 (nat * vec2) quadrants2 (fun e p => quadrant_index2 e (snd p)) c2 4); auto with arith.
  - intros e0 p Hp. apply quadrant_contains2. exact Hp.
Qed.

Lemma search3_code : forall cfg fuel e ps b pos radius, proper3 b ->
  max_depth cfg < fuel -> Forall (fun p => contains3 e (snd p) = true) ps ->
  exists t n, build3 cfg fuel ps e = Some t
    /\ forall f, n <= f -> exists r, search3 b pos radius f t = Some r
         /\ Permutation r (filter (fun p => within3 b pos (snd p) radius) ps).
Proof.
  intros cfg fuel e ps b pos radius Hb Hf Hp.
  apply (build_search extent3 (nat * vec3) quadrants3 (fun e p => quadrant_index3 e (snd p)) c3 8); auto with arith.
  - intros e0 p Hp0. apply quadrant_contains3. exact Hp0.
  - intros s p Hv Hc. destruct (within3 b pos (snd p) radius) eqn:Hw; auto.
    rewrite (prune3 b _ (snd p) pos radius Hb Hc Hw) in Hv. discriminate.
Qed.
Lemma search2_code : forall cfg fuel e ps b pos radius, proper2 b ->
  max_depth cfg < fuel -> Forall (fun p => contains2 e (snd p) = true) ps ->
  exists t n, build2 cfg fuel ps e = Some t
    /\ forall f, n <= f -> exists r, search2 b pos radius f t = Some r
         /\ Permutation r (filter (fun p => within2 b pos (snd p) radius) ps).
Proof.
  intros cfg fuel e ps b pos radius Hb Hf Hp.
  apply (build_search extent2 (nat * vec2) quadrants2 (fun e p => quadrant_index2 e (snd p)) c2 4); auto with arith.
  - intros e0 p Hp0. apply quadrant_contains2. exact Hp0.
  - intros s p Hv Hc. destruct (within2 b pos (snd p) radius) eqn:Hw; auto.
    rewrite (prune2 b _ (snd p) pos radius Hb Hc Hw) in Hv. discriminate.
Qed.

(** * The search in terms of images *)
Local Open Scope Q_scope.
Lemma within3_near : forall b pos p r, proper3 b -> within3 b pos p r = true <-> near3 b pos r p.
Proof.
  intros b pos p r Hb. unfold within3, near3. rewrite andb_true_iff, !Qltb_true.
  rewrite (pdist3_sym b Hb pos p). split.
  - intros [Hr H]. split; [exact Hr|].
    destruct (pdist3_image b p pos) as (kx & ky & kz & A & B & C & D).
    exists kx, ky, kz. rewrite <- D. auto.
  - intros [Hr (kx & ky & kz & A & B & C & D)]. split; [exact Hr|].
    eapply Qle_lt_trans; [apply (pdist3_best_unit b Hb p pos kx ky kz); auto|exact D].
Qed.
Lemma within2_near : forall b pos p r, proper2 b -> within2 b pos p r = true <-> near2 b pos r p.
Proof.
  intros b pos p r Hb. unfold within2, near2. rewrite andb_true_iff, !Qltb_true.
  rewrite (pdist2_sym b Hb pos p). split.
  - intros [Hr H]. split; [exact Hr|].
    destruct (pdist2_image b p pos) as (kx & ky & A & B & D).
    exists kx, ky. rewrite <- D. auto.
  - intros [Hr (kx & ky & A & B & D)]. split; [exact Hr|].
    eapply Qle_lt_trans; [apply (pdist2_best_unit b Hb p pos kx ky); auto|exact D].
Qed.

Lemma near_diff : forall mn mx p q, mn <= p -> p <= mx -> near_box1 mn mx q ->
  - (3 # 2) * (mx - mn) <= p - q <= (3 # 2) * (mx - mn).
Proof. intros mn mx p q H1 H2 [H3 H4]. rewrite half in *. lra. Qed.

Lemma near3_all : forall b pos p r, proper3 b -> near_box3 b pos -> contains3 b p = true ->
  near3 b pos r p <-> near3_any b pos r p.
Proof.
  intros b pos p r Hb (N1 & N2 & N3) Hc. unfold contains3 in Hc. split_bools. split.
  - intros [Hr (kx & ky & kz & _ & _ & _ & D)]. split; eauto.
  - intros [Hr (kx & ky & kz & D)]. split; [exact Hr|].
    destruct (pdist3_image b p pos) as (jx & jy & jz & A & B & C & F).
    exists jx, jy, jz. repeat (split; [assumption|]). rewrite <- F.
    eapply Qle_lt_trans; [apply (pdist3_best b Hb p pos kx ky kz); apply near_diff; auto|exact D].
Qed.
Lemma near2_all : forall b pos p r, proper2 b -> near_box2 b pos -> contains2 b p = true ->
  near2 b pos r p <-> near2_any b pos r p.
Proof.
  intros b pos p r Hb (N1 & N2) Hc. unfold contains2 in Hc. split_bools. split.
  - intros [Hr (kx & ky & _ & _ & D)]. split; eauto.
  - intros [Hr (kx & ky & D)]. split; [exact Hr|].
    destruct (pdist2_image b p pos) as (jx & jy & A & B & F).
    exists jx, jy. repeat (split; [assumption|]). rewrite <- F.
    eapply Qle_lt_trans; [apply (pdist2_best b Hb p pos kx ky); apply near_diff; auto|exact D].
Qed.

Lemma filter_selection : forall (A : Type) (f : A -> bool) (P : A -> Prop) l r,
  (forall x, f x = true <-> P x) -> Permutation r (filter f l) -> selection P l r.
Proof.
  intros A f P l r Hf Hp. exists (filter (fun x => negb (f x)) l). split; [|split].
  - rewrite Hp. clear. induction l as [|x l IH]; [reflexivity|]. cbn [filter].
    destruct (f x); cbn [negb app]; [constructor; exact IH|].
    rewrite <- Permutation_middle. constructor. exact IH.
  - eapply Permutation_Forall; [apply Permutation_sym; exact Hp|]. apply Forall_forall.
    intros x Hx. apply filter_In in Hx. apply Hf. tauto.
  - apply Forall_forall. intros x Hx. apply filter_In in Hx. destruct Hx as [_ Hx].
    intro C. apply Hf in C. rewrite C in Hx. discriminate.
Qed.
Lemma selection_ext : forall (A : Type) (P R : A -> Prop) l r, (forall x, In x l -> P x <-> R x) ->
  selection P l r -> selection R l r.
Proof.
  intros A P R l r H (rest & H1 & H2 & H3). exists rest. split; [exact H1|].
  rewrite !Forall_forall in *.
  assert (Hin : forall x, In x (r ++ rest) -> P x <-> R x).
  { intros x Hx. apply H. eapply Permutation_in; [apply Permutation_sym; exact H1|exact Hx]. }
  split; intros x Hx; [apply Hin|rewrite <- Hin]; auto using in_or_app.
Qed.

Lemma search3_selects : forall cfg fuel b ps pos radius, proper3 b ->
  (max_depth cfg < fuel)%nat -> Forall (fun p => contains3 b (snd p) = true) ps ->
  exists t n, build3 cfg fuel ps b = Some t
    /\ forall f, (n <= f)%nat -> exists r, search3 b pos radius f t = Some r
         /\ selection (fun p => near3 b pos radius (snd p)) ps r
         /\ (near_box3 b pos -> selection (fun p => near3_any b pos radius (snd p)) ps r).
Proof.
  intros cfg fuel b ps pos radius Hb Hf Hp.
  destruct (search3_code cfg fuel b ps b pos radius Hb Hf Hp) as (t & n & H1 & H2).
  exists t, n. split; [exact H1|]. intros f Hn. destruct (H2 f Hn) as (r & H3 & H4).
  exists r. split; [exact H3|].
  assert (S : selection (fun p => near3 b pos radius (snd p)) ps r)
    by (eapply filter_selection; [|exact H4]; intro; apply within3_near; exact Hb).
  split; [exact S|]. intro Hnb. eapply selection_ext; [|exact S].
  intros x Hx. rewrite Forall_forall in Hp. exact (near3_all b pos (snd x) radius Hb Hnb (Hp x Hx)).
Qed.
Lemma search2_selects : forall cfg fuel b ps pos radius, proper2 b ->
  (max_depth cfg < fuel)%nat -> Forall (fun p => contains2 b (snd p) = true) ps ->
  exists t n, build2 cfg fuel ps b = Some t
    /\ forall f, (n <= f)%nat -> exists r, search2 b pos radius f t = Some r
         /\ selection (fun p => near2 b pos radius (snd p)) ps r
         /\ (near_box2 b pos -> selection (fun p => near2_any b pos radius (snd p)) ps r).
Proof.
  intros cfg fuel b ps pos radius Hb Hf Hp.
  destruct (search2_code cfg fuel b ps b pos radius Hb Hf Hp) as (t & n & H1 & H2).
  exists t, n. split; [exact H1|]. intros f Hn. destruct (H2 f Hn) as (r & H3 & H4).
  exists r. split; [exact H3|].
  assert (S : selection (fun p => near2 b pos radius (snd p)) ps r)
    by (eapply filter_selection; [|exact H4]; intro; apply within2_near; exact Hb).
  split; [exact S|]. intro Hnb. eapply selection_ext; [|exact S].
  intros x Hx. rewrite Forall_forall in Hp. exact (near2_all b pos (snd x) radius Hb Hnb (Hp x Hx)).
Qed.
