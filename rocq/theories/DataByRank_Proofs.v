(** The vector of optional values refines the map specification. *)
From Coq Require Import List Arith Lia Sorted.
Import ListNotations.
From Verif Require Import DataByRank_Model DataByRank_Spec.

Section Refine.
Context {A : Type}.
Implicit Types v w : dbr A.

(** Running one client operation on the container; [OpCollect] replaces the
    container by a collected one, [OpIntoIter] consumes it. *)
Definition exec (v : dbr A) (o : op A) : option (obs A * dbr A) :=
  match o with
  | OpInsert r x => match dinsert v r x with Some w => Some (Done, w) | None => None end
  | OpGet r => match dget v r with Some y => Some (Value y, v) | None => None end
  | OpIndex r => match dindex v r with Some y => Some (Value (Some y), v) | None => None end
  | OpModify r f => match dmodify v r f with Some w => Some (Done, w) | None => None end
  | OpRemove r => match dremove v r with Some (y, w) => Some (Value y, w) | None => None end
  | OpIter => Some (Items (diter v), v)
  | OpDrain => Some (Items (fst (ddrain v)), snd (ddrain v))
  | OpCollect l => match dfrom_iter l with Some w => Some (Done, w) | None => None end
  | OpIntoIter => match dinto_iter v with Some l => Some (Items l, []) | None => None end
  end.

Fixpoint run (v : dbr A) (ops : list (op A)) : list (obs A) :=
  match ops with
  | [] => []
  | o :: ops' => match exec v o with Some (w, v') => w :: run v' ops' | None => [Panic] end
  end.

Definition contents (v : dbr A) : rmap A :=
  fun r => match nth_error v r with Some o => o | None => None end.

Lemma set_slot_some v r x : r < length v -> exists w, set_slot v r x = Some w
  /\ length w = length v
  /\ forall q, nth_error w q = if q =? r then Some x else nth_error v q.
Proof.
  revert r; induction v as [|y v IH]; intros r Hr; cbn [length] in Hr; [lia|].
  destruct r as [|r]; cbn [set_slot].
  - eexists; split; [reflexivity|split; [reflexivity|]]. intros [|q]; reflexivity.
  - destruct (IH r) as (w & E & El & En); [lia|]. rewrite E.
    eexists; split; [reflexivity|split; [cbn; now rewrite El|]].
    intros [|q]; cbn; [reflexivity|apply En].
Qed.

Lemma set_slot_none v r x : length v <= r -> set_slot v r x = None.
Proof.
  revert r; induction v as [|y v IH]; intros r Hr; [reflexivity|].
  destruct r as [|r]; cbn in *; [lia|]. now rewrite IH by lia.
Qed.

Lemma nth_error_repeat_none n q :
  match nth_error (repeat (@None A) n) q with Some o => o | None => None end = None.
Proof.
  revert q; induction n as [|n IH]; intros [|q]; cbn; try reflexivity. apply IH.
Qed.

Lemma dextend_contents v n q : contents (dextend v n) q = contents v q.
Proof.
  unfold contents, dextend. destruct (Nat.lt_ge_cases q (length v)) as [H|H].
  - now rewrite nth_error_app1 by assumption.
  - rewrite nth_error_app2 by assumption.
    rewrite nth_error_repeat_none.
    destruct (nth_error v q) eqn:E; [|reflexivity].
    assert (q < length v) by (apply nth_error_Some; congruence). lia.
Qed.

Lemma dinsert_spec v r x : exists w, dinsert v r x = Some w
  /\ length w = Nat.max (length v) (S r)
  /\ forall q, contents w q = if q =? r then Some x else contents v q.
Proof.
  unfold dinsert. destruct (Nat.leb_spec (length v) r) as [H|H].
  - assert (Hl : length (dextend v (r - length v + 1)) = S r).
    { unfold dextend. rewrite app_length, repeat_length. lia. }
    destruct (set_slot_some (dextend v (r - length v + 1)) r (Some x)) as (w & E & El & En);
      [lia|].
    exists w; split; [exact E|split; [lia|]]. intro q.
    unfold contents at 1. rewrite En. destruct (q =? r); [reflexivity|].
    change (contents (dextend v (r - length v + 1)) q = contents v q).
    apply dextend_contents.
  - destruct (set_slot_some v r (Some x)) as (w & E & El & En); [lia|].
    exists w; split; [exact E|split; [lia|]]. intro q.
    unfold contents. rewrite En. now destruct (q =? r).
Qed.

Lemma enum_in v i r x :
  In (r, x) (enum_some i v) <-> i <= r /\ nth_error v (r - i) = Some (Some x).
Proof.
  revert i; induction v as [|o v IH]; intro i; cbn [enum_some].
  - split; [intros []|]. intros [_ H]. destruct (r - i); discriminate.
  - assert (Hs : In (r, x) (enum_some (S i) v)
                 <-> S i <= r /\ nth_error (o :: v) (r - i) = Some (Some x)).
    { rewrite IH. split; intros [H1 H2]; split; try assumption.
      - replace (r - i) with (S (r - S i)) by lia. exact H2.
      - replace (r - i) with (S (r - S i)) in H2 by lia. exact H2. }
    destruct o as [y|]; cbn [In].
    + rewrite Hs. split.
      * intros [E|[H1 H2]]; [|split; [lia|exact H2]].
        injection E as -> ->. split; [lia|]. now rewrite Nat.sub_diag.
      * intros [H1 H2]. destruct (Nat.eq_dec i r) as [->|Hn]; [|right; split; [lia|exact H2]].
        rewrite Nat.sub_diag in H2. injection H2 as ->. now left.
    + rewrite Hs. split; intros [H1 H2]; split; try assumption; try lia.
      destruct (Nat.eq_dec i r) as [->|]; [|lia].
      rewrite Nat.sub_diag in H2. discriminate.
Qed.

Lemma enum_sorted v i : StronglySorted lt (map fst (enum_some i v))
  /\ Forall (le i) (map fst (enum_some i v)).
Proof.
  revert i; induction v as [|o v IH]; intro i; cbn [enum_some map].
  - split; constructor.
  - destruct (IH (S i)) as [Hs Hf].
    assert (Hf' : Forall (le i) (map fst (enum_some (S i) v))).
    { eapply Forall_impl; [|exact Hf]. intros; lia. }
    destruct o as [y|]; cbn [map fst]; [|split; assumption].
    split; constructor; auto.
Qed.

Lemma diter_lists v : lists (contents v) (diter v).
Proof.
  split; [|apply enum_sorted]. intros r x. unfold diter. rewrite enum_in, Nat.sub_0_r.
  unfold contents. split.
  - intros [_ H]. now rewrite H.
  - intro H. split; [lia|]. destruct (nth_error v r) as [o|]; congruence.
Qed.

(** Consuming the iterator yields what is left from the cursor on. *)
Lemma dnext_spec fuel : forall v c, c <= length v -> length v - c <= fuel ->
  exists o v' c', dnext fuel v c = Some (o, v', c')
    /\ length v' = length v /\ c' <= length v /\ c <= c'
    /\ match o with
       | Some e => c < c' /\ enum_some c (skipn c v) = e :: enum_some c' (skipn c' v')
       | None => enum_some c (skipn c v) = []
       end.
Proof.
  induction fuel as [|fuel IH]; intros v c Hc Hf.
  - assert (c = length v) by lia. exists None, v, c. cbn [dnext].
    destruct (Nat.ltb_spec c (length v)); [lia|].
    repeat split; auto. subst c. now rewrite skipn_all.
  - cbn [dnext]. destruct (Nat.ltb_spec c (length v)) as [Hlt|Hge].
    2:{ exists None, v, c. assert (c = length v) by lia.
        repeat split; auto. subst c. now rewrite skipn_all. }
    unfold dremove, dget.
    destruct (nth_error v c) as [item|] eqn:En.
    2:{ apply nth_error_None in En. lia. }
    destruct (set_slot_some v c None) as (w & E & El & Ew); [lia|]. rewrite E.
    assert (Hsk : skipn c v = item :: skipn (S c) v).
    { clear - En. revert c En; induction v as [|y v IHv]; intros [|c] En; cbn in *.
      - discriminate.
      - discriminate.
      - now injection En as ->.
      - rewrite (IHv c En) at 1. reflexivity. }
    assert (Hsk' : skipn (S c) w = skipn (S c) v).
    { apply (nth_ext _ _ None None).
      - rewrite !skipn_length. lia.
      - intros n Hn. rewrite skipn_length in Hn.
        assert (Hx : nth_error w (S c + n) = nth_error v (S c + n)).
        { rewrite Ew. destruct (Nat.eqb_spec (S c + n) c); [lia|reflexivity]. }
        assert (Hsn : forall (u : dbr A) k m, nth_error (skipn k u) m = nth_error u (k + m)).
        { clear. intros u k; revert u; induction k as [|k IHk]; intros u m; [reflexivity|].
          destruct u as [|y u]; cbn; [now destruct m|apply IHk]. }
        rewrite <- !Hsn in Hx.
        destruct (nth_error (skipn (S c) v) n) as [o|] eqn:Eo.
        + rewrite (nth_error_nth _ _ None Hx), (nth_error_nth _ _ None Eo). reflexivity.
        + apply nth_error_None in Eo. rewrite skipn_length in Eo. lia. }
    rewrite Hsk. destruct item as [x|].
    + exists (Some (c, x)), w, (c + 1). split; [reflexivity|].
      split; [exact El|]. split; [lia|]. split; [lia|]. split; [lia|].
      cbn [enum_some]. replace (c + 1) with (S c) by lia. now rewrite Hsk'.
    + destruct (IH w (c + 1)) as (o & v' & c' & E' & Hl & Hc' & Hle & Ho); [lia|lia|].
      rewrite E'. exists o, v', c'. split; [reflexivity|].
      split; [lia|]. split; [lia|]. split; [lia|].
      cbn [enum_some]. replace (c + 1) with (S c) in Ho by lia. rewrite Hsk' in Ho.
      destruct o; [destruct Ho; split; [lia|assumption]|assumption].
Qed.

Lemma dcollect_spec fuel : forall v c, c <= length v -> length v - c <= fuel ->
  dcollect fuel v c = Some (enum_some c (skipn c v)).
Proof.
  induction fuel as [|fuel IH]; intros v c Hc Hf; cbn [dcollect];
    destruct (dnext_spec (length v) v c) as (o & v' & c' & E & Hl & Hc' & Hle & Ho);
    try lia; rewrite E; destruct o as [e|]; try (now rewrite Ho).
  - destruct Ho as [Ho _]. lia.
  - destruct Ho as [Hlt Ho]. rewrite IH by lia. now rewrite Ho.
Qed.

Lemma dinto_iter_spec v : dinto_iter v = Some (diter v).
Proof. unfold dinto_iter. now rewrite dcollect_spec by lia. Qed.

Lemma dinsert_all_spec l : forall v, exists w, dinsert_all v l = Some w
  /\ (forall q, contents w q =
        fold_left (fun acc e => if fst e =? q then Some (snd e) else acc) l (contents v q))
  /\ (forall q, q < length w <-> q < length v \/ exists r x, In (r, x) l /\ q <= r).
Proof.
  induction l as [|[r x] l IH]; intro v; cbn [dinsert_all fold_left].
  - exists v. split; [reflexivity|]. split; [reflexivity|]. intro q. split; [tauto|].
    intros [H|(r & x & [] & _)]. exact H.
  - destruct (dinsert_spec v r x) as (u & E & El & Eu). rewrite E.
    destruct (IH u) as (w & Ew & Hw & Hl). exists w. split; [exact Ew|]. split.
    + intro q. rewrite Hw, Eu. cbn [fst snd]. now rewrite (Nat.eqb_sym q r).
    + intro q. rewrite Hl, El. split.
      * intros [H|(r' & x' & Hi & Hq)].
        -- destruct (Nat.lt_ge_cases q (length v)); [now left|].
           right. exists r, x. split; [now left|lia].
        -- right. exists r', x'. split; [now right|exact Hq].
      * intros [H|(r' & x' & [Hi|Hi] & Hq)]; [left; lia| |].
        -- injection Hi as -> ->. left; lia.
        -- right. now exists r', x'.
Qed.

Lemma exec_spec v o :
  match exec v o with
  | Some (w, v') => w <> Panic /\ spec_step (contents v) (length v) o w (contents v') (length v')
  | None => exists m' b', spec_step (contents v) (length v) o Panic m' b'
  end.
Proof.
  destruct o as [r x|r|r|r f|r| | |l|]; cbn [exec].
  - destruct (dinsert_spec v r x) as (w & E & El & Ew). rewrite E.
    split; [discriminate|]. rewrite El. now constructor.
  - unfold dget. destruct (nth_error v r) as [y|] eqn:E.
    + split; [discriminate|]. replace y with (contents v r) by (unfold contents; now rewrite E).
      constructor. apply nth_error_Some. congruence.
    + exists (contents v), (length v). constructor. now apply nth_error_None.
  - unfold dindex, dget. destruct (nth_error v r) as [[y|]|] eqn:E.
    + split; [discriminate|]. constructor. unfold contents. now rewrite E.
    + exists (contents v), (length v). constructor. unfold contents. now rewrite E.
    + exists (contents v), (length v). constructor. unfold contents. now rewrite E.
  - unfold dmodify, dindex, dget. destruct (nth_error v r) as [[y|]|] eqn:E.
    + assert (Hr : r < length v) by (apply nth_error_Some; congruence).
      destruct (set_slot_some v r (Some (f y)) Hr) as (w & Es & El & Ew). rewrite Es.
      split; [discriminate|]. rewrite El. apply spec_modify with (x := y).
      * unfold contents. now rewrite E.
      * intro q. unfold contents. rewrite Ew. now destruct (q =? r).
    + exists (contents v), (length v). constructor. unfold contents. now rewrite E.
    + exists (contents v), (length v). constructor. unfold contents. now rewrite E.
  - unfold dremove, dget. destruct (nth_error v r) as [y|] eqn:E.
    + assert (Hr : r < length v) by (apply nth_error_Some; congruence).
      destruct (set_slot_some v r None Hr) as (w & Es & El & Ew). rewrite Es.
      split; [discriminate|]. rewrite El.
      replace y with (contents v r) by (unfold contents; now rewrite E).
      constructor; [exact Hr|]. intro q. unfold contents. rewrite Ew. now destruct (q =? r).
    + exists (contents v), (length v). constructor. now apply nth_error_None.
  - split; [discriminate|]. constructor. apply diter_lists.
  - split; [discriminate|]. cbn. constructor; [apply diter_lists|].
    intro q. unfold contents. now destruct q.
  - destruct (dinsert_all_spec l []) as (w & E & Ew & El).
    unfold dfrom_iter, dempty. rewrite E. split; [discriminate|]. constructor.
    + intro q. rewrite Ew. unfold contents, last_assigned. now destruct q.
    + intro q. rewrite El. cbn [length]. split; [intros [H|H]; [lia|exact H]|tauto].
  - rewrite dinto_iter_spec. split; [discriminate|]. constructor; [apply diter_lists|].
    intro q. unfold contents. now destruct q.
Qed.

Lemma run_accepted ops : forall v, accepted (contents v) (length v) ops (run v ops).
Proof.
  induction ops as [|o ops IH]; intro v; cbn [run]; [constructor|].
  pose proof (exec_spec v o) as H. destruct (exec v o) as [[w v']|].
  - destruct H as [Hw Hs]. eapply accepted_cons; [exact Hw|exact Hs|apply IH].
  - destruct H as (m' & b' & H). eapply accepted_panic; exact H.
Qed.

Lemma accepted_ext (m m' : rmap A) b ops ws :
  (forall q, m q = m' q) -> accepted m b ops ws -> accepted m' b ops ws.
Proof.
  intros He Ha. revert m' He. induction Ha as [m b|m b o ops n b' Hs|m b o ops w ws n b' Hw Hs Ha IH];
    intros m' He.
  - constructor.
  - eapply (accepted_panic _ _ _ _ m' b).
    inversion Hs; subst; constructor; try assumption; rewrite <- He; assumption.
  - inversion Hs; subst.
    + eapply accepted_cons; [exact Hw| |exact Ha]. constructor. intro q. rewrite H.
      now rewrite He.
    + rewrite He. eapply accepted_cons; [discriminate| |apply IH; exact He]. now constructor.
    + congruence.
    + eapply accepted_cons; [exact Hw| |apply IH; exact He]. constructor. now rewrite <- He.
    + congruence.
    + eapply accepted_cons; [exact Hw| |exact Ha]. eapply spec_modify; [rewrite <- He; eassumption|].
      intro q. rewrite H0. now rewrite He.
    + congruence.
    + rewrite He. eapply accepted_cons; [discriminate| |exact Ha]. constructor; [assumption|].
      intro q. rewrite H0. now rewrite He.
    + congruence.
    + eapply accepted_cons; [exact Hw| |apply IH; exact He]. constructor.
      destruct H as [H1 H2]. split; [|exact H2]. intros r x. rewrite H1. now rewrite He.
    + eapply accepted_cons; [exact Hw| |exact Ha]. constructor; [|assumption].
      destruct H as [H1 H2]. split; [|exact H2]. intros r x. rewrite H1. now rewrite He.
    + eapply accepted_cons; [exact Hw| |exact Ha]. constructor; [|assumption].
      destruct H as [H1 H2]. split; [|exact H2]. intros r x. rewrite H1. now rewrite He.
    + eapply accepted_cons; [exact Hw| |exact Ha]. constructor; assumption.
Qed.

(** Starting from an empty container. *)
Lemma run_empty (ops : list (op A)) :
  accepted (fun _ => None) 0 ops (run dempty ops).
Proof.
  apply accepted_ext with (m := contents dempty); [|apply (run_accepted ops dempty)].
  intros [|q]; reflexivity.
Qed.

Lemma dfrom_closure_contents (x : A) size this q :
  contents (dfrom_closure x size this) q =
    if q <? size then
      match this with Some t => if q =? t then None else Some x | None => Some x end
    else None.
Proof.
  unfold contents, dfrom_closure. destruct (Nat.ltb_spec q size) as [H|H].
  - rewrite nth_error_map.
    assert (E : nth_error (seq 0 size) q = Some q).
    { rewrite (nth_error_nth' _ 0) by (now rewrite seq_length).
      now rewrite seq_nth by assumption. }
    rewrite E. reflexivity.
  - assert (E : nth_error (map (fun r : nat => match this with
        | Some t => if r =? t then None else Some x
        | None => Some x end) (seq 0 size)) q = None)
      by (apply nth_error_None; now rewrite map_length, seq_length).
    now rewrite E.
Qed.

(** Starting from a container with a default for every rank but one's own. *)
Lemma run_from_closure (x : A) size this ops :
  accepted (fun q => if q <? size then
      match this with Some t => if q =? t then None else Some x | None => Some x end
    else None) size ops (run (dfrom_closure x size this) ops).
Proof.
  apply accepted_ext with (m := contents (dfrom_closure x size this)).
  - intro q. apply dfrom_closure_contents.
  - replace size with (length (dfrom_closure x size this)) at 2
      by (unfold dfrom_closure; now rewrite map_length, seq_length).
    apply run_accepted.
Qed.

End Refine.

Lemma dsize_spec {B} (v : dbr (list B)) : dsize v = length (concat (map snd (diter v))).
Proof.
  unfold diter. generalize 0. induction v as [|o v IH]; intro i; [reflexivity|].
  unfold dsize in *. cbn [map list_sum fold_right enum_some].
  destruct o as [l|]; cbn [map snd concat].
  - rewrite app_length, <- (IH (S i)). reflexivity.
  - rewrite <- (IH (S i)). reflexivity.
Qed.
