(** The exchange of particles conserves them. *)
From Coq Require Import List Arith Bool Lia Permutation.
Import ListNotations.
From Verif Require Import DataByRank_Model DataByRank_Spec DataByRank_Proofs
  Fair Exchange_Model Exchange_Spec Exchange_Proofs Decomp_Model ParticleExchange_Model.

(** ** Lists *)

Lemma opt_all_map {A B} (f : A -> option B) (g : A -> B) l :
  (forall x, In x l -> f x = Some (g x)) -> opt_all f l = Some (map g l).
Proof.
  induction l as [|x l IH]; intro H; [reflexivity|]. cbn [opt_all map].
  rewrite (H x) by now left. rewrite IH; [reflexivity|]. intros y Hy. apply H. now right.
Qed.

Lemma opt_all_Some_map {A B} (f : A -> option B) l r :
  opt_all f l = Some r <-> map f l = map Some r.
Proof.
  revert r. induction l as [|x l IH]; intro r; cbn [opt_all map].
  - split; [intro E; injection E as <-; reflexivity|]. destruct r; [reflexivity|discriminate].
  - destruct (f x) as [y|].
    + split.
      * destruct (opt_all f l) as [r'|]; [|discriminate]. intro E. injection E as <-. cbn.
        f_equal. now apply IH.
      * destruct r as [|z r]; [discriminate|]. cbn. intro E. injection E as -> E.
        apply IH in E. now rewrite E.
    + split; [discriminate|]. destruct r; discriminate.
Qed.

Lemma nth_map_seq {B} (f : nat -> B) n x d : x < n -> nth x (map f (seq 0 n)) d = f x.
Proof.
  intro H. rewrite nth_indep with (d' := f 0) by now rewrite map_length, seq_length.
  rewrite map_nth. f_equal. now apply seq_nth.
Qed.

Lemma all_ranks_map {B} n (f : nat -> option B) (g : nat -> B) :
  (forall x, x < n -> f x = Some (g x)) -> all_ranks n f = Some (map g (seq 0 n)).
Proof. intro H. apply opt_all_map. intros x Hx. apply in_seq in Hx. apply H. lia. Qed.

(** ** Containers with a value for every other rank *)

Definition table {B} (n x : nat) (f : nat -> B) : dbr B :=
  map (fun y => if y =? x then None else Some (f y)) (seq 0 n).

Lemma nth_error_ext {B} (l l' : list B) : length l = length l' ->
  (forall i, i < length l -> nth_error l i = nth_error l' i) -> l = l'.
Proof.
  revert l'. induction l as [|a l IH]; intros [|b l'] Hl H; try discriminate; [reflexivity|].
  pose proof (H 0 ltac:(cbn; lia)) as H0. cbn in H0. injection H0 as ->. f_equal.
  apply IH; [now injection Hl|]. intros i Hi. apply (H (S i)). cbn. lia.
Qed.

Lemma nth_error_table {B} n x (f : nat -> B) y : y < n ->
  nth_error (table n x f) y = Some (if y =? x then None else Some (f y)).
Proof.
  intro H. unfold table. rewrite nth_error_map.
  rewrite (nth_error_nth' _ 0) by now rewrite seq_length. now rewrite seq_nth.
Qed.

Lemma tab_table {B} n x (v : dbr B) f : tab n x v f <-> v = table n x f.
Proof.
  split.
  - intros [Hl Hn]. apply nth_error_ext.
    + unfold table. now rewrite map_length, seq_length.
    + intros i Hi. rewrite Hn, nth_error_table by lia. reflexivity.
  - intros ->. split; [unfold table; now rewrite map_length, seq_length|].
    intros y Hy. now apply nth_error_table.
Qed.

Lemma enum_table {B} x (f : nat -> B) l : forall i, l = seq i (length l) ->
  enum_some i (map (fun y => if y =? x then None else Some (f y)) l)
  = map (fun y => (y, f y)) (filter (fun y => negb (y =? x)) l).
Proof.
  induction l as [|a l IH]; intros i E; [reflexivity|].
  cbn [length seq] in E. injection E as Ea El. subst a. cbn [map enum_some filter].
  destruct (i =? x); cbn [negb map]; rewrite (IH (S i)) by exact El; reflexivity.
Qed.

Lemma diter_table {B} n x (f : nat -> B) :
  diter (table n x f) = map (fun y => (y, f y)) (others n x).
Proof. unfold diter, table, others. apply enum_table. now rewrite seq_length. Qed.

Lemma in_others n x y : In y (others n x) <-> y < n /\ y <> x.
Proof. unfold others. rewrite filter_In, in_seq, negb_true_iff, Nat.eqb_neq. lia. Qed.
Lemma nodup_others n x : NoDup (others n x).
Proof. apply NoDup_filter, seq_NoDup. Qed.

Lemma table_ext {B} n x (f g : nat -> B) :
  (forall y, y < n -> y <> x -> f y = g y) -> table n x f = table n x g.
Proof.
  intro H. unfold table. apply map_ext_in. intros y Hy. apply in_seq in Hy.
  destruct (Nat.eqb_spec y x); [reflexivity|]. now rewrite H by lia.
Qed.

Lemma exchange_result_table {B} n (d : nat -> dbr (list B)) y :
  exchange_result n d y = table n y (fun x => addressed (d x) y).
Proof. reflexivity. Qed.

Lemma exchange_result_delivered {B} n (d : nat -> dbr (list B)) y :
  delivered n d y (exchange_result n d y).
Proof.
  split; [unfold exchange_result; now rewrite map_length, seq_length|].
  intros x Hx. rewrite exchange_result_table, nth_error_table by assumption. reflexivity.
Qed.

Lemma addressed_table {B} n x (f : nat -> list B) y : y < n -> y <> x ->
  addressed (table n x f) y = f y.
Proof.
  intros Hy Hx. unfold addressed. rewrite nth_error_table by assumption.
  now destruct (Nat.eqb_spec y x).
Qed.

Lemma addressed_contents {B} (d : dbr (list B)) y :
  addressed d y = match contents d y with Some l => l | None => [] end.
Proof. unfold addressed, contents. now destruct (nth_error d y) as [[|]|]. Qed.

(** ** The systems of one rank *)

Section Exchange.
Context {V : Type}.
Variable n m : nat.
Variable owner : comps V -> nat.
Local Notation particle := (nat * list V)%type.
Definition embed (w : list particle) : world V := map (fun ec => (fst ec, map Some (snd ec))) w.
Definition target (ec : particle) : nat := owner (map Some (snd ec)).
Definition sel (r : nat) (w : list particle) : list particle := filter (fun ec => target ec =? r) w.

Lemma add_outgoing_table x w : forall d f, tab n x d f ->
  (forall ec, In ec w -> target ec < n) ->
  exists d', add_outgoing owner x (embed w) d = Some d'
    /\ tab n x d' (fun r => f r ++ map fst (sel r w)).
Proof.
  induction w as [|[e c] w IH]; intros d f Ht H.
  - exists d. split; [reflexivity|]. eapply tab_ext; [|exact Ht]. intros. now rewrite app_nil_r.
  - cbn [embed map add_outgoing fst snd].
    assert (Hc : target (e, c) < n) by (apply H; now left).
    assert (Hw : forall ec, In ec w -> target ec < n) by (intros; apply H; now right).
    unfold target in Hc. cbn in Hc. destruct (Nat.eqb_spec (owner (map Some c)) x) as [E|Ne].
    + destruct (IH d f Ht Hw) as (d' & E' & Ht'). exists d'. split; [exact E'|].
      eapply tab_ext; [|exact Ht']. intros r Hr Hrx. unfold sel; cbn [filter]. change (target (e, c)) with (owner (map Some c)).
      destruct (Nat.eqb_spec (owner (map Some c)) r); [lia|reflexivity].
    + destruct (tab_modify n x d f (owner (map Some c)) (fun l => l ++ [e]) Ht Hc Ne)
        as (d1 & E1 & Ht1). rewrite E1.
      destruct (IH d1 _ Ht1 Hw) as (d' & E' & Ht'). exists d'. split; [exact E'|].
      eapply tab_ext; [|exact Ht']. intros r Hr Hrx. unfold sel; cbn [filter]. change (target (e, c)) with (owner (map Some c)).
      rewrite (Nat.eqb_sym r). destruct (Nat.eqb_spec (owner (map Some c)) r); cbn [map fst].
      * now rewrite <- app_assoc.
      * reflexivity.
Qed.

Lemma set_outgoing_table x w : (forall ec, In ec w -> target ec < n) ->
  set_outgoing n owner x (embed w) = Some (table n x (fun r => map fst (sel r w))).
Proof.
  intro H. unfold set_outgoing.
  destruct (add_outgoing_table x w _ _ (tab_closure n x []) H) as (d & -> & Ht).
  apply tab_table in Ht. now rewrite Ht.
Qed.

Lemma find_embed w e c : NoDup (map fst w) -> In (e, c) w ->
  find (fun ec => fst ec =? e) (embed w) = Some (e, map Some c).
Proof.
  induction w as [|[e' c'] w IH]; intros Hn Hin; [destruct Hin|]. cbn [embed map find fst].
  cbn in Hn. inversion Hn as [|? ? Hni Hn']; subst. destruct Hin as [E|Hin].
  - injection E as -> ->. now rewrite Nat.eqb_refl.
  - destruct (Nat.eqb_spec e' e) as [->|]; [|now apply IH].
    exfalso. apply Hni, in_map_iff. now exists (e, c).
Qed.

Lemma nth_map_some (c : list V) t : nth t (map Some c) None = nth_error c t.
Proof. revert t. induction c as [|v c IH]; intros [|t]; cbn; auto. Qed.

(** The values of component [t] of some particles. *)
Definition is_column (t : nat) (ps : list particle) (vals : list V) : Prop :=
  map (fun ec => nth_error (snd ec) t) ps = map Some vals.

Lemma column_exists t ps : (forall ec, In ec ps -> t < length (snd ec)) ->
  exists vals, is_column t ps vals.
Proof.
  unfold is_column. induction ps as [|ec ps IH]; intro H; [now exists []|].
  destruct IH as (vals & E); [intros; apply H; now right|].
  destruct (nth_error (snd ec) t) as [v|] eqn:Ev.
  - exists (v :: vals). cbn. now rewrite Ev, E.
  - apply nth_error_None in Ev. specialize (H ec (or_introl eq_refl)). lia.
Qed.

Lemma fill_loop_table w t x (cols : nat -> list V) l : forall b f,
  tab n x b f -> (forall r, In r l -> r < n /\ r <> x) -> NoDup l ->
  forall es, (forall r, In r l -> opt_all (query_get w t) (es r) = Some (cols r)) ->
  exists b', fill_loop w t (map (fun r => (r, es r)) l) b = Some b'
    /\ tab n x b' (fun r => if mem r l then cols r else f r).
Proof.
  induction l as [|r l IH]; intros b f Hb Hl Hn es Hes.
  - exists b. split; [reflexivity|]. eapply tab_ext; [|exact Hb]. reflexivity.
  - cbn [map fill_loop]. rewrite (Hes r) by now left.
    destruct (Hl r) as [Hr Hrx]; [now left|].
    destruct (tab_insert n x b f r (cols r) Hb Hr Hrx) as (b1 & -> & Hb1).
    inversion Hn as [|? ? Hni Hn']; subst.
    destruct (IH b1 _ Hb1 (fun q Hq => Hl q (or_intror Hq)) Hn' es
                (fun q Hq => Hes q (or_intror Hq))) as (b' & E & Hb').
    exists b'. split; [exact E|]. eapply tab_ext; [|exact Hb']. intros q _ _.
    cbn [mem existsb]. fold (mem q l). destruct (Nat.eqb_spec q r) as [->|]; cbn [orb].
    + destruct (mem r l) eqn:Em; [|reflexivity]. apply mem_in in Em. contradiction.
    + reflexivity.
Qed.

Lemma fill_buffers_table w x t (cols : nat -> list V) :
  NoDup (map fst w) -> (forall r, r < n -> r <> x -> is_column t (sel r w) (cols r)) ->
  fill_buffers n x t (embed w) (table n x (fun r => map fst (sel r w)))
  = Some (table n x cols).
Proof.
  intros Hn Hc. unfold fill_buffers. rewrite diter_table.
  destruct (fill_loop_table (embed w) t x cols (others n x) _ _ (tab_closure n x [])
              (fun r Hr => proj1 (in_others n x r) Hr) (nodup_others n x) (fun r => map fst (sel r w))) as (b & -> & Hb).
  - intros r Hr. apply in_others in Hr. destruct Hr as [Hr Hrx].
    apply opt_all_Some_map. rewrite map_map. unfold is_column in Hc. rewrite <- Hc by assumption.
    apply map_ext_in. intros [e c] Hin. unfold sel in Hin. apply filter_In in Hin.
    destruct Hin as [Hin _]. unfold query_get. cbn [fst].
    rewrite (find_embed w e c Hn Hin). apply nth_map_some.
  - apply tab_table in Hb. rewrite Hb. f_equal. apply table_ext. intros r Hr Hrx.
    assert (E : mem r (others n x) = true) by (apply mem_in, in_others; auto). now rewrite E.
Qed.

Lemma last_assigned_map {B} (f : nat -> B) l q : forall acc,
  fold_left (fun a e => if fst e =? q then Some (snd e) else a) (map (fun r => (r, f r)) l) acc
  = if mem q l then Some (f q) else acc.
Proof.
  induction l as [|r l IH]; intro acc; [reflexivity|]. cbn [map fold_left fst snd mem existsb].
  rewrite IH. fold (mem q l). rewrite (Nat.eqb_sym q r).
  destruct (Nat.eqb_spec r q) as [->|]; cbn [orb]; [now destruct (mem q l)|reflexivity].
Qed.

Lemma num_data_spec x (f : nat -> list nat) :
  exists d, num_data n x (table n x f) = Some d
    /\ (forall y, y < n -> y <> x -> addressed d y = [length (f y)])
    /\ names_others n x d /\ names_all_others n x d.
Proof.
  unfold num_data. rewrite (opt_all_map _ (fun r => (r, [length (f r)]))).
  2:{ intros r Hr. apply in_others in Hr. destruct Hr as [Hr Hrx].
      rewrite (tab_index n x (table n x f) f r) by (try assumption; now apply tab_table).
      reflexivity. }
  unfold dfrom_iter.
  destruct (dinsert_all_spec (map (fun r => (r, [length (f r)])) (others n x)) dempty)
    as (d & E & Hd & Hlen).
  exists d. split; [exact E|].
  assert (Hc : forall q, contents d q = if mem q (others n x) then Some [length (f q)] else None).
  { intro q. rewrite Hd. rewrite (last_assigned_map (fun r => [length (f r)])).
    destruct (mem q (others n x)); [reflexivity|]. now destruct q. }
  assert (Hnth : forall q l, nth_error d q = Some (Some l) <-> contents d q = Some l).
  { intros q l. unfold contents. destruct (nth_error d q) as [[l'|]|]; split; intro H;
      try congruence; discriminate. }
  split; [|split].
  - intros y Hy Hyx. rewrite addressed_contents, Hc.
    assert (Em : mem y (others n x) = true) by (apply mem_in, in_others; auto). now rewrite Em.
  - intros y l Hl. apply Hnth in Hl. rewrite Hc in Hl.
    destruct (mem y (others n x)) eqn:Em; [|discriminate]. now apply mem_in, in_others in Em.
  - intros y Hy Hyx. exists [length (f y)]. apply Hnth. rewrite Hc.
    assert (Em : mem y (others n x) = true) by (apply mem_in, in_others; auto). now rewrite Em.
Qed.

(** Buffers and counts satisfy the requirements of the exchange protocol. *)
Lemma table_names {B} x (f : nat -> list B) :
  names_others n x (table n x f) /\ names_all_others n x (table n x f).
Proof.
  split.
  - intros y l Hl. destruct (Nat.lt_ge_cases y n) as [Hy|Hy].
    + rewrite nth_error_table in Hl by assumption. destruct (Nat.eqb_spec y x); [discriminate|auto].
    + assert (nth_error (table n x f) y = None)
        by (apply nth_error_None; unfold table; now rewrite map_length, seq_length).
      congruence.
  - intros y Hy Hyx. exists (f y). rewrite nth_error_table by assumption.
    now destruct (Nat.eqb_spec y x).
Qed.

(** ** Spawned blocks *)

(** One block per sending rank: the rank, the spawned entities, the particles. *)
Definition block : Type := nat * (list nat * list (list V)).
Fixpoint blocks (next : nat) (l : list (nat * list particle)) : list block :=
  match l with
  | [] => []
  | (r, ps) :: l' => (r, (seq next (length ps), map snd ps)) :: blocks (next + length ps) l'
  end.
Definition ids (b : block) : list nat := fst (snd b).
Definition datas (b : block) : list (list V) := snd (snd b).

Lemma blocks_ids next l : flat_map ids (blocks next l)
  = seq next (length (flat_map snd l)).
Proof.
  revert next. induction l as [|[r ps] l IH]; intro next; [reflexivity|].
  cbn [blocks flat_map ids fst snd]. rewrite IH, app_length, seq_app. reflexivity.
Qed.

Lemma spawn_loop_blocks y l : forall next sp f, tab n y sp f ->
  NoDup (map fst l) -> (forall r, In r (map fst l) -> r < n /\ r <> y) ->
  exists sp', spawn_loop next (map (fun rp => (fst rp, [length (snd rp)])) l) sp
              = Some (sp', flat_map ids (blocks next l))
    /\ (forall b, In b (blocks next l) -> dindex sp' (fst b) = Some (ids b))
    /\ exists f', tab n y sp' f' /\ forall r, ~ In r (map fst l) -> f' r = f r.
Proof.
  induction l as [|[r ps] l IH]; intros next sp f Ht Hn Hr.
  - exists sp. split; [reflexivity|]. split; [intros b []|]. exists f. auto.
  - cbn [map spawn_loop fst snd]. destruct (Hr r) as [Hrn Hry]; [now left|].
    destruct (tab_insert n y sp f r (seq next (length ps)) Ht Hrn Hry) as (sp1 & -> & Ht1).
    cbn in Hn. inversion Hn as [|? ? Hni Hn']; subst.
    destruct (IH (next + length ps) sp1 _ Ht1 Hn' (fun q Hq => Hr q (or_intror Hq)))
      as (sp2 & -> & Hb & f2 & Ht2 & Hf2).
    exists sp2. split; [reflexivity|]. split.
    + intros b [<-|Hin]; [|now apply Hb]. cbn [fst ids snd].
      rewrite (tab_index n y sp2 f2 r Ht2 Hrn Hry). rewrite Hf2 by assumption.
      now rewrite Nat.eqb_refl.
    + exists f2. split; [exact Ht2|]. intros q Hq. cbn in Hq.
      rewrite Hf2 by tauto. destruct (Nat.eqb_spec q r); [subst; tauto|reflexivity].
Qed.

(** The components received so far: those in [T]. *)
Definition received (T : list nat) (c : list V) : comps V :=
  map (fun t => if mem t T then nth_error c t else None) (seq 0 m).
Definition block_world (T : list nat) (b : block) : world V :=
  combine (ids b) (map (received T) (datas b)).

Lemma received_nil c : received [] c = repeat None m.
Proof.
  unfold received. generalize 0. induction m as [|k IH]; intro i; [reflexivity|].
  cbn. f_equal. apply IH.
Qed.

Lemma received_all T c : (forall t, t < m -> In t T) -> length c = m ->
  received T c = map Some c.
Proof.
  intros HT Hc. apply nth_error_ext; unfold received; rewrite !map_length, seq_length; [lia|].
  intros i Hi. rewrite !nth_error_map.
  rewrite (nth_error_nth' (seq 0 m) 0) by now rewrite seq_length. rewrite seq_nth by assumption.
  cbn [option_map]. rewrite Nat.add_0_l.
  assert (E : mem i T = true) by (apply mem_in; auto). rewrite E.
  destruct (nth_error c i) eqn:En; [reflexivity|]. apply nth_error_None in En. lia.
Qed.

Lemma set_comp_length t (v : V) c : length (set_comp t v c) = length c.
Proof. revert t. induction c as [|o c IH]; intros [|t]; cbn; auto. Qed.

Lemma set_comp_nth t (v : V) c i : i < length c ->
  nth_error (set_comp t v c) i = if i =? t then Some (Some v) else nth_error c i.
Proof.
  revert t i. induction c as [|o c IH]; intros t i Hi; cbn in Hi; [lia|].
  destruct t as [|t], i as [|i]; cbn; try reflexivity. apply IH. lia.
Qed.

Lemma received_step T t c v : nth_error c t = Some v ->
  set_comp t v (received T c) = received (t :: T) c.
Proof.
  intro Hv. apply nth_error_ext.
  - rewrite set_comp_length. unfold received. now rewrite !map_length.
  - intros i Hi. rewrite set_comp_length in Hi. rewrite set_comp_nth by assumption.
    unfold received in *. rewrite map_length, seq_length in Hi. rewrite !nth_error_map.
    rewrite (nth_error_nth' (seq 0 m) 0) by now rewrite seq_length. rewrite seq_nth by assumption.
    cbn [option_map mem existsb]. rewrite Nat.add_0_l. fold (mem i T).
    destruct (Nat.eqb_spec i t) as [->|]; cbn [orb]; [now rewrite Hv|reflexivity].
Qed.

Lemma insert_comp_absent (w : world V) t e v : ~ In e (map fst w) -> insert_comp w t e v = w.
Proof.
  induction w as [|[e' c] w IH]; intro H; [reflexivity|]. cbn in *.
  destruct (Nat.eqb_spec e' e) as [->|]; [tauto|]. f_equal. apply IH. tauto.
Qed.

Lemma insert_comp_app (w1 w2 : world V) t e v :
  insert_comp (w1 ++ w2) t e v = insert_comp w1 t e v ++ insert_comp w2 t e v.
Proof. apply map_app. Qed.

Lemma map_fst_combine {A B} (l : list A) (l' : list B) : length l = length l' ->
  map fst (combine l l') = l.
Proof.
  revert l'. induction l as [|a l IH]; intros [|b l'] H; try discriminate; [reflexivity|].
  cbn. f_equal. apply IH. now injection H.
Qed.

Lemma insert_all_block T t es : forall (ps : list (list V)) vals (pre post : world V),
  length es = length ps -> map (fun c => nth_error c t) ps = map Some vals ->
  NoDup (map fst pre ++ es ++ map fst post) ->
  insert_all (pre ++ combine es (map (received T) ps) ++ post) t es vals
  = pre ++ combine es (map (received (t :: T)) ps) ++ post.
Proof.
  induction es as [|e es IH]; intros ps vals pre post Hl Hv Hn; [reflexivity|].
  destruct ps as [|p ps]; [discriminate|]. destruct vals as [|v vals]; [discriminate|].
  cbn in Hv. injection Hv as Hv Hvs. injection Hl as Hl.
  unfold insert_all. cbn [combine fold_left map]. cbn [fst snd].
  assert (Hpost : ~ In e (map fst pre) /\ ~ In e es /\ ~ In e (map fst post)
                  /\ NoDup (map fst pre ++ es ++ map fst post)).
  { split; [|split; [|split]].
    - intro H. apply NoDup_remove_2 in Hn. apply Hn, in_app_iff. now left.
    - intro H. apply NoDup_remove_2 in Hn. apply Hn. rewrite !in_app_iff. tauto.
    - intro H. apply NoDup_remove_2 in Hn. apply Hn. rewrite !in_app_iff. tauto.
    - now apply NoDup_remove_1 in Hn. }
  destruct Hpost as (H1 & H2 & H3 & H4).
  rewrite insert_comp_app, (insert_comp_absent pre) by assumption.
  cbn [app insert_comp map fst snd]. rewrite Nat.eqb_refl.
  fold (insert_comp (combine es (map (received T) ps) ++ post) t e v).
  rewrite insert_comp_absent.
  2:{ rewrite map_app, map_fst_combine, in_app_iff by now rewrite map_length. tauto. }
  rewrite (received_step T t p v Hv).
  change (pre ++ (e, received (t :: T) p) :: combine es (map (received T) ps) ++ post)
    with (pre ++ [(e, received (t :: T) p)] ++ combine es (map (received T) ps) ++ post).
  rewrite app_assoc.
  fold (insert_all ((pre ++ [(e, received (t :: T) p)]) ++ combine es (map (received T) ps) ++ post)
          t es vals).
  rewrite IH; auto.
  - now rewrite <- app_assoc.
  - rewrite map_app. cbn [map fst]. rewrite <- app_assoc. exact Hn.
Qed.

Lemma insert_loop_blocks T t sp B : forall pre,
  (forall b, In b B -> dindex sp (fst b) = Some (ids b) /\ length (ids b) = length (datas b)) ->
  NoDup (map fst pre ++ flat_map ids B) ->
  forall vals : nat -> list V,
  (forall b, In b B -> map (fun c => nth_error c t) (datas b) = map Some (vals (fst b))) ->
  insert_loop (pre ++ flat_map (block_world T) B) t sp (map (fun b => (fst b, vals (fst b))) B)
  = Some (pre ++ flat_map (block_world (t :: T)) B).
Proof.
  induction B as [|b B IH]; intros pre Hb Hn vals Hv; [reflexivity|].
  cbn [map insert_loop flat_map]. destruct (Hb b) as [E Hl]; [now left|]. rewrite E.
  assert (Hf : forall T', map fst (flat_map (block_world T') B) = flat_map ids B).
  { intro T'. assert (HB : forall b', In b' B -> length (ids b') = length (datas b'))
      by (intros b' Hb'; apply Hb; now right).
    clear - HB. induction B as [|b' B IHB]; [reflexivity|]. cbn. rewrite map_app, IHB.
    - f_equal. apply map_fst_combine. rewrite map_length. apply HB. now left.
    - intros b'' H. apply HB. now right. }
  unfold block_world at 1. rewrite insert_all_block; auto.
  - fold (block_world (t :: T) b). rewrite app_assoc.
    rewrite IH; [now rewrite <- app_assoc| | |].
    + intros b' Hb'. apply Hb. now right.
    + rewrite map_app. unfold block_world. rewrite map_fst_combine by now rewrite map_length.
      rewrite <- app_assoc. exact Hn.
    + intros b' Hb'. apply Hv. now right.
  - apply Hv. now left.
  - rewrite Hf. exact Hn.
Qed.

(** ** All ranks *)

Definition column (t : nat) (ps : list particle) : list V :=
  flat_map (fun ec => match nth_error (snd ec) t with Some v => [v] | None => [] end) ps.

Lemma column_is t ps : (forall ec, In ec ps -> t < length (snd ec)) ->
  is_column t ps (column t ps).
Proof.
  unfold is_column, column. induction ps as [|ec ps IH]; intro H; [reflexivity|].
  cbn [map flat_map]. rewrite map_app, <- IH by (intros; apply H; now right).
  destruct (nth_error (snd ec) t) as [v|] eqn:Ev; [reflexivity|].
  apply nth_error_None in Ev. specialize (H ec (or_introl eq_refl)). lia.
Qed.

Lemma blocks_fst next l : map fst (blocks next l) = map fst l.
Proof.
  revert next. induction l as [|[r ps] l IH]; intro next; [reflexivity|]. cbn. now rewrite IH.
Qed.

Lemma blocks_in next l b : In b (blocks next l) ->
  exists ps, In (fst b, ps) l /\ datas b = map snd ps /\ length (ids b) = length (datas b).
Proof.
  revert next. induction l as [|[r ps] l IH]; intros next H; [destruct H|].
  destruct H as [<-|H].
  - exists ps. split; [now left|]. cbn. now rewrite seq_length, map_length.
  - destruct (IH _ H) as (ps' & H1 & H2). exists ps'. split; [now right|exact H2].
Qed.

Lemma exchange_types_blocks y sp B pre types (P : nat -> list particle) : forall T bufs,
  (forall b, In b B -> dindex sp (fst b) = Some (ids b) /\ length (ids b) = length (datas b)) ->
  NoDup (map fst pre ++ flat_map ids B) ->
  map fst B = others n y ->
  (forall b, In b B -> datas b = map snd (sel y (P (fst b)))) ->
  (forall t x ec, In t types -> In ec (P x) -> t < length (snd ec)) ->
  (forall x, x < n -> bufs x = map (fun t => table n x (fun r => column t (sel r (P x)))) types) ->
  y < n ->
  exchange_types n y sp types bufs (pre ++ flat_map (block_world T) B)
  = Some (pre ++ flat_map (block_world (rev types ++ T)) B).
Proof.
  induction types as [|t types IH]; intros T bufs Hb Hn HB Hd Ht Hbuf Hy; [reflexivity|].
  cbn [exchange_types]. rewrite exchange_result_table. cbn [ddrain fst].
  fold (diter (table n y (fun x => addressed (nth 0 (bufs x) []) y))). rewrite diter_table.
  replace (map (fun x => (x, addressed (nth 0 (bufs x) []) y)) (others n y))
    with (map (fun b : block => (fst b, column t (sel y (P (fst b))))) B).
  2:{ rewrite <- HB, map_map. apply map_ext_in. intros b Hin. f_equal.
      assert (Hr : In (fst b) (others n y)) by (rewrite <- HB; now apply in_map).
      apply in_others in Hr. destruct Hr as [Hr Hry]. rewrite Hbuf by assumption. cbn [map nth].
      rewrite addressed_table; auto. }
  pose proof (insert_loop_blocks T t sp B pre Hb Hn (fun x => column t (sel y (P x)))) as EI.
  match goal with |- match ?a with _ => _ end = _ =>
    replace a with (Some (pre ++ flat_map (block_world (t :: T)) B)) end.
  2:{ symmetry. apply EI. intros b Hin. rewrite Hd by assumption. rewrite map_map. apply column_is.
      intros ec Hec. unfold sel in Hec. apply filter_In in Hec.
      apply (Ht t (fst b) ec); [now left|tauto]. }
  rewrite IH; auto.
  - cbn [rev]. now rewrite <- app_assoc.
  - intros t' x ec Ht'. apply Ht. now right.
  - intros x Hx. rewrite Hbuf by assumption. reflexivity.
Qed.

(** What each rank holds in the end. *)
Definition result (next : nat -> nat) (P : nat -> list particle) (y : nat) : list particle :=
  sel y (P y) ++ flat_map (fun b => combine (ids b) (datas b))
                   (blocks (next y) (map (fun x => (x, sel y (P x))) (others n y))).

Lemma combine_map_r {A B C} (f : B -> C) (l : list A) (l' : list B) :
  combine l (map f l') = map (fun p => (fst p, f (snd p))) (combine l l').
Proof.
  revert l'. induction l as [|a l IH]; intros [|b l']; cbn; try reflexivity. now rewrite IH.
Qed.

Lemma combine_in_r {A B} (l : list A) (l' : list B) a b : In (a, b) (combine l l') ->
  In a l /\ In b l'.
Proof. intro H. split; [eapply in_combine_l|eapply in_combine_r]; exact H. Qed.

Lemma nodup_fst_inj (w : list particle) ec ec' : NoDup (map fst w) ->
  In ec w -> In ec' w -> fst ec = fst ec' -> ec = ec'.
Proof.
  induction w as [|a w IH]; intros Hn H H' E; [destruct H|]. cbn in Hn.
  inversion Hn as [|? ? Hni Hn']; subst.
  destruct H as [<-|H], H' as [<-|H'].
  - reflexivity.
  - exfalso. apply Hni. rewrite E. now apply in_map.
  - exfalso. apply Hni. rewrite <- E. now apply in_map.
  - now apply IH.
Qed.

Lemma despawn_result next P y : y < n -> NoDup (map fst (P y)) ->
  (forall ec, In ec (P y) -> target ec < n /\ fst ec < next y) ->
  despawn (embed (P y) ++ embed (flat_map (fun b => combine (ids b) (datas b))
             (blocks (next y) (map (fun x => (x, sel y (P x))) (others n y)))))
          (table n y (fun r => map fst (sel r (P y))))
  = embed (result next P y).
Proof.
  intros Hy Hn Hp. unfold despawn. rewrite diter_table, map_map. cbn [snd].
  set (out := concat (map (fun x => map fst (sel x (P y))) (others n y))).
  assert (Hout : forall e, In e out <-> exists ec, In ec (P y) /\ fst ec = e /\ target ec <> y).
  { intro e. unfold out. rewrite in_concat. split.
    - intros (l & Hl & He). apply in_map_iff in Hl. destruct Hl as (r & <- & Hr).
      apply in_map_iff in He. destruct He as (ec & Ee & Hec). unfold sel in Hec.
      apply filter_In in Hec. destruct Hec as [Hec Et]. apply Nat.eqb_eq in Et.
      apply in_others in Hr. exists ec. repeat split; auto; lia.
    - intros (ec & Hec & Ee & Ht). exists (map fst (sel (target ec) (P y))). split.
      + apply in_map_iff. exists (target ec). split; [reflexivity|].
        apply in_others. split; [now apply Hp|exact Ht].
      + apply in_map_iff. exists ec. split; [exact Ee|]. apply filter_In.
        split; [exact Hec|apply Nat.eqb_refl]. }
  assert (Hmem : forall e, existsb (Nat.eqb e) out = true <-> In e out) by (intro e; apply mem_in).
  rewrite filter_app. unfold result, embed at 3. rewrite map_app. f_equal.
  - assert (G : forall w, (forall ec, In ec w -> In ec (P y)) ->
      filter (fun ec : nat * comps V => negb (existsb (Nat.eqb (fst ec)) out)) (embed w)
      = map (fun ec => (fst ec, map Some (snd ec))) (sel y w)).
    { induction w as [|ec w IH]; intro Hw; [reflexivity|]. cbn [embed map filter fst].
      unfold sel. cbn [filter]. fold (sel y w).
      assert (Hec : In ec (P y)) by (apply Hw; now left).
      specialize (IH (fun e H => Hw e (or_intror H))). unfold embed in IH. rewrite IH.
      destruct (existsb (Nat.eqb (fst ec)) out) eqn:Ex; cbn [negb];
        destruct (Nat.eqb_spec (target ec) y) as [Et|Et]; try reflexivity; exfalso.
      - apply Hmem, Hout in Ex. destruct Ex as (ec' & H1 & H2 & H3).
        rewrite (nodup_fst_inj (P y) ec' ec Hn H1 Hec H2) in H3. contradiction.
      - assert (In (fst ec) out) by (apply Hout; exists ec; auto).
        apply Hmem in H. congruence. }
    apply G. auto.
  - set (bl := flat_map _ _).
    assert (Hge : forall ec, In ec bl -> next y <= fst ec).
    { intros [e c] Hin. unfold bl in Hin. apply in_flat_map in Hin.
      destruct Hin as (b & Hb & Hin). apply combine_in_r in Hin. destruct Hin as [Hin _].
      assert (Hs : In e (flat_map ids (blocks (next y)
                          (map (fun x => (x, sel y (P x))) (others n y))))).
      { apply in_flat_map. eauto. }
      rewrite blocks_ids in Hs. apply in_seq in Hs. cbn. lia. }
    clearbody bl. unfold embed. induction bl as [|ec bl IH]; [reflexivity|].
    cbn [map filter fst]. rewrite IH by (intros; apply Hge; now right).
    destruct (existsb (Nat.eqb (fst ec)) out) eqn:Ex; [|reflexivity]. exfalso.
    apply Hmem, Hout in Ex. destruct Ex as (ec' & H1 & H2 & _).
    pose proof (Hge ec (or_introl eq_refl)). pose proof (proj2 (Hp ec' H1)). lia.
Qed.

Lemma exchange_particles_result types next (P : nat -> list particle) :
  (forall x, x < n -> NoDup (map fst (P x))) ->
  (forall x ec, x < n -> In ec (P x) ->
     length (snd ec) = m /\ target ec < n /\ fst ec < next x) ->
  (forall t, In t types <-> t < m) ->
  (forall x, n <= x -> P x = []) ->
  exchange_particles n m owner types next (map (fun x => embed (P x)) (seq 0 n))
  = Some (map (fun y => embed (result next P y)) (seq 0 n)).
Proof.
  intros Hn Hp Ht Hx0. unfold exchange_particles.
  rewrite (all_ranks_map n _ (fun x => table n x (fun r => map fst (sel r (P x))))).
  2:{ intros x Hx. rewrite nth_map_seq by assumption. apply set_outgoing_table.
      intros ec Hec. now apply (Hp x ec). }
  set (outs := map _ (seq 0 n)).
  assert (Ho : forall x, x < n -> nth x outs [] = table n x (fun r => map fst (sel r (P x)))).
  { intros x Hx. unfold outs. now rewrite nth_map_seq. }
  clearbody outs.
  (* counts *)
  assert (Hnums : exists nums, all_ranks n (fun x => num_data n x (nth x outs [])) = Some nums
    /\ forall x y, x < n -> y < n -> y <> x ->
         addressed (nth x nums []) y = [length (sel y (P x))]).
  { assert (G : forall k, k <= n -> exists nums,
       opt_all (fun x => num_data n x (nth x outs [])) (seq 0 k) = Some nums /\ length nums = k
       /\ forall x y, x < k -> y < n -> y <> x ->
            addressed (nth x nums []) y = [length (sel y (P x))]).
    { induction k as [|k IH]; intro Hk; [exists []; repeat split; intros; lia|].
      destruct IH as (nums & E & Hl & Hnu); [lia|].
      destruct (num_data_spec k (fun r => map fst (sel r (P k)))) as (d & Ed & Hd & _).
      exists (nums ++ [d]). split; [|split].
      - rewrite seq_S, Nat.add_0_l. apply opt_all_Some_map in E. apply opt_all_Some_map.
        rewrite !map_app, E. cbn. now rewrite Ho, Ed by lia.
      - rewrite app_length. cbn. lia.
      - intros x y Hx Hy Hyx. destruct (Nat.eq_dec x k) as [->|Hne].
        + rewrite app_nth2 by lia. rewrite Hl, Nat.sub_diag. cbn [nth].
          rewrite Hd by auto. now rewrite map_length.
        + rewrite app_nth1 by lia. apply Hnu; lia. }
    destruct (G n (le_n n)) as (nums & E & _ & H). exists nums. split; [exact E|exact H]. }
  destruct Hnums as (nums & -> & Hnu).
  set (L := fun y => map (fun x => (x, sel y (P x))) (others n y)).
  (* spawning *)
  assert (Hsp : exists sps, all_ranks n (fun y => spawn_incoming n y (next y)
        (exchange_result n (fun x => nth x nums []) y)) = Some sps
    /\ forall y, y < n -> snd (nth y sps ([], [])) = flat_map ids (blocks (next y) (L y))
        /\ forall b, In b (blocks (next y) (L y)) ->
             dindex (fst (nth y sps ([], []))) (fst b) = Some (ids b)).
  { assert (G : forall k, k <= n -> exists sps,
       opt_all (fun y => spawn_incoming n y (next y)
         (exchange_result n (fun x => nth x nums []) y)) (seq 0 k) = Some sps /\ length sps = k
       /\ forall y, y < k -> snd (nth y sps ([], [])) = flat_map ids (blocks (next y) (L y))
          /\ forall b, In b (blocks (next y) (L y)) ->
               dindex (fst (nth y sps ([], []))) (fst b) = Some (ids b)).
    { induction k as [|k IH]; intro Hk; [exists []; split; [reflexivity|split; [reflexivity|intros; lia]]|].
      destruct IH as (sps & E & Hl & Hs); [lia|].
      assert (Hfst : map fst (L k) = others n k).
      { unfold L. rewrite map_map. cbn. apply map_id. }
      destruct (spawn_loop_blocks k (L k) (next k) _ _ (tab_closure n k [])) as (sp & Esp & Hb & _).
      { rewrite Hfst. apply nodup_others. }
      { rewrite Hfst. intros r Hr. now apply in_others. }
      exists (sps ++ [(sp, flat_map ids (blocks (next k) (L k)))]). split; [|split].
      - rewrite seq_S, Nat.add_0_l. apply opt_all_Some_map in E. apply opt_all_Some_map.
        rewrite !map_app, E. cbn [map app]. f_equal. f_equal. unfold spawn_incoming.
        rewrite dinto_iter_spec, exchange_result_table, diter_table. rewrite <- Esp. f_equal.
        unfold L. rewrite map_map. cbn [fst snd]. apply map_ext_in. intros x Hx.
        apply in_others in Hx. now rewrite Hnu by lia.
      - rewrite app_length. cbn. lia.
      - intros y Hy. destruct (Nat.eq_dec y k) as [->|Hne].
        + rewrite app_nth2 by lia. rewrite Hl, Nat.sub_diag. cbn [nth fst snd]. auto.
        + rewrite app_nth1 by lia. apply Hs. lia. }
    destruct (G n (le_n n)) as (sps & E & _ & H). exists sps. split; [exact E|exact H]. }
  destruct Hsp as (sps & -> & Hsps).
  (* buffers *)
  rewrite (all_ranks_map n _ (fun x => map (fun t => table n x (fun r => column t (sel r (P x)))) types)).
  2:{ intros x Hx. rewrite nth_map_seq, Ho by assumption. apply opt_all_map. intros t Htt.
      apply fill_buffers_table; [now apply Hn|]. intros r Hr Hrx. apply column_is.
      intros ec Hec. unfold sel in Hec. apply filter_In in Hec.
      destruct (Hp x ec Hx (proj1 Hec)) as [-> _]. now apply Ht. }
  set (bufs := map _ (seq 0 n)).
  assert (Hbufs : forall x, x < n -> nth x bufs []
    = map (fun t => table n x (fun r => column t (sel r (P x)))) types).
  { intros x Hx. unfold bufs. now rewrite nth_map_seq. }
  clearbody bufs.
  apply all_ranks_map. intros y Hy. rewrite nth_map_seq, Ho by assumption. cbv zeta.
  destruct (Hsps y Hy) as [Hids Hidx]. rewrite Hids.
  assert (Hblk : forall b, In b (blocks (next y) (L y)) ->
    length (ids b) = length (datas b) /\ datas b = map snd (sel y (P (fst b)))
    /\ (forall c, In c (datas b) -> length c = m)).
  { intros b Hb. destruct (blocks_in _ _ _ Hb) as (ps & H1 & H2 & H3). split; [exact H3|].
    unfold L in H1. apply in_map_iff in H1. destruct H1 as (x & E & Hx). injection E as Ex <-.
    subst x. split; [exact H2|]. intros c Hc. rewrite H2 in Hc.
    apply in_map_iff in Hc. destruct Hc as (ec & <- & Hec). unfold sel in Hec.
    apply filter_In in Hec. apply in_others in Hx.
    apply (Hp (fst b) ec); [lia|tauto]. }
  assert (E0 : map (fun e => (e, repeat (@None V) m)) (flat_map ids (blocks (next y) (L y)))
    = flat_map (block_world []) (blocks (next y) (L y))).
  { clear - Hblk. induction (blocks (next y) (L y)) as [|b B IH]; [reflexivity|].
    cbn [flat_map]. rewrite map_app, IH by (intros; apply Hblk; now right). f_equal.
    destruct (Hblk b (or_introl eq_refl)) as [Hl _]. unfold block_world.
    clear - Hl. revert Hl. generalize (ids b) (datas b). intros es. induction es as [|e es IH];
      intros [|c ds] Hl; try discriminate; [reflexivity|].
    cbn [map combine]. rewrite received_nil. f_equal. apply IH. now injection Hl. }
  rewrite E0.
  rewrite (exchange_types_blocks y _ (blocks (next y) (L y)) (embed (P y)) types P []).
  - f_equal. rewrite <- (despawn_result next P y Hy); [|now apply Hn|].
    2:{ intros ec Hec. destruct (Hp y ec Hy Hec) as (_ & H1 & H2). auto. }
    f_equal. f_equal. fold (L y). rewrite app_nil_r.
    clear - Hblk Ht. induction (blocks (next y) (L y)) as [|b B IH]; [reflexivity|].
    cbn [flat_map]. unfold embed. rewrite map_app. fold (embed (flat_map (fun b => combine (ids b) (datas b)) B)).
    rewrite IH by (intros; apply Hblk; now right). f_equal.
    unfold block_world. rewrite (map_ext_in (received (rev types)) (fun c : list V => map Some c) (datas b)).
    + apply combine_map_r.
    + intros c Hc. apply received_all.
      * intros t Htm. apply in_rev. rewrite rev_involutive. now apply Ht.
      * destruct (Hblk b (or_introl eq_refl)) as (_ & _ & H). now apply H.
  - intros b Hb. split; [now apply Hidx|]. now apply Hblk.
  - unfold embed. rewrite map_map. cbn [fst]. rewrite blocks_ids.
    assert (Hs : forall k, NoDup (map fst (P y) ++ seq (next y) k)).
    { intro k. assert (Hlt : forall e, In e (map fst (P y)) -> e < next y).
      { intros e He. apply in_map_iff in He. destruct He as (ec & <- & Hec).
        now apply (Hp y ec). }
      specialize (Hn y Hy). revert Hn Hlt. generalize (map fst (P y)). intro l.
      induction l as [|e l IH]; intros Hnd Hlt; [apply seq_NoDup|].
      inversion Hnd; subst. cbn. constructor.
      - rewrite in_app_iff, in_seq. specialize (Hlt e (or_introl eq_refl)). intros [H|H]; [tauto|lia].
      - apply IH; auto. intros e' He'. apply Hlt. now right. }
    apply Hs.
  - rewrite blocks_fst. unfold L. rewrite map_map. cbn. apply map_id.
  - intros b Hb. now apply Hblk.
  - intros t x ec Htt Hec. destruct (Nat.lt_ge_cases x n) as [Hx|Hx].
    + destruct (Hp x ec Hx Hec) as [-> _]. now apply Ht.
    + rewrite Hx0 in Hec by assumption. destruct Hec.
  - exact Hbufs.
  - exact Hy.
Qed.

(** ** Conservation *)

Lemma flat_map_app_perm {A B} (f g : A -> list B) l :
  Permutation (flat_map (fun x => f x ++ g x) l) (flat_map f l ++ flat_map g l).
Proof.
  induction l as [|a l IH]; [reflexivity|]. cbn. rewrite IH. rewrite !app_assoc.
  apply Permutation_app_tail. rewrite <- !app_assoc. apply Permutation_app_head, Permutation_app_comm.
Qed.

Lemma flat_map_nil {A B} (l : list A) : flat_map (fun _ => @nil B) l = [].
Proof. induction l; auto. Qed.

Lemma flat_map_swap {A B C} (g : A -> B -> list C) xs ys :
  Permutation (flat_map (fun y => flat_map (fun x => g x y) xs) ys)
              (flat_map (fun x => flat_map (g x) ys) xs).
Proof.
  induction ys as [|y ys IH]; cbn [flat_map].
  - now rewrite flat_map_nil.
  - rewrite IH. symmetry. apply (flat_map_app_perm (fun x => g x y) (fun x => flat_map (g x) ys)).
Qed.

Lemma sel_partition (w : list particle) k : (forall ec, In ec w -> target ec < k) ->
  Permutation (flat_map (fun r => sel r w) (seq 0 k)) w.
Proof.
  induction w as [|ec w IH]; intro H;
    [change (Permutation (flat_map (fun _ => @nil particle) (seq 0 k)) []); now rewrite flat_map_nil|].
  transitivity (ec :: flat_map (fun r => sel r w) (seq 0 k)).
  2:{ constructor. apply IH. intros; apply H; now right. }
  assert (Hk : target ec < k) by (apply H; now left).
  assert (E : seq 0 k = seq 0 (target ec) ++ target ec :: seq (S (target ec)) (k - S (target ec))).
  { replace k with (target ec + S (k - S (target ec))) at 1 by lia. now rewrite seq_app. }
  rewrite E, !flat_map_app. cbn [flat_map]. unfold sel at 2. cbn [filter]. rewrite Nat.eqb_refl.
  assert (Hoff : forall l, ~ In (target ec) l ->
    flat_map (fun r => sel r (ec :: w)) l = flat_map (fun r => sel r w) l).
  { induction l as [|r l IHl]; intro Hl; [reflexivity|]. cbn [flat_map].
    rewrite IHl by (intro; apply Hl; now right). f_equal. unfold sel. cbn [filter].
    destruct (Nat.eqb_spec (target ec) r); [|reflexivity]. exfalso. apply Hl. now left. }
  rewrite !Hoff by (rewrite in_seq; lia). cbn [app]. symmetry. apply Permutation_middle.
Qed.

Lemma flat_map_others {B} (f : nat -> list B) y : y < n ->
  Permutation (f y ++ flat_map f (others n y)) (flat_map f (seq 0 n)).
Proof.
  intro Hy. unfold others.
  assert (E : seq 0 n = seq 0 y ++ y :: seq (S y) (n - S y)).
  { replace n with (y + S (n - S y)) at 1 by lia. now rewrite seq_app. }
  rewrite E, filter_app, !flat_map_app. cbn [filter flat_map]. rewrite Nat.eqb_refl. cbn [negb].
  assert (Hf : forall l, ~ In y l -> filter (fun z => negb (z =? y)) l = l).
  { induction l as [|a l IH]; intro H; [reflexivity|]. cbn.
    destruct (Nat.eqb_spec a y); [exfalso; apply H; now left|]. cbn. f_equal. apply IH.
    intro; apply H; now right. }
  rewrite !Hf by (rewrite in_seq; lia). rewrite !app_assoc.
  apply Permutation_app_tail, Permutation_app_comm.
Qed.

Lemma map_flat_map {A B C} (f : B -> C) (g : A -> list B) l :
  map f (flat_map g l) = flat_map (fun x => map f (g x)) l.
Proof. induction l as [|a l IH]; [reflexivity|]. cbn. now rewrite map_app, IH. Qed.

Lemma result_data next P y :
  map snd (result next P y)
  = map snd (sel y (P y)) ++ flat_map (fun x => map snd (sel y (P x))) (others n y).
Proof.
  unfold result. rewrite map_app. f_equal. generalize (next y). generalize (others n y).
  induction l as [|x l IH]; intro k; [reflexivity|]. cbn [map blocks flat_map ids datas fst snd].
  rewrite map_app, IH. f_equal.
  assert (G : forall (es : list nat) (cs : list (list V)), length es = length cs ->
    map snd (combine es cs) = cs).
  { induction es as [|e es IHe]; intros [|c cs] H; try discriminate; [reflexivity|].
    cbn. f_equal. apply IHe. now injection H. }
  apply G. now rewrite seq_length, map_length.
Qed.

Lemma result_conserves next P :
  (forall x ec, x < n -> In ec (P x) -> target ec < n) ->
  Permutation (map snd (flat_map P (seq 0 n))) (map snd (flat_map (result next P) (seq 0 n))).
Proof.
  intro H. rewrite (map_flat_map snd (result next P)).
  rewrite (flat_map_ext _ _ (fun y => result_data next P y)).
  transitivity (flat_map (fun y => flat_map (fun x => map snd (sel y (P x))) (seq 0 n)) (seq 0 n)).
  - rewrite (flat_map_swap (fun x y => map snd (sel y (P x)))).
    rewrite map_flat_map.
    assert (G : forall l, (forall x, In x l -> x < n) ->
      Permutation (flat_map (fun x => map snd (P x)) l)
        (flat_map (fun x => flat_map (fun y => map snd (sel y (P x))) (seq 0 n)) l)).
    { induction l as [|x l IH]; intro Hl; [reflexivity|]. cbn [flat_map].
      apply Permutation_app; [|apply IH; intros; apply Hl; now right].
      rewrite <- map_flat_map. apply Permutation_map. symmetry. apply sel_partition.
      intros ec Hec. apply (H x); [apply Hl; now left|exact Hec]. }
    apply G. intros x Hx. apply in_seq in Hx. lia.
  - assert (G : forall l, (forall x, In x l -> x < n) ->
      Permutation (flat_map (fun y => flat_map (fun x => map snd (sel y (P x))) (seq 0 n)) l)
        (flat_map (fun y => map snd (sel y (P y)) ++ flat_map (fun x => map snd (sel y (P x))) (others n y)) l)).
    { induction l as [|y l IH]; intro Hl; [reflexivity|]. cbn [flat_map].
      apply Permutation_app; [|apply IH; intros; apply Hl; now right].
      symmetry. apply (flat_map_others (fun x => map snd (sel y (P x)))). apply Hl. now left. }
    apply G. intros x Hx. apply in_seq in Hx. lia.
Qed.

Lemma result_in next P y ec : In ec (result next P y) ->
  target ec = y /\ (In ec (sel y (P y)) \/ next y <= fst ec).
Proof.
  unfold result. intro H. apply in_app_iff in H. destruct H as [H|H].
  - split; [|now left]. unfold sel in H. apply filter_In in H. now apply Nat.eqb_eq.
  - apply in_flat_map in H. destruct H as (b & Hb & Hin).
    destruct (blocks_in _ _ _ Hb) as (ps & H1 & H2 & H3). destruct ec as [e c].
    apply combine_in_r in Hin. destruct Hin as [He Hc]. split.
    + rewrite H2 in Hc. apply in_map_iff in H1. destruct H1 as (x & E & _). injection E as _ <-.
      apply in_map_iff in Hc. destruct Hc as (ec' & <- & Hec). unfold sel in Hec.
      apply filter_In in Hec. apply Nat.eqb_eq. exact (proj2 Hec).
    + right. assert (Hs : In e (flat_map ids (blocks (next y)
                          (map (fun x => (x, sel y (P x))) (others n y)))))
        by (apply in_flat_map; eauto).
      rewrite blocks_ids in Hs. apply in_seq in Hs. cbn. lia.
Qed.

Lemma result_nodup next P y : NoDup (map fst (P y)) ->
  (forall ec, In ec (P y) -> fst ec < next y) -> NoDup (map fst (result next P y)).
Proof.
  intros Hn Hlt. unfold result. rewrite map_app.
  assert (E : map fst (flat_map (fun b => combine (ids b) (datas b))
      (blocks (next y) (map (fun x => (x, sel y (P x))) (others n y))))
    = flat_map ids (blocks (next y) (map (fun x => (x, sel y (P x))) (others n y)))).
  { rewrite map_flat_map.
    assert (G : forall B : list block, (forall b, In b B -> length (ids b) = length (datas b)) ->
      flat_map (fun b => map fst (combine (ids b) (datas b))) B = flat_map ids B).
    { induction B as [|b B IH]; intro H; [reflexivity|]. cbn [flat_map].
      rewrite IH by (intros; apply H; now right). f_equal. apply map_fst_combine. apply H. now left. }
    apply G. intros b Hb. destruct (blocks_in _ _ _ Hb) as (ps & _ & _ & H). exact H. }
  rewrite blocks_ids in E.
  match goal with |- NoDup (_ ++ ?z) => let e := type of E in
    match e with _ = ?r => replace z with r by (symmetry; exact E) end end. clear E.
  assert (Hs : NoDup (map fst (sel y (P y)))).
  { unfold sel. clear - Hn. induction (P y) as [|ec w IH]; [constructor|]. cbn in Hn.
    inversion Hn as [|? ? Hni Hn']; subst. cbn [filter]. destruct (target ec =? y); [|auto].
    cbn. constructor; [|auto]. intro H. apply Hni. apply in_map_iff in H.
    destruct H as (e & E & He). apply in_map_iff. exists e. split; [exact E|].
    now apply filter_In in He. }
  assert (Hl : forall e, In e (map fst (sel y (P y))) -> e < next y).
  { intros e He. apply in_map_iff in He. destruct He as (ec & <- & Hec). unfold sel in Hec.
    apply filter_In in Hec. now apply Hlt. }
  revert Hs Hl. generalize (map fst (sel y (P y))). intro l. induction l as [|e l IH]; intros Hs Hl.
  - apply seq_NoDup.
  - inversion Hs; subst. cbn. constructor.
    + rewrite in_app_iff, in_seq. specialize (Hl e (or_introl eq_refl)). intros [H'|H']; [tauto|lia].
    + apply IH; auto. intros e' He'. apply Hl. now right.
Qed.

End Exchange.

Lemma particles_conserved {V} n m (owner : comps V -> nat) types next
    (ps : list (list (nat * list V))) :
  length ps = n ->
  (forall w, In w ps -> NoDup (map fst w)) ->
  (forall x w e c, nth_error ps x = Some w -> In (e, c) w ->
     length c = m /\ owner (map Some c) < n /\ e < next x) ->
  (forall t, In t types <-> t < m) ->
  exists qs,
    exchange_particles n m owner types next (map embed ps) = Some (map embed qs)
    /\ length qs = n
    /\ Permutation (map snd (concat ps)) (map snd (concat qs))
    /\ forall x w, nth_error qs x = Some w ->
         NoDup (map fst w)
         /\ (forall e c, In (e, c) w -> owner (map Some c) = x)
         /\ (forall w0 e c, nth_error ps x = Some w0 -> In (e, c) w0 ->
               owner (map Some c) = x -> In (e, c) w).
Proof.
  intros Hl Hn Hp Ht. set (P := fun x => nth x ps []).
  assert (Eps : ps = map P (seq 0 n)).
  { apply nth_error_ext; [now rewrite map_length, seq_length|]. intros i Hi.
    rewrite nth_error_map, (nth_error_nth' (seq 0 n) 0) by (rewrite seq_length; lia).
    rewrite seq_nth by lia. cbn. unfold P. now apply nth_error_nth'. }
  assert (HP : forall x, x < n -> nth_error ps x = Some (P x)).
  { intros x Hx. unfold P. apply nth_error_nth'. lia. }
  assert (H1 : forall x, x < n -> NoDup (map fst (P x))).
  { intros x Hx. apply Hn. apply (nth_error_In ps x). now apply HP. }
  assert (H2 : forall x ec, x < n -> In ec (P x) ->
    length (snd ec) = m /\ target owner ec < n /\ fst ec < next x).
  { intros x [e c] Hx Hec. exact (Hp x (P x) e c (HP x Hx) Hec). }
  assert (H3 : forall x, n <= x -> P x = []) by (intros x Hx; apply nth_overflow; lia).
  exists (map (result n owner next P) (seq 0 n)). split; [|split; [|split]].
  - rewrite Eps, !map_map. now apply exchange_particles_result.
  - now rewrite map_length, seq_length.
  - rewrite Eps at 1. rewrite <- !flat_map_concat_map. apply result_conserves.
    intros x ec Hx Hec. now apply (H2 x ec).
  - intros x w Hw. assert (Hx : x < n).
    { assert (H : nth_error (map (result n owner next P) (seq 0 n)) x <> None) by congruence.
      apply nth_error_Some in H. now rewrite map_length, seq_length in H. }
    rewrite nth_error_map, (nth_error_nth' (seq 0 n) 0) in Hw by now rewrite seq_length.
    rewrite seq_nth in Hw by assumption. cbn in Hw. injection Hw as <-. split; [|split].
    + apply result_nodup; [now apply H1|]. intros ec Hec. now apply (H2 x ec).
    + intros e c Hin. exact (proj1 (result_in n owner next P x (e, c) Hin)).
    + intros w0 e c Hw0 Hin Ho. rewrite (HP x Hx) in Hw0. injection Hw0 as <-.
      unfold result. apply in_app_iff. left. unfold sel. apply filter_In.
      split; [exact Hin|]. now apply Nat.eqb_eq.
Qed.

(** The data passed to [exchange_all] names all other ranks and only those. *)
Lemma exchanged_data_complete {V} n (owner : comps V -> nat) x t (w : list (nat * list V)) :
  x < n -> NoDup (map fst w) ->
  (forall e c, In (e, c) w -> owner (map Some c) < n /\ t < length c) ->
  exists out counts buffers,
    set_outgoing n owner x (embed w) = Some out
    /\ num_data n x out = Some counts
    /\ names_others n x counts /\ names_all_others n x counts
    /\ fill_buffers n x t (embed w) out = Some buffers
    /\ names_others n x buffers /\ names_all_others n x buffers.
Proof.
  intros Hx Hn Hw. exists (table n x (fun r => map fst (sel owner r w))).
  destruct (num_data_spec n x (fun r => map fst (sel owner r w))) as (d & Ed & _ & D1 & D2).
  exists d, (table n x (fun r => column t (sel owner r w))).
  destruct (table_names n x (fun r => column t (sel owner r w))) as [T1 T2].
  split; [apply set_outgoing_table; intros [e c] Hec; now apply (Hw e c)|].
  split; [exact Ed|]. split; [exact D1|]. split; [exact D2|].
  split; [|split; assumption].
  apply fill_buffers_table; [exact Hn|]. intros r Hr Hrx. apply column_is.
  intros [e c] Hec. unfold sel in Hec. apply filter_In in Hec. now apply (Hw e c).
Qed.
