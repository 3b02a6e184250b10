From Coq Require Import List Arith Bool Lia Permutation.
Import ListNotations.
From Verif Require Import Timestep_Model Timestep_Spec.

Lemma list_update_some {A} (f : A -> A) : forall l i, i < length l -> list_update i f l = Some (ref_update i f l).
Proof.
  induction l as [|x l IH]; intros i Hi; simpl in *; [lia|].
  destruct i; simpl; [easy|]. rewrite IH by lia. easy.
Qed.

Lemma list_update_none {A} (f : A -> A) : forall l i, length l <= i -> list_update i f l = None.
Proof.
  induction l as [|x l IH]; intros i Hi; simpl in *; [destruct i; easy|].
  destruct i; simpl; [lia|]. rewrite IH by lia. easy.
Qed.

Lemma list_update_inv {A} (f : A -> A) l i l' :
  list_update i f l = Some l' -> i < length l /\ l' = ref_update i f l.
Proof.
  intros H. destruct (Nat.lt_ge_cases i (length l)) as [Hlt|Hge].
  - rewrite list_update_some in H by easy. injection H as <-. easy.
  - rewrite list_update_none in H by easy. discriminate.
Qed.

Lemma ref_update_length {A} (f : A -> A) : forall l i, length (ref_update i f l) = length l.
Proof. induction l as [|x l IH]; intros [|i]; simpl; auto. Qed.

Lemma ref_update_map {A B} (g : A -> B) (f : A -> A) (f' : B -> B) :
  (forall a, g (f a) = f' (g a)) ->
  forall l i, map g (ref_update i f l) = ref_update i f' (map g l).
Proof.
  intros H. induction l as [|x l IH]; intros [|i]; simpl; rewrite ?H, ?IH; auto.
Qed.

Lemma ref_update_id {A} : forall (l : list A) i, ref_update i (fun x => x) l = l.
Proof. induction l as [|x l IH]; intros [|i]; simpl; rewrite ?IH; auto. Qed.

Lemma list_update_concat {A} (x : A) : forall bins l bins' lvl,
  list_update l (fun b => b ++ [x]) bins = Some bins' ->
  Permutation (concat (skipn lvl bins')) (concat (skipn lvl bins) ++ (if lvl <=? l then [x] else [])).
Proof.
  induction bins as [|b bins IH]; intros l bins' lvl H; [destruct l; discriminate|].
  destruct l as [|l]; simpl in H.
  - injection H as <-. destruct lvl as [|lvl]; simpl.
    + rewrite <- !app_assoc. apply Permutation_app_head. apply Permutation_app_comm.
    + rewrite app_nil_r. easy.
  - destruct (list_update l _ bins) as [bins1|] eqn:E; [|discriminate]. injection H as <-.
    destruct lvl as [|lvl]; simpl.
    + specialize (IH _ _ 0 E). simpl in IH. rewrite <- app_assoc. apply Permutation_app_head. easy.
    + apply IH. easy.
Qed.

Lemma list_update_length {A} (f : A -> A) l i l' : list_update i f l = Some l' -> length l' = length l.
Proof. intros H. apply list_update_inv in H. destruct H as (_ & ->). apply ref_update_length. Qed.

(** Indices, counted from [i], with a level of at least [lvl]. *)
Fixpoint active_idx (i lvl : nat) (levels : list nat) : list nat :=
  match levels with
  | [] => []
  | l :: ls => if lvl <=? l then i :: active_idx (S i) lvl ls else active_idx (S i) lvl ls
  end.

Lemma fill_bins_spec : forall levels i bins bins' lvl,
  fill_bins i levels bins = Some bins' ->
  length bins' = length bins
  /\ Permutation (concat (skipn lvl bins')) (concat (skipn lvl bins) ++ active_idx i lvl levels).
Proof.
  induction levels as [|l ls IH]; intros i bins bins' lvl H; simpl in H.
  - injection H as <-. simpl. rewrite app_nil_r. easy.
  - destruct (list_update l _ bins) as [b1|] eqn:E; [|discriminate].
    destruct (IH _ _ _ lvl H) as (Hl & Hp). split; [rewrite Hl; eapply list_update_length; eauto|].
    rewrite Hp, (list_update_concat _ _ _ _ lvl E). rewrite <- app_assoc.
    apply Permutation_app_head. simpl. destruct (lvl <=? l); easy.
Qed.

Lemma fill_bins_some : forall levels i bins,
  Forall (fun l => l < length bins) levels -> exists bins', fill_bins i levels bins = Some bins'.
Proof.
  induction levels as [|l ls IH]; intros i bins H; simpl; [eauto|].
  inversion H; subst. rewrite list_update_some by easy. apply IH. rewrite ref_update_length. easy.
Qed.

Lemma fill_bins_levels : forall levels i bins bins',
  fill_bins i levels bins = Some bins' -> Forall (fun l => l < length bins) levels.
Proof.
  induction levels as [|l ls IH]; intros i bins bins' H; simpl in H; [constructor|].
  destruct (list_update l _ bins) as [b1|] eqn:E; [|discriminate].
  pose proof (list_update_inv _ _ _ _ E) as (Hl & Hb). constructor; [easy|].
  rewrite <- (list_update_length _ _ _ _ E). eauto.
Qed.

Lemma concat_repeat_nil {A} n lvl : concat (skipn lvl (repeat (@nil A) n)) = [].
Proof.
  revert lvl. induction n as [|n IH]; intros lvl; simpl; [destruct lvl; easy|].
  destruct lvl; simpl; [apply (IH 0)|apply IH].
Qed.

(** Invariant: the concrete list represents the reference list. *)
Definition represents {T} (a : active_list T) (r : ref_list T) : Prop :=
  al_items a = map fst (fst r) /\ al_levels a = map snd (fst r) /\ al_valid a = snd r
  /\ (snd r = true ->
        length (al_bins a) = al_max a
        /\ Forall (fun l => l < al_max a) (al_levels a)
        /\ forall lvl, Permutation (concat (skipn lvl (al_bins a))) (active_idx 0 lvl (al_levels a))).

Lemma update_bins_represents {T} (a a' : active_list T) r :
  represents a r -> update_bins a = Some a' ->
  represents a' (fst r, true) /\ al_max a' = al_max a /\ al_rank a' = al_rank a.
Proof.
  intros (H1 & H2 & H3 & H4) H. unfold update_bins in H.
  destruct (fill_bins 0 (al_levels a) _) as [bins|] eqn:E; [|discriminate]. injection H as <-.
  split; [|easy]. split; [easy|]. split; [easy|]. split; [easy|]. intros _. simpl.
  destruct (fill_bins_spec _ _ _ _ 0 E) as (Hl & _). rewrite repeat_length in Hl.
  pose proof (fill_bins_levels _ _ _ _ E) as Hf. rewrite repeat_length in Hf.
  split; [easy|]. split; [easy|]. intros lvl.
  destruct (fill_bins_spec _ _ _ _ lvl E) as (_ & Hp). rewrite concat_repeat_nil in Hp. easy.
Qed.

Lemma step_represents {T} (a a' : active_list T) r o :
  represents a r -> al_step a o = Some a' ->
  represents a' (ref_step r o) /\ al_max a' = al_max a /\ al_rank a' = al_rank a.
Proof.
  intros Hr H. destruct o as [i l|i f|]; simpl in *.
  - unfold set_level in H. destruct (list_update i _ (al_levels a)) as [ls|] eqn:E; [|discriminate].
    injection H as <-. apply list_update_inv in E. destruct E as (Hi & ->).
    destruct Hr as (H1 & H2 & H3 & H4). split; [|easy]. split; [|split; [|split]]; simpl.
    + rewrite H1. rewrite (ref_update_map fst _ (fun x => x)) by easy. rewrite ref_update_id. easy.
    + rewrite H2. rewrite (ref_update_map snd _ (fun _ => l)) by easy. easy.
    + easy.
    + discriminate.
  - unfold set_item in H. destruct (list_update i _ (al_items a)) as [ls|] eqn:E; [|discriminate].
    injection H as <-. apply list_update_inv in E. destruct E as (Hi & ->).
    destruct Hr as (H1 & H2 & H3 & H4). split; [|easy]. split; [|split; [|split]]; simpl.
    + rewrite H1. rewrite (ref_update_map fst _ f) by easy. easy.
    + rewrite H2. rewrite (ref_update_map snd _ (fun x => x)) by easy. rewrite ref_update_id. easy.
    + easy.
    + easy.
  - eapply update_bins_represents; eauto.
Qed.

Lemma run_represents {T} : forall ops (a a' : active_list T) r,
  represents a r -> al_run a ops = Some a' ->
  represents a' (fold_left ref_step ops r) /\ al_max a' = al_max a /\ al_rank a' = al_rank a.
Proof.
  induction ops as [|o ops IH]; intros a a' r Hr H; simpl in *.
  - injection H as <-. easy.
  - destruct (al_step a o) as [a1|] eqn:E; [|discriminate].
    destruct (step_represents _ _ _ _ Hr E) as (H1 & H2 & H3).
    destruct (IH _ _ _ H1 H) as (G1 & G2 & G3). split; [easy|]. split; congruence.
Qed.

Lemma sequence_perm {A B} (f : A -> option B) : forall l l',
  Permutation l l' -> forall r', sequence (map f l') = Some r' ->
  exists r, sequence (map f l) = Some r /\ Permutation r r'.
Proof.
  assert (Hc : forall x (l : list A), sequence (map f (x :: l)) =
    match f x with Some a => match sequence (map f l) with Some r => Some (a :: r) | None => None end | None => None end).
  { intros x l. simpl. destruct (f x); easy. }
  induction 1 as [|x l l' HP IH|x y l|l1 l2 l3 H12 IH12 H23 IH23]; intros r' H.
  - exists []. simpl in *. injection H as <-. easy.
  - rewrite Hc in *. destruct (f x); [|discriminate].
    destruct (sequence (map f l')) as [r0|] eqn:E; [|discriminate]. injection H as <-.
    destruct (IH _ eq_refl) as (r & -> & Hr). eexists. split; [reflexivity|]. constructor. easy.
  - rewrite !Hc in *. destruct (f x) as [fx|]; [|discriminate]. destruct (f y) as [fy|]; [|discriminate].
    destruct (sequence (map f l)) as [r0|]; [|discriminate]. injection H as <-.
    eexists. split; [reflexivity|]. constructor.
  - destruct (IH23 _ H) as (r2 & E2 & P2). destruct (IH12 _ E2) as (r1 & E1 & P1).
    exists r1. split; [easy|]. etransitivity; eauto.
Qed.

Lemma sequence_active {T} rank (items all : list T) : forall l pre lvl,
  all = pre ++ map fst l ->
  sequence (map (fun i => option_map (fun t => ((rank, i), t)) (nth_error all i))
              (active_idx (length pre) lvl (map snd l)))
  = Some (ref_active rank (length pre) lvl l).
Proof.
  induction l as [|[t lv] l IH]; intros pre lvl E; simpl; [easy|].
  assert (E' : all = (pre ++ [t]) ++ map fst l) by (rewrite <- app_assoc; exact E).
  specialize (IH (pre ++ [t]) lvl E'). rewrite app_length in IH. simpl in IH. rewrite Nat.add_1_r in IH.
  destruct (lvl <=? lv); [|exact IH]. simpl.
  rewrite E at 1. rewrite nth_error_app2, Nat.sub_diag by lia. simpl. rewrite IH. easy.
Qed.

Lemma enumerate_represents {T} (a : active_list T) r lvl :
  represents a r -> lvl <= al_max a ->
  if snd r then
    exists res, enumerate_active a lvl = Some res
      /\ Permutation res (ref_active (al_rank a) 0 lvl (fst r))
  else enumerate_active a lvl = None.
Proof.
  intros (H1 & H2 & H3 & H4) Hlvl. unfold enumerate_active. rewrite H3.
  destruct (snd r) eqn:E; simpl; [|easy].
  destruct (H4 eq_refl) as (Hlen & Hf & Hp). rewrite Hlen.
  destruct (Nat.leb_spec lvl (al_max a)); [|lia]. rewrite Nat.leb_refl. simpl.
  rewrite <- Hlen, firstn_all.
  eapply sequence_perm; [apply Hp|].
  rewrite H2, H1. apply (sequence_active (al_rank a) (al_items a) _ (fst r) []). easy.
Qed.

Lemma sequence_length {A} : forall (l : list (option A)) r, sequence l = Some r -> length r = length l.
Proof.
  induction l as [|[a|] l IH]; intros r H; simpl in H; try discriminate.
  - injection H as <-. easy.
  - destruct (sequence l) eqn:E; [|discriminate]. injection H as <-. simpl. f_equal. auto.
Qed.

Lemma sequence_nth {A} : forall (l : list (option A)) r i, sequence l = Some r -> i < length l ->
  nth_error l i = Some (nth_error r i).
Proof.
  induction l as [|[a|] l IH]; intros r i H Hi; simpl in H; try discriminate; [simpl in Hi; lia|].
  destruct (sequence l) eqn:E; [|discriminate]. injection H as <-.
  destruct i; simpl in *; [easy|]. apply IH; [easy|lia].
Qed.

Lemma new_represents {T} (m : list ((nat * nat) * T)) mx init a :
  al_new m mx init = Some a ->
  exists items, represents a (map (fun t => (t, init)) items, true)
    /\ al_max a = mx
    /\ length items = length m
    /\ (forall e, In e m -> fst (fst e) = al_rank a)
    /\ (forall i, i < length m -> nth_error items i = al_lookup m (al_rank a, i)).
Proof.
  intros H. unfold al_new in H. destruct m as [|[[rank i0] t0] m0] eqn:Em; [discriminate|].
  rewrite <- Em in *. destruct (forallb _ m) eqn:Ef; [|discriminate].
  destruct (sequence _) as [items|] eqn:Es; [|discriminate].
  exists items.
  assert (Hlen : length items = length m).
  { apply sequence_length in Es. rewrite map_length, seq_length in Es. easy. }
  assert (Hrep : represents (mkAl items (repeat init (length m)) mx false [] rank)
                   (map (fun t => (t, init)) items, false)).
  { split; [|split; [|split]]; simpl; try easy.
    - rewrite map_map. simpl. rewrite map_id. easy.
    - rewrite map_map. simpl. rewrite <- Hlen. clear. induction items; simpl; congruence. }
  destruct (update_bins_represents _ _ _ Hrep H) as (Hr & Hm & Hrk). simpl in *.
  split; [easy|]. split; [easy|]. split; [easy|]. rewrite Hrk. split.
  - rewrite forallb_forall in Ef. intros e He. apply Ef in He. apply Nat.eqb_eq in He. easy.
  - intros i Hi. pose proof (sequence_nth _ _ i Es) as Hn.
    rewrite map_length, seq_length in Hn. specialize (Hn Hi).
    rewrite nth_error_map in Hn. rewrite (nth_error_nth' _ 0) in Hn by (rewrite seq_length; easy).
    rewrite seq_nth in Hn by easy. simpl in Hn. injection Hn as Hn. congruence.
Qed.

Lemma active_list_exact {T} (m : list ((nat * nat) * T)) mx init a ops a' :
  al_new m mx init = Some a -> al_run a ops = Some a' ->
  exists items,
    length items = length m
    /\ (forall i, i < length m -> nth_error items i = al_lookup m (al_rank a, i))
    /\ let r := fold_left ref_step ops (map (fun t => (t, init)) items, true) in
       forall lvl, lvl <= mx ->
         if snd r then
           exists res, enumerate_active a' lvl = Some res
             /\ Permutation res (ref_active (al_rank a) 0 lvl (fst r))
         else enumerate_active a' lvl = None.
Proof.
  intros Hn Hrun. destruct (new_represents _ _ _ _ Hn) as (items & Hr & Hm & Hl & _ & Hi).
  destruct (run_represents _ _ _ _ Hr Hrun) as (Hr' & Hm' & Hrk).
  exists items. split; [easy|]. split; [easy|]. intros r lvl Hlvl.
  rewrite <- Hrk. apply enumerate_represents; [easy|lia].
Qed.

Lemma update_bins_total {T} (a : active_list T) :
  (exists a', update_bins a = Some a') <-> Forall (fun l => l < al_max a) (al_levels a).
Proof.
  unfold update_bins. split.
  - intros (a' & H). destruct (fill_bins 0 (al_levels a) _) as [bins|] eqn:E; [|discriminate].
    apply fill_bins_levels in E. rewrite repeat_length in E. easy.
  - intros H. destruct (fill_bins_some (al_levels a) 0 (repeat [] (al_max a))) as (b & E).
    { rewrite repeat_length. easy. } rewrite E. eauto.
Qed.

Lemma ref_active_spec {T} rank lvl : forall (l : list (T * nat)) i id t,
  In (id, t) (ref_active rank i lvl l)
  <-> exists k lv, id = (rank, i + k) /\ nth_error l k = Some (t, lv) /\ lvl <= lv.
Proof.
  induction l as [|[t0 lv0] l IH]; intros i id t; simpl.
  - split; [easy|]. intros (k & lv & _ & H & _). destruct k; discriminate.
  - assert (Hiff : In (id, t) (ref_active rank (S i) lvl l) <->
      exists k lv, id = (rank, i + S k) /\ nth_error l k = Some (t, lv) /\ lvl <= lv).
    { rewrite IH. split; intros (k & lv & E & H); exists k, lv; (split; [rewrite E; f_equal; lia|easy]). }
    destruct (Nat.leb_spec lvl lv0) as [Hle|Hlt].
    + simpl. rewrite Hiff. split.
      * intros [E|(k & lv & H)].
        { injection E as <- <-. exists 0, lv0. rewrite Nat.add_0_r. easy. }
        { exists (S k), lv. easy. }
      * intros ([|k] & lv & E & H & Hlv); simpl in H.
        { injection H as <- <-. left. rewrite E, Nat.add_0_r. easy. }
        { right. exists k, lv. easy. }
    + rewrite Hiff. split.
      * intros (k & lv & H). exists (S k), lv. easy.
      * intros ([|k] & lv & E & H & Hlv); simpl in H; [injection H as <- <-; lia|]. exists k, lv. easy.
Qed.

Lemma ref_active_NoDup {T} rank lvl : forall (l : list (T * nat)) i,
  NoDup (map fst (ref_active rank i lvl l)).
Proof.
  induction l as [|[t lv] l IH]; intros i; simpl; [constructor|].
  destruct (lvl <=? lv); [|apply IH]. simpl. constructor; [|apply IH].
  intros Hin. apply in_map_iff in Hin. destruct Hin as ([id t'] & E & Hin). simpl in E. subst id.
  apply ref_active_spec in Hin. destruct Hin as (k & lv' & E & _). injection E. lia.
Qed.
