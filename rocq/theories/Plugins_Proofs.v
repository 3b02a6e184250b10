From Coq Require Import String Bool Arith List Permutation Lia.
From Verif Require Import Plugins_Model Plugins_Spec.
Import ListNotations.

Lemma mem_in : forall n l, mem n l = true <-> In n l.
Proof. intros n l. unfold mem. destruct (in_dec string_dec n l); split; intros; congruence || auto. Qed.
Lemma mem_cons : forall n m l, mem n (m :: l) = (if string_dec m n then true else false) || mem n l.
Proof.
  intros n m l. destruct (mem n (m :: l)) eqn:E.
  - apply mem_in in E. destruct E as [->|E]; [destruct (string_dec n n); [reflexivity | congruence]|]. apply mem_in in E. rewrite E, orb_true_r. reflexivity.
  - destruct (string_dec m n) as [->|N]; [exfalso; apply not_true_iff_false in E; apply E, mem_in; now left|]. cbn.
    symmetry. apply not_true_iff_false. intros H. apply not_true_iff_false in E. apply E, mem_in. right. now apply mem_in.
Qed.

(** ** When it panics. *)
Definition repeated (labels : list string) (calls : list call) : Prop :=
  exists pre c post, calls = pre ++ c :: post /\ should_build c = true /\ allow_adding_twice c = false /\
    (In (plugin c) labels \/ In (plugin c) (map plugin pre)).

Lemma add_none : forall r labels c, add_plugin r labels c = None <-> should_build c = true /\ allow_adding_twice c = false /\ In (plugin c) labels.
Proof.
  intros r labels c. unfold add_plugin. rewrite <- mem_in. destruct (should_build c), (allow_adding_twice c), (mem (plugin c) labels); cbn;
    split; intros H; try discriminate H; try tauto; destruct H as (? & ? & ?); congruence.
Qed.
Lemma add_labels : forall r labels c labels' hooks, add_plugin r labels c = Some (labels', hooks) -> labels' = plugin c :: labels.
Proof.
  intros r labels c labels' hooks. unfold add_plugin. destruct (should_build c), (allow_adding_twice c), (mem (plugin c) labels); cbn; intros H; congruence.
Qed.

Theorem panics : forall r calls labels, add_plugins r labels calls = None <-> repeated labels calls.
Proof.
  intros r. induction calls as [|c calls IH]; intros labels; cbn [add_plugins].
  - split; [discriminate|]. intros (pre & c & post & E & _). destruct pre; discriminate E.
  - destruct (add_plugin r labels c) as [[labels' hooks]|] eqn:E.
    + apply add_labels in E as L. subst labels'. transitivity (repeated (plugin c :: labels) calls).
      * rewrite <- IH. destruct (add_plugins r (plugin c :: labels) calls); cbn; split; congruence.
      * split.
        -- intros (pre & d & post & -> & S & A & I). exists (c :: pre), d, post. repeat split; try assumption. cbn [In map] in *. tauto.
        -- intros (pre & d & post & Q & S & A & I). destruct pre as [|e pre]; cbn in Q; injection Q as -> Q.
           ++ exfalso. destruct I as [I|[]]. assert (N : add_plugin r labels d = None) by (apply add_none; auto). congruence.
           ++ exists pre, d, post. repeat split; try assumption. cbn [In map] in *. tauto.
    + split; [intros _|reflexivity]. apply add_none in E. destruct E as (S & A & I). exists [], c, calls. repeat split; auto.
Qed.

(** ** What is called. *)
Definition first_built (labels : list string) (n : string) (calls : list call) : bool :=
  negb (mem n labels) && match find (fun c => if string_dec (plugin c) n then true else false) calls with Some c => should_build c | None => false end.
Definition present (labels : list string) (n : string) (calls : list call) : bool := negb (mem n labels) && mem n (map plugin calls).
Definition built (n : string) (calls : list call) : nat := length (filter (fun c => (if string_dec (plugin c) n then true else false) && should_build c) calls).

Definition expected (r : place) (h : hook) (present first : bool) (built : nat) : nat :=
  match h with
  | AlwaysOnce => if present then 1 else 0
  | OnceEverywhere => if first then 1 else 0
  | OnceOnMainRank => match r with MainRank => if first then 1 else 0 | _ => 0 end
  | OnceOnOtherRanks => match r with OtherRank => if first then 1 else 0 | _ => 0 end
  | Everywhere => built
  | OnMainRank => match r with MainRank => built | _ => 0 end
  | OnOtherRanks => match r with OtherRank => built | _ => 0 end
  end.

Lemma count_app : forall l1 l2 n h, times_called (l1 ++ l2) n h = times_called l1 n h + times_called l2 n h.
Proof. intros. unfold times_called. apply count_occ_app. Qed.
Lemma count_other : forall m l n h, m <> n -> times_called (map (fun h => (m, h)) l) n h = 0.
Proof.
  intros m l n h N. unfold times_called. apply count_occ_not_In. intros I. apply in_map_iff in I. destruct I as (? & E & _). congruence.
Qed.

Definition heqb (a b : hook) : bool :=
  match a, b with
  | AlwaysOnce, AlwaysOnce | OnceEverywhere, OnceEverywhere | OnceOnMainRank, OnceOnMainRank | OnceOnOtherRanks, OnceOnOtherRanks
  | Everywhere, Everywhere | OnMainRank, OnMainRank | OnOtherRanks, OnOtherRanks => true
  | _, _ => false
  end.
Lemma count_same : forall n l h, times_called (map (fun h => (n, h)) l) n h = length (filter (heqb h) l).
Proof.
  intros n l h. unfold times_called. induction l as [|x l IH]; [reflexivity|]. cbn [map count_occ filter].
  assert (H : heqb h x = true <-> x = h) by (destruct h, x; cbn; split; congruence).
  destruct (hook_eq_dec (n, x) (n, h)) as [E|E].
  - assert (x = h) as Q by congruence. apply H in Q. rewrite Q. cbn [length]. now rewrite IH.
  - destruct (heqb h x) eqn:Q; [|exact IH]. exfalso. apply E. f_equal. now apply H.
Qed.

Definition hooks_of (r : place) (already : bool) (sb : bool) : list hook :=
  (if already then [] else [AlwaysOnce]) ++
  if sb then (if already then [] else OnceEverywhere :: match r with NoRank => [] | MainRank => [OnceOnMainRank] | OtherRank => [OnceOnOtherRanks] end) ++
    Everywhere :: match r with NoRank => [] | MainRank => [OnMainRank] | OtherRank => [OnOtherRanks] end
  else [].
Lemma add_hooks : forall r labels c labels' hooks, add_plugin r labels c = Some (labels', hooks) ->
  hooks = map (fun h => (plugin c, h)) (hooks_of r (mem (plugin c) labels) (should_build c)).
Proof.
  intros r labels c labels' hooks E. unfold add_plugin in E. unfold hooks_of. destruct (should_build c); cbn [negb] in E.
  - destruct (negb (allow_adding_twice c) && mem (plugin c) labels); [discriminate|]. congruence.
  - rewrite app_nil_r. congruence.
Qed.

Theorem counts : forall r calls labels log n h, add_plugins r labels calls = Some log ->
  times_called log n h = expected r h (present labels n calls) (first_built labels n calls) (built n calls).
Proof.
  intros r. induction calls as [|c calls IH]; intros labels log n h H; cbn [add_plugins] in H.
  - injection H as <-. unfold present, first_built, built, expected. cbn. rewrite !andb_false_r. destruct h, r; reflexivity.
  - destruct (add_plugin r labels c) as [[labels' hooks]|] eqn:E; [|discriminate].
    apply add_labels in E as L. subst labels'. destruct (add_plugins r (plugin c :: labels) calls) as [rest|] eqn:R; [|discriminate].
    injection H as <-. rewrite count_app, (IH _ _ n h R). unfold present, first_built, built. rewrite mem_cons. cbn [map find filter].
    rewrite mem_cons. destruct (string_dec (plugin c) n) as [Q|N].
    + cbn [orb negb andb]. apply add_hooks in E. rewrite E, Q, count_same. destruct (mem n labels), (should_build c), r, h; cbn; reflexivity || lia.
    + cbn [orb andb]. assert (Z : times_called hooks n h = 0) by (apply add_hooks in E; rewrite E; now apply count_other).
      rewrite Z. reflexivity.
Qed.

(** The hooks that are called once come first. *)
Lemma split_app : forall {A} (x : A) a b l1 l2, a ++ b = l1 ++ x :: l2 -> (exists m, a = l1 ++ x :: m) \/ (exists m, l1 = a ++ m /\ b = m ++ x :: l2).
Proof.
  intros A x. induction a as [|y a IH]; intros b l1 l2 H; cbn in H; [right; now exists l1|].
  destruct l1 as [|z l1]; cbn in H; injection H as <- H; [left; now exists a|].
  destruct (IH b l1 l2 H) as [(m & ->)|(m & -> & ->)]; [left; now exists m | right; now exists m].
Qed.
Theorem once_first : forall r calls labels log n, add_plugins r labels calls = Some log -> first_built labels n calls = true ->
  called_before log n OnceEverywhere Everywhere.
Proof.
  intros r. induction calls as [|c calls IH]; intros labels log n H F l1 l2 S; cbn [add_plugins] in H.
  - injection H as <-. destruct l1; discriminate S.
  - destruct (add_plugin r labels c) as [[labels' hooks]|] eqn:E; [|discriminate].
    apply add_labels in E as L. subst labels'. destruct (add_plugins r (plugin c :: labels) calls) as [rest|] eqn:R; [|discriminate].
    injection H as <-. unfold first_built in F. cbn [find] in F. apply andb_true_iff in F. destruct F as [F1 F2]. apply negb_true_iff in F1.
    apply add_hooks in E. destruct (string_dec (plugin c) n) as [Q|N].
    + rewrite Q, F1, F2 in E. subst hooks. apply split_app in S. destruct S as [(m & S)|(m & -> & _)].
      * destruct l1 as [|a [|b l1]]; [destruct r; discriminate S | destruct r; discriminate S |].
        destruct r; cbn in S; injection S as <- <- S; right; now left.
      * apply in_or_app. left. destruct r; cbn; tauto.
    + apply split_app in S. destruct S as [(m & S)|(m & -> & S)].
      * exfalso. assert (I : In (n, Everywhere) hooks) by (rewrite S; apply in_or_app; right; now left).
        rewrite E in I. apply in_map_iff in I. destruct I as (? & Q & _). congruence.
      * apply in_or_app. right. apply (IH (plugin c :: labels) rest n R) with (l2 := l2); [|exact S].
        unfold first_built. rewrite mem_cons. destruct (string_dec (plugin c) n); [congruence|]. rewrite F1. cbn. exact F2.
Qed.

(** ** Ordered systems. *)
Lemma well_ordered_fst : forall {A} (l : list A) sys, map fst (fold_left add_well_ordered l sys) = map fst sys ++ l.
Proof.
  intros A. induction l as [|s l IH]; intros sys; cbn [fold_left]; [now rewrite app_nil_r|]. rewrite IH.
  unfold add_well_ordered. destruct (map fst sys) as [|f fs] eqn:E; rewrite map_app, E; cbn; [reflexivity | now rewrite <- app_assoc].
Qed.
Lemma well_ordered_after : forall {A} (l : list A) sys (pre : list A), map fst sys = pre ->
  (forall p s q, pre = p ++ s :: q -> exists after, In (s, after) sys /\ forall a, In a p -> In a after) ->
  forall p s q, pre ++ l = p ++ s :: q -> exists after, In (s, after) (fold_left add_well_ordered l sys) /\ forall a, In a p -> In a after.
Proof.
  intros A. induction l as [|x l IH]; intros sys pre E H p s q Q; cbn [fold_left]; [rewrite app_nil_r in Q; exact (H p s q Q)|].
  apply (IH (add_well_ordered sys x) (pre ++ [x])) with (q := q); [| |rewrite <- app_assoc; exact Q].
  - unfold add_well_ordered. rewrite E. destruct pre; rewrite map_app, E; reflexivity.
  - intros p' s' q' Q'. apply split_app in Q'. destruct Q' as [(m & Q')|(m & -> & Q')].
    + destruct (H p' s' m Q') as (after & I & B). exists after. split; [|exact B]. unfold add_well_ordered. rewrite E. destruct pre; apply in_or_app; now left.
    + destruct m as [|y m]; [|destruct m; discriminate Q']. injection Q' as <- <-. rewrite app_nil_r. unfold add_well_ordered. rewrite E.
      destruct pre as [|f pre].
      * exists []. split; [apply in_or_app; right; now left | intros a []].
      * exists (f :: f :: pre). split; [apply in_or_app; right; now left | intros a I; now right].
Qed.

Lemma head_in_order : forall {A} (l order : list A), NoDup l -> Permutation order l ->
  (forall p s q, l = p ++ s :: q -> forall a l1 l2, In a p -> order = l1 ++ s :: l2 -> In a l1) -> order = l.
Proof.
  intros A. induction l as [|x l IH]; intros order N P H; [now apply Permutation_sym, Permutation_nil in P|].
  destruct order as [|y order]; [apply Permutation_nil in P; discriminate|].
  assert (y = x).
  { assert (I : In y (x :: l)) by (apply (Permutation_in _ P); now left). destruct I as [<-|I]; [reflexivity|].
    apply in_split in I. destruct I as (p & q & ->). specialize (H (x :: p) y q eq_refl x [] order (or_introl eq_refl) eq_refl). destruct H. }
  subst y. f_equal. apply IH; [now inversion N | now apply Permutation_cons_inv in P|].
  intros p s q -> a l1 l2 I E. specialize (H (x :: p) s q eq_refl a (x :: l1) l2 (or_intror I)). rewrite E in H. specialize (H eq_refl).
  destruct H as [<-|H]; [|exact H]. exfalso. inversion N as [|? ? N1 _]. apply N1. apply in_or_app. now left.
Qed.
Theorem insertion_order : forall {A} (l order : list A), NoDup l -> runs_in (well_ordered l) order -> order = l.
Proof.
  intros A l order N [P H]. unfold well_ordered in *. rewrite well_ordered_fst in P. cbn in P. apply head_in_order; [exact N | exact P|].
  intros p s q Q a l1 l2 I E. destruct (well_ordered_after l [] [] eq_refl) with (p := p) (s := s) (q := q) as (after & Is & B); [|exact Q|].
  - intros p' s' q' Z. destruct p'; discriminate Z.
  - exact (H s after a l1 l2 Is (B a I) E).
Qed.

(** ** Parameter sections. *)
Theorem validate_ok : forall sections used, validate sections used = true <->
  (forall s, In s sections -> In s used) \/ (exists l1 l2, sections = l1 ++ "visualization"%string :: l2 /\ ~ In "visualization"%string used /\
    forall s, In s (l1 ++ l2) -> In s used).
Proof.
  intros sections used. unfold validate.
  assert (F : forall l, filter (fun s => negb (mem s used)) l = [] <-> forall s, In s l -> In s used).
  { intros l. split.
    - intros E s I. destruct (mem s used) eqn:M; [now apply mem_in|]. assert (X : In s (filter (fun s => negb (mem s used)) l)) by (apply filter_In; now rewrite M). rewrite E in X. destruct X.
    - intros H. induction l as [|s l IH]; [reflexivity|]. cbn. assert (M : mem s used = true) by (apply mem_in, H; now left). rewrite M. cbn. apply IH. intros; apply H; now right. }
  split.
  - destruct (filter (fun s => negb (mem s used)) sections) as [|s [|]] eqn:E; intros H.
    + left. now apply F.
    + destruct (string_dec s "visualization") as [->|]; [|discriminate]. right.
      revert E. induction sections as [|x sections IH]; cbn; [discriminate|]. destruct (mem x used) eqn:M; cbn.
      * intros E. destruct (IH E) as (l1 & l2 & -> & N & A). exists (x :: l1), l2. split; [reflexivity|]. split; [exact N|]. intros s [<-|I]; [now apply mem_in | now apply A].
      * intros E. injection E as -> E. exists [], sections. split; [reflexivity|]. split; [intros I; apply mem_in in I; congruence | now apply F].
    + discriminate.
  - intros [H|(l1 & l2 & -> & N & H)].
    + apply F in H. now rewrite H.
    + assert (H1 : filter (fun s => negb (mem s used)) l1 = []) by (apply F; intros; apply H, in_or_app; now left).
      assert (H2 : filter (fun s => negb (mem s used)) l2 = []) by (apply F; intros; apply H, in_or_app; now right).
      rewrite filter_app, H1. cbn [app filter]. assert (M : mem "visualization" used = false) by (apply not_true_iff_false; intros X; now apply N, mem_in).
      rewrite M. cbn [negb]. rewrite H2. destruct (string_dec "visualization" "visualization"); congruence.
Qed.

(** ** The statements. *)
Theorem panics_iff : forall r calls, add_plugins r [] calls = None <->
  exists pre c post, calls = pre ++ c :: post /\ should_build c = true /\ allow_adding_twice c = false /\ In (plugin c) (map plugin pre).
Proof.
  intros r calls. rewrite panics. split; intros (pre & c & post & E & S & A & I); exists pre, c, post; repeat split; try assumption.
  - now destruct I as [[]|I].
  - now right.
Qed.

Theorem every_call : forall r calls log n, add_plugins r [] calls = Some log ->
  let built := length (filter (fun c => (if string_dec (plugin c) n then true else false) && should_build c) calls) in
  times_called log n Everywhere = built /\
  times_called log n OnMainRank = (match r with MainRank => built | _ => 0 end) /\
  times_called log n OnOtherRanks = (match r with OtherRank => built | _ => 0 end) /\
  (In n (map plugin calls) -> times_called log n AlwaysOnce = 1).
Proof.
  intros r calls log n H b. split; [|split; [|split]]; try (rewrite (counts r calls [] log n _ H); reflexivity).
  intros I. rewrite (counts r calls [] log n _ H). cbn. apply mem_in in I. unfold present. now rewrite I.
Qed.

Theorem once : forall r calls log n, add_plugins r [] calls = Some log -> In n (map plugin calls) ->
  (forall c, In c calls -> plugin c = n -> should_build c = true) ->
  times_called log n OnceEverywhere = 1 /\
  times_called log n OnceOnMainRank = (match r with MainRank => 1 | _ => 0 end) /\
  times_called log n OnceOnOtherRanks = (match r with OtherRank => 1 | _ => 0 end) /\
  called_before log n OnceEverywhere Everywhere.
Proof.
  intros r calls log n H I B.
  assert (F : first_built [] n calls = true).
  { unfold first_built. cbn. destruct (find _ calls) as [c|] eqn:E.
    - apply find_some in E. destruct E as [E1 E2]. destruct (string_dec (plugin c) n) as [Q|]; [|discriminate]. now apply B.
    - exfalso. apply in_map_iff in I. destruct I as (c & Q & I). apply (find_none _ _ E) in I. destruct (string_dec (plugin c) n); congruence. }
  split; [|split; [|split]]; try (rewrite (counts r calls [] log n _ H); cbn [expected]; rewrite F; destruct r; reflexivity).
  now apply (once_first r calls []).
Qed.
