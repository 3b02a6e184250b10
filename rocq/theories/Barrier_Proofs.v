(** Serialized output: mutual exclusion, order and termination. *)
From Coq Require Import List Arith Bool Lia.
Import ListNotations.
From Verif Require Import Fair Barrier_Model Barrier_Spec.

Definition trues (l : list bool) : nat := length (filter (fun b => b) l).

Lemma trues_init size rank : rank <= size -> trues (init_wait_loop size rank) = rank.
Proof.
  intro H. unfold init_wait_loop, trues.
  replace size with (rank + (size - rank)) by lia. rewrite seq_app, map_app, filter_app, app_length.
  assert (E1 : map (fun i => i <? rank) (seq 0 rank) = repeat true rank).
  { clear H. rewrite <- (seq_length rank 0) at 2.
    assert (Hl : forall i, In i (seq 0 rank) -> (i <? rank) = true)
      by (intros i Hi; apply in_seq in Hi; apply Nat.ltb_lt; lia).
    induction (seq 0 rank) as [|a l IH]; [reflexivity|]. cbn [map repeat length]. rewrite Hl by now left.
    f_equal. apply IH. intros; apply Hl; now right. }
  assert (E2 : filter (fun b : bool => b) (map (fun i => i <? rank) (seq (0 + rank) (size - rank))) = []).
  { assert (Hl : forall i, In i (seq (0 + rank) (size - rank)) -> (i <? rank) = false)
      by (intros i Hi; apply in_seq in Hi; apply Nat.ltb_ge; lia).
    induction (seq (0 + rank) (size - rank)) as [|a l IH]; [reflexivity|].
    cbn [map filter]. rewrite Hl by now left. apply IH. intros; apply Hl; now right. }
  rewrite E1, E2. clear. cbn [length]. rewrite Nat.add_0_r.
  induction rank; cbn; congruence.
Qed.

Lemma trues_finish size rank : rank <= size -> trues (finish_wait_loop size rank) = size - rank.
Proof.
  intro H.
  assert (E : trues (finish_wait_loop size rank) + trues (init_wait_loop size rank) = size).
  { unfold trues, finish_wait_loop, init_wait_loop. clear H.
    transitivity (length (seq 0 size)); [|apply seq_length].
    induction (seq 0 size) as [|a l IH]; [reflexivity|].
    cbn [map filter]. rewrite Nat.leb_antisym. destruct (a <? rank); cbn [negb length]; lia. }
  rewrite trues_init in E by assumption. lia.
Qed.

Lemma trues_start size rank : trues (start_barrier_loop size rank) = rank.
Proof. unfold trues, start_barrier_loop. induction rank; cbn; congruence. Qed.

Lemma trues_end size rank : trues (end_barrier_loop size rank) = size - rank.
Proof.
  unfold trues, end_barrier_loop.
  transitivity (length (seq rank (size - rank))); [|apply seq_length].
  induction (seq rank (size - rank)); cbn; congruence.
Qed.

Section Barrier.
Variable n K : nat.
Variable pre post : nat -> list bool.
Hypothesis Hpre : forall x, x < n -> trues (pre x) = x.
Hypothesis Hpost : forall x, x < n -> trues (post x) = n - x.

Notation step := (Barrier_Model.step n K pre post).
Notation start := (Barrier_Model.start K pre).

(** Barriers still to enter in this snapshot. *)
Definition ahead (p : phase) (x : nat) : nat :=
  match p with
  | Before t | BeforeWait t => trues t + (n - x)
  | Writing => n - x
  | After t | AfterWait t => trues t
  | Finished => n
  end.

Definition waiting (p : phase) : bool :=
  match p with BeforeWait _ | AfterWait _ => true | _ => false end.

Definition phase_ok (p : phase) (k x : nat) : Prop :=
  match p with
  | Before t => k < K /\ trues t <= x
  | BeforeWait t => k < K /\ trues t < x
  | After t => k < K /\ trues t <= n - x
  | AfterWait t => k < K /\ trues t < n - x
  | Writing => k < K
  | Finished => k = K
  end.

Record inv (s : state) : Prop := {
  i_ok : forall x, x < n -> phase_ok (ph s x) (snap s x) x;
  i_count : forall x, x < n -> entered s x + ahead (ph s x) x = (snap s x + 1) * n;
  i_left : forall x, x < n ->
    entered s x = left s x + (if waiting (ph s x) then 1 else 0);
  i_all : forall x y, x < n -> y < n -> left s x <= entered s y }.

Lemma upd_same {B} (f : nat -> B) k v : upd f k v k = v.
Proof. unfold upd. now rewrite Nat.eqb_refl. Qed.
Lemma upd_other {B} (f : nat -> B) k v q : q <> k -> upd f k v q = f q.
Proof. intro. unfold upd. now destruct (Nat.eqb_spec q k). Qed.

Lemma start_inv x k : x < n -> k <= K ->
  phase_ok (start x k) k x /\ ahead (start x k) x = n /\ waiting (start x k) = false.
Proof.
  intros Hx Hk. unfold Barrier_Model.start. destruct (Nat.ltb_spec k K); cbn.
  - rewrite Hpre by assumption. repeat split; lia.
  - repeat split; lia.
Qed.

Lemma inv_init : inv (init K pre).
Proof.
  constructor; cbn [init ph snap entered left]; intros;
    try destruct (start_inv x 0 H) as (H1 & H2 & H3); try lia; auto.
  - rewrite H3. lia.
Qed.

Lemma inv_set s x p : inv s -> x < n ->
  phase_ok p (snap s x) x -> ahead p x = ahead (ph s x) x ->
  waiting p = false -> waiting (ph s x) = false -> inv (set_phase s x p).
Proof.
  intros Hi Hx H1 H2 H3 H4. destruct Hi.
  constructor; cbn [set_phase ph snap entered left]; auto;
    intros z Hz; (destruct (Nat.eq_dec z x) as [->|Hn];
      [rewrite upd_same|rewrite upd_other by assumption]); auto.
  - rewrite H2. auto.
  - specialize (i_left0 x Hz). rewrite H4 in i_left0. now rewrite H3.
Qed.

Lemma inv_enter s x p : inv s -> x < n ->
  phase_ok p (snap s x) x -> S (ahead p x) = ahead (ph s x) x ->
  waiting p = true -> waiting (ph s x) = false -> inv (enter s x p).
Proof.
  intros Hi Hx H1 H2 H3 H4. destruct Hi.
  constructor; cbn [enter ph snap entered left].
  - intros z Hz; (destruct (Nat.eq_dec z x) as [->|Hn];
      [rewrite upd_same|rewrite upd_other by assumption]); auto.
  - intros z Hz; (destruct (Nat.eq_dec z x) as [->|Hn];
      [rewrite !upd_same|rewrite !upd_other by assumption]); auto.
    specialize (i_count0 x Hz). lia.
  - intros z Hz; (destruct (Nat.eq_dec z x) as [->|Hn];
      [rewrite !upd_same|rewrite !upd_other by assumption]); auto.
    specialize (i_left0 x Hz). rewrite H4 in i_left0. rewrite H3. lia.
  - intros z y Hz Hy. specialize (i_all0 z y Hz Hy).
    destruct (Nat.eq_dec y x) as [->|Hn]; [rewrite upd_same|rewrite upd_other by assumption]; lia.
Qed.

Lemma inv_leave s x p : inv s -> x < n ->
  phase_ok p (snap s x) x -> ahead p x = ahead (ph s x) x ->
  waiting p = false -> waiting (ph s x) = true -> inv (try_leave n s x p).
Proof.
  intros Hi Hx H1 H2 H3 H4. unfold try_leave.
  destruct (forallb (fun y => entered s x <=? entered s y) (seq 0 n)) eqn:E; [|exact Hi].
  rewrite forallb_forall in E. destruct Hi.
  constructor; cbn [ph snap entered left].
  - intros z Hz; (destruct (Nat.eq_dec z x) as [->|Hn];
      [rewrite upd_same|rewrite upd_other by assumption]); auto.
  - intros z Hz; (destruct (Nat.eq_dec z x) as [->|Hn];
      [rewrite !upd_same|rewrite !upd_other by assumption]); auto.
    rewrite H2. auto.
  - intros z Hz; (destruct (Nat.eq_dec z x) as [->|Hn];
      [rewrite !upd_same|rewrite !upd_other by assumption]); auto.
    specialize (i_left0 x Hz). rewrite H4 in i_left0. rewrite H3. lia.
  - intros z y Hz Hy.
    destruct (Nat.eq_dec z x) as [->|Hn]; [rewrite upd_same|rewrite upd_other by assumption; auto].
    specialize (i_left0 x Hx). rewrite H4 in i_left0.
    assert (Hle : (entered s x <=? entered s y) = true) by (apply E, in_seq; lia).
    apply Nat.leb_le in Hle. lia.
Qed.

Lemma trues_cons b t : trues (b :: t) = (if b then 1 else 0) + trues t.
Proof. destruct b; reflexivity. Qed.

Lemma step_inv s x : inv s -> inv (step s x).
Proof.
  intro Hi. unfold Barrier_Model.step. destruct (Nat.ltb_spec x n) as [Hx|]; [|exact Hi].
  pose proof (i_ok s Hi x Hx) as Ho.
  destruct (ph s x) as [[|[] t]|t| |[|[] t]|t|] eqn:Ep; cbn [phase_ok] in Ho;
    rewrite ?trues_cons in Ho.
  - apply inv_set; auto; try (rewrite Ep); cbn; auto; lia.
  - apply inv_enter; auto; try (rewrite Ep); cbn [phase_ok ahead waiting]; rewrite ?trues_cons; lia || auto.
  - apply inv_set; auto; try (rewrite Ep); cbn [phase_ok ahead waiting]; rewrite ?trues_cons; auto; lia.
  - apply inv_leave; auto; try (rewrite Ep); auto. cbn; lia.
  - apply inv_set; auto; try (rewrite Ep); cbn [phase_ok ahead waiting]; auto;
      rewrite Hpost by assumption; auto.
  - destruct Hi. destruct (start_inv x (S (snap s x)) Hx) as (H1 & H2 & H3); [lia|].
    constructor; cbn [ph snap entered left]; auto;
      intros z Hz; (destruct (Nat.eq_dec z x) as [->|Hn];
        [rewrite !upd_same|rewrite !upd_other by assumption]); auto.
    + rewrite H2. specialize (i_count0 x Hz). rewrite Ep in i_count0. cbn in i_count0. lia.
    + rewrite H3. specialize (i_left0 x Hz). rewrite Ep in i_left0. exact i_left0.
  - apply inv_enter; auto; try (rewrite Ep); cbn [phase_ok ahead waiting]; rewrite ?trues_cons; lia || auto.
  - apply inv_set; auto; try (rewrite Ep); cbn [phase_ok ahead waiting]; rewrite ?trues_cons; auto; lia.
  - apply inv_leave; auto; try (rewrite Ep); auto. cbn; lia.
  - exact Hi.
Qed.

Lemma reach_inv l : inv (reach n K pre post l).
Proof.
  unfold reach. generalize inv_init. generalize (init K pre).
  induction l as [|o l IH]; intros s Hs; cbn [fold_left]; [exact Hs|].
  apply IH, step_inv, Hs.
Qed.

Lemma writing_count s x : inv s -> x < n -> ph s x = Writing ->
  entered s x = snap s x * n + x /\ left s x = entered s x.
Proof.
  intros Hi Hx Ep. pose proof (i_count s Hi x Hx) as H. pose proof (i_left s Hi x Hx) as H'.
  rewrite Ep in H, H'. cbn in H, H'. lia.
Qed.

Lemma exclusive s x y : inv s -> x < n -> y < n ->
  ph s x = Writing -> ph s y = Writing -> x = y.
Proof.
  intros Hi Hx Hy Ex Ey.
  destruct (writing_count s x Hi Hx Ex) as [E1 L1].
  destruct (writing_count s y Hi Hy Ey) as [E2 L2].
  pose proof (i_all s Hi x y Hx Hy) as H1. pose proof (i_all s Hi y x Hy Hx) as H2.
  assert (H : snap s x * n + x = snap s y * n + y) by lia.
  assert (snap s x = snap s y) by nia. nia.
Qed.

(** Position of a rank relative to its own writing of snapshot [k]. *)
Lemma ordered s x y : inv s -> x < n -> y < n -> ph s x = Writing ->
  (y < x -> written s y (snap s x)) /\ (x < y -> not_begun s y (snap s x)).
Proof.
  intros Hi Hx Hy Ex. destruct (writing_count s x Hi Hx Ex) as [E1 L1].
  pose proof (i_all s Hi x y Hx Hy) as H1. pose proof (i_all s Hi y x Hy Hx) as H2.
  pose proof (i_count s Hi y Hy) as Hc. pose proof (i_left s Hi y Hy) as Hl.
  pose proof (i_ok s Hi y Hy) as Ho. pose proof (i_ok s Hi x Hx) as Hox.
  rewrite Ex in Hox. cbn in Hox.
  split; intro Hlt.
  - unfold written. destruct (Nat.lt_trichotomy (snap s x) (snap s y)) as [H|[H|H]]; [now left| |].
    + right. split; [now symmetry|].
      destruct (ph s y) as [t|t| |t|t|]; cbn in *; auto; nia.
    + exfalso. assert ((snap s y + 1) * n <= snap s x * n) by nia. lia.
  - unfold not_begun. destruct (Nat.lt_trichotomy (snap s x) (snap s y)) as [H|[H|H]]; [| |now left].
    + exfalso. assert (snap s y * n <= left s y).
      { destruct (ph s y) as [t|t| |t|t|]; cbn in *; nia. }
      nia.
    + right. split; [now symmetry|].
      destruct (ph s y) as [t|t| |t|t|]; cbn in *; auto; nia.
Qed.

(** ** Termination *)

Definition loop_len (x : nat) : nat := 2 * length (pre x) + 2 * length (post x) + 10.

Definition weight (p : phase) (x : nat) : nat :=
  match p with
  | Before t => 2 * length t + 2 * length (post x) + 6
  | BeforeWait t => 2 * length t + 2 * length (post x) + 7
  | Writing => 2 * length (post x) + 5
  | After t => 2 * length t + 2
  | AfterWait t => 2 * length t + 3
  | Finished => 0
  end.

Definition rank_mu (s : state) (x : nat) : nat :=
  (K - snap s x) * loop_len x + weight (ph s x) x.
Definition mu (s : state) : nat := list_sum (map (rank_mu s) (seq 0 n)).

Lemma sum_lt (f g : nat -> nat) l x : In x l -> (forall y, In y l -> f y <= g y) ->
  f x < g x -> list_sum (map f l) < list_sum (map g l).
Proof.
  induction l as [|a l IH]; intros Hx Hle Hlt; [destruct Hx|].
  cbn [map list_sum fold_right].
  assert (Hle' : list_sum (map f l) <= list_sum (map g l)).
  { clear - Hle. induction l as [|b l IH]; cbn; [lia|].
    assert (f b <= g b) by (apply Hle; right; now left).
    assert (list_sum (map f l) <= list_sum (map g l)).
    { apply IH. intros y [Hy|Hy]; apply Hle; [now left|right; now right]. }
    unfold list_sum in *. lia. }
  destruct Hx as [->|Hx].
  - unfold list_sum in *. lia.
  - assert (f a <= g a) by (apply Hle; now left).
    assert (list_sum (map f l) < list_sum (map g l)).
    { apply IH; auto. intros y Hy. apply Hle. now right. }
    unfold list_sum in *. lia.
Qed.

Lemma mu_rank s s' x : x < n ->
  (forall y, y <> x -> ph s' y = ph s y /\ snap s' y = snap s y) ->
  rank_mu s' x < rank_mu s x -> mu s' < mu s.
Proof.
  intros Hx Ho Hlt. unfold mu. apply (sum_lt _ _ _ x); [apply in_seq; lia| |exact Hlt].
  intros y _. destruct (Nat.eq_dec y x) as [->|Hy]; [lia|].
  unfold rank_mu. destruct (Ho y Hy) as [-> ->]. lia.
Qed.

Ltac mu_tac Ep :=
  right; eapply (mu_rank _ _ _ ltac:(eassumption));
  [intros z Hz; cbn; rewrite ?upd_other by assumption; auto
  |unfold rank_mu; cbn [set_phase enter ph snap]; rewrite ?upd_same, Ep;
   cbn [weight length]; lia].

Lemma step_mu s x : inv s -> step s x = s \/ mu (step s x) < mu s.
Proof.
  intro Hi. unfold Barrier_Model.step. destruct (Nat.ltb_spec x n) as [Hx|]; [|now left].
  pose proof (i_ok s Hi x Hx) as Ho.
  destruct (ph s x) as [[|[] t]|t| |[|[] t]|t|] eqn:Ep.
  - mu_tac Ep.
  - mu_tac Ep.
  - mu_tac Ep.
  - unfold try_leave. destruct (forallb _ _); [|now left]. mu_tac Ep.
  - mu_tac Ep.
  - right. apply (mu_rank _ _ x Hx).
    + intros z Hz; cbn; rewrite !upd_other by assumption; auto.
    + unfold rank_mu. cbn [ph snap]. rewrite !upd_same, Ep. cbn [weight length]. cbn in Ho.
      replace (K - snap s x) with (S (K - S (snap s x))) by lia.
      assert (weight (start x (S (snap s x))) x < loop_len x).
      { unfold Barrier_Model.start, loop_len. destruct (_ <? _); cbn [weight]; lia. }
      lia.
  - mu_tac Ep.
  - mu_tac Ep.
  - unfold try_leave. destruct (forallb _ _); [|now left]. mu_tac Ep.
  - now left.
Qed.

Lemma step_changes s x : inv s -> x < n ->
  match ph s x with
  | BeforeWait _ | AfterWait _ => forall y, y < n -> entered s x <= entered s y
  | Finished => False
  | _ => True
  end -> mu (step s x) < mu s.
Proof.
  intros Hi Hx H. destruct (step_mu s x Hi) as [E|E]; [|exact E]. exfalso.
  assert (Hph : ph (step s x) x = ph s x) by now rewrite E.
  assert (Hsn : snap (step s x) x = snap s x) by now rewrite E.
  unfold Barrier_Model.step in Hph, Hsn. apply Nat.ltb_lt in Hx as Hx'. rewrite Hx' in Hph, Hsn.
  destruct (ph s x) as [[|[] t]|t| |[|[] t]|t|] eqn:Ep; try (destruct H).
  - cbn in Hph. rewrite upd_same in Hph. discriminate.
  - cbn in Hph. rewrite upd_same in Hph. discriminate.
  - cbn in Hph. rewrite upd_same in Hph. injection Hph as Hph.
    assert (Hl : length t = length (false :: t)) by congruence. cbn in Hl; lia.
  - unfold try_leave in Hph.
    assert (Ef : forallb (fun y => entered s x <=? entered s y) (seq 0 n) = true).
    { apply forallb_forall. intros y Hy. apply in_seq in Hy. apply Nat.leb_le, H. lia. }
    rewrite Ef in Hph. cbn in Hph. rewrite upd_same in Hph. discriminate.
  - cbn in Hph. rewrite upd_same in Hph. discriminate.
  - cbn in Hsn. rewrite upd_same in Hsn. lia.
  - cbn in Hph. rewrite upd_same in Hph. discriminate.
  - cbn in Hph. rewrite upd_same in Hph. injection Hph as Hph.
    assert (Hl : length t = length (false :: t)) by congruence. cbn in Hl; lia.
  - unfold try_leave in Hph.
    assert (Ef : forallb (fun y => entered s x <=? entered s y) (seq 0 n) = true).
    { apply forallb_forall. intros y Hy. apply in_seq in Hy. apply Nat.leb_le, H. lia. }
    rewrite Ef in Hph. cbn in Hph. rewrite upd_same in Hph. discriminate.
Qed.

Lemma progress s : inv s -> (all_finished n K) s \/ exists x, x < n /\ mu (step s x) < mu s.
Proof.
  intro Hi.
  assert (H : forall k, k <= n ->
    (forall x, x < k -> ph s x = Finished)
    \/ (exists x, x < n /\ mu (step s x) < mu s)
    \/ (exists x, x < k /\ waiting (ph s x) = true
          /\ forall y, y < k -> waiting (ph s y) = true -> entered s x <= entered s y)
       /\ (forall y, y < k -> waiting (ph s y) = true \/ ph s y = Finished)).
  { induction k as [|k IH]; intro Hk; [left; lia|].
    destruct IH as [IH|[IH|[(x & Hx & Hw & Hm) Ha]]]; [lia| |right; now left|].
    - destruct (ph s k) as [t|t| |t|t|] eqn:Ep;
        try (right; left; exists k; split; [lia|]; apply step_changes; auto; now rewrite Ep).
      + right; right. split.
        * exists k. split; [lia|]. split; [now rewrite Ep|]. intros y Hy Hwy.
          destruct (Nat.eq_dec y k) as [->|]; [lia|]. rewrite (IH y) in Hwy by lia. discriminate.
        * intros y Hy. destruct (Nat.eq_dec y k) as [->|]; [left; now rewrite Ep|].
          right. apply IH. lia.
      + right; right. split.
        * exists k. split; [lia|]. split; [now rewrite Ep|]. intros y Hy Hwy.
          destruct (Nat.eq_dec y k) as [->|]; [lia|]. rewrite (IH y) in Hwy by lia. discriminate.
        * intros y Hy. destruct (Nat.eq_dec y k) as [->|]; [left; now rewrite Ep|].
          right. apply IH. lia.
      + left. intros y Hy. destruct (Nat.eq_dec y k) as [->|]; [exact Ep|apply IH; lia].
    - destruct (ph s k) as [t|t| |t|t|] eqn:Ep;
        try (right; left; exists k; split; [lia|]; apply step_changes; auto; now rewrite Ep).
      + right; right. split.
        * destruct (Nat.le_gt_cases (entered s x) (entered s k)) as [Hle|Hgt].
          -- exists x. split; [lia|]. split; [exact Hw|]. intros y Hy Hwy.
             destruct (Nat.eq_dec y k) as [->|]; [exact Hle|]. apply Hm; [lia|exact Hwy].
          -- exists k. split; [lia|]. split; [now rewrite Ep|]. intros y Hy Hwy.
             destruct (Nat.eq_dec y k) as [->|]; [lia|].
             assert (entered s x <= entered s y) by (apply Hm; [lia|exact Hwy]). lia.
        * intros y Hy. destruct (Nat.eq_dec y k) as [->|]; [left; now rewrite Ep|].
          apply Ha. lia.
      + right; right. split.
        * destruct (Nat.le_gt_cases (entered s x) (entered s k)) as [Hle|Hgt].
          -- exists x. split; [lia|]. split; [exact Hw|]. intros y Hy Hwy.
             destruct (Nat.eq_dec y k) as [->|]; [exact Hle|]. apply Hm; [lia|exact Hwy].
          -- exists k. split; [lia|]. split; [now rewrite Ep|]. intros y Hy Hwy.
             destruct (Nat.eq_dec y k) as [->|]; [lia|].
             assert (entered s x <= entered s y) by (apply Hm; [lia|exact Hwy]). lia.
        * intros y Hy. destruct (Nat.eq_dec y k) as [->|]; [left; now rewrite Ep|].
          apply Ha. lia.
      + right; right. split.
        * exists x. split; [lia|]. split; [exact Hw|]. intros y Hy Hwy.
          destruct (Nat.eq_dec y k) as [->|]; [rewrite Ep in Hwy; discriminate|].
          apply Hm; [lia|exact Hwy].
        * intros y Hy. destruct (Nat.eq_dec y k) as [->|]; [right; exact Ep|].
          apply Ha. lia. }
  destruct (H n (le_n _)) as [Hf|[Hp|[(x & Hx & Hw & Hm) Ha]]].
  - left. intros x Hx. split; [now apply Hf|]. pose proof (i_ok s Hi x Hx) as Ho.
    rewrite (Hf x Hx) in Ho. exact Ho.
  - right. exact Hp.
  - right. exists x. split; [exact Hx|]. apply step_changes; auto.
    assert (Hall : forall y, y < n -> entered s x <= entered s y).
    { intros y Hy. destruct (Ha y Hy) as [Hwy|Hfy]; [now apply Hm|].
      pose proof (i_count s Hi y Hy) as Hc. pose proof (i_ok s Hi y Hy) as Ho.
      rewrite Hfy in Hc, Ho. cbn in Hc, Ho.
      pose proof (i_count s Hi x Hx) as Hcx. pose proof (i_ok s Hi x Hx) as Hox.
      assert (snap s x < K) by (destruct (ph s x); try discriminate; cbn in Hox; tauto).
      nia. }
    destruct (ph s x); try discriminate; exact Hall.
Qed.

Lemma output_terminates sched : fair (fun x => x < n) sched ->
  exists k, (all_finished n K) (exec step (init K pre) sched k).
Proof.
  intro Hf. exact (fair_reaches_final step inv (all_finished n K) (fun x => x < n) mu
                     step_inv step_mu progress (init K pre) sched inv_init Hf).
Qed.

Lemma serialized :
  (forall l x y, x < n -> y < n ->
     ph (reach n K pre post l) x = Writing -> ph (reach n K pre post l) y = Writing -> x = y)
  /\ (forall l x y, x < n -> y < n -> ph (reach n K pre post l) x = Writing ->
        (y < x -> written (reach n K pre post l) y (snap (reach n K pre post l) x))
        /\ (x < y -> not_begun (reach n K pre post l) y (snap (reach n K pre post l) x)))
  /\ (forall sched, fair (fun x => x < n) sched ->
        exists k, all_finished n K (exec step (init K pre) sched k)).
Proof.
  split; [|split].
  - intros l x y. apply exclusive, reach_inv.
  - intros l x y. apply ordered, reach_inv.
  - apply output_terminates.
Qed.

End Barrier.

Lemma output_serialized n K :
  let pre := init_wait_loop n in
  let post := finish_wait_loop n in
  (forall l x y, x < n -> y < n ->
     ph (reach n K pre post l) x = Writing -> ph (reach n K pre post l) y = Writing -> x = y)
  /\ (forall l x y, x < n -> y < n -> ph (reach n K pre post l) x = Writing ->
        (y < x -> written (reach n K pre post l) y (snap (reach n K pre post l) x))
        /\ (x < y -> not_begun (reach n K pre post l) y (snap (reach n K pre post l) x)))
  /\ (forall sched, fair (fun x => x < n) sched ->
        exists k, all_finished n K (exec (step n K pre post) (init K pre) sched k)).
Proof.
  apply serialized; intros; [apply trues_init|apply trues_finish]; lia.
Qed.

Lemma debug_serialized n K :
  let pre := start_barrier_loop n in
  let post := end_barrier_loop n in
  (forall l x y, x < n -> y < n ->
     ph (reach n K pre post l) x = Writing -> ph (reach n K pre post l) y = Writing -> x = y)
  /\ (forall l x y, x < n -> y < n -> ph (reach n K pre post l) x = Writing ->
        (y < x -> written (reach n K pre post l) y (snap (reach n K pre post l) x))
        /\ (x < y -> not_begun (reach n K pre post l) y (snap (reach n K pre post l) x)))
  /\ (forall sched, fair (fun x => x < n) sched ->
        exists k, all_finished n K (exec (step n K pre post) (init K pre) sched k)).
Proof.
  apply serialized; intros; [apply trues_start|apply trues_end]; lia.
Qed.
