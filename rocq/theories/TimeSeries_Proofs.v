From Coq Require Import List QArith Arith Lia Lqa Permutation Qfield.
From Verif Require Import Timestep_Model TimeSeries_Model TimeSeries_Spec.
Import ListNotations.
Local Open Scope Q_scope.

Lemma fold_plus : forall l a, fold_left Qplus l a == a + total (fun x => x) l.
Proof. induction l as [|x l IH]; intros a; cbn [fold_left total]; [ring|]. rewrite IH. ring. Qed.
Lemma sum_total : forall l, sum l == total (fun x => x) l.
Proof. intros l. unfold sum. rewrite fold_plus. ring. Qed.
Lemma total_app : forall {A} (f : A -> Q) l1 l2, total f (l1 ++ l2) == total f l1 + total f l2.
Proof. induction l1 as [|a l1 IH]; intros l2; cbn [app total]; [ring|]. rewrite IH. ring. Qed.
Lemma total_map : forall {A B} (f : B -> Q) (g : A -> B) l, total f (map g l) = total (fun a => f (g a)) l.
Proof. induction l as [|a l IH]; cbn [map total]; [reflexivity|]. now rewrite IH. Qed.
Lemma total_ext : forall {A} (f g : A -> Q) l, (forall a, In a l -> f a == g a) -> total f l == total g l.
Proof.
  induction l as [|a l IH]; intros H; cbn [total]; [reflexivity|]. rewrite (H a), IH; [reflexivity | | now left].
  intros b Hb. apply H. now right.
Qed.
Lemma total_perm : forall {A} (f : A -> Q) l l', Permutation l l' -> total f l == total f l'.
Proof. intros A f l l' P. induction P; cbn [total]; [reflexivity | now rewrite IHP | ring | now rewrite IHP1]. Qed.

Definition weight {A B} (q : A -> option B) (f : B -> Q) (a : A) : Q := match q a with Some b => f b | None => 0 end.
Lemma query_total : forall {A B} (q : A -> option B) (f : B -> Q) l, total (fun x => x) (map f (query1 q l)) == total (weight q f) l.
Proof.
  induction l as [|a l IH]; [reflexivity|]. cbn [query1 flat_map]. fold (query1 q l). rewrite map_app, total_app, IH. cbn [total].
  unfold weight at 2. destruct (q a); cbn [map total app]; ring.
Qed.
Lemma global_total : forall {A B} (q : A -> option B) (f : B -> Q) world,
  compute_global_sum (map (fun l => map f (query1 q l)) world) == total (weight q f) (concat world).
Proof.
  intros A B q f world. unfold compute_global_sum. rewrite sum_total. induction world as [|l world IH]; [reflexivity|].
  cbn [map total concat]. rewrite IH, sum_total, query_total, total_app. reflexivity.
Qed.

Lemma divide_same : forall a b a' b', a == a' -> b == b' -> same_value (divide a b) (divide a' b').
Proof.
  intros a b a' b' Ha Hb. unfold divide. destruct (Qeq_bool b 0) eqn:E, (Qeq_bool b' 0) eqn:E'; cbn.
  - exact I.
  - apply Qeq_bool_iff in E. apply Qeq_bool_neq in E'. apply E'. now rewrite <- Hb.
  - apply Qeq_bool_iff in E'. apply Qeq_bool_neq in E. apply E. now rewrite Hb.
  - rewrite Ha, Hb. reflexivity.
Qed.

Theorem distribution : forall world world', Permutation (concat world) (concat world') ->
  same_averages (compute_time_series world) (compute_time_series world').
Proof.
  intros world world' P. unfold same_averages, compute_time_series, query2. cbn [ionization_mass ionization_volume temperature_mass temperature_volume rate_volume weighted_rate_volume].
  repeat split; apply divide_same; rewrite !global_total; apply total_perm, P.
Qed.

(** ** The averages of cells that have everything. *)
Lemma concat_components : forall d (cells : list (list cell_state)), concat (map (map (components d)) cells) = map (components d) (concat cells).
Proof. intros d cells. induction cells as [|l cells IH]; [reflexivity|]. cbn [map concat]. now rewrite IH, map_app. Qed.

Lemma divide_mean : forall {A} (w x : A -> Q) (l : list A) a b, b == total w l -> a == total (fun c => w c * x c) l -> ~ total w l == 0 ->
  some_mean w x l (divide a b).
Proof.
  intros A w x l a b Hb Ha N. unfold some_mean, divide. destruct (Qeq_bool b 0) eqn:E.
  - apply Qeq_bool_iff in E. exfalso. apply N. now rewrite <- Hb.
  - exists (a / b). split; [reflexivity|]. unfold is_mean. rewrite <- Ha, Hb. field. exact N.
Qed.

Lemma total_pos : forall {A} (w : A -> Q) l, l <> [] -> (forall a, In a l -> 0 < w a) -> 0 < total w l.
Proof.
  intros A w l N H. destruct l as [|a l]; [congruence|]. cbn [total].
  assert (0 <= total w l).
  { assert (H' : forall b, In b l -> 0 < w b) by (intros b Hb; apply H; now right). clear N H. induction l as [|b l IH]; cbn [total]; [lra|].
    assert (0 < w b) by (apply H'; now left). assert (0 <= total w l) by (apply IH; intros e He; apply H'; now right). lra. }
  assert (0 < w a) by (apply H; now left). lra.
Qed.

Theorem means : forall cells, concat cells <> [] -> (forall c, In c (concat cells) -> 0 < c_mass c /\ 0 < c_volume c) ->
  let a := compute_time_series (map (map (components true)) cells) in
  some_mean c_mass c_fraction (concat cells) (ionization_mass a) /\
  some_mean c_volume c_fraction (concat cells) (ionization_volume a) /\
  some_mean c_mass c_temperature (concat cells) (temperature_mass a) /\
  some_mean c_volume c_temperature (concat cells) (temperature_volume a) /\
  some_mean c_volume c_rate (concat cells) (rate_volume a) /\
  some_mean c_volume (fun c => c_fraction c * c_rate c) (concat cells) (weighted_rate_volume a).
Proof.
  intros cells N P a. unfold a, compute_time_series, query2. clear a. cbn [ionization_mass ionization_volume temperature_mass temperature_volume rate_volume weighted_rate_volume].
  assert (M : ~ total c_mass (concat cells) == 0) by (pose proof (total_pos c_mass (concat cells) N (fun c H => proj1 (P c H))); lra).
  assert (V : ~ total c_volume (concat cells) == 0) by (pose proof (total_pos c_volume (concat cells) N (fun c H => proj2 (P c H))); lra).
  repeat split; apply divide_mean; try assumption; rewrite global_total, concat_components, total_map;
    apply total_ext; intros c _; unfold weight, both, components; cbn; ring.
Qed.

Theorem other_means : forall cells desired, concat cells <> [] -> (forall c, In c (concat cells) -> 0 < c_mass c /\ 0 < c_volume c) ->
  let a := compute_time_series (map (map (components desired)) cells) in
  some_mean c_mass c_fraction (concat cells) (ionization_mass a) /\
  some_mean c_volume c_fraction (concat cells) (ionization_volume a) /\
  some_mean c_mass c_temperature (concat cells) (temperature_mass a) /\
  some_mean c_volume c_temperature (concat cells) (temperature_volume a).
Proof.
  intros cells desired N P a. unfold a, compute_time_series, query2. clear a. cbn [ionization_mass ionization_volume temperature_mass temperature_volume rate_volume weighted_rate_volume].
  assert (M : ~ total c_mass (concat cells) == 0) by (pose proof (total_pos c_mass (concat cells) N (fun c H => proj1 (P c H))); lra).
  assert (V : ~ total c_volume (concat cells) == 0) by (pose proof (total_pos c_volume (concat cells) N (fun c H => proj2 (P c H))); lra).
  repeat split; apply divide_mean; try assumption; rewrite global_total, concat_components, total_map;
    apply total_ext; intros c _; unfold weight, both, components; cbn; ring.
Qed.

Theorem mean_between : forall {A} (w x : A -> Q) (l : list A) v lo hi, l <> [] -> (forall a, In a l -> 0 < w a) ->
  (forall a, In a l -> lo <= x a /\ x a <= hi) -> some_mean w x l v -> exists q, v = Some q /\ lo <= q /\ q <= hi.
Proof.
  intros A w x l v lo hi N W B (q & E & M). exists q. split; [exact E|]. unfold is_mean in M.
  pose proof (total_pos w l N W) as T.
  assert (S : lo * total w l <= total (fun a => w a * x a) l /\ total (fun a => w a * x a) l <= hi * total w l).
  { clear M T N E. induction l as [|a l IH]; cbn [total]; [split; lra|].
    destruct IH as [I1 I2]; [intros b Hb; apply W; now right | intros b Hb; apply B; now right |].
    assert (Wa : 0 < w a) by (apply W; now left). destruct (B a (or_introl eq_refl)) as [B1 B2].
    assert (lo * w a <= x a * w a) by (apply Qmult_le_compat_r; lra). assert (x a * w a <= hi * w a) by (apply Qmult_le_compat_r; lra).
    split; lra. }
  rewrite <- M in S. destruct S as [S1 S2]. split; (eapply Qmult_le_r; [exact T | lra]).
Qed.

(** ** The numbers of particles. *)
Theorem levels_cumulative : forall n dt levels, (forall k, In k levels -> k < n)%nat ->
  map (fun e => fst (fst e)) (num_particles_at_levels n dt levels) = seq 0 n /\
  forall level num t, In (level, num, t) (num_particles_at_levels n dt levels) ->
    (level < n)%nat /\ t == dt / inject_Z (2 ^ Z.of_nat level) /\ num = length (filter (fun k => level <=? k)%nat levels).
Proof.
  intros n dt levels H. unfold num_particles_at_levels. split; [rewrite map_map; cbn; apply map_id|].
  intros level num t I. apply in_map_iff in I. destruct I as (k & E & Hk). injection E as -> <- <-. apply in_seq in Hk.
  split; [lia|]. split; [|reflexivity]. unfold to_timestep, as_factor. unfold Qdiv. reflexivity.
Qed.
