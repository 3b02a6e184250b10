From Coq Require Import List Arith NArith ZArith QArith Qround Bool Lia Lqa Permutation.
Import ListNotations.
From Verif Require Import Timestep_Model Timestep_Spec.
Local Open Scope nat_scope.

(** ** Lowest set bit *)

Lemma land_pow2_pos i b : (0 <? N.land i (N.shiftl 1 (N.of_nat b)))%N = N.testbit i (N.of_nat b).
Proof.
  rewrite N.shiftl_1_l. set (c := N.of_nat b).
  destruct (N.testbit i c) eqn:E.
  - apply N.ltb_lt. apply N.neq_0_lt_0. intros H.
    assert (N.testbit (N.land i (2 ^ c)) c = false) by (rewrite H; apply N.bits_0).
    rewrite N.land_spec, E, N.pow2_bits_true in H0. discriminate.
  - apply N.ltb_ge. apply N.le_0_r. apply N.bits_inj_0. intros n.
    rewrite N.land_spec. destruct (N.eq_dec n c) as [->|Hne].
    + rewrite E. easy.
    + rewrite N.pow2_bits_false by auto. apply andb_false_r.
Qed.

Lemma find_bit_spec i : forall fuel b,
  match find_bit fuel b i with
  | Some c => b <= c < b + fuel /\ N.testbit i (N.of_nat c) = true
              /\ forall j, b <= j < c -> N.testbit i (N.of_nat j) = false
  | None => forall j, b <= j < b + fuel -> N.testbit i (N.of_nat j) = false
  end.
Proof.
  induction fuel as [|fuel IH]; intros b; cbn [find_bit]; [lia|].
  rewrite land_pow2_pos. destruct (N.testbit i (N.of_nat b)) eqn:E.
  - split; [lia|]. split; [easy|]. lia.
  - specialize (IH (S b)). destruct (find_bit fuel (S b) i) as [c|].
    + destruct IH as (H1 & H2 & H3). split; [lia|]. split; [easy|].
      intros j Hj. destruct (Nat.eq_dec j b) as [->|]; [easy|]. apply H3. lia.
    + intros j Hj. destruct (Nat.eq_dec j b) as [->|]; [easy|]. apply IH. lia.
Qed.

Lemma low_bits_zero_divide i c :
  (forall j, j < c -> N.testbit (N.of_nat i) (N.of_nat j) = false) <-> Nat.divide (2 ^ c) i.
Proof.
  split.
  - intros H. assert (Hm : (N.of_nat i mod 2 ^ N.of_nat c = 0)%N).
    { apply N.bits_inj_0. intros n. destruct (N.lt_ge_cases n (N.of_nat c)) as [Hlt|Hge].
      - rewrite N.mod_pow2_bits_low by easy. replace n with (N.of_nat (N.to_nat n)) by lia.
        apply H. lia.
      - apply N.mod_pow2_bits_high. easy. }
    apply N.mod_divide in Hm; [|apply N.pow_nonzero; easy].
    destruct Hm as (q & Hq). exists (N.to_nat q).
    apply (f_equal N.to_nat) in Hq. rewrite Nat2N.id, N2Nat.inj_mul, N2Nat.inj_pow, Nat2N.id in Hq.
    exact Hq.
  - intros (q & Hq) j Hj. rewrite Hq, Nat2N.inj_mul, Nat2N.inj_pow.
    change (N.of_nat 2) with 2%N. rewrite N.mul_pow2_bits_low; [easy|lia].
Qed.

(** In iteration [i] of [2^m] the active relative level is at most [k] iff [i] is
    a multiple of [2^(m-k)]. *)
Definition rel_level (m i : nat) : nat :=
  m - match lowest_set_bit (N.of_nat i) with Some b => b | None => m end.

Lemma rel_level_spec m i k :
  m < 32 -> i < 2 ^ m -> k <= m ->
  match lowest_set_bit (N.of_nat i) with Some b => b <= m | None => True end
  /\ (rel_level m i <= k <-> Nat.divide (2 ^ (m - k)) i).
Proof.
  intros Hm Hi Hk. unfold rel_level, lowest_set_bit.
  pose proof (find_bit_spec (N.of_nat i) 32 0) as H.
  destruct (find_bit 32 0 (N.of_nat i)) as [b|].
  - destruct H as (Hb & Hset & Hlow).
    assert (Hdiv : Nat.divide (2 ^ b) i). { apply low_bits_zero_divide. intros; apply Hlow; lia. }
    assert (Hnz : i <> 0). { intros ->. rewrite N.bits_0 in Hset. discriminate. }
    assert (Hbm : b < m).
    { destruct (Nat.lt_ge_cases b m) as [|Hge]; [easy|]. exfalso.
      destruct Hdiv as (q & Hq). destruct q as [|q]; [lia|].
      pose proof (Nat.pow_le_mono_r 2 m b ltac:(lia) Hge). lia. }
    split; [lia|]. split.
    + intros Hle. apply low_bits_zero_divide. intros j Hj. apply Hlow. lia.
    + intros Hd. destruct (Nat.le_gt_cases (m - b) k) as [|Hgt]; [easy|]. exfalso.
      rewrite <- low_bits_zero_divide in Hd. rewrite (Hd b) in Hset by lia. discriminate.
  - split; [easy|]. rewrite Nat.sub_diag.
    assert (Hz : Nat.divide (2 ^ m) i). { apply low_bits_zero_divide. intros; apply H; lia. }
    split; [|lia]. intros _. eapply Nat.divide_trans; [|exact Hz].
    exists (2 ^ k). rewrite <- Nat.pow_add_r. f_equal. lia.
Qed.

Lemma sequence_map_some {A B} (f : A -> option B) (g : A -> B) l :
  (forall a, In a l -> f a = Some (g a)) -> sequence (map f l) = Some (map g l).
Proof.
  induction l as [|a l IH]; intros H; simpl; [easy|].
  rewrite (H a) by (left; easy). rewrite IH by (intros; apply H; right; easy). easy.
Qed.

Definition order_of (t : ts) : list nat :=
  map (fun i => lowest t + rel_level (num_allowed t - 1) i) (seq 0 (2 ^ (num_allowed t - 1))).

Lemma iter_levels_some t :
  lowest t < num_levels t -> num_levels t < 32 ->
  iter_levels_in_sweep_order t = Some (order_of t).
Proof.
  intros H1 H2. unfold iter_levels_in_sweep_order, order_of.
  destruct (num_allowed t) as [|m] eqn:E; [unfold num_allowed in E; lia|].
  simpl (S m - 1). rewrite Nat.sub_0_r.
  apply sequence_map_some. intros i Hi. apply in_seq in Hi.
  unfold lowest_active_from_iteration. destruct (Nat.ltb_spec (num_levels t) 32); [|lia].
  assert (Hm : m < 32) by (unfold num_allowed in E; lia).
  destruct (rel_level_spec m i 0) as (Hb & _); [easy|lia|lia|].
  unfold rel_level. replace (S m - 1) with m by lia.
  destruct (lowest_set_bit (N.of_nat i)) as [b|].
  - destruct (Nat.leb_spec b m); [|lia]. easy.
  - rewrite Nat.leb_refl. easy.
Qed.

(** ** Counting multiples *)

Lemma filter_multiples d : 1 <= d -> forall n,
  filter (fun i => i mod d =? 0) (seq 0 (d * n)) = map (fun j => d * j) (seq 0 n).
Proof.
  intros Hd. induction n as [|n IH].
  - rewrite Nat.mul_0_r. easy.
  - rewrite Nat.mul_succ_r, seq_app, filter_app, IH, seq_S, map_app. f_equal. simpl plus.
    assert (H : forall r, r <= d -> filter (fun i => i mod d =? 0) (seq (d * n) r)
              = if r =? 0 then [] else [d * n]).
    { induction r as [|r IHr]; intros Hr; [easy|].
      rewrite seq_S, filter_app, IHr by lia. simpl.
      rewrite (Nat.mul_comm d n), Nat.add_comm, Nat.mod_add, Nat.mod_small by lia.
      destruct r; simpl; easy. }
    rewrite H by lia. destruct (Nat.eqb_spec d 0); [lia|easy].
Qed.

Lemma filter_map_comm {A B} (f : A -> B) p l :
  filter p (map f l) = map f (filter (fun x => p (f x)) l).
Proof. induction l as [|a l IH]; simpl; [easy|]. destruct (p (f a)); simpl; rewrite IH; easy. Qed.

Lemma filter_ext_in' {A} (f g : A -> bool) l :
  (forall a, In a l -> f a = g a) -> filter f l = filter g l.
Proof. apply filter_ext_in. Qed.

Lemma active_iterations t l :
  lowest t <= l < num_levels t -> num_levels t < 32 ->
  filter (fun i => is_active l (lowest t + rel_level (num_allowed t - 1) i))
    (seq 0 (2 ^ (num_allowed t - 1)))
  = map (fun j => 2 ^ (num_levels t - 1 - l) * j) (seq 0 (2 ^ (l - lowest t))).
Proof.
  intros Hl Hn. set (m := num_allowed t - 1). set (k := l - lowest t).
  assert (Hmk : m - k = num_levels t - 1 - l) by (unfold m, k, num_allowed; lia).
  assert (Hp : 2 ^ m = 2 ^ (m - k) * 2 ^ k).
  { rewrite <- Nat.pow_add_r. f_equal. unfold m, k, num_allowed. lia. }
  rewrite <- Hmk, Hp. rewrite <- filter_multiples.
  2:{ pose proof (Nat.pow_nonzero 2 (m - k)). lia. }
  apply filter_ext_in'. intros i Hi. apply in_seq in Hi.
  destruct (rel_level_spec m i k) as (_ & Hiff).
  { unfold m, num_allowed. lia. } { rewrite Hp. lia. } { unfold m, k, num_allowed. lia. }
  assert (Hd : Nat.divide (2 ^ (m - k)) i <-> i mod 2 ^ (m - k) = 0).
  { symmetry. apply Nat.mod_divide. apply Nat.pow_nonzero. lia. }
  unfold is_active. destruct (Nat.leb_spec (lowest t + rel_level m i) l), (Nat.eqb_spec (i mod 2 ^ (m - k)) 0);
    try easy; exfalso.
  - apply n. apply Hd, Hiff. unfold k. lia.
  - apply Hd, Hiff in e. unfold k in e. lia.
Qed.

(** ** Rational facts *)

Lemma pow2_pos k : (0 < pow2 k)%Q.
Proof. unfold pow2. change 0%Q with (inject_Z 0). rewrite <- Zlt_Qlt. apply Z.pow_pos_nonneg; lia. Qed.

Lemma pow2_nz k : ~ (pow2 k == 0)%Q.
Proof. pose proof (pow2_pos k). intros E. rewrite E in H. lra. Qed.

Lemma pow2_add a b : (pow2 (a + b) == pow2 a * pow2 b)%Q.
Proof. unfold pow2. rewrite Nat2Z.inj_add, Z.pow_add_r, inject_Z_mult by lia. easy. Qed.

Lemma pow2_nat k : inject_Z (Z.of_nat (2 ^ k)) = pow2 k.
Proof. unfold pow2. rewrite Nat2Z.inj_pow. easy. Qed.

Lemma Qsum_const (x : Q) {A} (l : list A) :
  (Qsum (map (fun _ => x) l) == x * inject_Z (Z.of_nat (length l)))%Q.
Proof.
  induction l as [|a l IH]; [simpl; ring|].
  simpl length. rewrite Nat2Z.inj_succ, <- Z.add_1_r, inject_Z_plus. simpl Qsum. rewrite IH. ring.
Qed.

Lemma run_time_exact t levels :
  lowest t < num_levels t -> num_levels t < 32 ->
  Forall (fun l => lowest t <= l < num_levels t) levels ->
  exists order sweeps,
    iter_levels_in_sweep_order t = Some order
    /\ length order = 2 ^ (num_levels t - 1 - lowest t)
    /\ Forall (fun s => lowest t <= s < num_levels t) order
    /\ performed_sweeps t levels = Some sweeps
    /\ forall l, In l levels ->
         (forall i s, nth_error order i = Some s ->
            (is_active l s = true <-> Nat.divide (2 ^ (num_levels t - 1 - l)) i))
         /\ (forall s, In s order -> is_active l s = true -> In s sweeps)
         /\ length (filter (is_active l) sweeps) = 2 ^ (l - lowest t)
         /\ (Qsum (applied_timesteps t l sweeps) == current_max_timestep t)%Q.
Proof.
  intros Hlow Hn Hlev.
  set (P := fun s => 0 <? count_cells_global levels s).
  exists (order_of t), (filter P (order_of t)).
  split; [apply iter_levels_some; easy|].
  split. { unfold order_of. rewrite map_length, seq_length. f_equal. unfold num_allowed. lia. }
  split.
  { apply Forall_forall. intros s Hs. unfold order_of in Hs. apply in_map_iff in Hs.
    destruct Hs as (i & <- & _). unfold rel_level. unfold num_allowed. lia. }
  split. { unfold performed_sweeps. rewrite iter_levels_some by easy. easy. }
  intros l Hl. rewrite Forall_forall in Hlev. specialize (Hlev _ Hl).
  assert (HP : forall s, is_active l s = true -> P s = true).
  { intros s Hs. unfold P, count_cells_global. apply Nat.ltb_lt.
    assert (Hin : In l (filter (fun l0 => is_active l0 s) levels)) by (apply filter_In; easy).
    destruct (filter _ levels); [easy|simpl; lia]. }
  assert (Hlen : length (filter (is_active l) (filter P (order_of t))) = 2 ^ (l - lowest t)).
  { assert (E : filter (is_active l) (filter P (order_of t)) = filter (is_active l) (order_of t)).
    { clear -HP. induction (order_of t) as [|s o IH]; simpl; [easy|].
      destruct (P s) eqn:E1; simpl; destruct (is_active l s) eqn:E2; rewrite ?IH; try easy.
      rewrite HP in E1; easy. }
    rewrite E. unfold order_of. rewrite filter_map_comm, map_length.
    rewrite active_iterations by easy. rewrite map_length, seq_length. easy. }
  split; [|split; [|split]].
  - intros i s Hi. unfold order_of in Hi. rewrite nth_error_map in Hi.
    destruct (nth_error (seq 0 (2 ^ (num_allowed t - 1))) i) as [j|] eqn:Ej; [|discriminate].
    simpl in Hi. injection Hi as <-.
    assert (Hlt : i < 2 ^ (num_allowed t - 1)).
    { apply (proj1 (nth_error_Some _ _)) in Ej as Hlt || idtac.
      assert (nth_error (seq 0 (2 ^ (num_allowed t - 1))) i <> None) by congruence.
      apply nth_error_Some in H. rewrite seq_length in H. easy. }
    rewrite (nth_error_nth' _ 0) in Ej by (rewrite seq_length; easy).
    rewrite seq_nth in Ej by easy. simpl in Ej. injection Ej as <-.
    destruct (rel_level_spec (num_allowed t - 1) i (l - lowest t)) as (_ & Hiff);
      [unfold num_allowed; lia|easy|unfold num_allowed; lia|].
    replace (num_allowed t - 1 - (l - lowest t)) with (num_levels t - 1 - l) in Hiff
      by (unfold num_allowed; lia).
    unfold is_active. rewrite Nat.leb_le. rewrite <- Hiff. lia.
  - intros s Hs Ha. apply filter_In. split; [easy|]. apply HP. easy.
  - exact Hlen.
  - unfold applied_timesteps. rewrite Qsum_const, Hlen, pow2_nat.
    unfold current_max_timestep, timestep_at_level, to_timestep, as_factor.
    fold (pow2 l) (pow2 (lowest t)).
    assert (E : (pow2 l == pow2 (lowest t) * pow2 (l - lowest t))%Q).
    { rewrite <- pow2_add. replace (lowest t + (l - lowest t)) with l by lia. easy. }
    rewrite E. field. split; apply pow2_nz.
Qed.

(** ** Level choice *)

Lemma level_from_ratio_lt n r : 1 <= n -> level_from_ratio n r < n.
Proof. unfold level_from_ratio. destruct (raw_level r); lia. Qed.

Lemma desired_level_range t r :
  lowest t < num_levels t -> lowest t <= desired_level_of_ratio t r < num_levels t.
Proof.
  intros H. unfold desired_level_of_ratio. pose proof (level_from_ratio_lt (num_levels t) r).
  destruct (Nat.ltb_spec (level_from_ratio (num_levels t) r) (lowest t)); lia.
Qed.

Lemma raw_level_fits q : (q <= pow2 (Z.to_nat (Z.log2_up (Qceiling q))))%Q.
Proof.
  eapply Qle_trans; [apply Qle_ceiling|]. unfold pow2. rewrite <- Zle_Qle.
  rewrite Z2Nat.id by apply Z.log2_up_nonneg.
  destruct (Z.le_gt_cases (Qceiling q) 1).
  - eapply Z.le_trans; [exact H|]. pose proof (Z.pow_pos_nonneg 2 (Z.log2_up (Qceiling q))).
    pose proof (Z.log2_up_nonneg (Qceiling q)). lia.
  - apply Z.log2_log2_up_spec. lia.
Qed.

Lemma raw_level_tight q l :
  Z.to_nat (Z.log2_up (Qceiling q)) = S l -> (pow2 l < q)%Q.
Proof.
  intros E. destruct (Qlt_le_dec (pow2 l) q) as [|Hle]; [easy|]. exfalso.
  assert (Hc : (Qceiling q <= 2 ^ Z.of_nat l)%Z).
  { unfold pow2 in Hle. apply Qceiling_resp_le in Hle. rewrite Qceiling_Z in Hle. easy. }
  apply Z.log2_up_le_mono in Hc. rewrite Z.log2_up_pow2 in Hc by lia. lia.
Qed.

Lemma level_choice t d :
  (0 < d)%Q -> (0 < max_timestep t)%Q -> lowest t < num_levels t ->
  let l := get_desired_level t d in
  lowest t <= l < num_levels t
  /\ ((timestep_at_level t l <= d)%Q \/ l = num_levels t - 1)
  /\ ((d < 2 * timestep_at_level t l)%Q \/ l = lowest t).
Proof.
  intros Hd Hmax Hlow l. split; [apply desired_level_range; easy|].
  unfold l, get_desired_level, time_ratio.
  destruct (Qeq_bool d 0) eqn:E0. { apply Qeq_bool_iff in E0. rewrite E0 in Hd. lra. }
  unfold desired_level_of_ratio, level_from_ratio, raw_level.
  set (q := (max_timestep t / d)%Q). set (r := Z.to_nat (Z.log2_up (Qceiling q))).
  assert (Hq : (max_timestep t == q * d)%Q). { unfold q. field. lra. }
  assert (Hstep : forall k, (timestep_at_level t k * pow2 k == q * d)%Q).
  { intros k. unfold timestep_at_level, to_timestep, as_factor. fold (pow2 k). rewrite Hq.
    field. apply pow2_nz. }
  assert (Hfit : forall k, r <= k -> (timestep_at_level t k <= d)%Q).
  { intros k Hk. pose proof (raw_level_fits q) as Hf. fold r in Hf.
    assert (Hm : (pow2 r <= pow2 k)%Q).
    { unfold pow2. rewrite <- Zle_Qle. apply Z.pow_le_mono_r; lia. }
    assert (Hqk : (q <= pow2 k)%Q) by lra.
    specialize (Hstep k). pose proof (pow2_pos k).
    apply (Qmult_le_r _ _ (pow2 k)); [easy|]. rewrite Hstep. rewrite (Qmult_comm d).
    apply Qmult_le_compat_r; lra. }
  assert (Htight : forall k, r = S k -> (d < 2 * timestep_at_level t r)%Q).
  { intros k Hk. pose proof (raw_level_tight q k Hk) as Ht.
    specialize (Hstep r). pose proof (pow2_pos r). pose proof (pow2_pos k).
    assert (E : (pow2 r == 2 * pow2 k)%Q).
    { rewrite Hk. change (S k) with (1 + k). rewrite pow2_add. unfold pow2 at 1. easy. }
    apply (Qmult_lt_r _ _ (pow2 k)); [easy|].
    assert (E2 : (2 * timestep_at_level t r * pow2 k == q * d)%Q).
    { rewrite <- Hstep, E. ring. }
    rewrite E2. rewrite (Qmult_comm d). apply Qmult_lt_r; easy. }
  destruct (Nat.ltb_spec (Nat.min r (num_levels t - 1)) (lowest t)) as [Hlt|Hge].
  - split; [|right; easy]. left. apply Hfit. lia.
  - destruct (Nat.le_gt_cases r (num_levels t - 1)) as [Hle|Hgt].
    + replace (Nat.min r (num_levels t - 1)) with r in * by lia.
      split; [left; apply Hfit; lia|]. destruct r as [|k] eqn:Er.
      * right. lia.
      * left. eapply Htight. reflexivity.
    + replace (Nat.min r (num_levels t - 1)) with (num_levels t - 1) in * by lia.
      split; [right; easy|]. destruct (Nat.eq_dec (num_levels t - 1) (lowest t)); [right; easy|].
      left. destruct r as [|k]; [lia|]. specialize (Htight k eq_refl).
      eapply Qlt_le_trans; [exact Htight|]. apply Qmult_le_l; [lra|].
      (* a coarser level has a longer step *)
      unfold timestep_at_level, to_timestep, as_factor. fold (pow2 (S k)) (pow2 (num_levels t - 1)).
      apply Qmult_le_l; [easy|].
      assert (Hp : (pow2 (num_levels t - 1) <= pow2 (S k))%Q).
      { unfold pow2. rewrite <- Zle_Qle. apply Z.pow_le_mono_r; lia. }
      pose proof (pow2_pos (num_levels t - 1)). pose proof (pow2_pos (S k)).
      apply Qle_shift_inv_l; [easy|].
      setoid_replace (/ pow2 (S k) * pow2 (num_levels t - 1))%Q
        with (pow2 (num_levels t - 1) / pow2 (S k))%Q by (field; lra).
      apply Qle_shift_div_r; [easy|]. lra.
Qed.

(** ** Histories *)

Definition state_after (max : Q) (n k : nat) : ts :=
  mkTs max n (n - Nat.max 1 (Nat.min k n)) (negb (k =? 0)).

Lemma ts_new_state max n : 1 <= n -> ts_new max n = Some (state_after max n 0).
Proof. intros. destruct n; [lia|]. unfold ts_new, state_after. simpl. rewrite Nat.sub_0_r. easy. Qed.

Lemma advance_state max n k : 1 <= n -> advance_allowed_levels (state_after max n k) = state_after max n (S k).
Proof.
  intros Hn. unfold advance_allowed_levels, state_after.
  cbn [max_timestep num_levels lowest first_done].
  destruct (Nat.eqb_spec k 0) as [->|Hk]; cbn [negb andb].
  - f_equal. lia.
  - destruct (Nat.ltb_spec 0 (n - Nat.max 1 (Nat.min k n))); f_equal; lia.
Qed.

Lemma simulate_spec max n (Hn : 1 <= n < 32) : forall desires k levels,
  let t := state_after max n k in
  Forall (fun l => lowest t <= l < n) levels ->
  exists es t' levels',
    simulate t levels desires = Some (es, t', levels')
    /\ t' = state_after max n (k + length desires)
    /\ length levels' = length levels
    /\ Forall (fun l => lowest t' <= l < n) levels'
    /\ es = map (fun j => current_max_timestep (state_after max n j)) (seq k (length desires)).
Proof.
  induction desires as [|d ds IH]; intros k levels t Hlev.
  - exists [], t, levels. simpl. rewrite Nat.add_0_r. easy.
  - simpl. unfold run_sweeps, performed_sweeps.
    rewrite iter_levels_some by (unfold t, state_after; cbn [lowest num_levels]; lia). cbn [option_map].
    unfold t at 1. rewrite advance_state by lia.
    set (t1 := state_after max n (S k)).
    set (lv := map (fun i => desired_level_of_ratio t1 (d i)) (seq 0 (length levels))).
    destruct (IH (S k) lv) as (es & t' & lv' & E & Ht & Hl & Hf & He).
    { apply Forall_forall. intros l Hin. apply in_map_iff in Hin. destruct Hin as (i & <- & _).
      apply desired_level_range. unfold t1, state_after. cbn [lowest num_levels]. lia. }
    fold t1 in E. unfold t. rewrite advance_state by lia. fold t1. fold lv. rewrite E.
    eexists _, _, _. split; [reflexivity|]. split. { rewrite Ht. f_equal. lia. }
    split. { rewrite Hl. unfold lv. rewrite map_length, seq_length. easy. }
    split; [easy|]. rewrite He. easy.
Qed.

Lemma Qsum_app a b : (Qsum (a ++ b) == Qsum a + Qsum b)%Q.
Proof. induction a as [|x a IH]; simpl; [ring|]. rewrite IH. ring. Qed.

Lemma elapsed_sum max n : 1 <= n -> forall k,
  (Qsum (map (fun j => current_max_timestep (state_after max n j)) (seq 0 k)) == time_after max n k)%Q.
Proof.
  intros Hn. induction k as [|k IH]; [easy|].
  rewrite seq_S, map_app, Qsum_app, IH. simpl Qsum. simpl plus.
  unfold current_max_timestep, state_after, as_factor. cbn [lowest num_levels max_timestep].
  fold (pow2 (n - Nat.max 1 (Nat.min k n))).
  unfold time_after. destruct (Nat.eqb_spec k 0) as [->|Hk].
  - simpl Nat.eqb. destruct (Nat.leb_spec 1 n); [|lia].
    replace (Nat.max 1 (Nat.min 0 n)) with 1 by lia. unfold Qdiv. ring.
  - destruct (Nat.eqb_spec (S k) 0); [lia|].
    destruct (Nat.leb_spec k n), (Nat.leb_spec (S k) n); try lia.
    + replace (Nat.max 1 (Nat.min k n)) with k by lia.
      assert (E : (pow2 (n - k) == 2 * pow2 (n - S k))%Q).
      { replace (n - k) with (1 + (n - S k)) by lia. rewrite pow2_add. easy. }
      rewrite E. field. apply pow2_nz.
    + assert (k = n) as -> by lia.
      replace (Nat.max 1 (Nat.min n n)) with n by lia. rewrite Nat.sub_diag.
      replace (S n - n) with 1 by lia. simpl. unfold pow2. simpl. field.
    + replace (Nat.max 1 (Nat.min k n)) with n by lia. rewrite Nat.sub_diag.
      replace (S k - n) with (S (k - n)) by lia.
      rewrite Nat2Z.inj_succ, <- Z.add_1_r, inject_Z_plus. unfold pow2. simpl. field.
Qed.

Lemma Forall_repeat {A} (P : A -> Prop) x n : P x -> Forall P (repeat x n).
Proof. intros. induction n; simpl; constructor; auto. Qed.

Lemma simulation_levels_and_times max n num_cells desires :
  1 <= n < 32 ->
  exists es t levels,
    simulation max n num_cells desires = Some (es, t, levels)
    /\ length es = length desires
    /\ length levels = num_cells
    /\ Forall (fun l => lowest t <= l < n) levels
    /\ lowest t = n - Nat.max 1 (Nat.min (length desires) n)
    /\ (Qsum es == time_after max n (length desires))%Q.
Proof.
  intros Hn. unfold simulation. rewrite ts_new_state by lia.
  destruct (simulate_spec max n Hn desires 0 (repeat (n - 1) num_cells)) as (es & t & lv & E & Ht & Hl & Hf & He).
  { apply Forall_repeat. unfold state_after. cbn [lowest num_levels]. lia. }
  exists es, t, lv. split; [easy|]. split. { rewrite He, map_length, seq_length. easy. }
  split. { rewrite Hl, repeat_length. easy. } split; [easy|].
  split. { rewrite Ht. easy. } rewrite He. apply elapsed_sum. lia.
Qed.
