(** Rounding of the operations of [Float_Model]: facts about single operations, and the error of expressions whose variables
    are differences of coordinates in [1, 2]. *)
From Coq Require Import ZArith QArith Qpower Qreals Reals Lra Lia Bool List Psatz.
From Flocq Require Import Core IEEE754.BinarySingleNaN Relative.
From Verif Require Import Geometry_Model Float_Model.
Import ListNotations.
Open Scope R_scope.

Definition u : R := bpow radix2 (-53).
Definition rnd (x : R) : R := round radix2 (FLT_exp (-1074) 53) ZnearestE x.
Definition fmt (x : R) : Prop := generic_format radix2 (FLT_exp (-1074) 53) x.
Definition fin (x : f64) : Prop := is_finite x = true.
Definition val (x : f64) : R := B2R x.
Global Instance prec_ok : Prec_gt_0 53 := gt0.

Lemma fexp_eq : SpecFloat.fexp 53 1024 = FLT_exp (-1074) 53.
Proof. reflexivity. Qed.

Lemma u_eq : u = / 9007199254740992.
Proof. unfold u. cbn. reflexivity. Qed.

Lemma fmt_val x : fmt (val x).
Proof. apply (generic_format_B2R 53 1024). Qed.

Lemma fmt_bpow e : (-1074 <= e)%Z -> fmt (bpow radix2 e).
Proof. apply generic_format_FLT_bpow. exact gt0. Qed.

Lemma rnd_le x y : x <= y -> rnd x <= rnd y.
Proof. apply round_le; exact _. Qed.

Lemma rnd_fmt x : fmt x -> rnd x = x.
Proof. apply round_generic; exact _. Qed.

Lemma rnd_opp x : rnd (- x) = - rnd x.
Proof. apply round_NE_opp. Qed.

Lemma rnd_0 : rnd 0 = 0.
Proof. apply round_0; exact _. Qed.

Lemma rnd_abs_le x e : (-1074 <= e)%Z -> Rabs x <= bpow radix2 e -> Rabs (rnd x) <= bpow radix2 e.
Proof.
  intros He Hx. apply Rabs_le_inv in Hx. destruct Hx as [H1 H2]. apply Rabs_le. split.
  - apply rnd_le in H1. rewrite rnd_opp, (rnd_fmt _ (fmt_bpow e He)) in H1. exact H1.
  - apply rnd_le in H2. rewrite (rnd_fmt _ (fmt_bpow e He)) in H2. exact H2.
Qed.

(** ** Single operations *)
Lemma small_lt x : Rabs x <= bpow radix2 1000 -> Rlt_bool (Rabs (rnd x)) (bpow radix2 1024) = true.
Proof.
  intro H. apply Rlt_bool_true. apply Rle_lt_trans with (bpow radix2 1000).
  - apply rnd_abs_le; [lia | exact H].
  - apply bpow_lt. lia.
Qed.

Lemma add_val x y : fin x -> fin y -> Rabs (val x + val y) <= bpow radix2 1000 ->
  fin (add x y) /\ val (add x y) = rnd (val x + val y).
Proof.
  intros Hx Hy H. pose proof (Bplus_correct 53 1024 gt0 ltmax mode_NE x y Hx Hy) as C. rewrite fexp_eq in C.
  fold (rnd (B2R x + B2R y)) in C. cbn [round_mode] in C.
  change (round radix2 (FLT_exp (-1074) 53) ZnearestE (B2R x + B2R y)) with (rnd (val x + val y)) in C.
  rewrite (small_lt _ H) in C. destruct C as (A & B & _). split; [exact B | exact A].
Qed.

Lemma sub_val x y : fin x -> fin y -> Rabs (val x - val y) <= bpow radix2 1000 ->
  fin (sub x y) /\ val (sub x y) = rnd (val x - val y).
Proof.
  intros Hx Hy H. pose proof (Bminus_correct 53 1024 gt0 ltmax mode_NE x y Hx Hy) as C. rewrite fexp_eq in C.
  cbn [round_mode] in C.
  change (round radix2 (FLT_exp (-1074) 53) ZnearestE (B2R x - B2R y)) with (rnd (val x - val y)) in C.
  rewrite (small_lt _ H) in C. destruct C as (A & B & _). split; [exact B | exact A].
Qed.

Lemma mul_val x y : fin x -> fin y -> Rabs (val x * val y) <= bpow radix2 1000 ->
  fin (mul x y) /\ val (mul x y) = rnd (val x * val y).
Proof.
  intros Hx Hy H. pose proof (Bmult_correct 53 1024 gt0 ltmax mode_NE x y) as C. rewrite fexp_eq in C.
  cbn [round_mode] in C.
  change (round radix2 (FLT_exp (-1074) 53) ZnearestE (B2R x * B2R y)) with (rnd (val x * val y)) in C.
  rewrite (small_lt _ H) in C. destruct C as (A & B & _). split; [| exact A].
  unfold fin in *. unfold mul. rewrite B, Hx, Hy. reflexivity.
Qed.

Lemma div_val x y : fin x -> val y <> 0 -> Rabs (val x / val y) <= bpow radix2 1000 ->
  fin (div x y) /\ val (div x y) = rnd (val x / val y).
Proof.
  intros Hx Hy H. pose proof (Bdiv_correct 53 1024 gt0 ltmax mode_NE x y Hy) as C. rewrite fexp_eq in C.
  cbn [round_mode] in C.
  change (round radix2 (FLT_exp (-1074) 53) ZnearestE (B2R x / B2R y)) with (rnd (val x / val y)) in C.
  rewrite (small_lt _ H) in C. destruct C as (A & B & _). split; [| exact A].
  unfold fin in *. unfold div. rewrite B, Hx. reflexivity.
Qed.

Lemma abs_val x : val (abs x) = Rabs (val x).
Proof. apply B2R_Babs. Qed.
Lemma abs_fin x : fin x -> fin (abs x).
Proof. unfold fin, abs. rewrite is_finite_Babs. trivial. Qed.

Lemma lt_val x y : fin x -> fin y -> lt x y = Rlt_bool (val x) (val y).
Proof. apply Bltb_correct. Qed.

Lemma fsign_val x : fin x ->
  (0 < val x /\ fsign x = Value Positive) \/ (val x < 0 /\ fsign x = Value Negative) \/ (val x = 0 /\ fsign x = Value Zero).
Proof.
  intro H. unfold fsign, cmp. rewrite Bcompare_correct by (try exact H; reflexivity).
  change (B2R x) with (val x). change (B2R zero) with 0.
  destruct (Rcompare_spec (val x) 0); [right; left | right; right | left]; auto.
Qed.

Lemma try_sign_val x e : fin x -> fin e ->
  (Rabs (val x) < val e /\ try_sign x e = Imprecise) \/ (val e <= Rabs (val x) /\ try_sign x e = fsign x).
Proof.
  intros Hx He. unfold try_sign. rewrite lt_val by (try apply abs_fin; assumption). rewrite abs_val.
  destruct (Rlt_bool_spec (Rabs (val x)) (val e)); [left | right]; auto.
Qed.

(** ** Exact values *)
Lemma to_Q_val x q : to_Q x = Some q -> fin x /\ val x = Q2R q.
Proof.
  destruct x as [s | s | | s m e H]; cbn [to_Q]; intro E; try discriminate; injection E as <-.
  - split; [reflexivity |]. unfold val. cbn. unfold Q2R. cbn. lra.
  - split; [reflexivity |]. unfold val. cbn [B2R]. unfold F2R. cbn [Fnum Fexp].
    rewrite Q2R_mult. f_equal.
    + unfold Q2R, inject_Z. cbn [Qnum Qden]. rewrite Rinv_1, Rmult_1_r. reflexivity.
    + clear. assert (P : forall p, Q2R ((2 # 1) ^ Zpos p) = IZR (Z.pow_pos 2 p)).
      { intro p. rewrite (Qeq_eqR _ (inject_Z (2 ^ Zpos p))).
        - unfold Q2R, inject_Z. cbn [Qnum Qden]. rewrite Rinv_1, Rmult_1_r. reflexivity.
        - symmetry. change (2 # 1)%Q with (inject_Z 2). apply Zpower_Qpower. lia. }
      destruct e as [| p | p].
      * unfold Q2R. cbn. lra.
      * cbn [bpow]. rewrite P. reflexivity.
      * cbn [bpow]. change ((2 # 1) ^ Z.neg p)%Q with (/ ((2 # 1) ^ Z.pos p))%Q. rewrite Q2R_inv.
        -- rewrite P. reflexivity.
        -- intro C. apply Qeq_eqR in C. rewrite P in C. unfold Q2R in C. cbn in C. rewrite Rmult_0_l in C.
           apply (eq_IZR _ 0) in C. rewrite Zpower_pos_nat in C.
           assert (0 < Zpower_nat 2 (Pos.to_nat p))%Z by (rewrite Zpower_nat_Z; apply Z.pow_pos_nonneg; lia). lia.
Qed.

Lemma val_lit m e : val (lit m e) = rnd (IZR m * bpow radix2 e) \/ bpow radix2 1000 < Rabs (IZR m * bpow radix2 e).
Proof.
  destruct (Rle_or_lt (Rabs (IZR m * bpow radix2 e)) (bpow radix2 1000)) as [H | H]; [left | right; exact H].
  pose proof (binary_normalize_correct 53 1024 gt0 ltmax mode_NE m e false) as C. cbv zeta in C. rewrite fexp_eq in C.
  cbn [round_mode] in C. unfold F2R in C. cbn [Fnum Fexp] in C.
  change (round radix2 (FLT_exp (-1074) 53) ZnearestE (IZR m * bpow radix2 e)) with (rnd (IZR m * bpow radix2 e)) in C.
  rewrite (small_lt _ H) in C. apply C.
Qed.

Lemma val_one : val one = 1.
Proof. unfold val, one, lit. cbn. unfold F2R. cbn. lra. Qed.
Lemma fin_one : fin one.
Proof. reflexivity. Qed.

(** ** Absolute errors *)
Lemma rnd_err x e : (-1020 <= e)%Z -> Rabs x <= bpow radix2 e -> Rabs (rnd x - x) <= bpow radix2 (e - 54).
Proof.
  intros He Hx. destruct (Rle_lt_or_eq_dec _ _ Hx) as [L | L].
  - destruct (Req_dec x 0) as [-> | N].
    { rewrite rnd_0, Rminus_0_r, Rabs_R0. apply bpow_ge_0. }
    eapply Rle_trans; [apply error_le_half_ulp; exact _ |].
    rewrite ulp_neq_0 by exact N.
    replace (bpow radix2 (e - 54)) with (/ 2 * bpow radix2 (e - 53)).
    + apply Rmult_le_compat_l; [lra |]. apply bpow_le. unfold cexp, FLT_exp.
      pose proof (mag_le_bpow radix2 x e N L). lia.
    + replace (e - 53)%Z with (1 + (e - 54))%Z by lia. rewrite bpow_plus. cbn [bpow]. change (IZR (Z.pow_pos radix2 1)) with 2. lra.
  - assert (F : fmt x).
    { unfold Rabs in L. destruct (Rcase_abs x).
      - replace x with (- bpow radix2 e) by lra. apply generic_format_opp. apply fmt_bpow. lia.
      - rewrite L. apply fmt_bpow. lia. }
    rewrite rnd_fmt by exact F. replace (x - x) with 0 by lra. rewrite Rabs_R0. apply bpow_ge_0.
Qed.

Lemma rnd_rel x : bpow radix2 (-1022) <= Rabs x -> Rabs (rnd x - x) <= u * Rabs x.
Proof.
  intro H. eapply Rle_trans; [apply relative_error_N_FLT; [lia | exact H] |].
  apply Rmult_le_compat_r; [apply Rabs_pos |]. unfold u. cbn. lra.
Qed.

(** [1 + u] is rounded to 1. *)
Lemma rnd_1u : rnd (1 + u) = 1.
Proof.
  destruct (val_lit (2 ^ 53 + 1) (-53)) as [E | E].
  - replace (IZR (2 ^ 53 + 1) * bpow radix2 (-53)) with (1 + u) in E.
    + rewrite <- E. unfold val, lit. vm_compute. lra.
    + rewrite u_eq. cbn. lra.
  - exfalso. assert (H : Rabs (IZR (2 ^ 53 + 1) * bpow radix2 (-53)) <= bpow radix2 1).
    { rewrite Rabs_pos_eq; cbn; lra. }
    assert (bpow radix2 1 < bpow radix2 1000) by (apply bpow_lt; lia). lra.
Qed.

Lemma rnd_near_1 x : Rabs x <= 1 + u -> Rabs (rnd x) <= 1.
Proof.
  intro H. apply Rabs_le_inv in H. destruct H as [H1 H2]. apply Rabs_le. split.
  - apply rnd_le in H1. rewrite rnd_opp, rnd_1u in H1. lra.
  - apply rnd_le in H2. rewrite rnd_1u in H2. lra.
Qed.

(** ** Multiples of a power of two *)
Definition multiple (e : Z) (x : R) : Prop := exists m : Z, x = IZR m * bpow radix2 e.

Lemma multiple_plus e x y : multiple e x -> multiple e y -> multiple e (x + y).
Proof. intros [a ->] [b ->]. exists (a + b)%Z. rewrite plus_IZR. lra. Qed.
Lemma multiple_minus e x y : multiple e x -> multiple e y -> multiple e (x - y).
Proof. intros [a ->] [b ->]. exists (a - b)%Z. rewrite minus_IZR. lra. Qed.
Lemma multiple_mult e f x y : multiple e x -> multiple f y -> multiple (e + f) (x * y).
Proof. intros [a ->] [b ->]. exists (a * b)%Z. rewrite mult_IZR, bpow_plus. lra. Qed.
Lemma multiple_abs e x : multiple e x -> multiple e (Rabs x).
Proof. intros [a ->]. exists (Z.abs a). rewrite abs_IZR, Rabs_mult, (Rabs_pos_eq (bpow _ _)) by apply bpow_ge_0. reflexivity. Qed.

Lemma multiple_weaken e f x : (f <= e)%Z -> multiple e x -> multiple f x.
Proof.
  intros H [a ->]. exists (a * 2 ^ (e - f))%Z. rewrite mult_IZR, Rmult_assoc. f_equal.
  rewrite (IZR_Zpower radix2) by lia. rewrite <- bpow_plus. f_equal. lia.
Qed.

Lemma multiple_ge e x : multiple e x -> x = 0 \/ bpow radix2 e <= Rabs x.
Proof.
  intros [a ->]. destruct (Z.eq_dec a 0) as [-> | N]; [left; lra | right].
  rewrite Rabs_mult, (Rabs_pos_eq (bpow _ _)) by apply bpow_ge_0. rewrite <- abs_IZR.
  rewrite <- (Rmult_1_l (bpow radix2 e)) at 1. apply Rmult_le_compat_r; [apply bpow_ge_0 |]. apply IZR_le. lia.
Qed.

Lemma multiple_rnd e x : (-1074 <= e)%Z -> multiple e x -> multiple e (rnd x).
Proof.
  intros He Hx. destruct (Z_le_gt_dec e (cexp radix2 (FLT_exp (-1074) 53) x)) as [L | L].
  - apply (multiple_weaken (cexp radix2 (FLT_exp (-1074) 53) x)); [exact L |].
    unfold rnd, round, F2R. cbn [Fnum Fexp]. eexists. reflexivity.
  - rewrite rnd_fmt; [exact Hx |]. destruct Hx as [a ->].
    apply (generic_format_F2R radix2 (FLT_exp (-1074) 53) a e). intros _. unfold F2R. cbn [Fnum Fexp]. lia.
Qed.

(** A number of the format is a multiple of the last place of its binade. *)
Lemma fmt_multiple e x : (-1021 <= e)%Z -> fmt x -> bpow radix2 e <= Rabs x -> multiple (e - 52) x.
Proof.
  intros He F H. assert (N : x <> 0). { intros ->. rewrite Rabs_R0 in H. pose proof (bpow_gt_0 radix2 e). lra. }
  rewrite F. apply multiple_weaken with (cexp radix2 (FLT_exp (-1074) 53) x).
  - unfold cexp, FLT_exp. assert (e + 1 <= mag radix2 x)%Z by (apply mag_ge_bpow; replace (e + 1 - 1)%Z with e by lia; exact H). lia.
  - unfold F2R. cbn [Fnum Fexp]. eexists. reflexivity.
Qed.

Lemma multiple_fmt e x : (-1074 <= e)%Z -> multiple e x -> Rabs x <= bpow radix2 (e + 53) -> fmt x.
Proof.
  intros He [a ->] H. destruct (Rle_lt_or_eq_dec _ _ H) as [L | L].
  - apply generic_format_FLT. exists (Float radix2 a e); cbn [Fnum Fexp]; [reflexivity | | exact He].
    rewrite Rabs_mult, (Rabs_pos_eq (bpow _ _)), bpow_plus, Rmult_comm in L by apply bpow_ge_0.
    apply Rmult_lt_reg_l in L; [| apply bpow_gt_0]. rewrite <- abs_IZR in L. change (bpow radix2 53) with (IZR (2 ^ 53)) in L.
    apply lt_IZR in L. exact L.
  - unfold Rabs in L. destruct (Rcase_abs _).
    + replace (IZR a * bpow radix2 e) with (- bpow radix2 (e + 53)) by lra. apply generic_format_opp. apply fmt_bpow. lia.
    + rewrite L. apply fmt_bpow. lia.
Qed.

(** ** Expressions *)
Inductive ex := V (i : nat) | Add (a b : ex) | Sub (a b : ex) | Mul (a b : ex) | Abs (a : ex).
Fixpoint evF (s : nat -> f64) (a : ex) : f64 :=
  match a with V i => s i | Add a b => add (evF s a) (evF s b) | Sub a b => sub (evF s a) (evF s b) | Mul a b => mul (evF s a) (evF s b) | Abs a => abs (evF s a) end.
Fixpoint evR (s : nat -> R) (a : ex) : R :=
  match a with V i => s i | Add a b => evR s a + evR s b | Sub a b => evR s a - evR s b | Mul a b => evR s a * evR s b | Abs a => Rabs (evR s a) end.
(** The sum of the sizes of the terms. *)
Fixpoint evA (s : nat -> R) (a : ex) : R :=
  match a with V i => Rabs (s i) | Add a b => evA s a + evA s b | Sub a b => evA s a + evA s b | Mul a b => evA s a * evA s b | Abs a => evA s a end.
(** Number of factors, number of roundings and largest size if the variables are at most 1. *)
Fixpoint deg (a : ex) : Z := match a with V _ => 1%Z | Add a b | Sub a b => Z.max (deg a) (deg b) | Mul a b => (deg a + deg b)%Z | Abs a => deg a end.
Fixpoint cnt (a : ex) : nat := match a with V _ => 0%nat | Add a b | Sub a b => S (Nat.max (cnt a) (cnt b)) | Mul a b => S (cnt a + cnt b) | Abs a => cnt a end.
Fixpoint size (c : Z) (a : ex) : Z := match a with V _ => c | Add a b | Sub a b => (size c a + size c b)%Z | Mul a b => (size c a * size c b)%Z | Abs a => size c a end.

Lemma u_pos : 0 < u.
Proof. apply bpow_gt_0. Qed.

Lemma pow1u_ge_1 n : 1 <= (1 + u) ^ n.
Proof. apply pow_R1_Rle. pose proof u_pos. lra. Qed.
Lemma pow1u_mono m n : (m <= n)%nat -> (1 + u) ^ m <= (1 + u) ^ n.
Proof. apply Rle_pow. pose proof u_pos. lra. Qed.

Lemma evA_ge s a : Rabs (evR s a) <= evA s a.
Proof.
  induction a as [i | a IHa b IHb | a IHa b IHb | a IHa b IHb | a IHa]; cbn [evR evA].
  - lra.
  - eapply Rle_trans; [apply Rabs_triang |]. lra.
  - eapply Rle_trans; [apply Rabs_triang |]. rewrite Rabs_Ropp. lra.
  - rewrite Rabs_mult. apply Rmult_le_compat; try apply Rabs_pos; assumption.
  - rewrite Rabs_Rabsolu. exact IHa.
Qed.

Lemma evA_pos s a : 0 <= evA s a.
Proof. eapply Rle_trans; [apply Rabs_pos | apply evA_ge]. Qed.

Lemma evA_size s c a : (0 <= c)%Z -> (forall i, Rabs (s i) <= IZR c) -> evA s a <= IZR (size c a).
Proof.
  intros Hc H. induction a as [i | a IHa b IHb | a IHa b IHb | a IHa b IHb | a IHa]; cbn [evA size].
  - apply H.
  - rewrite plus_IZR. lra.
  - rewrite plus_IZR. lra.
  - rewrite mult_IZR. apply Rmult_le_compat; auto using evA_pos.
  - exact IHa.
Qed.

Lemma deg_pos a : (1 <= deg a)%Z.
Proof. induction a; cbn [deg]; lia. Qed.

(** One rounding of a multiple of [2 ^ (-52 k)], not too large. *)
Lemma round_step k x : (k <= 19)%Z -> multiple (-52 * k) x -> Rabs (rnd x - x) <= u * Rabs x.
Proof.
  intros Hk M. destruct (multiple_ge _ _ M) as [-> | L].
  - rewrite rnd_0, Rminus_0_r, Rabs_R0. lra.
  - apply rnd_rel. eapply Rle_trans; [| exact L]. apply bpow_le. lia.
Qed.

(** The error of a rounded value [z] of [y], when [y] is within [A * (E - 1)] of [x] and [|x| <= A]. *)
Lemma err_step x y z A E : 1 <= E -> Rabs x <= A -> Rabs (y - x) <= A * (E - 1) -> Rabs (z - y) <= u * Rabs y ->
  Rabs (z - x) <= A * ((1 + u) * E - 1).
Proof.
  intros HE HA H1 H2. pose proof u_pos as Hu.
  assert (Hy : Rabs y <= A * E).
  { replace y with (x + (y - x)) by lra. eapply Rle_trans; [apply Rabs_triang |]. lra. }
  replace (z - x) with ((z - y) + (y - x)) by lra. eapply Rle_trans; [apply Rabs_triang |].
  assert (u * Rabs y <= u * (A * E)) by (apply Rmult_le_compat_l; lra). lra.
Qed.

Lemma mul_err x x' y y' A B E F : 1 <= E -> 1 <= F -> Rabs x <= A -> Rabs y <= B ->
  Rabs (x' - x) <= A * (E - 1) -> Rabs (y' - y) <= B * (F - 1) -> Rabs (x' * y' - x * y) <= A * B * (E * F - 1).
Proof.
  intros HE HF HA HB H1 H2.
  assert (A0 : 0 <= A) by (eapply Rle_trans; [apply Rabs_pos | exact HA]).
  assert (B0 : 0 <= B) by (eapply Rle_trans; [apply Rabs_pos | exact HB]).
  replace (x' * y' - x * y) with ((x' - x) * (y' - y) + ((x' - x) * y + x * (y' - y))) by ring.
  eapply Rle_trans; [apply Rabs_triang |]. eapply Rle_trans; [apply Rplus_le_compat_l; apply Rabs_triang |].
  rewrite !Rabs_mult.
  assert (Rabs (x' - x) * Rabs (y' - y) <= (A * (E - 1)) * (B * (F - 1))) by (apply Rmult_le_compat; auto using Rabs_pos).
  assert (Rabs (x' - x) * Rabs y <= (A * (E - 1)) * B) by (apply Rmult_le_compat; auto using Rabs_pos).
  assert (Rabs x * Rabs (y' - y) <= A * (B * (F - 1))) by (apply Rmult_le_compat; auto using Rabs_pos).
  lra.
Qed.

Section Error.
  Variables (s : nat -> f64) (c : Z).
  Hypothesis Hfin : forall i, fin (s i).
  Hypothesis Hmul : forall i, multiple (-52) (val (s i)).
  Hypothesis Hc : (1 <= c)%Z.
  Hypothesis Hle : forall i, Rabs (val (s i)) <= IZR c.

  Definition r (i : nat) : R := val (s i).

  Lemma size_pos a : (1 <= size c a)%Z.
  Proof. induction a; cbn [size]; nia. Qed.

  (** The sizes are far from overflow. *)
  Lemma no_overflow A n N x : (N <= 2 ^ 900)%Z -> (n <= 64)%nat -> 0 <= A <= IZR N -> Rabs x <= A * (1 + u) ^ n -> Rabs x <= bpow radix2 1000.
  Proof.
    intros HN Hn HA Hx. eapply Rle_trans; [exact Hx |].
    apply Rle_trans with (bpow radix2 900 * bpow radix2 64).
    - apply Rmult_le_compat; [lra | | |].
      + pose proof (pow1u_ge_1 n). lra.
      + eapply Rle_trans; [apply HA |]. change (bpow radix2 900) with (IZR (2 ^ 900)). apply IZR_le. exact HN.
      + eapply Rle_trans; [apply (pow1u_mono n 64 Hn) |]. eapply Rle_trans; [apply (pow_incr (1 + u) 2 64); rewrite u_eq; lra |].
        change (bpow radix2 64) with (IZR (2 ^ 64)). rewrite pow_IZR. apply IZR_le. reflexivity.
    - rewrite <- bpow_plus. apply bpow_le. lia.
  Qed.

  Lemma near_le x y A E : Rabs x <= A -> Rabs (y - x) <= A * (E - 1) -> Rabs y <= A * E.
  Proof.
    intros H1 H2. replace y with (x + (y - x)) by lra. eapply Rle_trans; [apply Rabs_triang |]. lra.
  Qed.

  Theorem error a : (deg a <= 19)%Z -> (cnt a <= 64)%nat -> (size c a <= 2 ^ 900)%Z ->
    fin (evF s a) /\ multiple (-52 * deg a) (val (evF s a)) /\ Rabs (val (evF s a) - evR r a) <= evA r a * ((1 + u) ^ cnt a - 1).
  Proof.
    assert (HC : (0 <= c)%Z) by lia.
    assert (HS : forall a, 0 <= evA r a <= IZR (size c a)) by (intro a0; split; [apply evA_pos | apply evA_size; [exact HC | exact Hle]]).
    induction a as [i | a IHa b IHb | a IHa b IHb | a IHa b IHb | a IHa]; cbn [evF deg cnt size].
    - intros _ _ _. split; [apply Hfin | split; [apply (Hmul i) |]]. cbn [evR evA pow]. unfold r, val.
      rewrite (Rminus_eq_0 (B2R (s i))), Rabs_R0. lra.
    - intros Hd Hn Hz. pose proof (size_pos a). pose proof (size_pos b).
      destruct IHa as (Fa & Ma & Ea); [lia | lia | lia |]. destruct IHb as (Fb & Mb & Eb); [lia | lia | lia |].
      assert (Ea' : Rabs (val (evF s a) - evR r a) <= evA r a * ((1 + u) ^ Nat.max (cnt a) (cnt b) - 1)).
      { eapply Rle_trans; [exact Ea |]. apply Rmult_le_compat_l; [apply evA_pos |]. apply Rplus_le_compat_r, pow1u_mono. lia. }
      assert (Eb' : Rabs (val (evF s b) - evR r b) <= evA r b * ((1 + u) ^ Nat.max (cnt a) (cnt b) - 1)).
      { eapply Rle_trans; [exact Eb |]. apply Rmult_le_compat_l; [apply evA_pos |]. apply Rplus_le_compat_r, pow1u_mono. lia. }
      assert (E1 : Rabs ((val (evF s a) + val (evF s b)) - evR r (Add a b)) <= evA r (Add a b) * ((1 + u) ^ Nat.max (cnt a) (cnt b) - 1)).
      { cbn [evR evA]. replace (val (evF s a) + val (evF s b) - (evR r a + evR r b)) with ((val (evF s a) - evR r a) + (val (evF s b) - evR r b)) by ring.
        eapply Rle_trans; [apply Rabs_triang |]. lra. }
      assert (M : multiple (-52 * Z.max (deg a) (deg b)) (val (evF s a) + val (evF s b))).
      { apply multiple_plus; [apply (multiple_weaken (-52 * deg a)); [lia | exact Ma] | apply (multiple_weaken (-52 * deg b)); [lia | exact Mb]]. }
      destruct (add_val (evF s a) (evF s b) Fa Fb) as (F & ->).
      { apply (no_overflow (evA r (Add a b)) (Nat.max (cnt a) (cnt b)) (size c (Add a b))); [exact Hz | lia | apply HS |].
        apply (near_le (evR r (Add a b))); [apply evA_ge | exact E1]. }
      split; [exact F |]. split; [apply multiple_rnd; [lia | exact M] |]. cbn [pow].
      eapply err_step; [apply pow1u_ge_1 | apply evA_ge | exact E1 | apply (round_step _ _ Hd M)].
    - intros Hd Hn Hz. pose proof (size_pos a). pose proof (size_pos b).
      destruct IHa as (Fa & Ma & Ea); [lia | lia | lia |]. destruct IHb as (Fb & Mb & Eb); [lia | lia | lia |].
      assert (Ea' : Rabs (val (evF s a) - evR r a) <= evA r a * ((1 + u) ^ Nat.max (cnt a) (cnt b) - 1)).
      { eapply Rle_trans; [exact Ea |]. apply Rmult_le_compat_l; [apply evA_pos |]. apply Rplus_le_compat_r, pow1u_mono. lia. }
      assert (Eb' : Rabs (val (evF s b) - evR r b) <= evA r b * ((1 + u) ^ Nat.max (cnt a) (cnt b) - 1)).
      { eapply Rle_trans; [exact Eb |]. apply Rmult_le_compat_l; [apply evA_pos |]. apply Rplus_le_compat_r, pow1u_mono. lia. }
      assert (E1 : Rabs ((val (evF s a) - val (evF s b)) - evR r (Sub a b)) <= evA r (Sub a b) * ((1 + u) ^ Nat.max (cnt a) (cnt b) - 1)).
      { cbn [evR evA]. replace (val (evF s a) - val (evF s b) - (evR r a - evR r b)) with ((val (evF s a) - evR r a) + - (val (evF s b) - evR r b)) by ring.
        eapply Rle_trans; [apply Rabs_triang |]. rewrite Rabs_Ropp. lra. }
      assert (M : multiple (-52 * Z.max (deg a) (deg b)) (val (evF s a) - val (evF s b))).
      { apply multiple_minus; [apply (multiple_weaken (-52 * deg a)); [lia | exact Ma] | apply (multiple_weaken (-52 * deg b)); [lia | exact Mb]]. }
      destruct (sub_val (evF s a) (evF s b) Fa Fb) as (F & ->).
      { apply (no_overflow (evA r (Sub a b)) (Nat.max (cnt a) (cnt b)) (size c (Sub a b))); [exact Hz | lia | apply HS |].
        apply (near_le (evR r (Sub a b))); [apply evA_ge | exact E1]. }
      split; [exact F |]. split; [apply multiple_rnd; [lia | exact M] |]. cbn [pow].
      eapply err_step; [apply pow1u_ge_1 | apply evA_ge | exact E1 | apply (round_step _ _ Hd M)].
    - intros Hd Hn Hz. pose proof (size_pos a). pose proof (size_pos b). pose proof (deg_pos a). pose proof (deg_pos b).
      destruct IHa as (Fa & Ma & Ea); [lia | lia | nia |]. destruct IHb as (Fb & Mb & Eb); [lia | lia | nia |].
      assert (E1 : Rabs ((val (evF s a) * val (evF s b)) - evR r (Mul a b)) <= evA r (Mul a b) * ((1 + u) ^ (cnt a + cnt b) - 1)).
      { cbn [evR evA]. rewrite pow_add. apply mul_err; auto using pow1u_ge_1, evA_ge. }
      assert (M : multiple (-52 * (deg a + deg b)) (val (evF s a) * val (evF s b))).
      { replace (-52 * (deg a + deg b))%Z with (-52 * deg a + -52 * deg b)%Z by lia. apply multiple_mult; assumption. }
      destruct (mul_val (evF s a) (evF s b) Fa Fb) as (F & ->).
      { apply (no_overflow (evA r (Mul a b)) (cnt a + cnt b) (size c (Mul a b))); [exact Hz | lia | apply HS |].
        apply (near_le (evR r (Mul a b))); [apply evA_ge | exact E1]. }
      split; [exact F |]. split; [apply multiple_rnd; [lia | exact M] |]. cbn [pow].
      eapply err_step; [apply pow1u_ge_1 | apply evA_ge | exact E1 | apply (round_step _ _ Hd M)].
    - intros Hd Hn Hz. destruct (IHa Hd Hn Hz) as (F & M & E). split; [apply abs_fin, F |]. rewrite abs_val.
      split; [apply multiple_abs, M |]. cbn [evR evA]. eapply Rle_trans; [apply Rabs_triang_inv2 | exact E].
  Qed.
End Error.

(** ** Coordinates in [1, 2] *)
Definition unit (x : f64) : Prop := fin x /\ 1 <= val x <= 2.

Lemma unit_multiple x : unit x -> multiple (-52) (val x).
Proof.
  intros (F & H). apply (fmt_multiple 0); [lia | apply fmt_val |]. rewrite Rabs_pos_eq by lra. cbn. lra.
Qed.

Lemma unit_sub x y : unit x -> unit y -> fin (sub x y) /\ val (sub x y) = val x - val y /\ multiple (-52) (val x - val y) /\ Rabs (val x - val y) <= 1.
Proof.
  intros Hx Hy. assert (M : multiple (-52) (val x - val y)) by (apply multiple_minus; apply unit_multiple; assumption).
  destruct Hx as (Fx & Bx), Hy as (Fy & By).
  assert (L : Rabs (val x - val y) <= 1) by (apply Rabs_le; lra).
  assert (L1 : Rabs (val x - val y) <= bpow radix2 0) by exact L.
  destruct (sub_val x y Fx Fy) as (F & E).
  { eapply Rle_trans; [exact L1 | apply bpow_le; lia]. }
  split; [exact F |]. split; [| split; assumption]. rewrite E. apply rnd_fmt. apply (multiple_fmt (-52)); [lia | exact M |].
  eapply Rle_trans; [exact L1 | apply bpow_le; lia].
Qed.
