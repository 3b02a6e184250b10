(** Curves described by a finite automaton: in every state the sub-cells of a cell
    are visited in some order, and each sub-cell is refined in another state. If the
    automaton passes finitely many checks then the curve is a bijection and visits
    adjacent cells one after the other, for every depth. *)
From Coq Require Import List Arith NArith Lia Bool.
Import ListNotations.
Local Open Scope N_scope.

Section Curve.
Variable D : nat.
Variable St : Type.
Variables digit inv : St -> nat -> nat.
Variable nxt : St -> nat -> St.
Variable ok : St -> Prop.
Local Notation M := (2 ^ D)%nat.
Local Notation MN := (N.of_nat M).

Definition centry (r : St) : nat := inv r 0%nat.
Definition cexit (r : St) : nat := inv r (M - 1)%nat.

Hypothesis H_inv1 : forall r p, ok r -> (p < M)%nat -> (digit r p < M)%nat /\ inv r (digit r p) = p.
Hypothesis H_inv2 : forall r k, ok r -> (k < M)%nat -> (inv r k < M)%nat /\ digit r (inv r k) = k.
Hypothesis H_ok : forall r p, ok r -> (p < M)%nat -> ok (nxt r p).
Hypothesis H_entry : forall r, ok r -> centry (nxt r (centry r)) = centry r.
Hypothesis H_exit : forall r, ok r -> cexit (nxt r (cexit r)) = cexit r.
Hypothesis H_adj : forall r k, ok r -> (S k < M)%nat ->
  let p := inv r k in let q := inv r (S k) in
  let a := cexit (nxt r p) in let b := centry (nxt r q) in
  exists i, (i < D)%nat
  /\ Nat.testbit p i = negb (Nat.testbit q i)
  /\ Nat.testbit a i = Nat.testbit q i /\ Nat.testbit b i = Nat.testbit p i
  /\ forall j, (j < D)%nat -> j <> i ->
       Nat.testbit p j = Nat.testbit q j /\ Nat.testbit a j = Nat.testbit b j.

Lemma M_pos : (0 < M)%nat.
Proof. clear. induction D; simpl; lia. Qed.

Fixpoint ckey (r : St) (ps : list nat) : N :=
  match ps with
  | [] => 0
  | p :: t => N.of_nat (digit r p) * MN ^ N.of_nat (length t) + ckey (nxt r p) t
  end.

Definition pix_ok (p : nat) : Prop := (p < M)%nat.

Lemma MN_pow_pos : forall n, 0 < MN ^ n.
Proof. intro n. pose proof M_pos. assert (MN <> 0) by lia. pose proof (N.pow_nonzero MN n H0). lia. Qed.

Lemma ckey_bound : forall ps r, ok r -> Forall pix_ok ps -> ckey r ps < MN ^ N.of_nat (length ps).
Proof.
  induction ps as [|p t IH]; intros r Hr H; [cbn; lia|].
  inversion H as [|? ? Hp Ht]; subst. cbn [ckey length].
  destruct (H_inv1 r p Hr Hp) as [Hd _].
  specialize (IH (nxt r p) (H_ok r p Hr Hp) Ht).
  rewrite Nat2N.inj_succ, N.pow_succ_r'. nia.
Qed.

Lemma div_eq : forall b q1 r1 q2 r2, r1 < b -> r2 < b -> q1 * b + r1 = q2 * b + r2 -> q1 = q2 /\ r1 = r2.
Proof. intros. assert (q1 = q2) by nia. split; [auto|]. nia. Qed.

Lemma ckey_inj : forall ps qs r, ok r -> Forall pix_ok ps -> Forall pix_ok qs ->
  length ps = length qs -> ckey r ps = ckey r qs -> ps = qs.
Proof.
  induction ps as [|p t IH]; intros [|q u] r Hr Hp Hq Hl E; try discriminate; auto.
  inversion Hp as [|? ? Hp1 Ht]; inversion Hq as [|? ? Hq1 Hu]; subst.
  cbn [ckey length] in E. injection Hl as Hl. rewrite <- Hl in E.
  apply div_eq in E.
  - destruct E as [E1 E2]. apply Nat2N.inj in E1.
    destruct (H_inv1 r p Hr Hp1) as [_ Ep]. destruct (H_inv1 r q Hr Hq1) as [_ Eq].
    assert (p = q) by congruence. subst q. f_equal.
    apply (IH u (nxt r p)); auto.
  - apply ckey_bound; auto.
  - rewrite Hl. apply ckey_bound; auto.
Qed.

Lemma ckey_surj : forall d r k, ok r -> k < MN ^ N.of_nat d ->
  exists ps, length ps = d /\ Forall pix_ok ps /\ ckey r ps = k.
Proof.
  induction d as [|d IH]; intros r k Hr Hk.
  - exists []. cbn in *. split; [auto|split; [auto|lia]].
  - rewrite Nat2N.inj_succ, N.pow_succ_r' in Hk.
    set (b := MN ^ N.of_nat d) in *. assert (Hb : 0 < b) by apply MN_pow_pos.
    assert (Hdiv : k / b < MN) by (apply N.div_lt_upper_bound; lia).
    assert (Hmod : k mod b < b) by (apply N.mod_lt; lia).
    set (c := N.to_nat (k / b)). assert (Hc : (c < M)%nat) by (unfold c; lia).
    destruct (H_inv2 r c Hr Hc) as [Hp Hd].
    destruct (IH (nxt r (inv r c)) (k mod b) (H_ok _ _ Hr Hp) Hmod) as (ps & Hl & Hf & Hk').
    exists (inv r c :: ps). split; [cbn; lia|]. split; [constructor; auto|].
    cbn [ckey]. rewrite Hd, Hk', Hl. fold b. unfold c. rewrite N2Nat.id.
    pose proof (N.div_mod' k b). lia.
Qed.

(** The first and the last key of a cell. *)
Lemma ckey_zero : forall ps r, ok r -> Forall pix_ok ps -> ckey r ps = 0 ->
  ps = repeat (centry r) (length ps).
Proof.
  induction ps as [|p t IH]; intros r Hr H E; auto.
  inversion H as [|? ? Hp Ht]; subst. cbn [ckey] in E.
  pose proof (MN_pow_pos (N.of_nat (length t))).
  assert (digit r p = 0%nat) by nia. assert (ckey (nxt r p) t = 0) by lia.
  assert (Ep : p = centry r).
  { destruct (H_inv1 r p Hr Hp) as [_ Ep]. unfold centry. rewrite <- H1. auto. }
  cbn [length repeat]. f_equal; [exact Ep|].
  rewrite (IH (nxt r p)) at 1; auto.
  rewrite Ep. rewrite H_entry; auto.
Qed.

Lemma ckey_last : forall ps r, ok r -> Forall pix_ok ps -> ckey r ps + 1 = MN ^ N.of_nat (length ps) ->
  ps = repeat (cexit r) (length ps).
Proof.
  induction ps as [|p t IH]; intros r Hr H E; auto.
  inversion H as [|? ? Hp Ht]; subst. cbn [ckey] in E. cbn [length] in E.
  rewrite Nat2N.inj_succ, N.pow_succ_r' in E.
  destruct (H_inv1 r p Hr Hp) as [Hd Ep].
  pose proof (ckey_bound t (nxt r p) (H_ok _ _ Hr Hp) Ht) as Hb.
  set (b := MN ^ N.of_nat (length t)) in *.
  assert (digit r p = (M - 1)%nat) by nia. assert (ckey (nxt r p) t + 1 = b).
  { rewrite H0 in E. replace (N.of_nat (M - 1)) with (MN - 1) in E by lia. pose proof M_pos. nia. }
  assert (Ep' : p = cexit r) by (unfold cexit; rewrite <- H0; auto).
  cbn [length repeat]. f_equal; [exact Ep'|].
  rewrite (IH (nxt r p)) at 1; auto.
  rewrite Ep'. rewrite H_exit; auto.
Qed.

(** Coordinates along one axis. *)
Fixpoint ccoord (i : nat) (ps : list nat) : N :=
  match ps with
  | [] => 0
  | p :: t => (if Nat.testbit p i then 2 ^ N.of_nat (length t) else 0) + ccoord i t
  end.

Lemma ccoord_repeat : forall i p n,
  ccoord i (repeat p n) = if Nat.testbit p i then 2 ^ N.of_nat n - 1 else 0.
Proof.
  induction n as [|n IH]; [cbn; destruct (Nat.testbit p i); reflexivity|].
  cbn [repeat ccoord]. rewrite IH, repeat_length.
  destruct (Nat.testbit p i); [|reflexivity].
  rewrite Nat2N.inj_succ, N.pow_succ_r'.
  assert (0 < 2 ^ N.of_nat n) by (apply N.neq_0_lt_0, N.pow_nonzero; lia). lia.
Qed.

Definition cadjacent (ps qs : list nat) : Prop :=
  exists i, (i < D)%nat
  /\ (ccoord i ps = ccoord i qs + 1 \/ ccoord i qs = ccoord i ps + 1)
  /\ forall j, (j < D)%nat -> j <> i -> ccoord j ps = ccoord j qs.

Lemma ckey_adjacent : forall ps qs r, ok r -> Forall pix_ok ps -> Forall pix_ok qs ->
  length ps = length qs -> ckey r qs = ckey r ps + 1 -> cadjacent ps qs.
Proof.
  induction ps as [|p t IH]; intros [|q u] r Hr Hp Hq Hl E; try discriminate.
  inversion Hp as [|? ? Hp1 Ht]; inversion Hq as [|? ? Hq1 Hu]; subst.
  cbn [ckey] in E. injection Hl as Hl.
  pose proof (ckey_bound t (nxt r p) (H_ok _ _ Hr Hp1) Ht) as Bt.
  pose proof (ckey_bound u (nxt r q) (H_ok _ _ Hr Hq1) Hu) as Bu.
  rewrite <- Hl in E, Bu. set (b := MN ^ N.of_nat (length t)) in *.
  destruct (H_inv1 r p Hr Hp1) as [Dp Ip]. destruct (H_inv1 r q Hr Hq1) as [Dq Iq].
  assert (Hcase : digit r q = digit r p /\ ckey (nxt r q) u = ckey (nxt r p) t + 1
    \/ digit r q = S (digit r p) /\ ckey (nxt r q) u = 0 /\ ckey (nxt r p) t + 1 = b).
  { assert (N.of_nat (digit r q) = N.of_nat (digit r p) \/ N.of_nat (digit r q) = N.of_nat (digit r p) + 1) by nia.
    destruct H as [H|H]; [left|right]; (split; [lia|]); rewrite H in E; nia. }
  destruct Hcase as [[E1 E2]|(E1 & E2 & E3)].
  - assert (p = q) by congruence. subst q.
    destruct (IH u (nxt r p) (H_ok _ _ Hr Hp1) Ht Hu Hl E2) as (i & Hi & Ha & Hj).
    exists i. split; [exact Hi|]. cbn [ccoord]. rewrite <- Hl. split.
    + destruct (Nat.testbit p i); lia.
    + intros j Hj1 Hj2. rewrite (Hj j Hj1 Hj2). reflexivity.
  - apply ckey_last in E3; auto. apply ckey_zero in E2; auto.
    assert (Hk : (S (digit r p) < M)%nat) by lia.
    pose proof (H_adj r (digit r p) Hr Hk) as HA. cbv zeta in HA.
    rewrite <- E1, Ip, Iq in HA.
    destruct HA as (i & Hi & B1 & B2 & B3 & B4).
    exists i. split; [exact Hi|].
    assert (Ct : forall j, ccoord j t = if Nat.testbit (cexit (nxt r p)) j then 2 ^ N.of_nat (length t) - 1 else 0)
      by (intro j; rewrite E3 at 1; apply ccoord_repeat).
    assert (Cu : forall j, ccoord j u = if Nat.testbit (centry (nxt r q)) j then 2 ^ N.of_nat (length t) - 1 else 0)
      by (intro j; rewrite E2, Hl at 1; rewrite <- Hl; apply ccoord_repeat).
    assert (0 < 2 ^ N.of_nat (length t)) by (apply N.neq_0_lt_0, N.pow_nonzero; lia).
    cbn [ccoord]. rewrite <- Hl. split.
    + rewrite Ct, Cu, B2, B3, B1. destruct (Nat.testbit q i); cbn [negb]; lia.
    + intros j Hj1 Hj2. rewrite Ct, Cu. destruct (B4 j Hj1 Hj2) as [-> ->]. reflexivity.
Qed.

(** Paths from coordinates: [f i] is the coordinate along axis [i]; a pixel is
    given by its bits. *)
Variable pixel : (nat -> bool) -> nat.
Hypothesis H_pixel_ok : forall f, (pixel f < M)%nat.
Hypothesis H_pixel_bit : forall f i, (i < D)%nat -> Nat.testbit (pixel f) i = f i.
Hypothesis H_pixel_of : forall f p, (p < M)%nat -> (forall i, (i < D)%nat -> f i = Nat.testbit p i) -> pixel f = p.

Fixpoint cpath (d : nat) (f : nat -> N) : list nat :=
  match d with
  | O => []
  | S d' => pixel (fun i => N.testbit (f i) (N.of_nat d')) :: cpath d' f
  end.

Lemma cpath_length : forall d f, length (cpath d f) = d.
Proof. induction d; intro f; cbn; auto. Qed.
Lemma cpath_ok : forall d f, Forall pix_ok (cpath d f).
Proof. induction d; intro f; cbn; constructor; auto. apply H_pixel_ok. Qed.

Lemma mod_pow_succ : forall x d,
  x mod 2 ^ N.of_nat (S d) = (if N.testbit x (N.of_nat d) then 2 ^ N.of_nat d else 0) + x mod 2 ^ N.of_nat d.
Proof.
  intros x d. rewrite Nat2N.inj_succ, N.pow_succ_r'.
  rewrite N.mul_comm, N.mod_mul_r by (try apply N.pow_nonzero; lia).
  rewrite N.testbit_eqb.
  destruct ((x / 2 ^ N.of_nat d) mod 2 =? 1) eqn:E.
  - apply N.eqb_eq in E. rewrite E. lia.
  - apply N.eqb_neq in E. assert (Hm : (x / 2 ^ N.of_nat d) mod 2 < 2) by (apply N.mod_lt; lia).
    assert (E0 : (x / 2 ^ N.of_nat d) mod 2 = 0) by (revert E Hm; generalize ((x / 2 ^ N.of_nat d) mod 2); clear; intros; lia).
    rewrite E0. lia.
Qed.

Lemma ccoord_path : forall d f i, (i < D)%nat -> ccoord i (cpath d f) = f i mod 2 ^ N.of_nat d.
Proof.
  induction d as [|d IH]; intros f i Hi; [cbn; rewrite N.mod_1_r; reflexivity|].
  cbn [cpath ccoord]. rewrite cpath_length, H_pixel_bit, IH by auto.
  rewrite mod_pow_succ. reflexivity.
Qed.

Lemma ccoord_bound : forall ps i, ccoord i ps < 2 ^ N.of_nat (length ps).
Proof.
  induction ps as [|p t IH]; intro i; [cbn; lia|].
  cbn [ccoord length]. specialize (IH i). rewrite Nat2N.inj_succ, N.pow_succ_r'.
  destruct (Nat.testbit p i); lia.
Qed.

Lemma testbit_high : forall x n, x < 2 ^ n -> N.testbit x n = false.
Proof.
  intros x n H. rewrite N.testbit_eqb, N.div_small; auto.
Qed.

Lemma testbit_add_high : forall d x (b : bool), x < 2 ^ N.of_nat d ->
  N.testbit ((if b then 2 ^ N.of_nat d else 0) + x) (N.of_nat d) = b.
Proof.
  intros d x b H. rewrite N.testbit_eqb. destruct b.
  - rewrite N.add_comm. replace (x + 2 ^ N.of_nat d) with (x + 1 * 2 ^ N.of_nat d) by lia.
    rewrite N.div_add by (apply N.pow_nonzero; lia). rewrite N.div_small; auto.
  - cbn [N.add]. rewrite N.div_small; auto.
Qed.

Lemma testbit_add_low : forall d x (b : bool) j, j < N.of_nat d ->
  N.testbit ((if b then 2 ^ N.of_nat d else 0) + x) j = N.testbit x j.
Proof.
  intros d x b j H. destruct b; [|reflexivity].
  rewrite <- (N.mod_pow2_bits_low _ (N.of_nat d) j H).
  rewrite <- (N.mod_pow2_bits_low x (N.of_nat d) j H). f_equal.
  replace (2 ^ N.of_nat d + x) with (x + 1 * 2 ^ N.of_nat d) by lia.
  apply N.mod_add. apply N.pow_nonzero; lia.
Qed.

Lemma cpath_ext : forall d f g,
  (forall i j, (i < D)%nat -> j < N.of_nat d -> N.testbit (f i) j = N.testbit (g i) j) ->
  cpath d f = cpath d g.
Proof.
  induction d as [|d IH]; intros f g H; auto. cbn [cpath]. f_equal.
  - apply H_pixel_of; [apply H_pixel_ok|]. intros i Hi. rewrite H_pixel_bit by auto. apply H; auto. lia.
  - apply IH. intros. apply H; auto. lia.
Qed.

Lemma cpath_coords : forall ps, Forall pix_ok ps -> cpath (length ps) (fun i => ccoord i ps) = ps.
Proof.
  induction ps as [|p t IH]; intro H; auto. inversion H as [|? ? Hp Ht]; subst.
  cbn [length cpath]. f_equal.
  - apply H_pixel_of; auto. intros i Hi. cbn [ccoord]. apply testbit_add_high. apply ccoord_bound.
  - rewrite <- (IH Ht) at 2. apply cpath_ext. intros i j Hi Hj. cbn [ccoord]. apply testbit_add_low. auto.
Qed.

(** The combined statements. *)
Definition fkey (r : St) (d : nat) (f : nat -> N) : N := ckey r (cpath d f).

Lemma fkey_bound : forall r d f, ok r -> fkey r d f < MN ^ N.of_nat d.
Proof. intros. unfold fkey. rewrite <- (cpath_length d f) at 2. apply ckey_bound; auto using cpath_ok. Qed.

Lemma fkey_inj : forall r d f g, ok r ->
  (forall i, (i < D)%nat -> f i < 2 ^ N.of_nat d) -> (forall i, (i < D)%nat -> g i < 2 ^ N.of_nat d) ->
  fkey r d f = fkey r d g -> forall i, (i < D)%nat -> f i = g i.
Proof.
  intros r d f g Hr Hf Hg E i Hi. apply ckey_inj in E; auto using cpath_ok; [|rewrite !cpath_length; auto].
  pose proof (ccoord_path d f i Hi) as A. pose proof (ccoord_path d g i Hi) as B.
  rewrite N.mod_small in A, B by auto. congruence.
Qed.

Lemma fkey_surj : forall r d k, ok r -> k < MN ^ N.of_nat d ->
  exists f, (forall i, (i < D)%nat -> f i < 2 ^ N.of_nat d) /\ fkey r d f = k.
Proof.
  intros r d k Hr Hk. destruct (ckey_surj d r k Hr Hk) as (ps & Hl & Hf & E).
  exists (fun i => ccoord i ps). split.
  - intros i _. rewrite <- Hl. apply ccoord_bound.
  - unfold fkey. rewrite <- Hl, cpath_coords; auto.
Qed.

Lemma fkey_adj : forall r d f g, ok r ->
  (forall i, (i < D)%nat -> f i < 2 ^ N.of_nat d) -> (forall i, (i < D)%nat -> g i < 2 ^ N.of_nat d) ->
  fkey r d g = fkey r d f + 1 ->
  exists i, (i < D)%nat /\ (f i = g i + 1 \/ g i = f i + 1) /\ forall j, (j < D)%nat -> j <> i -> f j = g j.
Proof.
  intros r d f g Hr Hf Hg E. apply ckey_adjacent in E; auto using cpath_ok; [|rewrite !cpath_length; auto].
  destruct E as (i & Hi & A & B). exists i. split; [auto|].
  rewrite !ccoord_path, !N.mod_small in A by auto. split; [exact A|].
  intros j Hj Hn. specialize (B j Hj Hn). rewrite !ccoord_path, !N.mod_small in B by auto. exact B.
Qed.

Lemma fkey_last : forall r d f, ok r -> (forall i, (i < D)%nat -> f i < 2 ^ N.of_nat d) ->
  fkey r d f + 1 = MN ^ N.of_nat d ->
  forall i, (i < D)%nat -> f i = if Nat.testbit (cexit r) i then 2 ^ N.of_nat d - 1 else 0.
Proof.
  intros r d f Hr Hf E i Hi. unfold fkey in E. rewrite <- (cpath_length d f) in E at 2.
  apply ckey_last in E; auto using cpath_ok.
  pose proof (ccoord_path d f i Hi) as A. rewrite N.mod_small in A by auto.
  rewrite <- A, E, cpath_length. apply ccoord_repeat.
Qed.

End Curve.
