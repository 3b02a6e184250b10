(** The triangles around a point of the plane: the cones cover all directions. *)
From Coq Require Import List Arith QArith Lqa Lia.
From Verif Require Import Geometry_Model Geometry_Spec Circle2_Proofs Tiling2_Proofs.
Import ListNotations.
Local Open Scope Q_scope.

Lemma list_max {A} (f : A -> Q) (l : list A) : l <> [] -> exists m, In m l /\ forall x, In x l -> f x <= f m.
Proof.
  induction l as [|a l IH]; [congruence|intros _]. destruct l as [|b l].
  - exists a. split; [now left|]. intros x [<-|[]]. lra.
  - destruct IH as [m [M1 M2]]; [discriminate|]. destruct (Qlt_le_dec (f a) (f m)) as [H|H].
    + exists m. split; [now right|]. intros x [<-|X]; [lra|auto].
    + exists a. split; [now left|]. intros x [<-|X]; [lra|]. specialize (M2 x X). lra.
Qed.

Definition dotp (p u v : point2) : Q := (x2 u - x2 p) * (x2 v - x2 p) + (y2 u - y2 p) * (y2 v - y2 p).

Lemma turn_identity p x u v :
  orient p u v * dist2_2 x p == dotp p v x * orient p u x - dotp p u x * orient p v x.
Proof. unfold orient, area2, dist2_2, dotp. cbn. ring. Qed.

Section Cone.
  Variable pts : nat -> point2.
  Variables (p x : point2) (L : list (nat * nat)).
  Hypothesis away : 0 < dist2_2 x p.
  Hypothesis turn : forall a b, In (a, b) L -> 0 < orient p (pts a) (pts b).
  Hypothesis next : forall a b, In (a, b) L -> exists c, In (b, c) L.
  Hypothesis some : L <> [].

  Definition slope (u : point2) : Q := dotp p u x / orient p u x.
  Lemma slope_grows u v : 0 < orient p u v -> 0 < orient p u x * orient p v x -> slope u < slope v.
  Proof.
    intros H S. assert (N : ~ orient p u x == 0 /\ ~ orient p v x == 0) by (split; intro Z; rewrite Z in S; lra).
    assert (E : slope v - slope u == orient p u v * dist2_2 x p / (orient p u x * orient p v x)).
    { rewrite turn_identity. unfold slope. field. tauto. }
    assert (0 < orient p u v * dist2_2 x p / (orient p u x * orient p v x)).
    { apply Qlt_shift_div_l; [exact S|]. rewrite Qmult_0_l. now apply qmul_pos. }
    lra.
  Qed.
  (** The pairs that satisfy a condition which the next pair inherits cannot all be on the same side of the ray. *)
  Lemma one_side (S : nat * nat -> bool) : (forall a b, In (a, b) L -> S (a, b) = true -> 0 < orient p (pts a) x * orient p (pts b) x) ->
    (forall a b c, In (a, b) L -> In (b, c) L -> S (a, b) = true -> S (b, c) = true) ->
    forall e, In e L -> S e = true -> False.
  Proof.
    intros H1 H2 e He Se. destruct (list_max (fun e => slope (pts (fst e))) (filter S L)) as [[a b] [M1 M2]].
    { intro Z. assert (X : In e (filter S L)) by (apply filter_In; auto). rewrite Z in X. destruct X. }
    apply filter_In in M1. destruct M1 as [M1 M3]. destruct (next a b M1) as [c Hc].
    specialize (M2 (b, c)). cbn [fst] in M2. pose proof (slope_grows (pts a) (pts b) (turn a b M1) (H1 a b M1 M3)).
    enough (slope (pts b) <= slope (pts a)) by lra. apply M2, filter_In. split; [exact Hc|]. eauto.
  Qed.
  Lemma cone : exists a b, In (a, b) L /\ 0 <= orient p (pts a) x /\ 0 <= orient p x (pts b).
  Proof.
    assert (SW : forall v, orient p x v == - orient p v x) by (intro v; unfold orient, area2; cbn; ring).
    assert (D : {e | In e L /\ 0 <= orient p (pts (fst e)) x /\ orient p (pts (snd e)) x <= 0} +
                {forall e, In e L -> 0 <= orient p (pts (fst e)) x -> 0 < orient p (pts (snd e)) x}).
    { clear next some turn. induction L as [|e l IH]; [right; intros e []|].
      destruct (Qlt_le_dec (orient p (pts (fst e)) x) 0) as [H|H]; [|destruct (Qlt_le_dec 0 (orient p (pts (snd e)) x)) as [H'|H']].
      - destruct IH as [[e' [X Y]]|X]; [left; exists e'; split; [now right|exact Y]|right].
        intros e' [<-|He'] ?; [lra|auto].
      - destruct IH as [[e' [X Y]]|X]; [left; exists e'; split; [now right|exact Y]|right].
        intros e' [<-|He'] ?; [assumption|auto].
      - left. exists e. split; [now left|]. auto. }
    destruct D as [[[a b] [X [Y Z]]]|D]; [exists a, b; cbn in *; rewrite SW; split; [exact X|]; lra|]. exfalso.
    assert (K : forall a b, In (a, b) L -> 0 < orient p (pts a) x -> False).
    { intros a b Hab Pa. set (S := fun e : nat * nat => if Qlt_le_dec 0 (orient p (pts (fst e)) x) then true else false).
      assert (SE : forall u v, S (u, v) = true <-> 0 < orient p (pts u) x)
        by (intros u v; unfold S; cbn; destruct (Qlt_le_dec 0 (orient p (pts u) x)); split; intros; auto; [discriminate|lra]).
      apply (one_side S) with (e := (a, b)); auto.
      - intros u v Huv Su. apply SE in Su. apply qmul_pos; [exact Su|]. apply (D (u, v) Huv). cbn. lra.
      - intros u v w Huv Hvw Su. apply SE. apply SE in Su. apply (D (u, v) Huv). cbn. lra.
      - now apply SE. }
    assert (K2 : forall a b, In (a, b) L -> orient p (pts a) x < 0).
    { intros a b Hab. destruct (Qlt_le_dec (orient p (pts a) x) 0) as [H|H]; [exact H|exfalso].
      destruct (next a b Hab) as [c Hc]. apply (K b c Hc). apply (D (a, b) Hab). exact H. }
    destruct L as [|[a b] l] eqn:EL; [congruence|]. rewrite <- EL in *.
    apply (one_side (fun _ => true)) with (e := (a, b)); auto; [|rewrite EL; now left].
    intros u v Huv _. destruct (next u v Huv) as [w Hw]. pose proof (K2 u v Huv). pose proof (K2 v w Hw).
    setoid_replace (orient p (pts u) x * orient p (pts v) x) with ((- orient p (pts u) x) * (- orient p (pts v) x)) by ring.
    apply qmul_pos; lra.
  Qed.
End Cone.

(** A triangle that has the direction of [x] in its closed cone contains the points near [p] in this direction. *)
Lemma cone_cls p a b x : 0 < orient p a b -> 0 <= orient p a x -> 0 <= orient p x b ->
  exists e, 0 < e /\ forall e', 0 < e' -> e' <= e -> cls p a b (mix e' p x).
Proof.
  intros P0 H1 H2. set (w := orient p a x + orient p x b). assert (W : 0 <= w) by (unfold w; lra).
  exists (orient p a b / (orient p a b + w)). split.
  - apply Qlt_shift_div_l; lra.
  - intros e' E1 E2. unfold cls. rewrite !orient_mix.
    destruct (orient_same p a) as [Z1 [Z2 _]]. destruct (orient_same b p) as [Z3 [Z4 _]].
    assert (E3 : e' * (orient p a b + w) <= orient p a b).
    { assert (0 < orient p a b + w) by lra. apply (Qmult_le_r _ _ (orient p a b + w)) in E2; [|lra].
      setoid_replace (orient p a b / (orient p a b + w) * (orient p a b + w)) with (orient p a b) in E2 by (field; lra). exact E2. }
    assert (EX : orient a b x == orient p a b - w) by (unfold w, orient, area2; cbn; ring).
    assert (EB : orient b p x == orient p x b) by (unfold orient, area2; cbn; ring).
    pose proof (orient_rot p a b) as R. pose proof (qmul_nonneg e' (orient p a x) ltac:(lra) H1). pose proof (qmul_nonneg e' (orient p x b) ltac:(lra) H2).
    pose proof (qmul_pos e' _ E1 P0). rewrite EX, EB, Z1, Z4, R. repeat split; lra.
Qed.
(** The cone of a triangle contains the direction between its other corners. *)
Lemma cone_ins p a b : 0 < orient p a b -> let x := mix (1#2) a b in
  0 < dist2_2 x p /\ forall e, 0 < e -> e < 1 -> ins p a b (mix e p x).
Proof.
  intros P0 x. split.
  - destruct (Qlt_le_dec 0 (dist2_2 x p)) as [H|H]; [exact H|exfalso]. pose proof (dist2_nonneg x p).
    assert (Z : dist2_2 x p == 0) by lra. apply dist2_zero in Z. destruct Z as [Z1 Z2]. unfold x, mix in Z1, Z2. cbn in Z1, Z2.
    assert (orient p a b == 0); [|lra]. unfold orient, area2. cbn. rewrite <- Z1, <- Z2. ring.
  - intros e E1 E2. unfold ins, x. rewrite !orient_mix.
    destruct (orient_same p a) as [Z1 [Z2 _]]. destruct (orient_same b p) as [Z3 [Z4 _]]. destruct (orient_same a b) as [Z5 [Z6 _]].
    pose proof (orient_rot p a b) as R1. pose proof (orient_rot2 p a b) as R2. rewrite Z1, Z2, Z3, Z4, Z5, Z6, R1, R2.
    pose proof (qmul_pos e _ E1 P0). pose proof (qmul_pos (1 - e) (orient p a b) ltac:(lra) P0). repeat split; lra.
Qed.
