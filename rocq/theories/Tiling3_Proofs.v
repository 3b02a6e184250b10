(** Positively oriented tetrahedra that tile a big tetrahedron, and what splits and flips do to
    them. *)
From Coq Require Import List Arith Lia QArith Lqa Setoid Qminmax Permutation.
From Verif Require Import Geometry_Model Geometry_Spec Circle2_Proofs Tiling2_Proofs Sphere3_Proofs Delaunay3_Proofs.
Import ListNotations.
Local Open Scope Q_scope.

Ltac perms a b c x := pose proof (o3_rot a b c x); pose proof (o3_rot b c a x); pose proof (o3_swap a b c x);
  pose proof (o3_swap b c a x); pose proof (o3_swap c a b x).

Lemma o3_swap2 a b c x : orient3 a c b x == - orient3 a b c x.
Proof. coords3. ring. Qed.
Lemma o3_rot3 a b c x : orient3 b c a x == orient3 a b c x.
Proof. apply o3_rot. Qed.

(** ** The four parts of a tetrahedron *)
  Lemma split3_pos a b c d p : ins3 a b c d p -> 0 < orient3 a b c p /\ 0 < orient3 a d b p /\ 0 < orient3 a c d p /\ 0 < orient3 b d c p.
  Proof. auto. Qed.
  Lemma split3_sub a b c d p x : 0 < orient3 a b c d -> ins3 a b c d p -> cls3 a b c p x \/ cls3 a d b p x \/ cls3 a c d p x \/ cls3 b d c p x -> cls3 a b c d x.
  Proof.
    intros H Hp. destruct (corner_cls3 a b c d H) as [A [B [C D]]]. pose proof (ins3_cls3 _ _ _ _ _ Hp) as P. destruct Hp as [P1 [P2 [P3 P4]]].
    intros [X|[X|[X|X]]].
    - now apply (cls3_trans a b c p).
    - now apply (cls3_trans a d b p).
    - now apply (cls3_trans a c d p).
    - now apply (cls3_trans b d c p).
  Qed.
  Lemma split3_apart a b c d p x :
    ~ (ins3 a b c p x /\ ins3 a d b p x) /\ ~ (ins3 a b c p x /\ ins3 a c d p x) /\ ~ (ins3 a b c p x /\ ins3 b d c p x) /\
    ~ (ins3 a d b p x /\ ins3 a c d p x) /\ ~ (ins3 a d b p x /\ ins3 b d c p x) /\ ~ (ins3 a c d p x /\ ins3 b d c p x).
  Proof.
    unfold ins3. clear. repeat split; intros [[? [? [? ?]]] [? [? [? ?]]]].
    - perms a b p x. lra.
    - perms a c p x. lra.
    - perms b c p x. lra.
    - perms a d p x. lra.
    - perms b d p x. lra.
    - perms c d p x. lra.
  Qed.
  Lemma split3_corner a b c d p : ins3 a b c d p -> ~ cls3 a b c p d /\ ~ cls3 a d b p c /\ ~ cls3 a c d p b /\ ~ cls3 b d c p a.
  Proof.
    intros [P1 [P2 [P3 P4]]]. unfold cls3.
    assert (E1 : orient3 a p b d == - orient3 a d b p) by (clear; coords3; ring).
    assert (E2 : orient3 a p d c == - orient3 a c d p) by (clear; coords3; ring).
    assert (E3 : orient3 a p c b == - orient3 a b c p) by (clear; coords3; ring).
    assert (E4 : orient3 b p d a == - orient3 a d b p) by (clear; coords3; ring).
    repeat split; intros [_ [? _]]; lra.
  Qed.
  Lemma split3_cover a b c d p x : 0 < orient3 a b c d -> ins3 a b c d p -> cls3 a b c d x -> cls3 a b c p x \/ cls3 a d b p x \/ cls3 a c d p x \/ cls3 b d c p x.
  Proof.
    intros H Hp [C1 [C2 [C3 C4]]]. pose proof Hp as [P1 [P2 [P3 P4]]].
    set (vd := orient3 a b c x) in *. set (vc := orient3 a d b x) in *. set (vb := orient3 a c d x) in *. set (va := orient3 b d c x) in *.
    set (wd := orient3 a b c p) in *. set (wc := orient3 a d b p) in *. set (wb := orient3 a c d p) in *. set (wa := orient3 b d c p) in *.
    set (V := orient3 a b c d) in *.
    assert (Iab : V * orient3 a b p x == vd * wc - vc * wd) by (unfold V, vd, vc, wd, wc; coords3; ring).
    assert (Iac : V * orient3 a c p x == vb * wd - vd * wb) by (unfold V, vd, vb, wd, wb; coords3; ring).
    assert (Ibc : V * orient3 b c p x == vd * wa - va * wd) by (unfold V, vd, va, wd, wa; coords3; ring).
    assert (Iad : V * orient3 a d p x == vc * wb - vb * wc) by (unfold V, vc, vb, wc, wb; coords3; ring).
    assert (Ibd : V * orient3 b d p x == va * wc - vc * wa) by (unfold V, vc, va, wc, wa; coords3; ring).
    assert (Icd : V * orient3 c d p x == vb * wa - va * wb) by (unfold V, va, vb, wa, wb; coords3; ring).
    assert (S : forall o l r, V * o == l - r -> (r <= l -> 0 <= o) /\ (l <= r -> o <= 0)).
    { intros o l r E. split; intro L.
      - apply (qmul_nonneg_inv V); [exact H|lra].
      - assert (0 <= - o); [|lra]. apply (qmul_nonneg_inv V); [exact H|lra]. }
    assert (M : forall v w v' w', 0 < w -> 0 < w' -> v / w <= v' / w' -> v * w' <= v' * w).
    { intros v w v' w' W W' L. assert (E1 : v * w' == v / w * (w * w')) by (field; lra). assert (E2 : v' * w == v' / w' * (w * w')) by (field; lra).
      rewrite E1, E2. apply Qmult_le_compat_r; [exact L|]. apply Qlt_le_weak, qmul_pos; assumption. }
    assert (D : cls3 a b c p x \/ ~ (vd / wd <= vc / wc /\ vd / wd <= vb / wb /\ vd / wd <= va / wa)).
    { destruct (Qlt_le_dec (vc / wc) (vd / wd)) as [L|L]; [right; lra|]. destruct (Qlt_le_dec (vb / wb) (vd / wd)) as [L'|L']; [right; lra|].
      destruct (Qlt_le_dec (va / wa) (vd / wd)) as [L''|L'']; [right; lra|]. left.
      apply M in L; [|assumption|assumption]. apply M in L'; [|assumption|assumption]. apply M in L''; [|assumption|assumption].
      pose proof (proj2 (S _ _ _ Iab) L). pose proof (proj1 (S _ _ _ Iac) L'). pose proof (proj2 (S _ _ _ Ibc) L'').
      pose proof (o3_swap2 a b p x). pose proof (o3_swap2 b c p x). split; [exact C1|]. repeat split; lra. }
    assert (D1 : cls3 a d b p x \/ ~ (vc / wc <= vd / wd /\ vc / wc <= vb / wb /\ vc / wc <= va / wa)).
    { destruct (Qlt_le_dec (vd / wd) (vc / wc)) as [L|L]; [right; lra|]. destruct (Qlt_le_dec (vb / wb) (vc / wc)) as [L'|L']; [right; lra|].
      destruct (Qlt_le_dec (va / wa) (vc / wc)) as [L''|L'']; [right; lra|]. left.
      apply M in L; [|assumption|assumption]. apply M in L'; [|assumption|assumption]. apply M in L''; [|assumption|assumption].
      pose proof (proj1 (S _ _ _ Iab) L). pose proof (proj2 (S _ _ _ Iad) L'). pose proof (proj1 (S _ _ _ Ibd) L'').
      pose proof (o3_swap2 a d p x). pose proof (o3_rot3 b d p x). split; [exact C2|]. repeat split; lra. }
    assert (D2 : cls3 a c d p x \/ ~ (vb / wb <= vd / wd /\ vb / wb <= vc / wc /\ vb / wb <= va / wa)).
    { destruct (Qlt_le_dec (vd / wd) (vb / wb)) as [L|L]; [right; lra|]. destruct (Qlt_le_dec (vc / wc) (vb / wb)) as [L'|L']; [right; lra|].
      destruct (Qlt_le_dec (va / wa) (vb / wb)) as [L''|L'']; [right; lra|]. left.
      apply M in L; [|assumption|assumption]. apply M in L'; [|assumption|assumption]. apply M in L''; [|assumption|assumption].
      pose proof (proj2 (S _ _ _ Iac) L). pose proof (proj1 (S _ _ _ Iad) L'). pose proof (proj2 (S _ _ _ Icd) L'').
      pose proof (o3_swap2 a c p x). pose proof (o3_swap2 c d p x). split; [exact C3|]. repeat split; lra. }
    assert (D3 : cls3 b d c p x \/ ~ (va / wa <= vd / wd /\ va / wa <= vc / wc /\ va / wa <= vb / wb)).
    { destruct (Qlt_le_dec (vd / wd) (va / wa)) as [L|L]; [right; lra|]. destruct (Qlt_le_dec (vc / wc) (va / wa)) as [L'|L']; [right; lra|].
      destruct (Qlt_le_dec (vb / wb) (va / wa)) as [L''|L'']; [right; lra|]. left.
      apply M in L; [|assumption|assumption]. apply M in L'; [|assumption|assumption]. apply M in L''; [|assumption|assumption].
      pose proof (proj1 (S _ _ _ Ibc) L). pose proof (proj2 (S _ _ _ Ibd) L'). pose proof (proj1 (S _ _ _ Icd) L'').
      pose proof (o3_swap2 b d p x). pose proof (o3_rot3 c d p x). split; [exact C4|]. repeat split; lra. }
    clear M S Iab Iac Ibc Iad Ibd Icd. set (rd := vd / wd) in *. set (rc := vc / wc) in *. set (rb := vb / wb) in *. set (ra := va / wa) in *.
    destruct D as [D|D]; [auto|]. destruct D1 as [D1|D1]; [auto|]. destruct D2 as [D2|D2]; [auto|]. destruct D3 as [D3|D3]; [auto|].
    exfalso. clear - D D1 D2 D3.
    destruct (Qlt_le_dec rd rc), (Qlt_le_dec rb ra); [destruct (Qlt_le_dec rd rb)|destruct (Qlt_le_dec rd ra)|destruct (Qlt_le_dec rc rb)|destruct (Qlt_le_dec rc ra)];
      first [apply D; repeat split; lra|apply D1; repeat split; lra|apply D2; repeat split; lra|apply D3; repeat split; lra].
  Qed.

(** ** The two triangulations of five points *)
  Lemma bi_sub_1 X Y Z A B x : 0 < orient3 X Y Z A -> 0 < orient3 Y X Z B -> 0 < orient3 X Y B A -> 0 < orient3 Y Z B A -> 0 < orient3 Z X B A ->
    cls3 X Y B A x -> (0 <= orient3 X Y Z x -> cls3 X Y Z A x) /\ (orient3 X Y Z x <= 0 -> cls3 Y X Z B x).
  Proof.
    intros HA HB HXY HYZ HZX C. pose proof C as [C1 [C2 [C3 C4]]]. pose proof (o3_swap X Y Z x). perms X Y B x.
    assert (E1 : orient3 X Z A Y == orient3 X Y Z A) by (clear; coords3; ring). assert (E2 : orient3 X Z A B == orient3 Z X B A) by (coords3; ring).
    assert (E3 : orient3 Y A Z X == orient3 X Y Z A) by (clear; coords3; ring). assert (E4 : orient3 Y A Z B == orient3 Y Z B A) by (coords3; ring).
    assert (E5 : orient3 Y Z B X == orient3 Y X Z B) by (clear; coords3; ring). assert (E6 : orient3 Y Z B A == orient3 Y Z B A) by reflexivity.
    assert (E7 : orient3 X B Z Y == orient3 Y X Z B) by (clear; coords3; ring). assert (E8 : orient3 X B Z A == orient3 Z X B A) by (coords3; ring).
    destruct (o3_same X Z A) as [S1 [S2 S3]]. destruct (o3_same Y A Z) as [S4 [S5 S6]]. destruct (o3_same Y Z B) as [S7 [S8 S9]]. destruct (o3_same X B Z) as [S10 [S11 S12]].
    split; intro L; unfold cls3.
    - split; [exact L|]. split; [exact C2|]. split; apply (cls3_affine X Y B A x _ _ _ HXY C); lra.
    - split; [lra|]. split; [lra|]. split; apply (cls3_affine X Y B A x _ _ _ HXY C); lra.
  Qed.
  Lemma bi_wedge X Y Z A B x : 0 < orient3 X Y Z A -> 0 < orient3 Y X Z B -> 0 < orient3 X Y B A -> 0 < orient3 Y Z B A -> 0 < orient3 Z X B A ->
    0 <= orient3 X Y B x -> 0 <= orient3 Y Z B x -> 0 <= orient3 Z X B x ->
    0 <= orient3 Y X A x -> 0 <= orient3 Z Y A x -> 0 <= orient3 X Z A x ->
    cls3 X Y B A x \/ cls3 Y Z B A x \/ cls3 Z X B A x.
  Proof.
    intros HA HB HXY HYZ HZX B1 B2 B3 A1 A2 A3.
    assert (S : orient3 Y Z B A * orient3 X B A x + orient3 Z X B A * orient3 Y B A x + orient3 X Y B A * orient3 Z B A x == 0) by (clear; coords3; ring).
    perms X Y A x. perms Y Z A x. perms Z X A x. perms X B A x. perms Y B A x. perms Z B A x. unfold cls3.
    destruct (Qlt_le_dec 0 (orient3 X B A x)) as [L1|L1], (Qlt_le_dec 0 (orient3 Y B A x)) as [L2|L2], (Qlt_le_dec 0 (orient3 Z B A x)) as [L3|L3].
    - exfalso. pose proof (qmul_pos _ _ HYZ L1). pose proof (qmul_pos _ _ HZX L2). pose proof (qmul_pos _ _ HXY L3). lra.
    - right. left. lra.
    - left. lra.
    - left. lra.
    - right. right. lra.
    - right. left. lra.
    - right. right. lra.
    - destruct (Qlt_le_dec (orient3 X B A x) 0) as [M1|M1]; [|left; lra].
      destruct (Qlt_le_dec (orient3 Y B A x) 0) as [M2|M2]; [|right; left; lra].
      destruct (Qlt_le_dec (orient3 Z B A x) 0) as [M3|M3]; [|right; right; lra].
      exfalso. pose proof (qmul_pos _ (- orient3 X B A x) HYZ ltac:(lra)). pose proof (qmul_pos _ (- orient3 Y B A x) HZX ltac:(lra)).
      pose proof (qmul_pos _ (- orient3 Z B A x) HXY ltac:(lra)). lra.
  Qed.
  Lemma bi_cover X Y Z A B x : 0 < orient3 X Y Z A -> 0 < orient3 Y X Z B -> 0 < orient3 X Y B A -> 0 < orient3 Y Z B A -> 0 < orient3 Z X B A ->
    cls3 X Y Z A x \/ cls3 Y X Z B x -> cls3 X Y B A x \/ cls3 Y Z B A x \/ cls3 Z X B A x.
  Proof.
    intros HA HB HXY HYZ HZX.
    assert (E1 : orient3 X Y B Z == orient3 Y X Z B) by (clear; coords3; ring).
    assert (E2 : orient3 Y Z B X == orient3 Y X Z B) by (clear; coords3; ring).
    assert (E3 : orient3 Z X B Y == orient3 Y X Z B) by (clear; coords3; ring).
    assert (E4 : orient3 Y X A Z == orient3 X Y Z A) by (clear; coords3; ring).
    assert (E5 : orient3 Z Y A X == orient3 X Y Z A) by (clear; coords3; ring).
    assert (E6 : orient3 X Z A Y == orient3 X Y Z A) by (clear; coords3; ring).
    assert (E7 : orient3 Y X A B == orient3 X Y B A) by (clear; coords3; ring).
    assert (E8 : orient3 Z Y A B == orient3 Y Z B A) by (clear; coords3; ring).
    assert (E9 : orient3 X Z A B == orient3 Z X B A) by (clear; coords3; ring).
    destruct (o3_same X Y B) as [? [? ?]]. destruct (o3_same Y Z B) as [? [? ?]]. destruct (o3_same Z X B) as [? [? ?]].
    destruct (o3_same Y X A) as [? [? ?]]. destruct (o3_same Z Y A) as [? [? ?]]. destruct (o3_same X Z A) as [? [? ?]].
    intros [C|C]; (apply bi_wedge; [assumption|assumption|assumption|assumption|assumption|..]).
    - apply (cls3_affine X Y Z A x _ _ _ HA C); lra.
    - apply (cls3_affine X Y Z A x _ _ _ HA C); lra.
    - apply (cls3_affine X Y Z A x _ _ _ HA C); lra.
    - apply (cls3_affine X Y Z A x _ _ _ HA C); lra.
    - apply (cls3_affine X Y Z A x _ _ _ HA C); lra.
    - apply (cls3_affine X Y Z A x _ _ _ HA C); lra.
    - apply (cls3_affine Y X Z B x _ _ _ HB C); lra.
    - apply (cls3_affine Y X Z B x _ _ _ HB C); lra.
    - apply (cls3_affine Y X Z B x _ _ _ HB C); lra.
    - apply (cls3_affine Y X Z B x _ _ _ HB C); lra.
    - apply (cls3_affine Y X Z B x _ _ _ HB C); lra.
    - apply (cls3_affine Y X Z B x _ _ _ HB C); lra.
  Qed.
  Lemma bi_apart_pair X Y Z A B x : ins3 X Y Z A x -> ins3 Y X Z B x -> False.
  Proof. intros [? _] [? _]. pose proof (o3_swap X Y Z x). lra. Qed.
  Lemma bi_apart_triple X Y Z A B x : ~ (ins3 X Y B A x /\ ins3 Y Z B A x) /\ ~ (ins3 X Y B A x /\ ins3 Z X B A x) /\ ~ (ins3 Y Z B A x /\ ins3 Z X B A x).
  Proof. unfold ins3. perms X B A x. perms Y B A x. perms Z B A x. repeat split; intros [? ?]; lra. Qed.
  Lemma bi_corner X Y Z A B : 0 < orient3 X Y Z A -> 0 < orient3 Y X Z B -> 0 < orient3 X Y B A -> 0 < orient3 Y Z B A -> 0 < orient3 Z X B A ->
    ~ cls3 X Y Z A B /\ ~ cls3 Y X Z B A /\ ~ cls3 X Y B A Z /\ ~ cls3 Y Z B A X /\ ~ cls3 Z X B A Y.
  Proof.
    intros HA HB HXY HYZ HZX. unfold cls3. pose proof (o3_swap X Y Z B). pose proof (o3_swap X Y Z A).
    assert (E1 : orient3 X B A Z == - orient3 Z X B A) by (clear; coords3; ring).
    assert (E2 : orient3 Y B A X == - orient3 X Y B A) by (clear; coords3; ring).
    assert (E3 : orient3 Z B A Y == - orient3 Y Z B A) by (clear; coords3; ring).
    repeat split; intros [? [? [? ?]]]; lra.
  Qed.
Lemma cls3_turn a b c d x : cls3 a b c d x <-> cls3 b c a d x.
Proof. unfold cls3. perms a b c x. perms a b d x. perms b c d x. perms a c d x. lra. Qed.
Lemma bi_sub X Y Z A B x : 0 < orient3 X Y Z A -> 0 < orient3 Y X Z B -> 0 < orient3 X Y B A -> 0 < orient3 Y Z B A -> 0 < orient3 Z X B A ->
  cls3 X Y B A x \/ cls3 Y Z B A x \/ cls3 Z X B A x -> cls3 X Y Z A x \/ cls3 Y X Z B x.
Proof.
  intros HA HB H1 H2 H3.
  assert (P1 : 0 < orient3 Y Z X A) by (rewrite o3_rot; exact HA). assert (P2 : 0 < orient3 Z X Y A) by (rewrite o3_rot; exact P1).
  assert (Q1 : 0 < orient3 Z Y X B). { assert (E : orient3 Z Y X B == orient3 Y X Z B) by (clear; coords3; ring). lra. }
  assert (Q2 : 0 < orient3 X Z Y B). { assert (E : orient3 X Z Y B == orient3 Y X Z B) by (clear; coords3; ring). lra. }
  intros [C|[C|C]].
  - destruct (bi_sub_1 X Y Z A B x HA HB H1 H2 H3 C) as [D1 D2]. destruct (Qlt_le_dec (orient3 X Y Z x) 0); [right; apply D2; lra|left; auto].
  - destruct (bi_sub_1 Y Z X A B x P1 Q1 H2 H3 H1 C) as [D1 D2]. destruct (Qlt_le_dec (orient3 Y Z X x) 0) as [L|L]; [right|left].
    + apply cls3_turn. apply cls3_turn. apply cls3_turn. apply cls3_turn. apply cls3_turn. apply D2. lra.
    + apply cls3_turn. apply D1. exact L.
  - destruct (bi_sub_1 Z X Y A B x P2 Q2 H3 H1 H2 C) as [D1 D2]. destruct (Qlt_le_dec (orient3 Z X Y x) 0) as [L|L]; [right|left].
    + apply cls3_turn. apply D2. lra.
    + apply cls3_turn. apply cls3_turn. apply D1. exact L.
Qed.

(** ** Even permutations of the corners *)
Lemma even4_cases (P : nat -> nat -> nat -> nat -> Prop) a b c d x y z w :
  (forall a b c d, P a b c d -> P b c a d) -> (forall a b c d, P a b c d -> P b a d c) ->
  even4 [a; b; c; d] [x; y; z; w] -> P a b c d -> P x y z w.
Proof.
  intros R D [a' [b' [c' [d' [E H]]]]] K. injection E as <- <- <- <-. cbn [In] in H.
  repeat (destruct H as [H|H]; [injection H as <- <- <- <-; auto 8|]). destruct H.
Qed.
Section Even.
  Variable pts : nat -> point3.
  Notation O a b c d := (orient3 (pts a) (pts b) (pts c) (pts d)).
  Notation ins' a b c d x := (ins3 (pts a) (pts b) (pts c) (pts d) x).
  Notation cls' a b c d x := (cls3 (pts a) (pts b) (pts c) (pts d) x).
  Lemma o3_double a b c d : orient3 b a d c == orient3 a b c d.
  Proof. coords3. ring. Qed.
  Lemma even_o3 a b c d x y z w : even4 [a; b; c; d] [x; y; z; w] -> O x y z w == O a b c d.
  Proof.
    intro E. apply (even4_cases (fun x y z w => O x y z w == O a b c d) a b c d x y z w); [| |exact E|reflexivity].
    - intros p q r s H. rewrite o3_rot. exact H.
    - intros p q r s H. rewrite o3_double. exact H.
  Qed.
  Lemma ins3_turn a b c d x : ins3 a b c d x -> ins3 b c a d x.
  Proof. intros [? [? [? ?]]]. unfold ins3. pose proof (o3_rot a b c x). pose proof (o3_rot a d b x). pose proof (o3_rot d b a x). pose proof (o3_rot b d c x). pose proof (o3_rot d c b x). pose proof (o3_rot a c d x). repeat split; lra. Qed.
  Lemma ins3_double a b c d x : ins3 a b c d x -> ins3 b a d c x.
  Proof.
    intros [? [? [? ?]]]. unfold ins3. pose proof (o3_rot a d b x). pose proof (o3_rot d b a x). pose proof (o3_rot a b c x). pose proof (o3_rot b c a x).
    repeat split; lra.
  Qed.
  Lemma cls3_double a b c d x : cls3 a b c d x -> cls3 b a d c x.
  Proof.
    intros [? [? [? ?]]]. unfold cls3. pose proof (o3_rot a d b x). pose proof (o3_rot d b a x). pose proof (o3_rot a b c x). pose proof (o3_rot b c a x).
    repeat split; lra.
  Qed.
  Lemma even_ins a b c d x y z w v : even4 [a; b; c; d] [x; y; z; w] -> ins' a b c d v -> ins' x y z w v.
  Proof.
    intros E H. apply (even4_cases (fun x y z w => ins' x y z w v) a b c d x y z w); [| |exact E|exact H].
    - intros. now apply ins3_turn.
    - intros. now apply ins3_double.
  Qed.
  Lemma even_cls a b c d x y z w v : even4 [a; b; c; d] [x; y; z; w] -> cls' a b c d v -> cls' x y z w v.
  Proof.
    intros E H. apply (even4_cases (fun x y z w => cls' x y z w v) a b c d x y z w); [| |exact E|exact H].
    - intros ? ? ? ? K. exact (proj1 (cls3_turn _ _ _ _ _) K).
    - intros. now apply cls3_double.
  Qed.
  Lemma even_sph a b c d x y z w o k : even4 [a; b; c; d] [x; y; z; w] ->
    sph (pts a) (pts b) (pts c) (pts d) o k -> sph (pts x) (pts y) (pts z) (pts w) o k.
  Proof.
    intros E H. apply (even4_cases (fun x y z w => sph (pts x) (pts y) (pts z) (pts w) o k) a b c d x y z w); [| |exact E|exact H].
    - intros ? ? ? ? [? [? [? ?]]]. repeat split; assumption.
    - intros ? ? ? ? [? [? [? ?]]]. repeat split; assumption.
  Qed.
  Lemma even_mem a b c d x y z w v : even4 [a; b; c; d] [x; y; z; w] ->
    (v = a \/ v = b \/ v = c \/ v = d <-> v = x \/ v = y \/ v = z \/ v = w).
  Proof. clear pts. intro E. rewrite <- (even4_in _ _ _ _ _ v E). cbn. intuition congruence. Qed.
End Even.

(** ** Tilings *)
Section Tiling.
  Variable pts : nat -> point3.
  Notation O a b c d := (orient3 (pts a) (pts b) (pts c) (pts d)).
  Notation ins' a b c d x := (ins3 (pts a) (pts b) (pts c) (pts d) x).
  Notation cls' a b c d x := (cls3 (pts a) (pts b) (pts c) (pts d) x).

  Record tiling3 (T : nat -> nat -> nat -> nat -> nat -> Prop) (m : nat) : Prop := {
    t3_even : forall i a b c d x y z w, T i a b c d -> even4 [a; b; c; d] [x; y; z; w] -> T i x y z w;
    t3_same : forall i a b c d x y z w, T i a b c d -> T i x y z w -> even4 [a; b; c; d] [x; y; z; w];
    t3_pos : forall i a b c d, T i a b c d -> 0 < O a b c d;
    t3_lt : forall i a b c d, T i a b c d -> (a < m)%nat;
    t3_disj : forall i j a b c d x y z w v, T i a b c d -> T j x y z w -> ins' a b c d v -> ins' x y z w v -> i = j;
    t3_corner : forall i a b c d v, T i a b c d -> (v < m)%nat -> cls' a b c d (pts v) -> v = a \/ v = b \/ v = c \/ v = d;
    t3_big : forall v, (v < m)%nat -> cls' 0%nat 1%nat 2%nat 3%nat (pts v);
    t3_cover : forall x, cls' 0%nat 1%nat 2%nat 3%nat x -> exists i a b c d, T i a b c d /\ cls' a b c d x
  }.

  Lemma one_side p q r u v : 0 <= orient3 p q r u -> 0 <= orient3 p q r v ->
    let bad x y z := 0 < orient3 x y z u -> orient3 x y z v < 0 -> False in
    bad p q r /\ bad q r p /\ bad r p q /\ bad q p r /\ bad p r q /\ bad r q p.
  Proof.
    intros HU HV. cbv zeta. repeat split; intros PU NV.
    - lra.
    - rewrite o3_rot in NV. lra.
    - rewrite <- o3_rot in NV. lra.
    - rewrite o3_swap in PU. lra.
    - rewrite o3_swap2 in PU. lra.
    - rewrite o3_swap, o3_rot in PU. lra.
  Qed.

  Section Facts.
    Variables (T : nat -> nat -> nat -> nat -> nat -> Prop) (m : nat).
    Hypothesis L : tiling3 T m.
    Lemma t3_turn i a b c d : T i a b c d -> T i b c a d.
    Proof. intro H. apply (t3_even _ _ L i a b c d); [exact H|even]. Qed.
    Lemma t3_double i a b c d : T i a b c d -> T i b a d c.
    Proof. intro H. apply (t3_even _ _ L i a b c d); [exact H|even]. Qed.
    Lemma t3_lts i a b c d : T i a b c d -> (a < m /\ b < m /\ c < m /\ d < m)%nat.
    Proof.
      intro H. pose proof (t3_turn _ _ _ _ _ H) as H2. pose proof (t3_turn _ _ _ _ _ H2) as H3. pose proof (t3_double _ _ _ _ _ H3) as H4.
      pose proof (t3_turn _ _ _ _ _ H4) as H5.
      pose proof (t3_lt _ _ L _ _ _ _ _ H). pose proof (t3_lt _ _ L _ _ _ _ _ H2). pose proof (t3_lt _ _ L _ _ _ _ _ H3).
      pose proof (t3_lt _ _ L _ _ _ _ _ (t3_turn _ _ _ _ _ H5)). auto.
    Qed.
    (** The inside of a tetrahedron does not touch another one. *)
    Lemma t3_disj_cls i j a b c d x y z w v : T i a b c d -> T j x y z w -> ins' a b c d v -> cls' x y z w v -> i = j.
    Proof.
      intros Hi Hj I C. destruct (center_ins3 _ _ _ _ (t3_pos _ _ L _ _ _ _ _ Hj)) as [u U].
      destruct (ins3_open _ _ _ _ v u I) as [e' [E1 [E2 E3]]].
      apply (t3_disj _ _ L i j a b c d x y z w (mix3 e' v u) Hi Hj E3). now apply cls3_mix_ins.
    Qed.
    (** No oriented facet belongs to two tetrahedra. *)
    Lemma t3_facet i j a b c d e : T i a b c d -> T j a b c e -> i = j /\ d = e.
    Proof.
      intros Hi Hj. pose proof (t3_pos _ _ L _ _ _ _ _ Hi) as Pi. pose proof (t3_pos _ _ L _ _ _ _ _ Hj) as Pj.
      assert (Eij : i = j).
      { set (x := P3 ((x3 (pts a) + x3 (pts b) + x3 (pts c)) / 3) ((y3 (pts a) + y3 (pts b) + y3 (pts c)) / 3) ((z3 (pts a) + z3 (pts b) + z3 (pts c)) / 3)).
        assert (F : forall u, orient3 (pts a) (pts b) (pts c) x == 0 /\ orient3 (pts a) u (pts b) x == (1 # 3) * orient3 (pts a) (pts b) (pts c) u /\
          orient3 (pts a) (pts c) u x == (1 # 3) * orient3 (pts a) (pts b) (pts c) u /\ orient3 (pts b) u (pts c) x == (1 # 3) * orient3 (pts a) (pts b) (pts c) u).
        { intro u. unfold x. generalize (pts a) (pts b) (pts c). clear. intros A B C. coords3. repeat split; field. }
        destruct (F (pts d)) as [D1 [D2 [D3 D4]]]. destruct (F (pts e)) as [E1 [E2 [E3 E4]]].
        destruct (small3 (orient3 (pts a) (pts e) (pts b) x) (orient3 (pts a) (pts c) (pts e) x) (orient3 (pts b) (pts e) (pts c) x)
          (orient3 (pts a) (pts e) (pts b) (pts d)) (orient3 (pts a) (pts c) (pts e) (pts d)) (orient3 (pts b) (pts e) (pts c) (pts d)))
          as [s [S1 [S2 [S3 [S4 S5]]]]]; try lra.
        destruct (corner_cls3 _ _ _ _ Pi) as [_ [_ [_ [K1 [K2 [K3 K4]]]]]].
        apply (t3_disj _ _ L i j a b c d a b c e (mix3 s x (pts d)) Hi Hj).
        - unfold ins3. rewrite !o3_mix. rewrite D1, D2, D3, D4.
          pose proof (qmul_pos s (O a b c d) S1 Pi). pose proof (qmul_pos (1 - s) (O a b c d) ltac:(lra) Pi).
          pose proof (qmul_nonneg s _ ltac:(lra) K2). pose proof (qmul_nonneg s _ ltac:(lra) K3). pose proof (qmul_nonneg s _ ltac:(lra) K4).
          repeat split; lra.
        - unfold ins3. rewrite !o3_mix. pose proof (qmul_pos s (O a b c d) S1 Pi). rewrite E1. repeat split; lra. }
      split; [exact Eij|]. subst j. pose proof (t3_same _ _ L _ _ _ _ _ _ _ _ _ Hi Hj) as E. pose proof (even_mem _ _ _ _ _ _ _ _ e E) as E0.
      assert (M : e = a \/ e = b \/ e = c \/ e = d) by (apply (proj2 E0); auto).
      destruct (o3_same (pts a) (pts b) (pts c)) as [Z1 [Z2 Z3]].
      destruct M as [->|[->|[->| ->]]]; [lra|lra|lra|reflexivity].
    Qed.
    (** All points are on one side of a facet of the big tetrahedron. *)
    Lemma t3_hull a b c u v : (a < 4)%nat -> (b < 4)%nat -> (c < 4)%nat -> (u < m)%nat -> (v < m)%nat ->
      0 < O a b c u -> O a b c v < 0 -> False.
    Proof.
      intros Ha Hb Hc Hu Hv P N. destruct (t3_big _ _ L u Hu) as [U1 [U2 [U3 U4]]]. destruct (t3_big _ _ L v Hv) as [V1 [V2 [V3 V4]]].
      destruct (one_side _ _ _ _ _ U1 V1) as [? [? [? [? [? ?]]]]]. destruct (one_side _ _ _ _ _ U2 V2) as [? [? [? [? [? ?]]]]].
      destruct (one_side _ _ _ _ _ U3 V3) as [? [? [? [? [? ?]]]]]. destruct (one_side _ _ _ _ _ U4 V4) as [? [? [? [? [? ?]]]]].
      clear U1 U2 U3 U4 V1 V2 V3 V4.
      destruct a as [|[|[|[|]]]]; try lia; destruct b as [|[|[|[|]]]]; try lia;
        try (rewrite o3_first in P; apply (Qlt_irrefl _ P));
        destruct c as [|[|[|[|]]]]; try lia;
        try (rewrite o3_outer in P; apply (Qlt_irrefl _ P)); try (rewrite o3_inner in P; apply (Qlt_irrefl _ P)); auto.
    Qed.
  End Facts.

  (** Exchange of some tetrahedra of a tiling for others. *)
  Lemma tiling3_exchange T T' m m' (OLD NEW : list (nat * (nat * nat * nat * nat))) : tiling3 T m -> (m <= m')%nat ->
    (forall i a b c d, In (i, (a, b, c, d)) OLD -> T i a b c d) ->
    (forall i x y z w, T' i x y z w <-> (T i x y z w /\ ~ In i (map fst OLD)) \/
       exists a b c d, In (i, (a, b, c, d)) NEW /\ even4 [a; b; c; d] [x; y; z; w]) ->
    (forall i a b c d x y z w, T' i a b c d -> T' i x y z w -> even4 [a; b; c; d] [x; y; z; w]) ->
    (forall i a b c d, In (i, (a, b, c, d)) NEW -> 0 < O a b c d /\ (a < m' /\ b < m' /\ c < m' /\ d < m')%nat) ->
    (forall i a b c d x, In (i, (a, b, c, d)) NEW -> cls' a b c d x -> exists j e f g h, In (j, (e, f, g, h)) OLD /\ cls' e f g h x) ->
    (forall i a b c d x, In (i, (a, b, c, d)) OLD -> cls' a b c d x -> exists j e f g h, In (j, (e, f, g, h)) NEW /\ cls' e f g h x) ->
    (forall i a b c d j e f g h x, In (i, (a, b, c, d)) NEW -> In (j, (e, f, g, h)) NEW -> ins' a b c d x -> ins' e f g h x -> i = j) ->
    (forall i a b c d v, In (i, (a, b, c, d)) NEW -> cls' a b c d (pts v) ->
       (exists j e f g h, In (j, (e, f, g, h)) OLD /\ (v = e \/ v = f \/ v = g \/ v = h)) \/ (m <= v < m')%nat -> v = a \/ v = b \/ v = c \/ v = d) ->
    (forall v, (m <= v < m')%nat -> exists j e f g h, In (j, (e, f, g, h)) OLD /\ ins' e f g h (pts v)) ->
    tiling3 T' m'.
  Proof.
    intros L Hm HO HT HS HN SUB COV DIS COR VN. constructor.
    - intros i a b c d x y z w H E. apply HT. apply HT in H. destruct H as [[H N]|[a' [b' [c' [d' [H H']]]]]].
      + left. split; [|exact N]. exact (t3_even _ _ L _ _ _ _ _ _ _ _ _ H E).
      + right. exists a', b', c', d'. split; [exact H|]. exact (even4_trans _ _ _ H' E).
    - exact HS.
    - intros i x y z w H. apply HT in H. destruct H as [[H _]|[a [b [c [d [H E]]]]]]; [exact (t3_pos _ _ L _ _ _ _ _ H)|].
      rewrite (even_o3 pts _ _ _ _ _ _ _ _ E). apply (HN _ _ _ _ _ H).
    - intros i x y z w H. apply HT in H. destruct H as [[H _]|[a [b [c [d [H E]]]]]]; [pose proof (t3_lt _ _ L _ _ _ _ _ H); lia|].
      destruct (HN _ _ _ _ _ H) as [_ [A [B [C D]]]]. pose proof (even_mem _ _ _ _ _ _ _ _ x E) as E'.
      assert (X : x = a \/ x = b \/ x = c \/ x = d) by (apply (proj2 E'); auto). clear - X A B C D. lia.
    - assert (MIX : forall i j a b c d x y z w v, T i a b c d -> ~ In i (map fst OLD) -> In (j, (x, y, z, w)) NEW -> ins' a b c d v -> ins' x y z w v -> False).
      { intros i j a b c d x y z w v Hi Ni Hj V V'. destruct (SUB _ _ _ _ _ _ Hj (ins3_cls3 _ _ _ _ _ V')) as [k [e [f [g [h [Hk Ck]]]]]].
        apply Ni. rewrite (t3_disj_cls T m L i k a b c d e f g h v Hi (HO _ _ _ _ _ Hk) V Ck).
        change k with (fst (k, (e, f, g, h))). now apply in_map. }
      intros i j a b c d x y z w v Hi Hj V V'. apply HT in Hi. apply HT in Hj.
      destruct Hi as [[Hi Ni]|[a' [b' [c' [d' [Hi Ei]]]]]], Hj as [[Hj Nj]|[x' [y' [z' [w' [Hj Ej]]]]]].
      + exact (t3_disj _ _ L _ _ _ _ _ _ _ _ _ _ _ Hi Hj V V').
      + exfalso. apply (MIX i j a b c d x' y' z' w' v Hi Ni Hj V). exact (even_ins pts _ _ _ _ _ _ _ _ v (even4_sym _ _ Ej) V').
      + exfalso. apply (MIX j i x y z w a' b' c' d' v Hj Nj Hi V'). exact (even_ins pts _ _ _ _ _ _ _ _ v (even4_sym _ _ Ei) V).
      + apply (DIS _ _ _ _ _ _ _ _ _ _ v Hi Hj).
        * exact (even_ins pts _ _ _ _ _ _ _ _ v (even4_sym _ _ Ei) V).
        * exact (even_ins pts _ _ _ _ _ _ _ _ v (even4_sym _ _ Ej) V').
    - intros i a b c d v Hi Hv C. apply HT in Hi. destruct Hi as [[Hi Ni]|[a' [b' [c' [d' [Hi Ei]]]]]].
      + destruct (Nat.lt_ge_cases v m) as [Lv|Lv]; [exact (t3_corner _ _ L _ _ _ _ _ _ Hi Lv C)|]. exfalso.
        destruct (VN v (conj Lv Hv)) as [k [e [f [g [h [Hk Ik]]]]]]. apply Ni.
        rewrite <- (t3_disj_cls T m L k i e f g h a b c d (pts v) (HO _ _ _ _ _ Hk) Hi Ik C).
        change k with (fst (k, (e, f, g, h))). now apply in_map.
      + apply (even_cls pts _ _ _ _ _ _ _ _ (pts v) (even4_sym _ _ Ei)) in C. apply (proj1 (even_mem _ _ _ _ _ _ _ _ v Ei)).
        apply (COR _ _ _ _ _ v Hi C). destruct (Nat.lt_ge_cases v m) as [Lv|Lv]; [left|right; auto].
        destruct (SUB _ _ _ _ _ _ Hi C) as [k [e [f [g [h [Hk Ck]]]]]]. exists k, e, f, g, h. split; [exact Hk|].
        exact (t3_corner _ _ L _ _ _ _ _ _ (HO _ _ _ _ _ Hk) Lv Ck).
    - intros v Hv. destruct (Nat.lt_ge_cases v m) as [Lv|Lv]; [exact (t3_big _ _ L v Lv)|].
      destruct (VN v (conj Lv Hv)) as [k [e [f [g [h [Hk Ik]]]]]]. pose proof (HO _ _ _ _ _ Hk) as Tk.
      destruct (t3_lts T m L _ _ _ _ _ Tk) as [B1 [B2 [B3 B4]]].
      exact (cls3_trans _ _ _ _ _ _ _ _ _ (t3_pos _ _ L _ _ _ _ _ Tk) (ins3_cls3 _ _ _ _ _ Ik)
        (t3_big _ _ L e B1) (t3_big _ _ L f B2) (t3_big _ _ L g B3) (t3_big _ _ L h B4)).
    - intros x Hx. destruct (t3_cover _ _ L x Hx) as [i [a [b [c [d [Hi C]]]]]].
      destruct (in_dec Nat.eq_dec i (map fst OLD)) as [Y|N].
      + apply in_map_iff in Y. destruct Y as [[j [[[e f] g] h]] [E Hj]]. cbn in E. subst j.
        pose proof (t3_same _ _ L _ _ _ _ _ _ _ _ _ Hi (HO _ _ _ _ _ Hj)) as E.
        destruct (COV _ _ _ _ _ x Hj (even_cls pts _ _ _ _ _ _ _ _ x E C)) as [k [e' [f' [g' [h' [Hk Ck]]]]]].
        exists k, e', f', g', h'. split; [|exact Ck]. apply HT. right. exists e', f', g', h'. split; [exact Hk|apply even4_refl].
      + exists i, a, b, c, d. split; [|exact C]. apply HT. now left.
  Qed.
End Tiling.

Section Changes.
  Variable pts : nat -> point3.
  Notation O a b c d := (orient3 (pts a) (pts b) (pts c) (pts d)).
  Notation ins' a b c d x := (ins3 (pts a) (pts b) (pts c) (pts d) x).
  Notation cls' a b c d x := (cls3 (pts a) (pts b) (pts c) (pts d) x).
  Notation tiling3 := (tiling3 pts).
  Variables T T' : nat -> nat -> nat -> nat -> nat -> Prop.
  Hypothesis HS : forall i a b c d x y z w, T' i a b c d -> T' i x y z w -> even4 [a; b; c; d] [x; y; z; w].
  Definition changed (OLD NEW : list (nat * (nat * nat * nat * nat))) : Prop :=
    forall i x y z w, T' i x y z w <-> (T i x y z w /\ ~ In i (map fst OLD)) \/
      exists a b c d, In (i, (a, b, c, d)) NEW /\ even4 [a; b; c; d] [x; y; z; w].

  Lemma tiling3_split m old n1 n2 n3 n4 a b c d : tiling3 T m -> T old a b c d -> ins' a b c d (pts m) ->
    changed [(old, (a, b, c, d))] [(n1, (b, d, c, m)); (n2, (a, c, d, m)); (n3, (a, d, b, m)); (n4, (a, b, c, m))] -> tiling3 T' (S m).
  Proof.
    intros L Ho Hp HT. pose proof (t3_pos _ _ _ L _ _ _ _ _ Ho) as P0. destruct (t3_lts _ _ _ L _ _ _ _ _ Ho) as [B1 [B2 [B3 B4]]].
    destruct Hp as [P1 [P2 [P3 P4]]].
    refine (tiling3_exchange pts T T' m (S m) _ _ L (Nat.le_succ_diag_r m) _ HT HS _ _ _ _ _ _).
    - intros i x y z w [E|[]]. injection E as <- <- <- <- <-. exact Ho.
    - intros i x y z w [E|[E|[E|[E|[]]]]]; injection E as <- <- <- <- <-; (split; [assumption|repeat split; lia]).
    - intros i x y z w v N C. exists old, a, b, c, d. split; [now left|].
      apply (split3_sub _ _ _ _ (pts m)); [exact P0|repeat split; assumption|].
      destruct N as [E|[E|[E|[E|[]]]]]; injection E as <- <- <- <- <-; auto.
    - intros i x y z w v [E|[]] C. injection E as <- <- <- <- <-.
      assert (Hp : ins' a b c d (pts m)) by (repeat split; assumption).
      destruct (split3_cover _ _ _ _ (pts m) v P0 Hp C) as [D|[D|[D|D]]].
      + exists n4, a, b, c, m. split; [cbn; tauto|exact D].
      + exists n3, a, d, b, m. split; [cbn; tauto|exact D].
      + exists n2, a, c, d, m. split; [cbn; tauto|exact D].
      + exists n1, b, d, c, m. split; [cbn; tauto|exact D].
    - intros i x y z w j x' y' z' w' v N N' V V'.
      destruct (split3_apart (pts a) (pts b) (pts c) (pts d) (pts m) v) as [A1 [A2 [A3 [A4 [A5 A6]]]]].
      destruct N as [E|[E|[E|[E|[]]]]]; injection E as <- <- <- <- <-;
      destruct N' as [E'|[E'|[E'|[E'|[]]]]]; injection E' as <- <- <- <- <-; try reflexivity; exfalso;
      first [apply A1; split; assumption|apply A2; split; assumption|apply A3; split; assumption
            |apply A4; split; assumption|apply A5; split; assumption|apply A6; split; assumption].
    - assert (Hp : ins' a b c d (pts m)) by (repeat split; assumption).
      destruct (split3_corner _ _ _ _ _ Hp) as [C1 [C2 [C3 C4]]].
      intros i x y z w v N C V.
      assert (Hv : v = a \/ v = b \/ v = c \/ v = d \/ v = m).
      { destruct V as [[j [x' [y' [z' [w' [[E|[]] M]]]]]]|V]; [injection E as <- <- <- <- <-; tauto|right; right; right; right; lia]. }
      clear V. destruct N as [E|[E|[E|[E|[]]]]]; injection E as <- <- <- <- <-;
        (destruct Hv as [->|[->|[->|[->| ->]]]]; try (exfalso; auto; fail); auto).
    - intros v Hv. assert (v = m) as -> by lia. exists old, a, b, c, d. split; [now left|repeat split; assumption].
  Qed.

  Section Five.
    Variables (m : nat) (X Y Z A B : nat).
    Hypothesis L : tiling3 T m.
    Hypothesis HA : 0 < O X Y Z A.
    Hypothesis HB : 0 < O Y X Z B.
    Hypothesis HXY : 0 < O X Y B A.
    Hypothesis HYZ : 0 < O Y Z B A.
    Hypothesis HZX : 0 < O Z X B A.
    Let pair (i j : nat) := [(i, (X, Y, Z, A)); (j, (Y, X, Z, B))].
    Let triple (i j k : nat) := [(i, (X, Y, B, A)); (j, (Y, Z, B, A)); (k, (Z, X, B, A))].

    Lemma tiling3_23 i j n1 n2 n3 : T i X Y Z A -> T j Y X Z B -> changed (pair i j) (triple n1 n2 n3) -> tiling3 T' m.
    Proof.
      intros Hi Hj HT. destruct (t3_lts _ _ _ L _ _ _ _ _ Hi) as [B1 [B2 [B3 B4]]]. destruct (t3_lts _ _ _ L _ _ _ _ _ Hj) as [_ [_ [_ B5]]].
      refine (tiling3_exchange pts T T' m m _ _ L (Nat.le_refl m) _ HT HS _ _ _ _ _ _).
      - intros k x y z w [E|[E|[]]]; injection E as <- <- <- <- <-; assumption.
      - intros k x y z w [E|[E|[E|[]]]]; injection E as <- <- <- <- <-; (split; [assumption|repeat split; assumption]).
      - intros k x y z w v N C.
        assert (D : cls' X Y Z A v \/ cls' Y X Z B v).
        { apply bi_sub; try assumption. destruct N as [E|[E|[E|[]]]]; injection E as <- <- <- <- <-; auto. }
        destruct D as [D|D]; [exists i, X, Y, Z, A|exists j, Y, X, Z, B]; (split; [cbn; auto|exact D]).
      - intros k x y z w v N C.
        assert (D : cls' X Y B A v \/ cls' Y Z B A v \/ cls' Z X B A v).
        { apply bi_cover; try assumption. destruct N as [E|[E|[]]]; injection E as <- <- <- <- <-; auto. }
        destruct D as [D|[D|D]]; [exists n1, X, Y, B, A|exists n2, Y, Z, B, A|exists n3, Z, X, B, A]; (split; [cbn; auto|exact D]).
      - intros k x y z w k' x' y' z' w' v N N' V V'.
        destruct (bi_apart_triple (pts X) (pts Y) (pts Z) (pts A) (pts B) v) as [A1 [A2 A3]].
        destruct N as [E|[E|[E|[]]]]; injection E as <- <- <- <- <-;
        destruct N' as [E'|[E'|[E'|[]]]]; injection E' as <- <- <- <- <-; try reflexivity; exfalso;
        first [apply A1; split; assumption|apply A2; split; assumption|apply A3; split; assumption].
      - destruct (bi_corner (pts X) (pts Y) (pts Z) (pts A) (pts B) HA HB HXY HYZ HZX) as [_ [_ [C1 [C2 C3]]]].
        intros k x y z w v N C V.
        assert (Hv : v = X \/ v = Y \/ v = Z \/ v = A \/ v = B).
        { destruct V as [[j' [x' [y' [z' [w' [[E|[E|[]]] M]]]]]]|V]; [| |lia]; injection E as <- <- <- <- <-; tauto. }
        clear V. destruct N as [E|[E|[E|[]]]]; injection E as <- <- <- <- <-;
          (destruct Hv as [->|[->|[->|[->| ->]]]]; try (exfalso; auto; fail); auto).
      - intros v Hv. lia.
    Qed.
    Lemma tiling3_32 i j k n1 n2 : T i X Y B A -> T j Y Z B A -> T k Z X B A -> changed (triple i j k) (pair n1 n2) -> tiling3 T' m.
    Proof.
      intros Hi Hj Hk HT. destruct (t3_lts _ _ _ L _ _ _ _ _ Hi) as [B1 [B2 [B3 B4]]]. destruct (t3_lts _ _ _ L _ _ _ _ _ Hk) as [B5 _].
      refine (tiling3_exchange pts T T' m m _ _ L (Nat.le_refl m) _ HT HS _ _ _ _ _ _).
      - intros l x y z w [E|[E|[E|[]]]]; injection E as <- <- <- <- <-; assumption.
      - intros l x y z w [E|[E|[]]]; injection E as <- <- <- <- <-; (split; [assumption|repeat split; assumption]).
      - intros l x y z w v N C.
        assert (D : cls' X Y B A v \/ cls' Y Z B A v \/ cls' Z X B A v).
        { apply bi_cover; try assumption. destruct N as [E|[E|[]]]; injection E as <- <- <- <- <-; auto. }
        destruct D as [D|[D|D]]; [exists i, X, Y, B, A|exists j, Y, Z, B, A|exists k, Z, X, B, A]; (split; [cbn; auto|exact D]).
      - intros l x y z w v N C.
        assert (D : cls' X Y Z A v \/ cls' Y X Z B v).
        { apply bi_sub; try assumption. destruct N as [E|[E|[E|[]]]]; injection E as <- <- <- <- <-; auto. }
        destruct D as [D|D]; [exists n1, X, Y, Z, A|exists n2, Y, X, Z, B]; (split; [cbn; auto|exact D]).
      - intros l x y z w l' x' y' z' w' v N N' V V'.
        destruct N as [E|[E|[]]]; injection E as <- <- <- <- <-;
        destruct N' as [E'|[E'|[]]]; injection E' as <- <- <- <- <-; try reflexivity; exfalso.
        + exact (bi_apart_pair _ _ _ _ _ _ V V').
        + exact (bi_apart_pair _ _ _ _ _ _ V' V).
      - destruct (bi_corner (pts X) (pts Y) (pts Z) (pts A) (pts B) HA HB HXY HYZ HZX) as [C1 [C2 _]].
        intros l x y z w v N C V.
        assert (Hv : v = X \/ v = Y \/ v = Z \/ v = A \/ v = B).
        { destruct V as [[j' [x' [y' [z' [w' [[E|[E|[E|[]]]] M]]]]]]|V]; [| | |lia]; injection E as <- <- <- <- <-; tauto. }
        clear V. destruct N as [E|[E|[]]]; injection E as <- <- <- <- <-;
          (destruct Hv as [->|[->|[->|[->| ->]]]]; try (exfalso; auto; fail); auto).
      - intros v Hv. lia.
    Qed.
  End Five.
End Changes.
