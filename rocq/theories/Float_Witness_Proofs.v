(** A tetrahedron and a point for which the in-sphere test gives the wrong answer. *)
From Coq Require Import ZArith QArith Qpower Qreals Reals Lia Bool List Lqa.
From Flocq Require Import Core IEEE754.BinarySingleNaN.
From Verif Require Import Geometry_Model Geometry_Spec Geometry_Proofs GeometrySolve_Proofs Float_Model Float_Spec.
Import ListNotations.
Open Scope Q_scope.

(** The number [m * 2 ^ (-52)]. *)
Definition f52 (m : positive) (H : SpecFloat.bounded 53 1024 m (-52) = true) : f64 := B754_finite false m (-52) H.
Definition wp1 : fpoint3 := F3 (f52 6973437262879515 eq_refl) (f52 6599954281828593 eq_refl) (f52 8079677801165824 eq_refl).
Definition wp2 : fpoint3 := F3 (f52 7049699714757853 eq_refl) (f52 6930837842123519 eq_refl) (f52 8062313967969534 eq_refl).
Definition wp3 : fpoint3 := F3 (f52 7024052429055788 eq_refl) (f52 7983893670958580 eq_refl) (f52 6261390976085015 eq_refl).
Definition wp4 : fpoint3 := F3 (f52 6989790737689860 eq_refl) (f52 7855836513013427 eq_refl) (f52 7503407352144945 eq_refl).
Definition wpoint : fpoint3 := F3 (f52 6902830919622813 eq_refl) (f52 5513370333375052 eq_refl) (f52 7266324601064606 eq_refl).
Definition wt : ftetrahedron := FT wp1 wp2 wp3 wp4.

Definition q52 (m : Z) : Q := m # 4503599627370496.
Definition wP1 : point3 := P3 (q52 6973437262879515) (q52 6599954281828593) (q52 8079677801165824).
Definition wP2 : point3 := P3 (q52 7049699714757853) (q52 6930837842123519) (q52 8062313967969534).
Definition wP3 : point3 := P3 (q52 7024052429055788) (q52 7983893670958580) (q52 6261390976085015).
Definition wP4 : point3 := P3 (q52 6989790737689860) (q52 7855836513013427) (q52 7503407352144945).
Definition wPoint : point3 := P3 (q52 6902830919622813) (q52 5513370333375052) (q52 7266324601064606).
Definition wT : tetrahedron := TT wP1 wP2 wP3 wP4.

Lemma w_represents : represents_tetra wt wT /\ represents3 wpoint wPoint.
Proof. repeat split; reflexivity. Qed.

Lemma w_unit : unit_tetra wT /\ unit_box wPoint.
Proof. repeat split; discriminate. Qed.

(** Determinants of scaled rows. *)
Definition det3Z (a b c : Z * Z * Z) : Z :=
  let '(a0, a1, a2) := a in let '(b0, b1, b2) := b in let '(c0, c1, c2) := c in
  (a0 * (b1 * c2 - b2 * c1) - a1 * (b0 * c2 - b2 * c0) + a2 * (b0 * c1 - b1 * c0))%Z.
Definition minus3 (a b : Z * Z * Z) : Z * Z * Z := let '(a0, a1, a2) := a in let '(b0, b1, b2) := b in (a0 - b0, a1 - b1, a2 - b2)%Z.
Definition volZ (a b c d : Z * Z * Z) : Z := det3Z (minus3 b a) (minus3 c a) (minus3 d a).
Definition det5Z (a b c d e : Z * Z * Z) (na nb nc nd ne : Z) : Z :=
  (ne * volZ a b c d - nd * volZ a b c e + nc * volZ a b d e - nb * volZ a c d e + na * volZ b c d e)%Z.

Lemma det5_scaled ax ay az bx by_ bz cx cy cz dx dy dz ex ey ez an bn cn dn en (k l : Q) :
  determinant5x5 (1, (inject_Z ax * k, (inject_Z ay * k, inject_Z az * k, inject_Z an * l))) (1, (inject_Z bx * k, (inject_Z by_ * k, inject_Z bz * k, inject_Z bn * l)))
    (1, (inject_Z cx * k, (inject_Z cy * k, inject_Z cz * k, inject_Z cn * l))) (1, (inject_Z dx * k, (inject_Z dy * k, inject_Z dz * k, inject_Z dn * l)))
    (1, (inject_Z ex * k, (inject_Z ey * k, inject_Z ez * k, inject_Z en * l)))
  == inject_Z (det5Z (ax, ay, az) (bx, by_, bz) (cx, cy, cz) (dx, dy, dz) (ex, ey, ez) an bn cn dn en) * (k * k * k * l).
Proof.
  unfold det5Z, volZ, det3Z, minus3. repeat rewrite ?inject_Z_plus, ?inject_Z_mult, ?inject_Z_opp, ?Z.sub_opp_r || unfold Z.sub.
  unfold determinant5x5, determinant4x4, determinant3x3. cbn [fst snd]. ring.
Qed.

Lemma det5_ext ax ay az an bx by_ bz bn cx cy cz cn dx dy dz dn ex ey ez en ax' ay' az' an' bx' by_' bz' bn' cx' cy' cz' cn' dx' dy' dz' dn' ex' ey' ez' en' :
  ax == ax' -> ay == ay' -> az == az' -> an == an' -> bx == bx' -> by_ == by_' -> bz == bz' -> bn == bn' -> cx == cx' -> cy == cy' -> cz == cz' -> cn == cn' ->
  dx == dx' -> dy == dy' -> dz == dz' -> dn == dn' -> ex == ex' -> ey == ey' -> ez == ez' -> en == en' ->
  determinant5x5 (1, (ax, (ay, az, an))) (1, (bx, (by_, bz, bn))) (1, (cx, (cy, cz, cn))) (1, (dx, (dy, dz, dn))) (1, (ex, (ey, ez, en)))
  == determinant5x5 (1, (ax', (ay', az', an'))) (1, (bx', (by_', bz', bn'))) (1, (cx', (cy', cz', cn'))) (1, (dx', (dy', dz', dn'))) (1, (ex', (ey', ez', en'))).
Proof.
  unfold determinant5x5, determinant4x4, determinant3x3. cbn [fst snd]. intros.
  repeat match goal with H : _ == _ |- _ => rewrite H; clear H end. reflexivity.
Qed.

Lemma w_exact o : circumscribed3 wT o -> dist2_3 o wPoint < dist2_3 o (ttp1 wT).
Proof.
  intro HO. assert (E := Geometry_Proofs.in_sphere_value wT o wPoint HO).
  assert (V : 0 < volume6 wT) by reflexivity.
  set (k := 1 # 4503599627370496).
  assert (N : forall m, q52 m == inject_Z m * k) by (intro m; unfold q52, k, inject_Z, Qmult, Qeq; cbn [Qnum Qden]; rewrite Z.mul_1_r; reflexivity).
  assert (D : determinant5x5 (1, (x3 (ttp1 wT), (y3 (ttp1 wT), z3 (ttp1 wT), norm2 (ttp1 wT)))) (1, (x3 (ttp2 wT), (y3 (ttp2 wT), z3 (ttp2 wT), norm2 (ttp2 wT))))
    (1, (x3 (ttp3 wT), (y3 (ttp3 wT), z3 (ttp3 wT), norm2 (ttp3 wT)))) (1, (x3 (ttp4 wT), (y3 (ttp4 wT), z3 (ttp4 wT), norm2 (ttp4 wT)))) (1, (x3 wPoint, (y3 wPoint, z3 wPoint, norm2 wPoint)))
    == inject_Z (det5Z (6973437262879515, 6599954281828593, 8079677801165824) (7049699714757853, 6930837842123519, 8062313967969534) (7024052429055788, 7983893670958580, 6261390976085015)
         (6989790737689860, 7855836513013427, 7503407352144945) (6902830919622813, 5513370333375052, 7266324601064606)
         (6973437262879515 * 6973437262879515 + 6599954281828593 * 6599954281828593 + 8079677801165824 * 8079677801165824)
         (7049699714757853 * 7049699714757853 + 6930837842123519 * 6930837842123519 + 8062313967969534 * 8062313967969534)
         (7024052429055788 * 7024052429055788 + 7983893670958580 * 7983893670958580 + 6261390976085015 * 6261390976085015)
         (6989790737689860 * 6989790737689860 + 7855836513013427 * 7855836513013427 + 7503407352144945 * 7503407352144945)
         (6902830919622813 * 6902830919622813 + 5513370333375052 * 5513370333375052 + 7266324601064606 * 7266324601064606))%Z * (k * k * k * (k * k))).
  { rewrite <- det5_scaled.
    assert (S : forall a b c, norm2 (P3 (q52 a) (q52 b) (q52 c)) == inject_Z (a * a + b * b + c * c) * (k * k)).
    { intros a b c. unfold norm2. cbn [x3 y3 z3]. rewrite !N, !inject_Z_plus, !inject_Z_mult. ring. }
    apply det5_ext; apply N || apply S. }
  rewrite D in E. apply Qnot_le_lt. intro C.
  assert (Z : volume6 wT * (dist2_3 o wPoint - dist2_3 o (ttp1 wT)) < 0).
  { rewrite <- E. reflexivity. }
  set (v := volume6 wT) in *. set (a := dist2_3 o wPoint) in *. set (b := dist2_3 o (ttp1 wT)) in *. clearbody v a b. nra.
Qed.

Lemma w_float : circumcircle_contains_float wt wpoint = Imprecise.
Proof. lazy. reflexivity. Qed.

Lemma lift_row52 x y z Hx Hy Hz n e : B2SF (fnorm2 (F3 (f52 x Hx) (f52 y Hy) (f52 z Hz))) = SpecFloat.S754_finite false n e ->
  lift_row (F3 (f52 x Hx) (f52 y Hy) (f52 z Hz)) = Value (1, (inject_Z (Zpos x) * (2 # 1) ^ (-52), (inject_Z (Zpos y) * (2 # 1) ^ (-52), inject_Z (Zpos z) * (2 # 1) ^ (-52), inject_Z (Zpos n) * (2 # 1) ^ e))).
Proof.
  intro E. unfold lift_row. destruct (fnorm2 _) as [s | s | | s m f H]; try discriminate E. injection E as -> -> ->. reflexivity.
Qed.

Lemma row_wp1 : lift_row wp1 = Value (1, (inject_Z 6973437262879515 * (2 # 1) ^ (-52), (inject_Z 6599954281828593 * (2 # 1) ^ (-52), inject_Z 8079677801165824 * (2 # 1) ^ (-52), inject_Z 8741308629833573 * (2 # 1) ^ (-50)))).
Proof. apply (lift_row52 6973437262879515 6599954281828593 8079677801165824 eq_refl eq_refl eq_refl 8741308629833573 (-50)). lazy. reflexivity. Qed.
Lemma row_wp2 : lift_row wp2 = Value (1, (inject_Z 7049699714757853 * (2 # 1) ^ (-52), (inject_Z 6930837842123519 * (2 # 1) ^ (-52), inject_Z 8062313967969534 * (2 # 1) ^ (-52), inject_Z 4516822632033152 * (2 # 1) ^ (-49)))).
Proof. apply (lift_row52 7049699714757853 6930837842123519 8062313967969534 eq_refl eq_refl eq_refl 4516822632033152 (-49)). lazy. reflexivity. Qed.
Lemma row_wp3 : lift_row wp3 = Value (1, (inject_Z 7024052429055788 * (2 # 1) ^ (-52), (inject_Z 7983893670958580 * (2 # 1) ^ (-52), inject_Z 6261390976085015 * (2 # 1) ^ (-52), inject_Z 8453509427502661 * (2 # 1) ^ (-50)))).
Proof. apply (lift_row52 7024052429055788 7983893670958580 6261390976085015 eq_refl eq_refl eq_refl 8453509427502661 (-50)). lazy. reflexivity. Qed.
Lemma row_wp4 : lift_row wp4 = Value (1, (inject_Z 6989790737689860 * (2 # 1) ^ (-52), (inject_Z 7855836513013427 * (2 # 1) ^ (-52), inject_Z 7503407352144945 * (2 # 1) ^ (-52), inject_Z 4631641286282149 * (2 # 1) ^ (-49)))).
Proof. apply (lift_row52 6989790737689860 7855836513013427 7503407352144945 eq_refl eq_refl eq_refl 4631641286282149 (-49)). lazy. reflexivity. Qed.
Lemma row_wpoint : lift_row wpoint = Value (1, (inject_Z 6902830919622813 * (2 # 1) ^ (-52), (inject_Z 5513370333375052 * (2 # 1) ^ (-52), inject_Z 7266324601064606 * (2 # 1) ^ (-52), inject_Z 7263401010974978 * (2 # 1) ^ (-50)))).
Proof. apply (lift_row52 6902830919622813 5513370333375052 7266324601064606 eq_refl eq_refl eq_refl 7263401010974978 (-50)). lazy. reflexivity. Qed.

Lemma w_lifted : circumcircle_contains_lifted wt wpoint = Value false.
Proof.
  unfold circumcircle_contains_lifted, in_sphere_determinant, wt. cbn [ft1 ft2 ft3 ft4]. rewrite row_wp1, row_wp2, row_wp3, row_wp4, row_wpoint.
  cbn [bind]. set (k := (2 # 1) ^ (-52)). set (l := (2 # 1) ^ (-50)).
  assert (L : (2 # 1) ^ (-49) == inject_Z 2 * l) by reflexivity.
  match goal with |- context [sign_of ?d] => assert (S : sign_of d = Positive) end; [| rewrite S; reflexivity].
  assert (D := det5_scaled 6973437262879515 6599954281828593 8079677801165824 7049699714757853 6930837842123519 8062313967969534 7024052429055788 7983893670958580 6261390976085015
     6989790737689860 7855836513013427 7503407352144945 6902830919622813 5513370333375052 7266324601064606
     8741308629833573 (4516822632033152 * 2) 8453509427502661 (4631641286282149 * 2) 7263401010974978 k l).
  set (z := det5Z _ _ _ _ _ _ _ _ _ _) in D.
  unfold sign_of. assert (N : 0 < inject_Z z * (k * k * k * l)) by reflexivity.
  rewrite <- D in N. clear D.
  match goal with |- context [?d ?= 0] => assert (M : 0 < d); [| rewrite (proj1 (Qgt_alt _ _) M); reflexivity] end.
  eapply Qlt_le_trans; [exact N |]. apply Qle_lteq. right.
  apply det5_ext; reflexivity.
Qed.

Theorem in_sphere_wrong : exists t p T P o, represents_tetra t T /\ represents3 p P /\ unit_tetra T /\ unit_box P /\ 0 < volume6 T /\ circumscribed3 T o
  /\ circumcircle_contains64 t p = Value false /\ dist2_3 o P < dist2_3 o (ttp1 T).
Proof.
  assert (V : 0 < volume6 wT) by reflexivity.
  assert (O : circumscribed3 wT (circumcenter3 wT)) by (apply circumcenter3_ok; intro E; rewrite E in V; discriminate V).
  exists wt, wpoint, wT, wPoint, (circumcenter3 wT). destruct w_represents as (R1 & R2). destruct w_unit as (U1 & U2).
  split; [exact R1 |]. split; [exact R2 |]. split; [exact U1 |]. split; [exact U2 |]. split; [exact V |]. split; [exact O |]. split.
  - unfold circumcircle_contains64. rewrite w_float. exact w_lifted.
  - apply w_exact. exact O.
Qed.
