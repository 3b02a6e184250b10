(** C91 to C93: the choice of the flip, and the tests in two dimensions, with numbers of type [f64]. *)
From Coq Require Import ZArith QArith Qabs List.
From Flocq Require Import IEEE754.BinarySingleNaN.
From Verif Require Import Geometry_Model Geometry_Spec Float_Model Float_Spec Float_Witness_Proofs FloatFlip_Model FloatFlip_Spec
  FloatLine_Proofs FloatContains2_Proofs FloatCircle_Proofs FloatFlip_Witness_Proofs.
Open Scope Q_scope.

(** * C91 *)
(** Where the line does not go close to an edge, compared to the volume between the triangle and the line, the flip is chosen as with
    exact numbers, and the program does not stop. *)
Theorem C91_choice : forall t q1 q2 T Q1 Q2 l1 l2 l3,
  represents_triangle3 t T -> represents3 q1 Q1 -> represents3 q2 Q2 -> unit_triangle3 T -> unit_box Q1 -> unit_box Q2 -> line_meets T Q1 Q2 l1 l2 l3 ->
  clear (1 # 2 ^ 38) (volume_of_line T Q1 Q2) l1 -> clear (1 # 2 ^ 38) (volume_of_line T Q1 Q2) l2 -> clear (1 # 2 ^ 38) (volume_of_line T Q1 Q2) l3 ->
  exists i, line64 t q1 q2 = Value i /\ describes i l1 l2 l3.
Proof. exact line_decided. Qed.
Print Assumptions C91_choice.

Definition n100 : f64 := f52 4503599627370496 eq_refl.
Definition n125 : f64 := f52 5629499534213120 eq_refl.
Definition n150 : f64 := f52 6755399441055744 eq_refl.
Definition n175 : f64 := f52 7881299347898368 eq_refl.
Definition m100 : Q := q52 4503599627370496.
Definition m125 : Q := q52 5629499534213120.
Definition m150 : Q := q52 6755399441055744.
Definition m175 : Q := q52 7881299347898368.
Definition e91t : ftriangle3 := FT3 (F3 n100 n100 n150) (F3 n175 n100 n150) (F3 n100 n175 n150).
Definition e91T : triangle3 := T3 (P3 m100 m100 m150) (P3 m175 m100 m150) (P3 m100 m175 m150).
Ltac case_of :=
  match goal with
  | |- line64 _ _ _ = _ => lazy; reflexivity
  | |- contains2_64 _ _ = _ => lazy; reflexivity
  | |- in_circle64 _ _ = _ => lazy; reflexivity
  | |- line64 _ _ _ <> _ => lazy; discriminate
  | |- line_meets _ _ _ _ _ _ => exists (2 # 3); repeat split; reflexivity
  | |- clear _ _ _ => apply Qle_bool_imp_le; lazy; reflexivity
  | |- _ <= _ => apply Qle_bool_imp_le; lazy; reflexivity
  | |- _ => repeat split; first [reflexivity | discriminate]
  end.
Example C91_example :
  represents_triangle3 e91t e91T /\ unit_triangle3 e91T /\
  (represents3 (F3 n125 n125 n100) (P3 m125 m125 m100) /\ unit_box (P3 m125 m125 m100) /\ represents3 (F3 n125 n125 n175) (P3 m125 m125 m175) /\ unit_box (P3 m125 m125 m175) /\
   line_meets e91T (P3 m125 m125 m100) (P3 m125 m125 m175) (1 # 3) (1 # 3) (1 # 3) /\
   clear (1 # 2 ^ 38) (volume_of_line e91T (P3 m125 m125 m100) (P3 m125 m125 m175)) (1 # 3) /\
   line64 e91t (F3 n125 n125 n100) (F3 n125 n125 n175) = Value Inside) /\
  (represents3 (F3 n175 n150 n100) (P3 m175 m150 m100) /\ represents3 (F3 n175 n150 n175) (P3 m175 m150 m175) /\
   line_meets e91T (P3 m175 m150 m100) (P3 m175 m150 m175) (- 2 # 3) 1 (2 # 3) /\
   clear (1 # 2 ^ 38) (volume_of_line e91T (P3 m175 m150 m100) (P3 m175 m150 m175)) (- 2 # 3) /\
   line64 e91t (F3 n175 n150 n100) (F3 n175 n150 n175) = Value (OutsideOneEdge One)) /\
  line64 e91t (F3 n100 n175 n100) (F3 n125 n125 n175) <> Panics.
Proof.
  repeat match goal with |- _ /\ _ => split end; case_of.
Qed.

(** Refuted: that the flip is that of exact numbers for every line that does not meet an edge, even if the volume is not small. *)
Theorem C91_inside_refuted : exists t q1 q2 T Q1 Q2 l1 l2 l3,
  represents_triangle3 t T /\ represents3 q1 Q1 /\ represents3 q2 Q2 /\ unit_triangle3 T /\ unit_box Q1 /\ unit_box Q2 /\ line_meets T Q1 Q2 l1 l2 l3 /\
  1 # 1000 <= Qabs (volume_of_line T Q1 Q2) /\ describes Inside l1 l2 l3 /\ line64 t q1 q2 = Value (OutsideOneEdge Two).
Proof.
  exists lt1, lq1, lq2, lT1, lQ1, lQ2, lw1, lw2, lw3. destruct line_w_represents as (A & B & C & D & E & F).
  assert (G : describes Inside lw1 lw2 lw3) by (repeat split; reflexivity).
  exact (conj A (conj B (conj C (conj D (conj E (conj F (conj line_w_meets (conj line_w_volume (conj G line_w_wrong))))))))).
Qed.
Print Assumptions C91_inside_refuted.
Theorem C91_outside_refuted : exists t q1 q2 T Q1 Q2 l1 l2 l3,
  represents_triangle3 t T /\ represents3 q1 Q1 /\ represents3 q2 Q2 /\ unit_triangle3 T /\ unit_box Q1 /\ unit_box Q2 /\ line_meets T Q1 Q2 l1 l2 l3 /\
  1 # 2000 <= Qabs (volume_of_line T Q1 Q2) /\ describes (OutsideOneEdge Two) l1 l2 l3 /\ line64 t q1 q2 = Value Inside.
Proof.
  exists mt1, mq1, mq2, mT1, mQ1, mQ2, mw1, mw2, mw3. destruct line_m_represents as (A & B & C & D & E & F).
  assert (G : describes (OutsideOneEdge Two) mw1 mw2 mw3) by (repeat split; reflexivity).
  exact (conj A (conj B (conj C (conj D (conj E (conj F (conj line_m_meets (conj line_m_volume (conj G line_m_wrong))))))))).
Qed.
Print Assumptions C91_outside_refuted.

(** * C92 *)
Theorem C92_contains : forall t p T P l1 l2 l3, represents_triangle2 t T -> represents2 p P -> unit_triangle2 T -> unit_square P -> mean2 T l1 l2 l3 P ->
  clear (1 # 2 ^ 43) (area2 T) l1 -> clear (1 # 2 ^ 43) (area2 T) l2 -> clear (1 # 2 ^ 43) (area2 T) l3 ->
  (strictly_inside2 T P /\ contains2_64 t p = Value true) \/ (strictly_outside2 T P /\ contains2_64 t p = Value false).
Proof. exact contains2_decided. Qed.
Print Assumptions C92_contains.

Definition e92t : ftriangle2 := FT2 (F2 n100 n100) (F2 n175 n100) (F2 n100 n175).
Definition e92T : triangle2 := T2 (P2 m100 m100) (P2 m175 m100) (P2 m100 m175).
Example C92_example :
  represents_triangle2 e92t e92T /\ unit_triangle2 e92T /\
  (represents2 (F2 n125 n125) (P2 m125 m125) /\ unit_square (P2 m125 m125) /\ mean2 e92T (1 # 3) (1 # 3) (1 # 3) (P2 m125 m125) /\ clear (1 # 2 ^ 43) (area2 e92T) (1 # 3) /\
   contains2_64 e92t (F2 n125 n125) = Value true) /\
  (represents2 (F2 n175 n150) (P2 m175 m150) /\ unit_square (P2 m175 m150) /\ mean2 e92T (- 2 # 3) 1 (2 # 3) (P2 m175 m150) /\ clear (1 # 2 ^ 43) (area2 e92T) (- 2 # 3) /\
   contains2_64 e92t (F2 n175 n150) = Value false).
Proof.
  repeat match goal with |- _ /\ _ => split end; case_of.
Qed.

(** Refuted: that the answer is right for every point that is not on an edge. *)
Theorem C92_inside_refuted : exists t p T P, represents_triangle2 t T /\ represents2 p P /\ unit_triangle2 T /\ unit_square P /\ 1 # 50 <= Qabs (area2 T) /\
  strictly_inside2 T P /\ contains2_64 t p = Value false.
Proof. exists cit, cip, ciT, ciP. destruct ci_represents as (A & B & C & D). exact (conj A (conj B (conj C (conj D (conj ci_area (conj ci_side ci_wrong)))))). Qed.
Print Assumptions C92_inside_refuted.
Theorem C92_outside_refuted : exists t p T P, represents_triangle2 t T /\ represents2 p P /\ unit_triangle2 T /\ unit_square P /\ 1 # 50 <= Qabs (area2 T) /\
  strictly_outside2 T P /\ contains2_64 t p = Value true.
Proof. exists cot, cop, coT, coP. destruct co_represents as (A & B & C & D). exact (conj A (conj B (conj C (conj D (conj co_area (conj co_side co_wrong)))))). Qed.
Print Assumptions C92_outside_refuted.

(** * C93 *)
Theorem C93_circle : forall t p T P o, represents_triangle2 t T -> represents2 p P -> unit_triangle2 T -> unit_square P -> 0 < area2 T -> circumscribed2 T o ->
  1 # 2 ^ 46 <= area2 T * Qabs (dist2_2 o P - dist2_2 o (t2p1 T)) ->
  in_circle64 t p = Value true /\ dist2_2 o P < dist2_2 o (t2p1 T) \/ in_circle64 t p = Value false /\ dist2_2 o (t2p1 T) < dist2_2 o P.
Proof. exact circle_decided. Qed.
Print Assumptions C93_circle.

Definition m1875 : Q := q52 8444249301319680.
Definition n1875 : f64 := f52 8444249301319680 eq_refl.
Example C93_example :
  represents_triangle2 e92t e92T /\ unit_triangle2 e92T /\ 0 < area2 e92T /\ circumscribed2 e92T (P2 (11 # 8) (11 # 8)) /\
  (represents2 (F2 n125 n125) (P2 m125 m125) /\ 1 # 2 ^ 46 <= area2 e92T * Qabs (dist2_2 (P2 (11 # 8) (11 # 8)) (P2 m125 m125) - dist2_2 (P2 (11 # 8) (11 # 8)) (t2p1 e92T)) /\
   in_circle64 e92t (F2 n125 n125) = Value true) /\
  (represents2 (F2 n1875 n1875) (P2 m1875 m1875) /\ 1 # 2 ^ 46 <= area2 e92T * Qabs (dist2_2 (P2 (11 # 8) (11 # 8)) (P2 m1875 m1875) - dist2_2 (P2 (11 # 8) (11 # 8)) (t2p1 e92T)) /\
   in_circle64 e92t (F2 n1875 n1875) = Value false).
Proof.
  repeat match goal with |- _ /\ _ => split end; case_of.
Qed.

(** Refuted: that the answer is right for every point that is not on the circle. *)
Theorem C93_circle_refuted : exists t p T P, represents_triangle2 t T /\ represents2 p P /\ unit_triangle2 T /\ unit_square P /\ 1 # 4 <= area2 T /\
  (forall o, circumscribed2 T o -> dist2_2 o P < dist2_2 o (t2p1 T)) /\ in_circle64 t p = Value false.
Proof. exists cct, ccp, ccT, ccP. destruct cc_represents as (A & B & C & D). exact (conj A (conj B (conj C (conj D (conj cc_area (conj cc_inside cc_wrong)))))). Qed.
Print Assumptions C93_circle_refuted.
