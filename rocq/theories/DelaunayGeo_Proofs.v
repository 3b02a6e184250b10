(** The circumcircle tests never report a corner as strictly inside. *)
From Coq Require Import List Arith QArith Qabs Setoid Lqa.
From Verif Require Import Geometry_Model Delaunay_Model Delaunay_Spec DelaunayGeo_Model.
Import ListNotations.
Local Open Scope Q_scope.

Lemma sign_zero v : v == 0 -> sign_of v = Zero.
Proof. intro H. unfold sign_of. now rewrite (proj1 (Qeq_alt v 0) H). Qed.

Lemma circle2_corners pts : corners_not_inside (circle2 pts).
Proof.
  intros l p Hp. unfold circle2. destruct l as [|a [|b [|c [|? ?]]]]; try discriminate.
  unfold circumcircle_contains2. rewrite sign_zero; [discriminate|]. cbn [t2p1 t2p2 t2p3].
  destruct Hp as [->|[->|[->|[]]]]; unfold determinant3x3; ring.
Qed.

Lemma float_corner t e : In e [ttp1 t; ttp2 t; ttp3 t; ttp4 t] -> circumcircle_contains3_float t e <> Some true.
Proof.
  intros He H. unfold circumcircle_contains3_float in H.
  match type of H with context [check ?x ?e] => destruct (check x e); [|discriminate H]; assert (E : x == 0) end.
  - destruct He as [<-|[<-|[<-|[<-|[]]]]]; ring.
  - rewrite (sign_zero _ E) in H. discriminate.
Qed.
Lemma exact_corner t e : In e [ttp1 t; ttp2 t; ttp3 t; ttp4 t] -> circumcircle_contains3_exact t e <> Some true.
Proof.
  intros He. unfold circumcircle_contains3_exact. rewrite sign_zero; [discriminate|].
  destruct He as [<-|[<-|[<-|[<-|[]]]]]; unfold determinant5x5, determinant4x4, determinant3x3, norm2; cbn [fst snd]; ring.
Qed.
Lemma circle3_corners pts : corners_not_inside (circle3 pts).
Proof.
  intros l p Hp. unfold circle3. destruct l as [|a [|b [|c [|d [|? ?]]]]]; try discriminate.
  set (t := TT (pts a) (pts b) (pts c) (pts d)).
  assert (He : In (pts p) [ttp1 t; ttp2 t; ttp3 t; ttp4 t]) by (cbn; destruct Hp as [->|[->|[->|[->|[]]]]]; tauto).
  unfold circumcircle_contains3. destruct (circumcircle_contains3_float t (pts p)) as [b'|] eqn:E.
  - intros [= ->]. exact (float_corner t _ He E).
  - exact (exact_corner t _ He).
Qed.
