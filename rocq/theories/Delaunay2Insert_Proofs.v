(** The insertion of points in two dimensions. *)
From Coq Require Import List Arith Lia Bool Permutation.
From Verif Require Import Delaunay_Model Delaunay_Spec DelaunayBuild_Proofs DelaunaySurgery_Proofs DelaunayPlan_Proofs
  Delaunay2_Proofs DelaunayInsert_Proofs.
Import ListNotations.

(** The number of triangles and edges. *)
Definition count2 (s : triangulation) : Prop :=
  length (tetras s) + 5 = 2 * num_points s /\ length (faces s) + 6 = 3 * num_points s.

Lemma count2_last s i : count2 s -> count2 (set_last s i).
Proof. auto. Qed.

Lemma three_entries s old t : inv2 s -> In (old, t) (tetras s) ->
  exists q1 g1 q2 g2 q3 g3, t = [(q1, g1); (q2, g2); (q3, g3)].
Proof.
  intros I H. pose proof (proj1 (iv_corners _ _ _ I _ _ H)) as L.
  destruct t as [|[q1 g1] [|[q2 g2] [|[q3 g3] [|? ?]]]]; cbn in L; try discriminate. eauto 7.
Qed.

Lemma split_spec2 s old t new s' : inv2 s -> In (old, t) (tetras s) ->
  split2 (push_point s) old (num_points s) = Some (new, s') ->
  exists N, new = map fst N /\ N <> [] /\ replaced s s' [old] N /\ inv2 s' /\ num_points s' = S (num_points s) /\
    (forall i t, In (i, t) N -> In (num_points s) (points_of t)) /\ (count2 s -> count2 s').
Proof.
  intros I Ht E. destruct (three_entries s old t I Ht) as [q1 [g1 [q2 [g2 [q3 [g3 ->]]]]]].
  destruct (split2_ok s I old q1 q2 q3 g1 g2 g3 Ht) as [s1 [E1 [I1 [RP [NP LF]]]]].
  rewrite E1 in E. injection E as <- <-. eexists. split; [|split; [|split; [exact RP|split; [exact I1|split; [exact NP|split]]]]].
  - reflexivity.
  - discriminate.
  - intros i t [X|[X|[X|[]]]]; injection X as <- <-; cbn; tauto.
  - intros [C1 C2]. pose proof (rp_tetras _ _ _ _ RP) as LT. unfold count2. cbn in LT. rewrite NP, LF. lia.
Qed.
Lemma split_total2 s old t : inv2 s -> In (old, t) (tetras s) -> split2 (push_point s) old (num_points s) <> None.
Proof.
  intros I Ht. destruct (three_entries s old t I Ht) as [q1 [g1 [q2 [g2 [q3 [g3 ->]]]]]].
  destruct (split2_ok s I old q1 q2 q3 g1 g2 g3 Ht) as [s1 [E1 _]]. congruence.
Qed.

Lemma flip_spec2 s ct t c fc oj q new s' :
  inv2 s -> In (ct, t) (tetras s) -> In (c, fc) t -> opposing fc = Some (Conn oj q) -> ~ In q (points_of t) ->
  flip2 s ct (face fc) = Some (new, s') -> flip_effect 2 face_ok2 count2 s s' ct c new.
Proof.
  intros I Ht Hc Ho Hq E.
  destruct (flip2_ok s ct t c fc oj q I Ht Hc Ho Hq) as [s1 [u [x [y [T1 [T2 [E1 [I1 [Hu [Hne [Rt [Ru [P1 [P2 [RP [NP LF]]]]]]]]]]]]]]]].
  rewrite E1 in E. injection E as <- <-. right. do 2 eexists. exists oj.
  split; [|split; [|split; [|split; [exact RP|split; [exact I1|split; [exact NP|split; [|split; [|split; [|split]]]]]]]]].
  - reflexivity.
  - discriminate.
  - cbn. lia.
  - cbn. tauto.
  - cbn. tauto.
  - intros u' Hu'. rewrite (NoDup_ids_eq _ _ _ _ (iv_ids _ _ _ I) Hu' Hu), (rot3_in _ _ _ _ c Ru).
    destruct (rot3_nodup _ _ _ _ Rt (proj1 (proj2 (iv_corners _ _ _ I _ _ Ht)))) as [D1 [D2 D3]].
    intros [->|[->| ->]]; [|congruence|congruence]. apply Hq. apply (rot3_in _ _ _ _ _ Rt). tauto.
  - intros i t' [X|[X|[]]]; injection X as <- <-; [rewrite P1|rewrite P2]; cbn; tauto.
  - intros [C1 C2]. pose proof (rp_tetras _ _ _ _ RP) as LT. unfold count2. cbn in LT. rewrite NP, LF. lia.
Qed.
Lemma flip_total2 s ct t c fc oj q :
  inv2 s -> In (ct, t) (tetras s) -> In (c, fc) t -> opposing fc = Some (Conn oj q) -> ~ In q (points_of t) ->
  flip2 s ct (face fc) <> None.
Proof.
  intros I Ht Hc Ho Hq. destruct (flip2_ok s ct t c fc oj q I Ht Hc Ho Hq) as [s1 [u [x [y [T1 [T2 [E1 _]]]]]]]. congruence.
Qed.
Lemma flip_moves2 : flip_moves flip2.
Proof.
  intros s ct cf s' H. unfold flip2 in H.
  repeat match type of H with
  | bind ?a _ = _ => destruct a as [?|] eqn:?; cbn [bind] in H; [|discriminate]
  | (let '_ := ?a in _) = _ => destruct a eqn:?
  | match ?a with _ => _ end = _ => destruct a eqn:?; try discriminate
  end; try discriminate.
Qed.

Lemma inv2_start : exists s, all_encompassing_2d = Some s /\ inv2 s /\ last_ok s /\ count2 s /\ num_points s = 3.
Proof.
  eexists. split; [vm_compute; reflexivity|]. split; [|split; [intros i; discriminate|split; [split; reflexivity|reflexivity]]].
  constructor; cbn [tetras faces next_tetra next_face num_points map fst].
  - repeat constructor; cbn; tauto.
  - repeat constructor; cbn; intuition discriminate.
  - intros i [<-|[]]. lia.
  - intros f [<-|[<-|[<-|[]]]]; lia.
  - intros i t [X|[]]. injection X as <- <-. split; [reflexivity|]. split.
    + repeat constructor; cbn; intuition discriminate.
    + cbn. intros p [<-|[<-|[<-|[]]]]; lia.
  - intros i t q fi [X|[]] Y. injection X as <- <-. destruct Y as [Y|[Y|[Y|[]]]]; injection Y as <- <-; cbn [face flipped points_of map fst].
    + exists [1; 2]. split; [cbn; tauto|]. exists 1, 2. split; [reflexivity|tauto].
    + exists [2; 0]. split; [cbn; tauto|]. exists 2, 0. split; [reflexivity|tauto].
    + exists [0; 1]. split; [cbn; tauto|]. exists 0, 1. split; [reflexivity|tauto].
  - intros i t q fi [X|[]] Y j r. injection X as <- <-.
    assert (E : opposing fi = None) by (destruct Y as [Y|[Y|[Y|[]]]]; injection Y as <- <-; reflexivity).
    rewrite E. split; [discriminate|]. intros [Hne [u [gi [[X|[]] _]]]]. injection X as <- <-. congruence.
  - intros i t q fi j u r gi [X|[]] _ [Y|[]] _ _ Hne. injection X as <- <-. injection Y as <- <-. congruence.
  - intros f ps H. exists 0. destruct H as [X|[X|[X|[]]]]; injection X as <- <-;
      [exists 0|exists 1|exists 2]; do 2 eexists; (split; [now left|]); (split; [|]); cbn; eauto.
  - intros p Hp. exists 0. eexists. split; [now left|]. cbn. lia.
  - intros i j t u [X|[]] [Y|[]]. injection X as <- <-. injection Y as <- <-. constructor.
Qed.

Lemma inv2_oriented s : inv2 s -> oriented2 s.
Proof.
  intros I i a fa b fb c fc H edge.
  pose proof (proj1 (proj2 (iv_corners _ _ _ I _ _ H))) as ND. cbn in ND.
  assert (D : a <> b /\ a <> c /\ b <> c).
  { inversion ND as [|? ? X1 X2]; subst. inversion X2 as [|? ? Y1 Y2]; subst. cbn in X1, Y1. intuition congruence. }
  destruct D as [D1 [D2 D3]].
  unfold edge. split; [|split].
  - destruct (iv_faces _ _ _ I i _ a fa H) as [ps [P1 P2]]; [cbn; tauto|]. cbn in P2.
    apply face_ok2_first in P2; [now subst ps|exact ND].
  - destruct (iv_faces _ _ _ I i _ b fb H) as [ps [P1 P2]]; [cbn; tauto|]. cbn in P2.
    apply face_ok2_rot, face_ok2_first in P2; [now subst ps|]. apply NoDup3; auto.
  - destruct (iv_faces _ _ _ I i _ c fc H) as [ps [P1 P2]]; [cbn; tauto|]. cbn in P2.
    apply face_ok2_rot, face_ok2_rot, face_ok2_first in P2; [now subst ps|]. apply NoDup3; auto.
Qed.
