(** The flip of two tetrahedra into three. *)
From Coq Require Import List Arith Lia Bool Permutation.
From Verif Require Import Geometry_Model Delaunay_Model Delaunay_Spec DelaunayBuild_Proofs DelaunaySurgery_Proofs DelaunayPlan_Proofs
  Delaunay2_Proofs Delaunay3_Proofs.
Import ListNotations.

Lemma turns_new (fl : bool) p q x : turns q p x (if fl then [p; q; x] else [q; p; x]) fl.
Proof. exists q, p, x. split; [destruct fl; reflexivity|tauto]. Qed.
Lemma turns_new' (fl : bool) p q x : turns p q x (if fl then [p; q; x] else [q; p; x]) (negb fl).
Proof. apply turns_flip, turns_new. Qed.
Lemma NoDup_remove_ids {A} (a : arena A) i : NoDup (map fst a) -> NoDup (map fst (arena_remove a i)).
Proof.
  unfold arena_remove. induction a as [|e l IH]; cbn; intro ND; [constructor|]. inversion ND as [|? ? X1 X2]; subst.
  destruct (negb _); cbn; [|auto]. constructor; [|auto]. intro X. apply X1.
  apply in_map_iff in X. destruct X as [z [Ez Hz]]. apply filter_In in Hz. rewrite <- Ez. apply in_map. tauto.
Qed.
Lemma In_remove {A} (a : arena A) i j v : In (j, v) a -> j <> i -> In (j, v) (arena_remove a i).
Proof. intros H N. unfold arena_remove. apply filter_In. split; [exact H|]. cbn. now apply negb_true_iff, Nat.eqb_neq. Qed.

(** [u] contains [p], [v] contains [q]; both contain a, b, c. *)
Section Flip23.
  Variable s : triangulation.
  Hypothesis I : inv3 s.
  Variables (ja jb ju jv p q a b c : nat) (u v : tetra) (fl : bool).
  Variables (up ua ub uc vq va vb vc : face_info).
  Hypothesis Hu : In (ju, u) (tetras s).
  Hypothesis Hv : In (jv, v) (tetras s).
  Hypothesis Hne : ju <> jv.
  Hypothesis HR : (ja = ju /\ jb = jv) \/ (ja = jv /\ jb = ju).
  Hypothesis Hup : In (p, up) u.
  Hypothesis Hua : In (a, ua) u.
  Hypothesis Hub : In (b, ub) u.
  Hypothesis Huc : In (c, uc) u.
  Hypothesis Hvq : In (q, vq) v.
  Hypothesis Hva : In (a, va) v.
  Hypothesis Hvb : In (b, vb) v.
  Hypothesis Hvc : In (c, vc) v.
  Hypothesis Ef : face vq = face up.
  Hypothesis Eu : even4 [b; a; c; p] (points_of u).
  Hypothesis Ev : even4 [a; b; c; q] (points_of v).
  Hypothesis Hpq : p <> q.
  Hypothesis Hps : In (face up, [a; b; c]) (faces s).
  Let n1 := next_tetra s.
  Let n2 := S n1.
  Let n3 := S n2.
  Let m1 := next_face s.
  Let m2 := S m1.
  Let m3 := S m2.
  Let nf (x : nat) : list nat := if fl then [p; q; x] else [q; p; x].
  Let F : arena (list nat) := [(m1, nf a); (m2, nf b); (m3, nf c)].
  Let T1 : tetra := [(p, va); (q, ua); (b, new_face m3 fl); (c, new_face m2 (negb fl))].
  Let T2 : tetra := [(p, vb); (q, ub); (c, new_face m1 fl); (a, new_face m3 (negb fl))].
  Let T3 : tetra := [(p, vc); (q, uc); (a, new_face m2 fl); (b, new_face m1 (negb fl))].
  Let N : arena tetra := [(n1, T1); (n2, T2); (n3, T3)].
  Let L : list event := [(n1, m2, Conn n3 a); (n1, m3, Conn n2 a); (n2, m3, Conn n1 b);
                         (n2, m1, Conn n3 b); (n3, m1, Conn n2 c); (n3, m2, Conn n1 c)].
  Let OB : list (nat * nat * nat * nat * face_info) :=
    [(jv, a, n1, p, va); (ju, a, n1, q, ua); (jv, b, n2, p, vb); (ju, b, n2, q, ub); (jv, c, n3, p, vc); (ju, c, n3, q, uc)].
  Let PR : list (nat * (nat * nat) * (nat * nat)) :=
    [(m1, (n2, c), (n3, b)); (m2, (n3, a), (n1, c)); (m3, (n1, b), (n2, a))].
  Let base : triangulation :=
    Triangulation (arena_remove (arena_remove (tetras s) ja) jb) n1 (arena_remove (faces s) (face up) ++ F)
                  (S m3) (num_points s) (last_insertion s).

  Lemma flip23_distinct : (a <> b /\ a <> c /\ b <> c) /\ (p <> a /\ p <> b /\ p <> c) /\ (q <> a /\ q <> b /\ q <> c).
  Proof.
    destruct (even4_nodup _ _ _ _ _ Eu (proj1 (proj2 (iv_corners _ _ _ I _ _ Hu)))) as [A1 [A2 [A3 [A4 [A5 A6]]]]].
    destruct (even4_nodup _ _ _ _ _ Ev (proj1 (proj2 (iv_corners _ _ _ I _ _ Hv)))) as [B1 [B2 [B3 [B4 [B5 B6]]]]].
    repeat split; auto.
  Qed.
  Lemma flip23_u x fi : In (x, fi) u -> (x, fi) = (p, up) \/ (x, fi) = (a, ua) \/ (x, fi) = (b, ub) \/ (x, fi) = (c, uc).
  Proof.
    intro H. pose proof (proj1 (proj2 (iv_corners _ _ _ I _ _ Hu))) as ND.
    pose proof (entry_point _ _ _ H) as P. apply (even4_in _ _ _ _ _ _ Eu) in P.
    destruct P as [->|[->|[->| ->]]].
    - rewrite (NoDup_ids_eq u _ _ _ ND H Hub). auto.
    - rewrite (NoDup_ids_eq u _ _ _ ND H Hua). auto.
    - rewrite (NoDup_ids_eq u _ _ _ ND H Huc). auto.
    - rewrite (NoDup_ids_eq u _ _ _ ND H Hup). auto.
  Qed.
  Lemma flip23_v x fi : In (x, fi) v -> (x, fi) = (q, vq) \/ (x, fi) = (a, va) \/ (x, fi) = (b, vb) \/ (x, fi) = (c, vc).
  Proof.
    intro H. pose proof (proj1 (proj2 (iv_corners _ _ _ I _ _ Hv))) as ND.
    pose proof (entry_point _ _ _ H) as P. apply (even4_in _ _ _ _ _ _ Ev) in P.
    destruct P as [->|[->|[->| ->]]].
    - rewrite (NoDup_ids_eq v _ _ _ ND H Hva). auto.
    - rewrite (NoDup_ids_eq v _ _ _ ND H Hvb). auto.
    - rewrite (NoDup_ids_eq v _ _ _ ND H Hvc). auto.
    - rewrite (NoDup_ids_eq v _ _ _ ND H Hvq). auto.
  Qed.
  Lemma flip23_faces :
    (exists ps, In (face ua, ps) (faces s) /\ turns b c p ps (flipped ua)) /\
    (exists ps, In (face ub, ps) (faces s) /\ turns a p c ps (flipped ub)) /\
    (exists ps, In (face uc, ps) (faces s) /\ turns a b p ps (flipped uc)) /\
    (exists ps, In (face va, ps) (faces s) /\ turns b q c ps (flipped va)) /\
    (exists ps, In (face vb, ps) (faces s) /\ turns a c q ps (flipped vb)) /\
    (exists ps, In (face vc, ps) (faces s) /\ turns b a q ps (flipped vc)).
  Proof.
    repeat split.
    - eapply (face3 s ju u a ua); eauto. eapply even4_trans; [|exact Eu]. even.
    - eapply (face3 s ju u b ub); eauto. eapply even4_trans; [|exact Eu]. even.
    - eapply (face3 s ju u c uc); eauto. eapply even4_trans; [|exact Eu]. even.
    - eapply (face3 s jv v a va); eauto. eapply even4_trans; [|exact Ev]. even.
    - eapply (face3 s jv v b vb); eauto. eapply even4_trans; [|exact Ev]. even.
    - eapply (face3 s jv v c vc); eauto. eapply even4_trans; [|exact Ev]. even.
  Qed.
  Lemma flip23_neq : NoDup [face up; face va; face ua; face vb; face ub; face vc; face uc].
  Proof.
    destruct flip23_distinct as [[D1 [D2 D3]] [[D4 [D5 D6]] [D7 [D8 D9]]]].
    assert (UU : forall x fi y gi, In (x, fi) u -> In (y, gi) u -> x <> y -> face fi <> face gi).
    { intros x fi y gi A B C D. apply C. now destruct (inv_entry_unique _ _ face_ok3_perm s ju u x fi y gi I Hu A B D). }
    assert (VV : forall x fi y gi, In (x, fi) v -> In (y, gi) v -> x <> y -> face fi <> face gi).
    { intros x fi y gi A B C D. apply C. now destruct (inv_entry_unique _ _ face_ok3_perm s jv v x fi y gi I Hv A B D). }
    assert (UV : forall x fi y gi, In (x, fi) u -> In (y, gi) v -> x <> p -> face fi <> face gi).
    { intros x fi y gi A B C D.
      destruct (iv_faces _ _ _ I ju u x fi Hu A) as [ps [P1 P2]]. apply face_ok3_perm in P2.
      destruct (iv_faces _ _ _ I jv v y gi Hv B) as [ps' [Q1 Q2]]. apply face_ok3_perm in Q2.
      rewrite <- D in Q1. rewrite <- (NoDup_ids_eq _ _ _ _ (iv_fids _ _ _ I) P1 Q1) in Q2.
      assert (X : In p (x :: ps)).
      { apply (Permutation_in _ (Permutation_sym P2)). exact (entry_point _ _ _ Hup). }
      destruct X as [X|X]; [congruence|].
      assert (Z : In p (points_of v)) by (apply (Permutation_in _ Q2); now right).
      apply (even4_in _ _ _ _ _ _ Ev) in Z. intuition congruence. }
    assert (VU : forall x fi y gi, In (x, fi) u -> In (y, gi) v -> x <> p -> face gi <> face fi).
    { intros x fi y gi A B C D. exact (UV x fi y gi A B C (eq_sym D)). }
    rewrite <- Ef.
    assert (Y : forall (f : nat) l, (forall g, In g l -> f <> g) -> ~ In f l) by (intros f l A B; exact (A f B eq_refl)).
    repeat (apply NoDup_cons; [apply Y; cbn [In]; intros g W;
      repeat (destruct W as [<-|W]; [first [eapply VV; [eassumption|eassumption|congruence]|eapply UU; [eassumption|eassumption|congruence]
        |eapply UV; [eassumption|eassumption|congruence]|eapply VU; [eassumption|eassumption|congruence]]|]); contradiction|]).
    apply NoDup_nil.
  Qed.

  Lemma flip23_plan : plan 3 face_ok3 s base [ja; jb] [face up] F N L OB PR.
  Proof.
    destruct flip23_distinct as [[D1 [D2 D3]] [[D4 [D5 D6]] [D7 [D8 D9]]]].
    pose proof flip23_neq as ND. inversion ND as [|? ? NDh NDt]; subst. cbn [In] in NDh.
    destruct flip23_faces as [P1 [P2 [P3 [P4 [P5 P6]]]]].
    assert (LT : forall x fi, In (x, fi) u -> face fi < m1) by (intros x fi; apply (face_lt _ _ s I ju u x fi Hu)).
    assert (LT' : forall x fi, In (x, fi) v -> face fi < m1) by (intros x fi; apply (face_lt _ _ s I jv v x fi Hv)).
    pose proof (LT _ _ Hua) as L1. pose proof (LT _ _ Hub) as L2. pose proof (LT _ _ Huc) as L3.
    pose proof (LT' _ _ Hva) as L4. pose proof (LT' _ _ Hvb) as L5. pose proof (LT' _ _ Hvc) as L6. clear LT LT'.
    assert (NP : p < num_points s /\ q < num_points s /\ a < num_points s /\ b < num_points s /\ c < num_points s).
    { pose proof (proj2 (proj2 (iv_corners _ _ _ I _ _ Hu))) as A. pose proof (proj2 (proj2 (iv_corners _ _ _ I _ _ Hv))) as B.
      repeat split; [apply A|apply B|apply A|apply A|apply A]; eapply entry_point; eassumption. }
    assert (HRR : forall r x fi, inR s [ja; jb] r x fi -> (r = ju /\ In (x, fi) u) \/ (r = jv /\ In (x, fi) v)).
    { intros r x fi [Hr [w [Hw Hx]]].
      assert (Hr' : r = ju \/ r = jv).
      { cbn in Hr. destruct HR as [[-> ->]|[-> ->]]; intuition congruence. }
      destruct Hr' as [->| ->]; [left|right]; (split; [reflexivity|]).
      - now rewrite (NoDup_ids_eq _ _ _ _ (iv_ids _ _ _ I) Hw Hu) in Hx.
      - now rewrite (NoDup_ids_eq _ _ _ _ (iv_ids _ _ _ I) Hw Hv) in Hx. }
    assert (Hju : forall x, x = ju -> In x [ja; jb]) by (intros x ->; cbn; destruct HR as [[-> ->]|[-> ->]]; tauto).
    assert (Hjv : forall x, x = jv -> In x [ja; jb]) by (intros x ->; cbn; destruct HR as [[-> ->]|[-> ->]]; tauto).
    constructor.
    - apply arena_remove_remove.
    - cbn [faces base]. now rewrite arena_remove_filter.
    - exists ju, u. auto.
    - reflexivity.
    - cbn. unfold m3, m2, m1. lia.
    - cbn. lia.
    - reflexivity.
    - reflexivity.
    - intros r x k x' fi X. unfold OB in X. crunch;
        (split; [split; [auto|eexists; split; [eassumption|assumption]]|]);
        (split; [|cbn; intuition congruence]).
      + exists T1; cbn; tauto.
      + exists T1; cbn; tauto.
      + exists T2; cbn; tauto.
      + exists T2; cbn; tauto.
      + exists T3; cbn; tauto.
      + exists T3; cbn; tauto.
    - exact NDt.
    - intros k x fi [w [A B]] Hlt. unfold N in A.
      crunch; (unfold T1 in B || unfold T2 in B || unfold T3 in B); crunch;
        try (exfalso; unfold m3, m2, m1 in Hlt; cbn in Hlt; clear - Hlt; lia); do 2 eexists; cbn; eauto 10.
    - intros r x fi X NG. apply HRR in X. destruct X as [[-> X]|[-> X]].
      + apply flip23_u in X. destruct X as [X|[X|[X|X]]]; crunch; [exfalso; apply NG; now left| | |]; do 2 eexists; cbn; eauto 10.
      + apply flip23_v in X. destruct X as [X|[X|[X|X]]]; crunch; [exfalso; apply NG; now left| | |]; do 2 eexists; cbn; eauto 10.
    - intros i w x fi Hi Hx [E|[]].
      destruct (Nat.eq_dec i ju) as [->|Ni]; [now apply Hju|].
      assert (X : opposing up = Some (Conn jv q)).
      { apply (iv_opp _ _ _ I ju u p up Hu Hup). split; [congruence|]. exists v, vq. auto. }
      assert (Y : opposing up = Some (Conn i x)).
      { apply (iv_opp _ _ _ I ju u p up Hu Hup). split; [exact Ni|]. exists w, fi. auto. }
      rewrite X in Y. injection Y as <- <-. now apply Hjv.
    - cbn. unfold m3, m2. repeat constructor; cbn; intuition lia.
    - intros f k x k' x' X. unfold PR in X. crunch; (split; [unfold m3, m2, m1; lia|]; split; [unfold n3, n2; lia|]; split; [|cbn; tauto]);
        (eexists; eexists; split; [eexists; split; [cbn; eauto 6|cbn; eauto 6]|]; split; [reflexivity|];
           split; [eexists; split; [cbn; eauto 6|cbn; eauto 6]|]; split; reflexivity).
    - intros k x fi [w [A B]] Hge. unfold N in A.
      crunch; (unfold T1 in B || unfold T2 in B || unfold T3 in B); crunch; try (exfalso; fold m1 in Hge; clear - Hge L1 L2 L3 L4 L5 L6; lia);
        (split; [reflexivity|]); do 2 eexists; cbn; eauto 10.
    - intros i f e X. unfold L in X. crunch; do 4 eexists; (split; [cbn; eauto 6|eauto]).
    - intros k w A. unfold N in A. destruct NP as [NP1 [NP2 [NP3 [NP4 NP5]]]].
      crunch; (split; [reflexivity|]); cbn; (split; [apply NoDup4; repeat split; auto|intros x [<-|[<-|[<-|[<-|[]]]]]; assumption]).
    - assert (FB : forall fi ps, In (face fi, ps) (faces s) -> face fi <> face up -> In (face fi, ps) (faces base)).
      { intros fi ps A B. cbn [faces base]. apply in_or_app. left. now apply In_remove. }
      assert (FN : forall f ps, In (f, ps) F -> In (f, ps) (faces base)).
      { intros f ps X. cbn [faces base]. apply in_or_app. now right. }
      assert (OK : forall fi x y z w pts, (exists ps, In (face fi, ps) (faces s) /\ turns x y z ps (flipped fi)) ->
                     face fi <> face up -> even4 [x; y; z; w] pts ->
                     exists ps, In (face fi, ps) (faces base) /\ face_ok3 pts w ps (flipped fi)).
      { intros fi x y z w pts [ps [A B]] C D. exists ps. split; [now apply FB|]. eapply turns_face_ok3; eauto. }
      intros k w x fi A B. unfold N in A. crunch; (unfold T1 in B || unfold T2 in B || unfold T3 in B); crunch; unfold T1, T2, T3; cbn [face flipped new_face points_of map fst].
      all: try (eapply OK; [eassumption|intro; apply NDh; auto 10|even]).
      all: match goal with
        | |- context [negb fl] => eexists; split; [apply FN; cbn; solve [eauto 6]|eapply turns_face_ok3; [|apply turns_new']; even]
        | |- _ => eexists; split; [apply FN; cbn; solve [eauto 6]|eapply turns_face_ok3; [|apply turns_new]; even]
        end.
    - intros f ps X. unfold F in X. crunch.
      + exists n2, c, (new_face m1 fl). split; [exists T2; cbn; tauto|reflexivity].
      + exists n3, a, (new_face m2 fl). split; [exists T3; cbn; tauto|reflexivity].
      + exists n1, b, (new_face m3 fl). split; [exists T1; cbn; tauto|reflexivity].
    - intros r w x Hr Hw Hx. assert (Hx' : x = a \/ x = b \/ x = c \/ x = p \/ x = q).
      { unfold points_of in Hx. apply in_map_iff in Hx. destruct Hx as [[x' fi] [<- Hx]]. cbn [fst].
        destruct (HRR r x' fi) as [[-> Y]|[-> Y]]; [split; [exact Hr|eauto]| |];
          apply entry_point in Y; [apply (even4_in _ _ _ _ _ _ Eu) in Y|apply (even4_in _ _ _ _ _ _ Ev) in Y]; tauto. }
      destruct Hx' as [->|[->|[->|[->| ->]]]]; [exists n2, T2|exists n1, T1|exists n1, T1|exists n1, T1|exists n1, T1]; cbn; tauto.
    - intros x Hx. cbn in Hx. lia.
    - exists n1. split; [now left|]. cbn. intros k [<-|[<-|[<-|[]]]]; [now left| |]; right; do 3 eexists; cbn; eauto 10.
  Qed.

  Lemma flip23_core : exists s1 s', insert_all base [T1; T2; T3] = Some s1 /\ set_all s1 L = Some s' /\
    inv3 s' /\ replaced s s' [ja; jb] N /\ num_points s' = num_points s /\ length (faces s') = length (faces s) + 2.
  Proof.
    destruct (run_plan_ok 3 face_ok3 face_ok3_perm s base [ja; jb] [face up] F N L OB PR I flip23_plan)
      as [s1 [s' [H1 [H2 [H3 [H4 [H5 H6]]]]]]].
    - destruct HR as [[-> ->]|[-> ->]]; repeat constructor; cbn; intuition congruence.
    - assert (A : In ju (map fst (tetras s))) by (change ju with (fst (ju, u)); now apply in_map).
      assert (B : In jv (map fst (tetras s))) by (change jv with (fst (jv, v)); now apply in_map).
      destruct HR as [[-> ->]|[-> ->]]; intros r [<-|[<-|[]]]; assumption.
    - repeat constructor. tauto.
    - intros g [<-|[]]. apply (in_map fst) in Hps. exact Hps.
    - reflexivity.
    - exists s1, s'. split; [exact H1|]. split; [exact H2|]. split; [exact H3|]. split; [exact H4|]. split; [exact H5|]. cbn in H6. lia.
  Qed.
End Flip23.

(** The code performs this replacement. *)
Section Run23.
  Variable s : triangulation.
  Hypothesis I : inv3 s.
  Variables (ja jb p1 p2 a b c : nat) (ta tb : tetra).
  Variables (a1 aa ab ac ba bb bc : face_info).
  Hypothesis Ha : In (ja, ta) (tetras s).
  Hypothesis Hb : In (jb, tb) (tetras s).
  Hypothesis Hne : ja <> jb.
  Hypothesis Ha1 : In (p1, a1) ta.
  Hypothesis Haa : In (a, aa) ta.
  Hypothesis Hab : In (b, ab) ta.
  Hypothesis Hac : In (c, ac) ta.
  Hypothesis Hba : In (a, ba) tb.
  Hypothesis Hbb : In (b, bb) tb.
  Hypothesis Hbc : In (c, bc) tb.
  Hypothesis Hps : In (face a1, [a; b; c]) (faces s).
  Let fl := flipped a1.
  Let n1 := next_tetra s.
  Let n2 := S n1.
  Let n3 := S n2.
  Let m1 := next_face s.
  Let m2 := S m1.
  Let m3 := S m2.
  Let F : arena (list nat) := [(m1, [p1; p2; a]); (m2, [p1; p2; b]); (m3, [p1; p2; c])].
  Let mk (fa fb : face_info) (x y : nat * face_info) : tetra :=
    if fl then [(p1, fb); (p2, fa); x; y] else [(p2, fa); (p1, fb); x; y].
  Let T1 : tetra := mk aa ba (b, new_face m3 fl) (c, new_face m2 (negb fl)).
  Let T2 : tetra := mk ab bb (c, new_face m1 fl) (a, new_face m3 (negb fl)).
  Let T3 : tetra := mk ac bc (a, new_face m2 fl) (b, new_face m1 (negb fl)).
  Let L : list event := [(n1, m2, Conn n3 a); (n1, m3, Conn n2 a); (n2, m3, Conn n1 b);
                         (n2, m1, Conn n3 b); (n3, m1, Conn n2 c); (n3, m2, Conn n1 c)].
  Let base : triangulation :=
    Triangulation (arena_remove (arena_remove (tetras s) ja) jb) n1 (arena_remove (faces s) (face a1) ++ F)
                  (S m3) (num_points s) (last_insertion s).

  Lemma two_to_three_run :
    two_to_three_flip s ja jb p1 p2 (face a1) =
    do s1 <- insert_all base [T1; T2; T3]; do s' <- set_all s1 L; Some ([n1; n2; n3], s').
  Proof.
    pose proof (proj1 (proj2 (iv_corners _ _ _ I _ _ Ha))) as NDa.
    pose proof (proj1 (proj2 (iv_corners _ _ _ I _ _ Hb))) as NDb.
    unfold two_to_three_flip, remove_tetra, remove_face. rewrite (In_arena_get _ _ _ (iv_ids _ _ _ I) Ha). cbn [bind].
    cbn [with_tetras faces tetras].
    rewrite (In_arena_get (arena_remove (tetras s) ja) jb tb); [|apply NoDup_remove_ids, I|apply In_remove; auto].
    cbn [bind]. rewrite (find_face_unique ta p1 a1); [| |exact Ha1].
    2: { intros q' fi' A B. now destruct (inv_entry_unique _ _ face_ok3_perm s ja ta q' fi' p1 a1 I Ha A Ha1 B). }
    cbn [bind]. cbn [with_tetras faces tetras]. rewrite (In_arena_get _ _ _ (iv_fids _ _ _ I) Hps). cbn [bind].
    cbv zeta. cbn [with_tetras with_faces push_face next_tetra faces next_face num_points last_insertion tetras].
    match goal with |- context [make_tetra23 ?b] => assert (EB : b = base) end.
    { unfold push_face, with_tetras, push_point, base, with_faces. cbn. rewrite <- !app_assoc. reflexivity. }
    rewrite EB. fold m1. change (S (S m1)) with m3. change (S m1) with m2. fold fl.
    assert (MK : forall st pa pb fa fb other f1 f2, find_face_opposite ta other = Some f1 -> find_face_opposite tb other = Some f2 ->
      make_tetra23 st ta tb fl p1 p2 pa pb fa fb other = insert_tetra st (mk f1 f2 (pa, new_face fb fl) (pb, new_face fa (negb fl)))).
    { intros st pa pb fa fb other f1 f2 E1 E2. unfold make_tetra23. rewrite E1, E2. cbn [bind]. unfold mk. destruct fl; reflexivity. }
    rewrite (MK base b c m2 m3 a aa ba (find_face_opposite_in ta a aa NDa Haa) (find_face_opposite_in tb a ba NDb Hba)).
    fold T1. cbn [insert_all].
    destruct (insert_tetra base T1) as [[i1 s1]|] eqn:X1; cbn [bind]; [|reflexivity].
    apply insert_tetra_id in X1. destruct X1 as [-> [X1 _]].
    rewrite (MK s1 c a m3 m1 b ab bb (find_face_opposite_in ta b ab NDa Hab) (find_face_opposite_in tb b bb NDb Hbb)).
    fold T2.
    destruct (insert_tetra s1 T2) as [[i2 s2]|] eqn:X2; cbn [bind]; [|reflexivity].
    apply insert_tetra_id in X2. destruct X2 as [-> [X2 _]].
    rewrite (MK s2 a b m1 m2 c ac bc (find_face_opposite_in ta c ac NDa Hac) (find_face_opposite_in tb c bc NDb Hbc)).
    fold T3.
    destruct (insert_tetra s2 T3) as [[i3 s3]|] eqn:X3; cbn [bind]; [|reflexivity].
    apply insert_tetra_id in X3. destruct X3 as [-> _].
    rewrite X2, X1. cbn [next_tetra base]. change (S (S n1)) with n3. change (S n1) with n2. unfold L. cbn [set_all].
    repeat match goal with |- bind ?a _ = bind (bind ?a _) _ => destruct a; cbn [bind]; [|reflexivity] end.
    reflexivity.
  Qed.
End Run23.

(** The corners of a face and the faces opposite to them. *)
Lemma face_entries s j t q fi a b c : inv3 s -> In (j, t) (tetras s) -> In (q, fi) t -> In (face fi, [a; b; c]) (faces s) ->
  even4 (if flipped fi then [b; a; c; q] else [a; b; c; q]) (points_of t) /\
  exists ga gb gc, In (a, ga) t /\ In (b, gb) t /\ In (c, gc) t.
Proof.
  intros I Ht Hq Hps. destruct (iv_faces _ _ _ I j t q fi Ht Hq) as [ps [P1 P2]].
  rewrite (NoDup_ids_eq _ _ _ _ (iv_fids _ _ _ I) P1 Hps) in P2.
  assert (E : even4 (if flipped fi then [b; a; c; q] else [a; b; c; q]) (points_of t)).
  { destruct P2 as [x [y [z [E1 E2]]]]. destruct (flipped fi); injection E1 as -> -> ->; exact E2. }
  split; [exact E|].
  assert (X : forall x, In x [a; b; c] -> exists g, In (x, g) t).
  { intros x Hx. apply points_entry. apply face_ok3_perm in P2. apply (Permutation_in _ P2). now right. }
  destruct (X a) as [ga Ga]; [cbn; auto|]. destruct (X b) as [gb Gb]; [cbn; auto|]. destruct (X c) as [gc Gc]; [cbn; auto|]. eauto 7.
Qed.

Theorem two_to_three_ok s ja jb ta tb p1 p2 f1 f2 : inv3 s -> In (ja, ta) (tetras s) -> In (jb, tb) (tetras s) -> ja <> jb ->
  In (p1, f1) ta -> In (p2, f2) tb -> face f2 = face f1 -> p1 <> p2 ->
  exists s' N, two_to_three_flip s ja jb p1 p2 (face f1) = Some (map fst N, s') /\ inv3 s' /\ replaced s s' [ja; jb] N /\
    length N = 3 /\ (forall i t, In (i, t) N -> In p1 (points_of t) /\ In p2 (points_of t)) /\
    num_points s' = num_points s /\ length (faces s') = length (faces s) + 2.
Proof.
  intros I Ha Hb Hne H1 H2 Ef Hp.
  destruct (iv_faces _ _ _ I ja ta p1 f1 Ha H1) as [ps [P1 P2]].
  pose proof P2 as [x [y [z [Eps _]]]].
  assert (exists a b c, ps = [a; b; c]) as [a [b [c Eabc]]] by (destruct (flipped f1); eauto). clear Eps x y z. subst ps.
  destruct (face_entries s ja ta p1 f1 a b c I Ha H1 P1) as [Ea [aa [ab [ac [Haa [Hab Hac]]]]]].
  pose proof P1 as P1'. rewrite <- Ef in P1'.
  destruct (face_entries s jb tb p2 f2 a b c I Hb H2 P1') as [Eb [ba [bb [bc [Hba [Hbb Hbc]]]]]].
  pose proof (iv_flip _ _ _ I ja ta p1 f1 jb tb p2 f2 Ha H1 Hb H2 (eq_sym Ef) Hne) as Fl.
  pose proof (two_to_three_run s I ja jb p1 p2 a b c ta tb f1 aa ab ac ba bb bc Ha Hb Hne H1 Haa Hab Hac Hba Hbb Hbc P1) as RUN.
  rewrite Fl in Eb. destruct (flipped f1) eqn:E1; cbn [negb] in Eb, Fl.
  - destruct (flip23_core s I ja jb ja jb p1 p2 a b c ta tb true f1 aa ab ac f2 ba bb bc Ha Hb Hne
                (or_introl (conj eq_refl eq_refl)) H1 Haa Hab Hac H2 Hba Hbb Hbc Ef Ea Eb Hp P1)
      as [s1 [s' [E2 [E3 [E4 [E5 [E6 E7]]]]]]].
    cbn [negb] in RUN, E2, E3, E5. rewrite E2 in RUN. cbn [bind] in RUN. rewrite E3 in RUN. cbn [bind] in RUN.
    match type of E5 with replaced _ _ _ ?N => exists s', N end. split; [exact RUN|]. split; [exact E4|]. split; [exact E5|]. split; [reflexivity|]. split; [|auto].
    intros i t [X|[X|[X|[]]]]; injection X as <- <-; cbn; tauto.
  - rewrite <- Ef in P1.
    destruct (flip23_core s I ja jb jb ja p2 p1 a b c tb ta false f2 ba bb bc f1 aa ab ac Hb Ha (not_eq_sym Hne)
                (or_intror (conj eq_refl eq_refl)) H2 Hba Hbb Hbc H1 Haa Hab Hac (eq_sym Ef) Eb Ea (not_eq_sym Hp) P1)
      as [s1 [s' [E2 [E3 [E4 [E5 [E6 E7]]]]]]].
    rewrite Ef in E2. cbn [negb] in RUN, E2, E3, E5. rewrite E2 in RUN. cbn [bind] in RUN. rewrite E3 in RUN. cbn [bind] in RUN.
    match type of E5 with replaced _ _ _ ?N => exists s', N end. split; [exact RUN|]. split; [exact E4|]. split; [exact E5|]. split; [reflexivity|]. split; [|auto].
    intros i t [X|[X|[X|[]]]]; injection X as <- <-; cbn; tauto.
Qed.
