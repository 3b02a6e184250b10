(** The construction in space: every insertion turns a Delaunay triangulation into a Delaunay triangulation. *)
From Coq Require Import List Arith Lia Bool Permutation QArith Lqa Setoid.
From Verif Require Import Geometry_Model Geometry_Spec Delaunay_Model Delaunay_Spec DelaunayGeo_Model DelaunayBuild_Proofs DelaunaySurgery_Proofs DelaunayPlan_Proofs
  Delaunay2_Proofs DelaunayInsert_Proofs Delaunay3_Proofs Delaunay3Insert_Proofs DelaunayFlip3_Proofs DelaunayGeo_Proofs
  Circle2_Proofs Tiling2_Proofs DelaunayGlobal2_Proofs Sphere3_Proofs Predicates3_Proofs Tiling3_Proofs DelaunayLink3_Proofs.
Import ListNotations.
Local Open Scope Q_scope.

Lemma o3_apart a b c u v : ~ orient3 a b c u == orient3 a b c v -> 0 < dist2_3 u v.
Proof.
  intro N. apply dist3_apart. intros [E1 [E2 E3]]. apply N. unfold orient3, volume6, triple. cbn [ttp1 ttp2 ttp3 ttp4].
  rewrite E1, E2, E3. reflexivity.
Qed.

(** A point strictly inside of a tetrahedron that is part of another one is strictly inside of that one. *)
Lemma ins3_within a b c d e f g h x : 0 < orient3 a b c d -> 0 < orient3 e f g h ->
  cls3 e f g h a -> cls3 e f g h b -> cls3 e f g h c -> cls3 e f g h d -> ins3 a b c d x -> ins3 e f g h x.
Proof.
  intros P0 P1 A B C D X.
  assert (F : forall u v w z, 0 < orient3 u v w z -> 0 <= orient3 u v w a -> 0 <= orient3 u v w b -> 0 <= orient3 u v w c -> 0 <= orient3 u v w d -> 0 < orient3 u v w x).
  { intros u v w z Z Ha Hb Hc Hd. apply (ins3_affine a b c d x u v w P0 X Ha Hb Hc Hd).
    destruct (Qlt_le_dec 0 (orient3 u v w a)) as [K|K1]; [auto|]. destruct (Qlt_le_dec 0 (orient3 u v w b)) as [K|K2]; [auto|].
    destruct (Qlt_le_dec 0 (orient3 u v w c)) as [K|K3]; [auto|]. destruct (Qlt_le_dec 0 (orient3 u v w d)) as [K|K4]; [auto|]. exfalso.
    pose proof (o3_bary a b c d z u v w) as E. pose proof (qmul_pos _ _ P0 Z) as M.
    assert (Ea : orient3 u v w a == 0) by lra. assert (Eb : orient3 u v w b == 0) by lra. assert (Ec : orient3 u v w c == 0) by lra. assert (Ed : orient3 u v w d == 0) by lra.
    rewrite Ea, Eb, Ec, Ed in E. lra. }
  destruct A as [A1 [A2 [A3 A4]]]. destruct B as [B1 [B2 [B3 B4]]]. destruct C as [C1 [C2 [C3 C4]]]. destruct D as [D1 [D2 [D3 D4]]].
  assert (E1 : orient3 e h f g == orient3 e f g h) by (clear; coords3; ring). assert (E2 : orient3 e g h f == orient3 e f g h) by (clear; coords3; ring).
  assert (E3 : orient3 f h g e == orient3 e f g h) by (clear; coords3; ring).
  repeat split; [apply (F e f g h)|apply (F e h f g)|apply (F e g h f)|apply (F f h g e)]; auto; lra.
Qed.

Section Geo.
  Variable pts : nat -> point3.
  Notation O a b c d := (orient3 (pts a) (pts b) (pts c) (pts d)).
  Notation sphere a b c d := (sph (pts a) (pts b) (pts c) (pts d)).
  Notation circle := (circle3 pts).
  Notation inside := (inside3 pts).
  Notation flip := (flip3 (crossing3 pts)).

  Definition empty_spheres (T : nat -> nat -> nat -> nat -> nat -> Prop) (m : nat) : Prop := forall i a b c d o k v,
    T i a b c d -> sphere a b c d o k -> (v < m)%nat -> v <> a -> v <> b -> v <> c -> v <> d -> 0 < pow3 o k (pts v).

  Record good3 (s : triangulation) : Prop := {
    g3_inv : inv3 s;
    g3_last : last_ok s;
    g3_tiling : tiling3 pts (tet s) (num_points s);
    g3_hull : hull3 s;
    g3_four : (4 <= num_points s)%nat;
    g3_empty : empty_spheres (tet s) (num_points s);
    g3_start : 0 < O 0%nat 1%nat 2%nat 3%nat;
    g3_inside : forall v, (4 <= v < num_points s)%nat -> ins3 (pts 0%nat) (pts 1%nat) (pts 2%nat) (pts 3%nat) (pts v)
  }.

  Section Insert.
    Variable s0 : triangulation.
    Hypothesis G : good3 s0.
    Let p := num_points s0.

    (** On the side of [p] the facet [abc] belonged to a tetrahedron whose circumsphere contains [p]. *)
    Definition inner (a b c : nat) : Prop := exists j f o k, tet s0 j a b c f /\ sphere a b c f o k /\ pow3 o k (pts p) < 0.
    Lemma inner_turn a b c : inner a b c -> inner b c a.
    Proof.
      intros [j [f [o [k [H [S N]]]]]]. exists j, f, o, k. split; [apply (tet_even _ _ _ _ _ _ _ _ _ _ H); even|]. split; [|exact N].
      apply (even_sph pts a b c f); [even|exact S].
    Qed.
    Lemma inner_even e f g a b c : even4 [e; f; g; p] [a; b; c; p] -> e <> p -> f <> p -> g <> p -> inner e f g -> inner a b c.
    Proof.
      intros E N1 N2 N3 H. destruct (even4_last _ _ _ _ _ _ _ E N1 N2 N3) as [[-> [-> ->]]|[[-> [-> ->]]|[-> [-> ->]]]];
        [exact H|now apply inner_turn|now do 2 apply inner_turn].
    Qed.

    Record between3 (s : triangulation) : Prop := {
      b3_inv : inv3 s;
      b3_points : num_points s = S p;
      b3_tiling : tiling3 pts (tet s) (S p);
      b3_hull : hull3 s;
      b3_inner : forall i a b c, tet s i a b c p -> inner a b c;
      b3_old : forall i a b c d, tet s i a b c d -> a <> p -> b <> p -> c <> p -> d <> p -> tet s0 i a b c d
    }.
    Lemma between3_last s i : between3 s -> between3 (set_last s i).
    Proof. intros [a1 a2 a3 a4 a5 a6]. constructor; auto. now apply inv_last. Qed.

    (** The fields that do not depend on the kind of the change. *)
    Lemma between3_changed s s' OLD (NEW : list (nat * (nat * nat * nat * nat))) : changed (tet s) (tet s') OLD NEW ->
      (forall i a b c d, tet s i a b c d -> ~ In i (map fst OLD) -> a <> p -> b <> p -> c <> p -> d <> p -> tet s0 i a b c d) ->
      (forall i a b c, tet s i a b c p -> ~ In i (map fst OLD) -> inner a b c) ->
      (forall i a b c d, In (i, (a, b, c, d)) NEW -> d = p /\ a <> p /\ b <> p /\ c <> p /\ inner a b c) ->
      (forall i a b c, tet s' i a b c p -> inner a b c) /\
      (forall i a b c d, tet s' i a b c d -> a <> p -> b <> p -> c <> p -> d <> p -> tet s0 i a b c d).
    Proof.
      intros CH HO HI HN. split.
      - intros i a b c H. apply CH in H. destruct H as [[H K]|[e [f [g [h [H E]]]]]]; [exact (HI i a b c H K)|].
        destruct (HN _ _ _ _ _ H) as [-> [N1 [N2 [N3 IN]]]]. exact (inner_even e f g a b c E N1 N2 N3 IN).
      - intros i a b c d H Na Nb Nc Nd. apply CH in H. destruct H as [[H K]|[e [f [g [h [H E]]]]]]; [exact (HO i a b c d H K Na Nb Nc Nd)|].
        exfalso. destruct (HN _ _ _ _ _ H) as [-> _].
        pose proof (proj1 (even_mem _ _ _ _ _ _ _ _ p E) (or_intror (or_intror (or_intror eq_refl)))) as M.
        clear - M Na Nb Nc Nd. destruct M as [M|[M|[M|M]]]; congruence.
    Qed.

    Lemma between3_split old t new s1 : In (old, t) (tetras s0) -> inside (points_of t) p = Some true ->
      split3 (push_point s0) old p = Some (new, s1) -> between3 s1.
    Proof.
      intros Ht Hin E. pose proof (g3_inv _ G) as I. pose proof (g3_tiling _ G) as L.
      destruct (four_entries s0 old t I Ht) as [q1 [g1 [q2 [g2 [q3 [g3 [q4 [g4 ->]]]]]]]].
      destruct (split3_ok s0 I old q1 q2 q3 q4 g1 g2 g3 g4 Ht) as [s1' [E1 [I1 [RP [NP LF]]]]].
      fold p in E1. rewrite E1 in E. injection E as <- <-.
      assert (To : tet s0 old q1 q2 q3 q4) by (eexists; split; [exact Ht|even]).
      pose proof (t3_pos _ _ _ L _ _ _ _ _ To) as P0. destruct (t3_lts _ _ _ L _ _ _ _ _ To) as [B1 [B2 [B3 B4]]].
      assert (Hp : ins3 (pts q1) (pts q2) (pts q3) (pts q4) (pts p)).
      { refine (proj1 (inside_even pts _ q1 q2 q3 q4 p _ P0) Hin). even. }
      destruct (sph_exists _ _ _ _ P0) as [o [k S]].
      assert (IN : forall a b c d, even4 [q1; q2; q3; q4] [a; b; c; d] -> inner a b c).
      { intros a b c d K. exists old, d, o, k. split; [exact (tet_even _ _ _ _ _ _ _ _ _ _ To K)|].
        split; [exact (even_sph pts _ _ _ _ _ _ _ _ _ _ K S)|]. exact (ins3_pow _ _ _ _ _ _ _ P0 S Hp). }
      set (n := next_tetra s0) in *.
      assert (CH : changed (tet s0) (tet s1') [(old, (q1, q2, q3, q4))]
        [(n, (q2, q4, q3, p)); (Datatypes.S n, (q1, q3, q4, p)); (Datatypes.S (Datatypes.S n), (q1, q4, q2, p));
         (Datatypes.S (Datatypes.S (Datatypes.S n)), (q1, q2, q3, p))]).
      { refine (tet_changed s0 s1' _ [(old, (q1, q2, q3, q4))] _ I I1 RP _ _).
        - intros i t [K|[K|[K|[K|[]]]]]; injection K as <- <-; do 4 eexists;
            (split; [first [left; reflexivity|right; left; reflexivity|right; right; left; reflexivity|right; right; right; left; reflexivity]|even]).
        - intros i a b c d [K|[K|[K|[K|[]]]]]; injection K as <- <- <- <- <-; eexists;
            (split; [first [left; reflexivity|right; left; reflexivity|right; right; left; reflexivity|right; right; right; left; reflexivity]|even]). }
      fold p in B1, B2, B3, B4.
      destruct (between3_changed s0 s1' _ _ CH) as [C1 C2].
      - intros i a b c d H _ _ _ _ _. exact H.
      - intros i a b c H _. exfalso. destruct (t3_lts _ _ _ L _ _ _ _ _ H) as [_ [_ [_ X]]]. unfold p in X. lia.
      - intros i a b c d [K|[K|[K|[K|[]]]]]; injection K as <- <- <- <- <-; (split; [reflexivity|]); (split; [lia|]); (split; [lia|]); (split; [lia|]);
          eapply IN; even.
      - constructor; auto.
        + exact (tiling3_split pts (tet s0) (tet s1') (fun i a b c d x y z w H H' => tet_same s1' i a b c d x y z w I1 H H') p old _ _ _ _ q1 q2 q3 q4 L To Hp CH).
        + exact (hull3_replaced s0 s1' _ _ I RP (g3_hull _ G)).
    Qed.

    (** A tetrahedron all of whose facets that are seen from [p] are facets of the star of [p]. *)
    Definition absorbable (s : triangulation) (j : nat) : Prop := forall a b c d, tet s j a b c d -> O a b c p < 0 -> exists k, tet s k b a c p.

    Lemma between3_flip s i t fi j q new s1 : between3 s -> In (i, t) (tetras s) -> In (p, fi) t -> opposing fi = Some (Conn j q) ->
      circle (points_of t) q = Some true -> flip s i (face fi) = Some (new, s1) ->
      (new = [] /\ s1 = s /\ ~ absorbable s j) \/
      (between3 s1 /\ exists R N, new = map fst N /\ replaced s s1 R N /\ In i R /\ In j R /\
         (forall n t, In (n, t) N -> In p (points_of t)) /\
         (forall k a b c, In k R -> tet s k a b c p -> exists d, tet s j b a c d)).
    Proof.
      intros B Ht Hp Ho Hc Hf. pose proof (b3_inv _ B) as I. pose proof (b3_tiling _ B) as L.
      assert (Hq : ~ In q (points_of t)) by (intro X; exact (circle3_corners pts _ _ X Hc)).
      assert (POS : forall i t a b c d, In (i, t) (tetras s) -> even4 [a; b; c; d] (points_of t) -> 0 < O a b c d).
      { intros i' t' a b c d H E. apply (t3_pos _ _ _ L i'). exists t'. auto. }
      destruct (flip3_geo pts s i t p fi j q new s1 I POS Ht Hp Ho Hq Hf) as [u [x [y [z [Hu [Et [Eu CASES]]]]]]].
      assert (Ti : tet s i x y z p) by (exists t; auto). assert (Tj : tet s j y x z q) by (exists u; auto).
      pose proof (t3_pos _ _ _ L _ _ _ _ _ Ti) as Pi. pose proof (t3_pos _ _ _ L _ _ _ _ _ Tj) as Pj.
      destruct (sph_exists _ _ _ _ Pi) as [o [k S]]. destruct (sph_exists _ _ _ _ Pj) as [o' [k' S']].
      pose proof (proj1 (circle_even pts t x y z p q o k Et Pi S) Hc) as Neg.
      pose proof (proj1 (proj2 (pow3_symm _ _ _ _ _ _ _ _ _ Pi Pj S S')) Neg) as Neg'.
      destruct (tet_nodup s i x y z p I Ti) as [Dxy [Dxz [Dxp [Dyz [Dyp Dzp]]]]].
      destruct (tet_nodup s j y x z q I Tj) as [_ [_ [Dyq [_ [Dxq Dzq]]]]].
      assert (Dqp : q <> p) by (intros ->; apply Hq; apply (even4_in _ _ _ _ _ p Et); auto).
      pose proof (b3_old _ B j y x z q Tj Dyp Dxp Dzp Dqp) as Tj0.
      assert (IN : forall a b c d, even4 [y; x; z; q] [a; b; c; d] -> inner a b c).
      { intros a b c d K. exists j, d, o', k'. split; [exact (tet_even _ _ _ _ _ _ _ _ _ _ Tj0 K)|].
        split; [exact (even_sph pts _ _ _ _ _ _ _ _ _ _ K S')|exact Neg']. }
      assert (STAR : forall e f g, tet s i e f g p -> exists d, tet s j f e g d).
      { intros e f g H. pose proof (tet_same s i _ _ _ _ _ _ _ _ I Ti H) as E. exists q.
        destruct (even4_last _ _ _ _ _ _ _ E Dxp Dyp Dzp) as [[-> [-> ->]]|[[-> [-> ->]]|[-> [-> ->]]]]; apply (tet_even _ _ _ _ _ _ _ _ _ _ Tj); even. }
      assert (NST : forall e f g, tet s j e f g p -> False).
      { intros e f g H. pose proof (tet_same s j _ _ _ _ _ _ _ _ I Tj H) as E.
        pose proof (proj2 (even_mem _ _ _ _ _ _ _ _ p E) (or_intror (or_intror (or_intror eq_refl)))) as M. clear - M Dyp Dxp Dzp Dqp.
        destruct M as [M|[M|[M|M]]]; congruence. }
      destruct CASES as [[-> [-> [V1 V2]]]|[[-> [-> [V1 [V2 [V3 REF]]]]]|[[V1 [V2 [V3 FL]]]|[V1 [V2 [V3 FL]]]]]].
      - (* three facets are seen: impossible *)
        exfalso. pose proof (o3_swap (pts x) (pts y) (pts z) (pts p)) as Sw.
        assert (Pj' : 0 < O y z q x) by (rewrite (even_o3 pts y x z q y z q x); [exact Pj|even]).
        assert (S2 : sphere y z q x o' k') by (apply (even_sph pts y x z q); [even|exact S']).
        pose proof (three_visible (pts y) (pts z) (pts q) (pts x) (pts p) o' k' Pj' S2) as X.
        pose proof (o3_rot (pts x) (pts y) (pts q) (pts p)) as R1.
        assert (0 <= pow3 o' k' (pts p)) by (apply X; lra). lra.
      - left. split; [reflexivity|]. split; [reflexivity|]. intro AB.
        destruct REF as [h1 [h2 [c1 [c2 [H1 [H2 [O1 [O2 NE]]]]]]]].
        assert (Tj2 : tet s j y z q x) by (apply (tet_even _ _ _ _ _ _ _ _ _ _ Tj); even).
        destruct (AB y z q x Tj2 V1) as [kk Tk].
        assert (Eu2 : even4 [y; z; q; x] (points_of u)) by (refine (even4_trans _ _ _ _ Eu); even).
        pose proof (tet_connected pts s _ j u y z q x h2 kk p I L (b3_hull _ B) Hu Eu2 H2 Tk) as X2. rewrite O2 in X2. injection X2 as ->.
        assert (Et2 : even4 [z; y; p; x] (points_of t)) by (refine (even4_trans _ _ _ _ Et); even).
        assert (Tk2 : tet s kk y z p q) by (apply (tet_even _ _ _ _ _ _ _ _ _ _ Tk); even).
        pose proof (tet_connected pts s _ i t z y p x h1 kk q I L (b3_hull _ B) Ht Et2 H1 Tk2) as X1. rewrite O1 in X1. injection X1 as ->.
        apply NE. reflexivity.
      - right. destruct FL as [N [n1 [n2 [n3 [T1 [T2 [T3 [-> [I1 [RP [HN [E1 [E2 [E3 NP]]]]]]]]]]]]]].
        assert (CH : changed (tet s) (tet s1) [(i, (x, y, z, p)); (j, (y, x, z, q))] [(n1, (x, y, q, p)); (n2, (y, z, q, p)); (n3, (z, x, q, p))]).
        { refine (tet_changed s s1 N [(i, (x, y, z, p)); (j, (y, x, z, q))] _ I I1 RP _ _).
          - intros i' t' K. apply HN in K. destruct K as [K|[K|K]]; injection K as -> ->; do 4 eexists;
              (split; [first [left; reflexivity|right; left; reflexivity|right; right; left; reflexivity]|assumption]).
          - intros i' a b c d [K|[K|[K|[]]]]; injection K as <- <- <- <- <-; eexists; (split; [apply HN|eassumption]); auto. }
        split.
        + destruct (between3_changed s s1 _ _ CH) as [C1 C2].
          * intros i' a b c d H _. exact (b3_old _ B i' a b c d H).
          * intros i' a b c H _. exact (b3_inner _ B i' a b c H).
          * intros i' a b c d [K|[K|[K|[]]]]; injection K as <- <- <- <- <-; (split; [reflexivity|]); repeat (split; [assumption|]); eapply IN; even.
          * constructor; auto.
            -- rewrite NP. exact (b3_points _ B).
            -- exact (tiling3_23 pts (tet s) (tet s1) (fun i a b c d x y z w H H' => tet_same s1 i a b c d x y z w I1 H H') _ x y z p q L Pi Pj V2 V1 V3 i j n1 n2 n3 Ti Tj CH).
            -- exact (hull3_replaced s s1 _ _ I RP (b3_hull _ B)).
        + exists [i; j], N. split; [reflexivity|]. split; [exact RP|]. split; [now left|]. split; [right; now left|]. split.
          * intros n t' K. apply HN in K. destruct K as [K|[K|K]]; injection K as -> ->; [apply (even4_in _ _ _ _ _ p E1)|apply (even4_in _ _ _ _ _ p E2)|apply (even4_in _ _ _ _ _ p E3)]; auto.
          * intros k0 a b c [<-|[<-|[]]] K; [exact (STAR a b c K)|destruct (NST a b c K)].
      - right. destruct FL as [kk [w [N [nA [nB [TA [TB [Hw [Ew [-> [I1 [RP [HN [E1 [E2 NP]]]]]]]]]]]]]]].
        assert (Tk : tet s kk z y q p) by (exists w; auto).
        assert (CH : changed (tet s) (tet s1) [(i, (x, p, y, z)); (kk, (p, q, y, z)); (j, (q, x, y, z))] [(nB, (x, p, q, z)); (nA, (p, x, q, y))]).
        { intros i' a b c d.
          assert (CH0 : changed (tet s) (tet s1) [(i, (x, p, y, z)); (j, (q, x, y, z)); (kk, (p, q, y, z))] [(nA, (p, x, q, y)); (nB, (x, p, q, z))]).
          { refine (tet_changed s s1 N [(i, (x, p, y, z)); (j, (q, x, y, z)); (kk, (p, q, y, z))] _ I I1 RP _ _).
            - intros i2 t' K. apply HN in K. destruct K as [K|K]; injection K as -> ->; do 4 eexists.
              + split; [left; reflexivity|]. refine (even4_trans _ _ _ _ E1). even.
              + split; [right; left; reflexivity|]. refine (even4_trans _ _ _ _ E2). even.
            - intros i2 a2 b2 c2 d2 [K|[K|[]]]; injection K as <- <- <- <- <-.
              + exists TA. split; [apply HN; auto|]. refine (even4_trans _ _ _ _ E1). even.
              + exists TB. split; [apply HN; auto|]. refine (even4_trans _ _ _ _ E2). even. }
          rewrite (CH0 i' a b c d). cbn [map fst In]. clear. split.
          - intros [[A B]|[e [f [g [h [A B]]]]]]; [left; split; [exact A|tauto]|right; exists e, f, g, h; split; [tauto|exact B]].
          - intros [[A B]|[e [f [g [h [A B]]]]]]; [left; split; [exact A|tauto]|right; exists e, f, g, h; split; [tauto|exact B]]. }
        assert (Ti' : tet s i x p y z) by (apply (tet_even _ _ _ _ _ _ _ _ _ _ Ti); even).
        assert (Tj' : tet s j q x y z) by (apply (tet_even _ _ _ _ _ _ _ _ _ _ Tj); even).
        assert (Tk' : tet s kk p q y z) by (apply (tet_even _ _ _ _ _ _ _ _ _ _ Tk); even).
        split.
        + destruct (between3_changed s s1 [(i, (x, p, y, z)); (kk, (p, q, y, z)); (j, (q, x, y, z))] [(nB, (z, x, q, p)); (nA, (x, y, q, p))]) as [C1 C2].
          * intros i' a b c d. rewrite (CH i' a b c d).
            assert (Y1 : even4 [z; x; q; p] [x; p; q; z]) by even. assert (Y2 : even4 [x; y; q; p] [p; x; q; y]) by even.
            split; (intros [A|[e [f [g [h [[K|[K|[]]] E]]]]]]; [now left|right; injection K as <- <- <- <- <-; do 4 eexists; (split; [left; reflexivity|])|
              right; injection K as <- <- <- <- <-; do 4 eexists; (split; [right; left; reflexivity|])]).
            -- exact (even4_trans _ _ _ Y1 E).
            -- exact (even4_trans _ _ _ Y2 E).
            -- exact (even4_trans _ _ _ (even4_sym _ _ Y1) E).
            -- exact (even4_trans _ _ _ (even4_sym _ _ Y2) E).
          * intros i' a b c d H _. exact (b3_old _ B i' a b c d H).
          * intros i' a b c H _. exact (b3_inner _ B i' a b c H).
          * intros i' a b c d [K|[K|[]]]; injection K as <- <- <- <- <-; (split; [reflexivity|]); repeat (split; [assumption|]); eapply IN; even.
          * constructor; auto.
            -- rewrite NP. exact (b3_points _ B).
            -- assert (Q1 : 0 < O x p q z) by (rewrite (even_o3 pts z x q p x p q z); [exact V3|even]).
               assert (Q2 : 0 < O p x q y) by (rewrite (even_o3 pts x y q p p x q y); [exact V2|even]).
               exact (tiling3_32 pts (tet s) (tet s1) (fun i a b c d x y z w H H' => tet_same s1 i a b c d x y z w I1 H H') _ x p q z y L Q1 Q2
                 (t3_pos _ _ _ L _ _ _ _ _ Ti') (t3_pos _ _ _ L _ _ _ _ _ Tk') (t3_pos _ _ _ L _ _ _ _ _ Tj') i kk j nB nA Ti' Tk' Tj' CH).
            -- exact (hull3_replaced s s1 _ _ I RP (b3_hull _ B)).
        + exists [i; j; kk], N. split; [reflexivity|]. split; [exact RP|]. split; [now left|]. split; [right; now left|]. split.
          * intros n t' K. apply HN in K. destruct K as [K|K]; injection K as -> ->; [apply (even4_in _ _ _ _ _ p E1)|apply (even4_in _ _ _ _ _ p E2)]; auto.
          * intros k0 a b c [<-|[<-|[<-|[]]]] K; [exact (STAR a b c K)|destruct (NST a b c K)|].
            pose proof (tet_same s kk _ _ _ _ _ _ _ _ I Tk K) as E. exists x.
            destruct (even4_last _ _ _ _ _ _ _ E Dzp Dyp Dqp) as [[-> [-> ->]]|[[-> [-> ->]]|[-> [-> ->]]]]; apply (tet_even _ _ _ _ _ _ _ _ _ _ Tj); even.
    Qed.

    (** From a tetrahedron outside of the star, cross facets that are seen from [p]: the power of [p]
        decreases until all facets that are seen belong to the star. *)
    Lemma descend s j a b c d o k : between3 s -> tet s j a b c d -> a <> p -> b <> p -> c <> p -> d <> p -> sphere a b c d o k ->
      exists j' a' b' c' d' o' k', tet s j' a' b' c' d' /\ a' <> p /\ b' <> p /\ c' <> p /\ d' <> p /\ sphere a' b' c' d' o' k' /\
        pow3 o' k' (pts p) <= pow3 o k (pts p) /\ absorbable s j'.
    Proof.
      intros B H Na Nb Nc Nd S. pose proof (b3_inv _ B) as I. pose proof (b3_tiling _ B) as L.
      destruct (tet_listed pts s p (t3_pos _ _ _ L)) as [l Hl].
      remember (length (filter (fun z => if Qlt_le_dec z (pow3 o k (pts p)) then true else false) l)) as n eqn:En.
      revert j a b c d o k H Na Nb Nc Nd S En.
      induction n as [n IH] using lt_wf_ind. intros j a b c d o k H Na Nb Nc Nd S ->.
      assert (STEP : forall x y z w, even4 [a; b; c; d] [x; y; z; w] ->
        (O x y z p < 0 -> exists i, tet s i y x z p) \/
        exists j' a' b' c' d' o' k', tet s j' a' b' c' d' /\ a' <> p /\ b' <> p /\ c' <> p /\ d' <> p /\ sphere a' b' c' d' o' k' /\
          pow3 o' k' (pts p) <= pow3 o k (pts p) /\ absorbable s j').
      { intros x y z w E. destruct (Qlt_le_dec (O x y z p) 0) as [V|V]; [|left; lra].
        pose proof (tet_even _ _ _ _ _ _ _ _ _ _ H E) as H1. pose proof (even_sph pts _ _ _ _ _ _ _ _ o k E S) as S1.
        destruct (tet_beyond pts s _ j x y z w p I L (b3_hull _ B) H1 (Nat.lt_succ_diag_r p) V) as [j1 [q Hq]].
        destruct (Nat.eq_dec q p) as [->|Nq]; [left; eauto|]. right.
        pose proof (t3_pos _ _ _ L _ _ _ _ _ Hq) as Pq. destruct (sph_exists _ _ _ _ Pq) as [o1 [k1 S2]].
        pose proof (t3_pos _ _ _ L _ _ _ _ _ H1) as P1.
        assert (NN : forall v, v = x \/ v = y \/ v = z \/ v = w -> v <> p).
        { intros v Hv. apply (proj2 (even_mem _ _ _ _ _ _ _ _ v E)) in Hv. destruct Hv as [->|[->|[->| ->]]]; assumption. }
        assert (Nx : x <> p) by auto. assert (Ny : y <> p) by auto. assert (Nz : z <> p) by auto. assert (Nw : w <> p) by auto.
        destruct (tet_nodup s j1 y x z q I Hq) as [_ [_ [D1 [_ [D2 D3]]]]].
        destruct (t3_lts _ _ _ L _ _ _ _ _ Hq) as [_ [_ [_ Lq]]].
        assert (D4 : q <> w). { intros ->. rewrite o3_swap in Pq. lra. }
        assert (Out : 0 < pow3 o k (pts q)).
        { apply (g3_empty _ G j x y z w o k q (b3_old _ B j x y z w H1 Nx Ny Nz Nw) S1); auto. fold p. lia. }
        pose proof (pow3_beyond _ _ _ _ _ _ _ _ _ (pts p) Pq S1 S2 Out V) as LT.
        destruct (IH _ (filter_lt l _ _ LT (Hl _ _ _ _ _ _ _ Hq S2)) j1 y x z q o1 k1 Hq Ny Nx Nz Nq S2 eq_refl)
          as [j' [a' [b' [c' [d' [o' [k' [R1 [R2 [R3 [R4 [R5 [R6 [R7 R8]]]]]]]]]]]]]].
        exists j', a', b', c', d', o', k'. repeat (split; [assumption|]). split; [lra|exact R8]. }
      destruct (STEP a b c d ltac:(even)) as [F1|R]; [|exact R]. destruct (STEP a d b c ltac:(even)) as [F2|R]; [|exact R].
      destruct (STEP a c d b ltac:(even)) as [F3|R]; [|exact R]. destruct (STEP b d c a ltac:(even)) as [F4|R]; [|exact R].
      exists j, a, b, c, d, o, k. repeat (split; [assumption|]). split; [lra|].
      intros x y z w K V. pose proof (tet_same s j _ _ _ _ _ _ _ _ I H K) as E. revert V.
      refine (four_facets (fun x y z w => O x y z p < 0 -> exists i, tet s i y x z p) a b c d _ F1 F2 F3 F4 x y z w E).
      intros x' y' z' _ F V. rewrite o3_rot in V. destruct (F V) as [i Hi]. exists i. apply (tet_even _ _ _ _ _ _ _ _ _ _ Hi). even.
    Qed.

    (** Every tetrahedron that has to go and can go has a neighbour among the entries [todo]. *)
    Definition covered (s : triangulation) (todo : list nat) : Prop := forall j a b c d o k,
      tet s j a b c d -> a <> p -> b <> p -> c <> p -> d <> p -> sphere a b c d o k -> pow3 o k (pts p) < 0 -> absorbable s j ->
      exists i x y z w, tet s j x y z w /\ tet s i y x z p /\ In i todo.

    (** The tests of the star tetrahedra among the entries [done] have been answered. *)
    Definition answers (l : list nat) (q : nat) : option bool := match circle l q with Some _ => Some false | None => None end.
    Definition tested (s : triangulation) (done : list nat) : Prop := legal answers p s done.

    Lemma seen_facet s j a b c d : between3 s -> tet s j a b c d -> a <> p -> b <> p -> c <> p -> d <> p ->
      exists x y z w, even4 [a; b; c; d] [x; y; z; w] /\ O x y z p < 0.
    Proof.
      intros B H Na Nb Nc Nd. pose proof (b3_tiling _ B) as L.
      destruct (Qlt_le_dec (O a b c p) 0) as [V|V1]; [exists a, b, c, d; split; [even|exact V]|].
      destruct (Qlt_le_dec (O a d b p) 0) as [V|V2]; [exists a, d, b, c; split; [even|exact V]|].
      destruct (Qlt_le_dec (O a c d p) 0) as [V|V3]; [exists a, c, d, b; split; [even|exact V]|].
      destruct (Qlt_le_dec (O b d c p) 0) as [V|V4]; [exists b, d, c, a; split; [even|exact V]|].
      exfalso. assert (C : cls3 (pts a) (pts b) (pts c) (pts d) (pts p)) by (repeat split; assumption).
      destruct (t3_corner _ _ _ L _ _ _ _ _ p H (Nat.lt_succ_diag_r p) C) as [E|[E|[E|E]]]; congruence.
    Qed.

    (** What the answer to a test across the facet [xyz] of the star says about the tetrahedron outside. *)
    Lemma star_test s i t fi j x y z w o k : between3 s -> In (i, t) (tetras s) -> even4 [y; x; z; p] (points_of t) -> In (p, fi) t ->
      tet s j x y z w -> sphere x y z w o k ->
      opposing fi = Some (Conn j w) /\ ~ In w (points_of t) /\
      (circle (points_of t) w = Some true -> pow3 o k (pts p) < 0) /\ (circle (points_of t) w = Some false -> 0 < pow3 o k (pts p)).
    Proof.
      intros B Ht Et Hp Hj S. pose proof (b3_inv _ B) as I. pose proof (b3_tiling _ B) as L.
      assert (Hi : tet s i y x z p) by (exists t; auto).
      pose proof (t3_pos _ _ _ L _ _ _ _ _ Hi) as Pi. pose proof (t3_pos _ _ _ L _ _ _ _ _ Hj) as Pj.
      pose proof (o3_swap (pts x) (pts y) (pts z) (pts p)) as Sw.
      destruct (tet_nodup s j x y z w I Hj) as [_ [_ [D1 [_ [D2 D3]]]]].
      assert (D4 : w <> p) by (intros ->; lra).
      destruct (sph_exists _ _ _ _ Pi) as [o' [k' S']].
      destruct (pow3_symm _ _ _ _ _ _ _ _ _ Pi Pj S' S) as [X1 X2].
      destruct (circle_even pts t y x z p w o' k' Et Pi S') as [T1 [T2 _]].
      split; [exact (tet_connected pts s _ i t y x z p fi j w I L (b3_hull _ B) Ht Et Hp Hj)|]. split; [|split].
      - intro K. apply (even4_in _ _ _ _ _ w Et) in K. clear - K D1 D2 D3 D4. destruct K as [K|[K|[K|K]]]; congruence.
      - intro K. apply X2. exact (T1 K).
      - intro K. apply X1. destruct (o3_same (pts x) (pts y) (pts z)) as [Z1 [Z2 Z3]].
        apply T2; [| | | |exact K]; apply (o3_apart (pts x) (pts y) (pts z)); lra.
    Qed.

    Lemma between3_outside s : between3 s -> covered s [] -> (forall i t, In (i, t) (tetras s) -> In p (points_of t) -> tested s [i]) ->
      forall j a b c d o k, tet s j a b c d -> a <> p -> b <> p -> c <> p -> d <> p -> sphere a b c d o k -> 0 < pow3 o k (pts p).
    Proof.
      intros B CO TE j a b c d o k H Na Nb Nc Nd S. pose proof (b3_inv _ B) as I.
      destruct (Qlt_le_dec 0 (pow3 o k (pts p))) as [LT|LE]; [exact LT|]. exfalso.
      destruct (descend s j a b c d o k B H Na Nb Nc Nd S) as [j' [a' [b' [c' [d' [o' [k' [R1 [R2 [R3 [R4 [R5 [R6 [R7 R8]]]]]]]]]]]]]].
      assert (N' : ~ pow3 o' k' (pts p) < 0).
      { intro NEG. destruct (CO j' a' b' c' d' o' k' R1 R2 R3 R4 R5 R6 NEG R8) as [i [x [y [z [w [_ [_ []]]]]]]]. }
      destruct (seen_facet s j' a' b' c' d' B R1 R2 R3 R4 R5) as [x [y [z [w [E V]]]]].
      pose proof (tet_even _ _ _ _ _ _ _ _ _ _ R1 E) as H'. pose proof (even_sph pts _ _ _ _ _ _ _ _ _ _ E R6) as S'.
      destruct (R8 x y z w H' V) as [i Hi]. destruct (tet_entry s i y x z p I Hi) as [t [fi [ps [Ht [Et [Hp _]]]]]].
      destruct (star_test s i t fi j' x y z w o' k' B Ht Et Hp H' S') as [Ho [Hw [T1 T2]]].
      assert (Hpt : In p (points_of t)) by (apply (even4_in _ _ _ _ _ p Et); auto).
      destruct (TE i t Ht Hpt i t fi j' w (or_introl eq_refl) Ht Hp Ho) as [K|K]; [contradiction|].
      unfold answers in K. destruct (circle (points_of t) w) as [[|]|] eqn:C; [|specialize (T2 eq_refl); lra|discriminate].
      apply N'. exact (T1 eq_refl).
    Qed.

    Lemma between3_empty s : between3 s -> covered s [] -> (forall i t, In (i, t) (tetras s) -> In p (points_of t) -> tested s [i]) ->
      empty_spheres (tet s) (S p).
    Proof.
      intros B CO TE i a b c d o k v H S Hv Va Vb Vc Vd. pose proof (b3_inv _ B) as I. pose proof (b3_tiling _ B) as L.
      pose proof (between3_outside s B CO TE) as OUT.
      destruct (to_last p a b c d) as [[Na [Nb [Nc Nd]]]|[x [y [z E]]]].
      - destruct (Nat.eq_dec v p) as [->|Nv]; [exact (OUT i a b c d o k H Na Nb Nc Nd S)|].
        apply (g3_empty _ G i a b c d o k v (b3_old _ B i a b c d H Na Nb Nc Nd) S); auto. fold p. lia.
      - pose proof (tet_even _ _ _ _ _ _ _ _ _ _ H E) as H'. pose proof (even_sph pts _ _ _ _ _ _ _ _ _ _ E S) as S'.
        assert (NV : v <> x /\ v <> y /\ v <> z /\ v <> p).
        { assert (X : ~ (v = x \/ v = y \/ v = z \/ v = p)).
          { intro X. apply (proj2 (even_mem _ _ _ _ _ _ _ _ v E)) in X. clear - X Va Vb Vc Vd. destruct X as [X|[X|[X|X]]]; congruence. }
          clear - X. repeat split; intro K; apply X; auto. }
        clear H S E Va Vb Vc Vd a b c d. destruct NV as [Vx [Vy [Vz Vp]]].
        pose proof (t3_pos _ _ _ L _ _ _ _ _ H') as P1. destruct (tet_nodup s i x y z p I H') as [_ [_ [Dx [_ [Dy Dz]]]]].
        destruct (b3_inner _ B i x y z H') as [j [f [o1 [k1 [Hj [S1 N1]]]]]].
        pose proof (t3_pos _ _ _ (g3_tiling _ G) _ _ _ _ _ Hj) as Pj.
        pose proof S1 as [A1 [A2 [A3 A4]]].
        pose proof (pow3_pencil _ _ _ _ _ _ o1 k1 P1 S' A1 A2 A3 (pts v)) as PE.
        assert (Lv : (v < p)%nat) by lia.
        assert (EM : v <> f -> 0 < pow3 o1 k1 (pts v)) by (intro Vf; apply (g3_empty _ G j x y z f o1 k1 v Hj S1); auto).
        destruct (Q_dec (O x y z v) 0) as [[V|V]|V].
        + (* on the other side of the facet *)
          destruct (tet_beyond pts s _ i x y z p v I L (b3_hull _ B) H' Hv V) as [j' [e He]].
          pose proof (t3_pos _ _ _ L _ _ _ _ _ He) as Pe. pose proof (o3_swap (pts x) (pts y) (pts z) (pts e)) as Sw.
          assert (De : e <> p) by (intros ->; lra).
          destruct (sph_exists _ _ _ _ Pe) as [o2 [k2 S2]]. pose proof (OUT j' y x z e o2 k2 He Dy Dx Dz De S2) as Pos.
          destruct S2 as [B1 [B2 [B3 B4]]].
          pose proof (pow3_pencil _ _ _ _ _ _ o2 k2 P1 S' B2 B1 B3 (pts v)) as PE2.
          assert (GE : 0 <= pow3 o2 k2 (pts v)).
          { destruct (Nat.eq_dec v e) as [->|Ve]; [lra|]. apply Qlt_le_weak.
            apply (g3_empty _ G j' y x z e o2 k2 v (b3_old _ B j' y x z e He Dy Dx Dz De)); auto. repeat split; assumption. }
          assert (0 < pow3 o k (pts v) - pow3 o2 k2 (pts v)); [|lra].
          apply (qmul_pos_inv (O x y z p)); [exact P1|]. rewrite PE2.
          pose proof (qmul_pos (pow3 o2 k2 (pts p)) (- O x y z v) Pos ltac:(lra)). lra.
        + assert (GE : 0 <= pow3 o1 k1 (pts v)).
          { destruct (Nat.eq_dec v f) as [->|Vf]; [lra|]. apply Qlt_le_weak. auto. }
          assert (0 < pow3 o k (pts v) - pow3 o1 k1 (pts v)); [|lra].
          apply (qmul_pos_inv (O x y z p)); [exact P1|]. rewrite PE.
          apply qmul_pos; lra.
        + assert (Vf : v <> f) by (intros ->; lra).
          specialize (EM Vf). rewrite V in PE.
          assert (Z : O x y z p * (pow3 o k (pts v) - pow3 o1 k1 (pts v)) == 0) by (rewrite PE; ring).
          apply Qmult_integral in Z. destruct Z as [Z|Z]; lra.
    Qed.

    (** ** The stack *)
    Lemma covered_same s i rest : inv3 s -> covered s (i :: rest) ->
      (forall j x y z w o k, tet s i y x z p -> tet s j x y z w -> sphere x y z w o k -> pow3 o k (pts p) < 0 -> absorbable s j -> False) ->
      covered s rest.
    Proof.
      intros I CO X j a b c d o k H Na Nb Nc Nd S N AB.
      destruct (CO j a b c d o k H Na Nb Nc Nd S N AB) as [i' [x [y [z [w [H1 [H2 [<-|H3]]]]]]]]; [|exists i', x, y, z, w; auto].
      exfalso. refine (X j x y z w o k H2 H1 _ N AB).
      exact (even_sph pts _ _ _ _ _ _ _ _ o k (tet_same s j _ _ _ _ _ _ _ _ I H H1) S).
    Qed.

    Lemma covered_flip s s1 R N i j rest : between3 s -> inv3 s1 -> replaced s s1 R N -> In i R -> In j R ->
      (forall n t, In (n, t) N -> In p (points_of t)) -> (forall k a b c, In k R -> tet s k a b c p -> exists d, tet s j b a c d) ->
      covered s (i :: rest) -> covered s1 (rest ++ map fst N).
    Proof.
      intros B I1 RP Hi Hj HN HR CO j' a b c d o k H Na Nb Nc Nd S NEG AB. pose proof (b3_inv _ B) as I. pose proof (b3_tiling _ B) as L.
      pose proof (tet_replaced s s1 R N I I1 RP) as TR.
      pose proof (proj1 (TR _ _ _ _ _) H) as [[H0 NR]|[t [Ht E]]].
      2: { exfalso. apply HN in Ht. apply (even4_in _ _ _ _ _ p E) in Ht. clear - Ht Na Nb Nc Nd. destruct Ht as [K|[K|[K|K]]]; congruence. }
      set (GOAL := exists i0 x y z w, tet s1 j' x y z w /\ tet s1 i0 y x z p /\ In i0 (rest ++ map fst N)).
      assert (STEP : forall x y z w, even4 [a; b; c; d] [x; y; z; w] -> (O x y z p < 0 -> exists i, tet s i y x z p) \/ GOAL).
      { intros x y z w E. destruct (Qlt_le_dec (O x y z p) 0) as [V|V]; [|left; lra].
        pose proof (tet_even _ _ _ _ _ _ _ _ _ _ H E) as H1. destruct (AB x y z w H1 V) as [n Hn].
        pose proof (proj1 (TR _ _ _ _ _) Hn) as [[Hn0 _]|[t [Ht _]]]; [left; eauto|]. right. exists n, x, y, z, w.
        split; [exact H1|]. split; [exact Hn|]. apply in_or_app. right. change n with (fst (n, t)). now apply in_map. }
      destruct (STEP a b c d ltac:(even)) as [F1|Y]; [|exact Y]. destruct (STEP a d b c ltac:(even)) as [F2|Y]; [|exact Y].
      destruct (STEP a c d b ltac:(even)) as [F3|Y]; [|exact Y]. destruct (STEP b d c a ltac:(even)) as [F4|Y]; [|exact Y].
      assert (AB0 : absorbable s j').
      { intros x y z w K V. pose proof (tet_same s j' _ _ _ _ _ _ _ _ I H0 K) as E. revert V.
        refine (four_facets (fun x y z w => O x y z p < 0 -> exists i, tet s i y x z p) a b c d _ F1 F2 F3 F4 x y z w E).
        intros x' y' z' _ F V. rewrite o3_rot in V. destruct (F V) as [i0 Hi0]. exists i0. apply (tet_even _ _ _ _ _ _ _ _ _ _ Hi0). even. }
      destruct (CO j' a b c d o k H0 Na Nb Nc Nd S NEG AB0) as [i' [x [y [z [w [H1 [H2 H3]]]]]]].
      destruct (in_dec Nat.eq_dec i' R) as [Y|Y].
      - exfalso. destruct (HR i' y x z Y H2) as [w' H4]. apply NR. now rewrite (proj1 (t3_facet pts (tet s) _ L _ _ _ _ _ _ _ H1 H4)).
      - exists i', x, y, z, w. split; [apply TR; left; auto|]. split; [apply TR; left; auto|].
        destruct H3 as [<-|H3]; [contradiction|]. apply in_or_app. now left.
    Qed.

    Notation stack_inv := (stack_inv 3 face_ok3).
    Lemma loop3 (inside' : list nat -> nat -> option bool) (pop : nat -> list nat -> nat) fuel : forall s done todo new s', between3 s -> stack_inv p s (done ++ todo) -> covered s todo -> tested s done ->
      perform_flip_checks flip circle fuel s p done todo = Some (new, s') ->
      between3 s' /\ covered s' [] /\ tested s' new /\ stack_inv p s' new.
    Proof.
      induction fuel as [|fuel IH]; intros s done todo new s' B SI CO TE H; destruct todo as [|i rest]; cbn [perform_flip_checks] in H.
      - injection H as <- <-. rewrite app_nil_r in SI. auto.
      - discriminate.
      - injection H as <- <-. rewrite app_nil_r in SI. auto.
      - pose proof (b3_inv _ B) as I. destruct (arena_get (tetras s) i) as [t|] eqn:Et.
        + pose proof (arena_get_In _ _ _ Et) as Ht.
          assert (Hp : In p (points_of t)).
          { apply (si_star _ _ _ _ _ SI i t); [|exact Ht]. apply in_or_app. right. now left. }
          destruct (find_face_opposite_some t p Hp) as [fi [Hfi Efi]]. rewrite Efi in H. cbn [bind] in H.
          destruct (flip_check flip circle s i (face fi)) as [[new1 s1]|] eqn:Ef; cbn [bind] in H; [|discriminate].
          destruct (loop_step 3 face_ok3 face_ok3_perm flip circle inside' pop count3 (flip_spec3 (crossing3 pts)) (circle3_corners pts) p s done i rest t fi new1 s1 SI Et Efi Ef) as [S1 _].
          assert (STAR : forall j x y z w o k, tet s i y x z p -> tet s j x y z w -> sphere x y z w o k ->
            opposing fi = Some (Conn j w) /\ ~ In w (points_of t) /\
            (circle (points_of t) w = Some true -> pow3 o k (pts p) < 0) /\ (circle (points_of t) w = Some false -> 0 < pow3 o k (pts p))).
          { intros j x y z w o k [t' [Ht' E]] Hj S. rewrite (NoDup_ids_eq _ _ _ _ (iv_ids _ _ _ I) Ht' Ht) in E.
            exact (star_test s i t fi j x y z w o k B Ht E Hfi Hj S). }
          assert (SAME : (forall j q, opposing fi = Some (Conn j q) -> circle (points_of t) q <> None) -> tested s (done ++ [i])).
          { intros X i' t' fi' j' q' Hi' Ht' Hf' Ho'. apply in_app_or in Hi'. destruct Hi' as [Hi'|[<-|[]]].
            - exact (TE i' t' fi' j' q' Hi' Ht' Hf' Ho').
            - right. rewrite (NoDup_ids_eq _ _ _ _ (iv_ids _ _ _ I) Ht' Ht) in *.
              rewrite (NoDup_ids_eq t _ _ _ (proj1 (proj2 (iv_corners _ _ _ I _ _ Ht))) Hf' Hfi) in *.
              specialize (X j' q' Ho'). unfold answers. destruct (circle (points_of t) q'); congruence. }
          assert (STEP : between3 s1 /\ covered s1 (rest ++ new1) /\ tested s1 (done ++ [i])).
          { unfold flip_check, face_is_invalid in Ef.
            rewrite Et, (find_face_inv 3 face_ok3 face_ok3_perm s i t p fi I Ht Hfi) in Ef. cbn [bind] in Ef.
            destruct (opposing fi) as [[oj q]|] eqn:Eo; cbn [bind conn_point] in Ef.
            - destruct (circle (points_of t) q) as [[|]|] eqn:Ec; cbn [bind] in Ef; [| |discriminate].
              + destruct (between3_flip s i t fi oj q new1 s1 B Ht Hfi Eo Ec Ef) as [[-> [-> NA]]|[B1 [R [N [-> [RP [HiR [HjR [HN HR]]]]]]]]].
                * split; [exact B|]. rewrite app_nil_r. split.
                  -- apply (covered_same s i rest I CO). intros j x y z w o k K1 K2 S _ AB. destruct (STAR j x y z w o k K1 K2 S) as [Y _].
                     injection Y as -> ->. contradiction.
                  -- apply SAME. intros j' q' Y. injection Y as <- <-. congruence.
                * split; [exact B1|]. split; [exact (covered_flip s s1 R N i oj rest B (b3_inv _ B1) RP HiR HjR HN HR CO)|].
                  intros i' t' fi' j' q' Hi' Ht' Hf' Ho'. apply in_app_or in Hi'. destruct Hi' as [Hi'|[<-|[]]].
                  -- refine (legal_replaced 3 face_ok3 face_ok3_perm answers p s s1 done R N I _ TE RP (b3_inv _ B1) HN i' t' fi' j' q' Hi' Ht' Hf' Ho').
                     intros x Hx. apply (si_lt _ _ _ _ _ SI). apply in_or_app. now left.
                  -- exfalso. destruct (rp_lt _ _ _ _ _ _ RP Ht') as [t'' [_ [Y _]]]; [|contradiction].
                     apply (si_lt _ _ _ _ _ SI). apply in_or_app. right. now left.
              + injection Ef as <- <-. split; [exact B|]. rewrite app_nil_r. split.
                * apply (covered_same s i rest I CO). intros j x y z w o k K1 K2 S NEG AB. destruct (STAR j x y z w o k K1 K2 S) as [Y [_ [_ Y2]]].
                  injection Y as -> ->. specialize (Y2 Ec). lra.
                * apply SAME. intros j' q' Y. injection Y as <- <-. congruence.
            - injection Ef as <- <-. split; [exact B|]. rewrite app_nil_r. split.
              + apply (covered_same s i rest I CO). intros j x y z w o k K1 K2 S NEG AB. destruct (STAR j x y z w o k K1 K2 S) as [Y _]. discriminate.
              + apply SAME. intros j' q' Y. discriminate. }
          destruct STEP as [B1 [C1 T1]].
          exact (IH (set_last s1 i) (done ++ [i]) (rest ++ new1) new s' (between3_last s1 i B1) S1 C1 T1 H).
        + apply IH in H; [exact H|exact B| | |].
          * revert SI. apply stack_inv_same. intro x. rewrite !in_app_iff. cbn. tauto.
          * apply (covered_same s i rest I CO). intros j x y z w o k [t' [Ht' _]] _ _ _ _.
            rewrite (In_arena_get _ _ _ (iv_ids _ _ _ I) Ht') in Et. discriminate.
          * intros i' t' fi' j' q' Hi' Ht' Hf' Ho'. apply in_app_or in Hi'. destruct Hi' as [Hi'|[<-|[]]].
            -- exact (TE i' t' fi' j' q' Hi' Ht' Hf' Ho').
            -- rewrite (In_arena_get _ _ _ (iv_ids _ _ _ I) Ht') in Et. discriminate.
    Qed.

    (** After the split every facet of the star has a tetrahedron on the stack. *)
    Lemma covered_split s1 : between3 s1 -> forall todo, stack_inv p s1 todo -> covered s1 todo.
    Proof.
      intros B todo SI j a b c d o k H Na Nb Nc Nd S NEG AB.
      destruct (seen_facet s1 j a b c d B H Na Nb Nc Nd) as [x [y [z [w [E V]]]]].
      pose proof (tet_even _ _ _ _ _ _ _ _ _ _ H E) as H1. destruct (AB x y z w H1 V) as [i Hi].
      exists i, x, y, z, w. split; [exact H1|]. split; [exact Hi|]. destruct Hi as [t [Ht Et]].
      apply (si_all _ _ _ _ _ SI). exists t. split; [exact Ht|]. apply (even4_in _ _ _ _ _ p Et). auto.
    Qed.
  End Insert.

  Variable pop : nat -> list nat -> nat.
  Notation insert := (insert split3 flip circle inside pop).

  Lemma insert_good3 s p new s' : good3 s -> insert s = Some (p, new, s') -> good3 s'.
  Proof.
    intros GD H. pose proof (g3_inv _ GD) as I. pose proof (g3_last _ GD) as LO.
    pose proof (insert_ok 3 face_ok3 face_ok3_perm split3 flip circle inside pop count3 count3_last
      (flip_spec3 (crossing3 pts)) split_spec3 (circle3_corners pts) s p new s' I LO H) as [a1 a2 a3 a4 a5 a6 a7].
    unfold Delaunay_Model.insert in H. rewrite find_containing_push in H.
    pose proof (find_containing_ok 3 face_ok3 inside pop s (num_points s) I LO) as FC.
    destruct (find_containing_tetra inside pop s (num_points s)) as [[old|]|]; cbn [bind] in H; try discriminate.
    destruct FC as [t [Ht Hin]].
    destruct (split3 (push_point s) old (num_points s)) as [[new1 s1]|] eqn:Es; cbn [bind] in H; [|discriminate].
    destruct (split_spec3 s old t new1 s1 I Ht Es) as [N [-> [NE [RP [I1 [NP [HN HK]]]]]]].
    destruct (split_stack 3 face_ok3 s old t N s1 I Ht RP I1 HN NE) as [SI SA].
    destruct (perform_flip_checks flip circle _ s1 (num_points s) [] (map fst N)) as [[new2 s2]|] eqn:El; cbn [bind] in H; [|discriminate].
    injection H as <- <- <-.
    pose proof (between3_split s GD old t _ s1 Ht Hin Es) as B1.
    destruct (loop3 s inside pop _ s1 [] (map fst N) new2 s2 B1 SI (covered_split s s1 B1 _ SI) (fun i t fi j q K => match K with end) El)
      as [B [CO [TE SI2]]].
    pose proof (g3_four _ GD) as G4.
    constructor; auto.
    - rewrite a4. exact (b3_tiling _ _ B).
    - exact (b3_hull _ _ B).
    - rewrite a4. lia.
    - rewrite a4. apply (between3_empty s GD s2 B CO). intros i u Hu Hp i' t' fi' j' q' [<-|[]] Ht' Hf' Ho'.
      apply (TE i t' fi' j' q'); auto. apply (si_all _ _ _ _ _ SI2). exists u. auto.
    - exact (g3_start _ GD).
    - rewrite a4. intros v Hv. destruct (Nat.eq_dec v (num_points s)) as [->|Nv]; [|apply (g3_inside _ GD); clear - Hv Nv; lia].
      pose proof (g3_tiling _ GD) as L. destruct (four_entries s old t I Ht) as [q1 [g1 [q2 [g2 [q3 [g3 [q4 [g4 ->]]]]]]]].
      assert (To : tet s old q1 q2 q3 q4) by (eexists; split; [exact Ht|even]).
      pose proof (t3_pos _ _ _ L _ _ _ _ _ To) as P0. destruct (t3_lts _ _ _ L _ _ _ _ _ To) as [L1 [L2 [L3 L4]]].
      assert (Hp : ins3 (pts q1) (pts q2) (pts q3) (pts q4) (pts (num_points s))).
      { refine (proj1 (inside_even pts _ q1 q2 q3 q4 _ _ P0) Hin). even. }
      exact (ins3_within _ _ _ _ _ _ _ _ _ P0 (g3_start _ GD) (t3_big _ _ _ L _ L1) (t3_big _ _ _ L _ L2) (t3_big _ _ _ L _ L3) (t3_big _ _ _ L _ L4) Hp).
  Qed.
  Lemma insert_many_good3 n : forall s s', good3 s -> insert_many split3 flip circle inside pop n s = Some s' -> good3 s'.
  Proof.
    induction n as [|n IH]; intros s s' GD H; cbn [insert_many] in H; [injection H as <-; exact GD|].
    destruct (insert s) as [[[p new] s1]|] eqn:E; cbn [bind] in H; [|discriminate].
    exact (IH s1 s' (insert_good3 s p new s1 GD E) H).
  Qed.
  Lemma start_good3 s : 0 < O 0%nat 1%nat 2%nat 3%nat -> all_encompassing_3d = Some s -> good3 s.
  Proof.
    intros P0 H. destruct inv3_start as [s' [E [I [LO [_ NP]]]]]. rewrite H in E. injection E as <-.
    assert (TR : forall i a b c d, tet s i a b c d -> i = 0%nat /\ even4 [0%nat; 1%nat; 2%nat; 3%nat] [a; b; c; d]).
    { vm_compute in H. injection H as <-. intros i a b c d [t [[K|[]] R]]. injection K as <- <-. split; [reflexivity|].
      cbn [points_of map fst] in R. now apply even4_sym. }
    assert (TR0 : tet s 0%nat 0%nat 1%nat 2%nat 3%nat).
    { vm_compute in H. injection H as <-. eexists. split; [now left|]. cbn [points_of map fst]. even. }
    constructor; auto.
    - rewrite NP. constructor.
      + intros i a b c d x y z w. apply tet_even.
      + intros. eapply tet_same; eauto.
      + intros i a b c d K. destruct (TR _ _ _ _ _ K) as [-> R]. rewrite (even_o3 pts _ _ _ _ _ _ _ _ R). exact P0.
      + intros i a b c d K. destruct (TR _ _ _ _ _ K) as [-> R].
        assert (X : (a = 0 \/ a = 1 \/ a = 2 \/ a = 3)%nat) by (apply (proj2 (even_mem _ _ _ _ _ _ _ _ a R)); auto). clear - X. lia.
      + intros i j a b c d x y z w v K K' _ _. destruct (TR _ _ _ _ _ K) as [-> _]. destruct (TR _ _ _ _ _ K') as [-> _]. reflexivity.
      + intros i a b c d v K Hv _. destruct (TR _ _ _ _ _ K) as [-> R]. apply (proj1 (even_mem _ _ _ _ _ _ _ _ v R)). clear - Hv. lia.
      + intros v Hv. destruct (corner_cls3 _ _ _ _ P0) as [X1 [X2 [X3 X4]]]. destruct v as [|[|[|[|]]]]; auto; lia.
      + intros x Hx. exists 0%nat, 0%nat, 1%nat, 2%nat, 3%nat. auto.
    - intros i t q fi ps x Ht Hq Ho Hps Hx. vm_compute in H. injection H as <-. cbn in Ht, Hps.
      destruct Hps as [E|[E|[E|[E|[]]]]]; injection E as _ <-; destruct Hx as [<-|[<-|[<-|[]]]]; lia.
    - lia.
    - rewrite NP. intros i a b c d o k v K _ Hv Va Vb Vc Vd. exfalso. destruct (TR _ _ _ _ _ K) as [-> R].
      assert (X : v = a \/ v = b \/ v = c \/ v = d) by (apply (proj1 (even_mem _ _ _ _ _ _ _ _ v R)); clear - Hv; lia).
      clear - X Va Vb Vc Vd. destruct X as [X|[X|[X|X]]]; congruence.
    - intros v Hv. exfalso. lia.
  Qed.
  Theorem built3_good n s : 0 < O 0%nat 1%nat 2%nat 3%nat -> built3 (crossing3 pts) circle inside pop n s -> good3 s.
  Proof. intros P0 [s0 [E0 E]]. exact (insert_many_good3 n s0 s (start_good3 s0 P0 E0) E). Qed.
End Geo.
