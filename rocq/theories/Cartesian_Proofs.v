(** Proofs about the construction of cartesian grids. *)
From Coq Require Import List Arith ZArith QArith Qround Qabs Lia Lqa Permutation Relations Field.
From Verif Require Import Box_Model Cartesian_Model Cartesian_Spec.
Import ListNotations.
Local Open Scope nat_scope.

(** * Positions *)
Lemma F2_length : forall A B (R : A -> B -> Prop) l m, Forall2 R l m -> length l = length m.
Proof. intros A B R l m H. induction H; cbn; auto. Qed.
Definition in_grid (dims p : list Z) : Prop := Forall2 (fun v n => (0 <= v < n)%Z) p dims.

Lemma in_zrange : forall n v, In v (zrange n) <-> (0 <= v < n)%Z.
Proof.
  intros n v. unfold zrange. rewrite in_map_iff. split.
  - intros (i & <- & Hi). apply in_seq in Hi. lia.
  - intro H. exists (Z.to_nat v). rewrite in_seq. lia.
Qed.
Lemma all_contained_spec : forall dims p, In p (all_contained dims) <-> in_grid dims p.
Proof.
  induction dims as [|n dims IH]; intros p; cbn [all_contained].
  - cbn. split; [intros [<-|[]]; constructor|]. intro H. inversion H. auto.
  - rewrite in_flat_map. split.
    + intros (v & Hv & Hp). apply in_map_iff in Hp. destruct Hp as (q & <- & Hq).
      constructor; [apply in_zrange; auto|]. apply IH. auto.
    + intro H. inversion H as [|v m q dims' Hv Hq]; subst. exists v. split; [apply in_zrange; auto|].
      apply in_map. apply IH. auto.
Qed.
Lemma nodup_flat_cons : forall (vs : list Z) (l : list (list Z)), NoDup vs -> NoDup l ->
  NoDup (flat_map (fun v => map (cons v) l) vs).
Proof.
  induction vs as [|v vs IH]; intros l Hvs Hl; cbn [flat_map]; [constructor|].
  inversion Hvs as [|? ? Hn Hd]; subst.
  assert (A : NoDup (map (cons v) l)).
  { clear - Hl. induction Hl as [|x l Hx Hl IH]; cbn; constructor; auto.
    rewrite in_map_iff. intros (y & E & Hy). injection E as ->. auto. }
  assert (Hdis : forall x, In x (map (cons v) l) -> ~ In x (flat_map (fun v => map (cons v) l) vs)).
  { intros x Hx Hy. apply in_map_iff in Hx. destruct Hx as (y & <- & _).
    apply in_flat_map in Hy. destruct Hy as (u & Hu & Hy). apply in_map_iff in Hy.
    destruct Hy as (z & E & _). injection E as -> _. auto. }
  specialize (IH l Hd Hl). revert A Hdis. generalize (map (cons v) l). induction l0 as [|x m IHm]; intros A Hdis; [exact IH|].
  inversion A; subst. cbn. constructor.
  - rewrite in_app_iff. intros [Hx|Hx]; [auto|]. apply (Hdis x); cbn; auto.
  - apply IHm; auto. intros y Hy. apply Hdis. cbn. auto.
Qed.
Lemma all_contained_nodup : forall dims, NoDup (all_contained dims).
Proof.
  induction dims as [|n dims IH]; cbn [all_contained]; [repeat constructor; auto|].
  apply nodup_flat_cons; auto. unfold zrange. apply FinFun.Injective_map_NoDup; [|apply seq_NoDup].
  intros a b. apply Nat2Z.inj.
Qed.

Lemma contained_spec : forall p dims, length p = length dims ->
  contained p dims = true <-> in_grid dims p.
Proof.
  unfold contained, in_grid. induction p as [|v p IH]; intros [|n dims] H; try discriminate H.
  - split; [constructor|reflexivity].
  - cbn [map2 forallb]. rewrite andb_true_iff, IH by (cbn in H; lia). rewrite andb_true_iff, Z.leb_le, Z.ltb_lt.
    split; [intros [A B]; constructor; auto|]. intro A. inversion A; auto.
Qed.

Lemma wrapped_cons : forall v p n dims,
  wrapped (v :: p) (n :: dims) =
  (snd (wrap_comp v n) :: fst (wrapped p dims), fst (wrap_comp v n) :: snd (wrapped p dims)).
Proof. reflexivity. Qed.
Lemma wrap_comp_in : forall v n, (0 <= v < n)%Z -> wrap_comp v n = (v, NoWrap).
Proof.
  intros v n H. unfold wrap_comp. destruct (n <=? v)%Z eqn:E; [apply Z.leb_le in E; lia|].
  destruct (v <? 0)%Z eqn:F; [apply Z.ltb_lt in F; lia|]. reflexivity.
Qed.
Lemma wrapped_in : forall dims p, in_grid dims p -> wrapped p dims = (repeat NoWrap (length p), p).
Proof.
  intros dims p H. induction H as [|v n p dims Hv Hp IH]; [reflexivity|].
  rewrite wrapped_cons, wrap_comp_in, IH by auto. reflexivity.
Qed.
Lemma in_grid_length : forall dims p, in_grid dims p -> length p = length dims.
Proof. intros dims p H. apply (F2_length _ _ _ _ _ H). Qed.

Lemma add_at_length : forall p k s, length (add_at p k s) = length p.
Proof. induction p as [|v p IH]; intros [|k] s; cbn; auto. Qed.

Definition sgn (w : wrap_type) : Z := match w with NoWrap => 0 | Minus => -1 | Plus => 1 end.
Definition nbpos (dims p : list Z) (k : nat) (s : Z) : list Z := snd (wrapped (add_at p k s) dims).
Definition nbwrap (dims p : list Z) (k : nat) (s : Z) : list wrap_type := fst (wrapped (add_at p k s) dims).

Record step_facts (dims p : list Z) (k : nat) (s : Z) : Prop := {
  sf_in : in_grid dims (nbpos dims p k s);
  sf_back : nbpos dims (nbpos dims p k s) k (- s) = p;
  sf_cont : contained (add_at (nbpos dims p k s) k (- s)) dims = contained (add_at p k s) dims;
  sf_same : contained (add_at p k s) dims = true -> nbpos dims p k s = add_at p k s;
  sf_wrap : forall j, j < length dims ->
      nth j (nbpos dims p k s) 0%Z =
      (nth j p 0 + (if (j =? k)%nat then s else 0) - sgn (nth j (nbwrap dims p k s) NoWrap) * nth j dims 0)%Z;
  sf_opp : forall j, j < length dims ->
      sgn (nth j (nbwrap dims (nbpos dims p k s) k (- s)) NoWrap) = (- sgn (nth j (nbwrap dims p k s) NoWrap))%Z
}.

Lemma contained_cons : forall v p n dims,
  contained (v :: p) (n :: dims) = ((0 <=? v)%Z && (v <? n)%Z) && contained p dims.
Proof. reflexivity. Qed.
Lemma contained_in : forall dims p, in_grid dims p -> contained p dims = true.
Proof. intros dims p H. apply contained_spec; auto. apply in_grid_length; auto. Qed.

Ltac zcase := match goal with
  | |- context [(?a <=? ?b)%Z] => destruct (Z.leb_spec a b); try lia
  | |- context [(?a <? ?b)%Z] => destruct (Z.ltb_spec a b); try lia
  end.

Lemma wrap_cases : forall v s n, (0 <= v < n)%Z -> (s = 1 \/ s = -1)%Z ->
  (wrap_comp (v + s) n = (v + s, NoWrap) /\ 0 <= v + s < n)%Z
  \/ (wrap_comp (v + s) n = (0, Plus) /\ v + s = n)%Z
  \/ (wrap_comp (v + s) n = (n - 1, Minus) /\ v + s = -1)%Z.
Proof.
  intros v s n Hv Hs. unfold wrap_comp. repeat zcase.
  - right; left. split; [f_equal|]; lia.
  - right; right. split; [f_equal|]; lia.
  - left. split; [reflexivity|lia].
Qed.

Lemma step_ok : forall dims p k s, in_grid dims p -> k < length dims -> (s = 1 \/ s = -1)%Z ->
  step_facts dims p k s.
Proof.
  intros dims p k s H. revert k. induction H as [|v n p dims Hv Hp IH]; intros k Hk Hs; [cbn in Hk; lia|].
  destruct k as [|k].
  - assert (W : wrapped p dims = (repeat NoWrap (length p), p)) by (apply wrapped_in; auto).
    assert (N : nbpos (n :: dims) (v :: p) 0 s = fst (wrap_comp (v + s) n) :: p).
    { unfold nbpos. cbn [add_at]. rewrite wrapped_cons, W. reflexivity. }
    assert (M : nbwrap (n :: dims) (v :: p) 0 s = snd (wrap_comp (v + s) n) :: repeat NoWrap (length p)).
    { unfold nbwrap. cbn [add_at]. rewrite wrapped_cons, W. reflexivity. }
    assert (R : forall j, nth j (repeat NoWrap (length p)) NoWrap = NoWrap) by (intro; apply nth_repeat).
    assert (B : exists w w', wrap_comp (fst (wrap_comp (v + s) n) + - s) n = (v, w')
                /\ snd (wrap_comp (v + s) n) = w /\ sgn w' = (- sgn w)%Z
                /\ fst (wrap_comp (v + s) n) = (v + s - sgn w * n)%Z
                /\ (0 <= fst (wrap_comp (v + s) n) < n)%Z
                /\ (w = NoWrap <-> (0 <= v + s < n)%Z)
                /\ (0 <= fst (wrap_comp (v + s) n) + - s < n <-> 0 <= v + s < n)%Z).
    { destruct (wrap_cases v s n Hv Hs) as [[E C]|[[E C]|[E C]]]; rewrite E; cbn [fst snd].
      - exists NoWrap, NoWrap. rewrite wrap_comp_in by lia. cbn [sgn]. repeat split; try lia. f_equal; lia.
      - exists Plus, Minus. replace (wrap_comp (0 + - s) n) with (v, Minus).
        + cbn [sgn]. repeat split; try lia; discriminate.
        + unfold wrap_comp. repeat zcase. f_equal; lia.
      - exists Minus, Plus. replace (wrap_comp (n - 1 + - s) n) with (v, Plus).
        + cbn [sgn]. repeat split; try lia; discriminate.
        + unfold wrap_comp. repeat zcase. f_equal; lia. }
    destruct B as (w & w' & B1 & B2 & B3 & B4 & B5 & B6 & B7).
    constructor; rewrite ?N, ?M.
    + constructor; auto.
    + unfold nbpos. cbn [add_at]. rewrite wrapped_cons, W, B1. reflexivity.
    + cbn [add_at]. rewrite !contained_cons. f_equal. apply eq_true_iff_eq.
      rewrite !andb_true_iff, !Z.leb_le, !Z.ltb_lt. exact B7.
    + cbn [add_at]. rewrite contained_cons, !andb_true_iff, Z.leb_le, Z.ltb_lt. intros [C _]. f_equal.
      apply B6 in C. rewrite B4, C. cbn [sgn]. lia.
    + intros [|j] Hj; cbn [nth Nat.eqb].
      * rewrite B2, B4. reflexivity.
      * rewrite R. cbn [sgn]. lia.
    + intros [|j] Hj; unfold nbwrap; cbn [add_at]; rewrite wrapped_cons, W; cbn [nth fst].
      * rewrite B1, B2. exact B3.
      * rewrite R. reflexivity.
  - assert (Hk' : k < length dims) by (cbn in Hk; lia). destruct (IH k Hk' Hs) as [I1 I2 I3 I4 I5 I6].
    assert (N : nbpos (n :: dims) (v :: p) (S k) s = v :: nbpos dims p k s).
    { unfold nbpos. cbn [add_at]. rewrite wrapped_cons, wrap_comp_in by auto. reflexivity. }
    assert (M : nbwrap (n :: dims) (v :: p) (S k) s = NoWrap :: nbwrap dims p k s).
    { unfold nbwrap. cbn [add_at]. rewrite wrapped_cons, wrap_comp_in by auto. reflexivity. }
    constructor; rewrite ?N, ?M.
    + constructor; auto.
    + unfold nbpos at 1. cbn [add_at]. rewrite wrapped_cons, wrap_comp_in by auto. cbn [fst snd]. f_equal. exact I2.
    + cbn [add_at]. rewrite !contained_cons. f_equal. exact I3.
    + cbn [add_at]. rewrite contained_cons, andb_true_iff. intros [_ C]. f_equal. auto.
    + intros [|j] Hj; cbn [nth]; [cbn; lia|]. cbn [Nat.eqb]. apply I5. cbn in Hj; lia.
    + intros [|j] Hj; unfold nbwrap; cbn [add_at]; rewrite wrapped_cons, wrap_comp_in by auto; cbn [fst nth snd];
        [reflexivity|]. apply I6. cbn in Hj; lia.
Qed.

Lemma iter_neighbours_in : forall p q, In q (iter_neighbours p) <->
  exists k s, k < length p /\ (s = 1 \/ s = -1)%Z /\ q = add_at p k s.
Proof.
  intros p q. unfold iter_neighbours. rewrite in_flat_map. split.
  - intros (k & Hk & Hq). apply in_seq in Hk. destruct Hq as [<-|[<-|[]]]; exists k; eexists;
      (split; [lia|split; [|reflexivity]]); lia.
  - intros (k & s & Hk & Hs & ->). exists k. rewrite in_seq. split; [lia|]. cbn. destruct Hs as [->| ->]; auto.
Qed.

(** * Ids *)
Lemma lookup_cons : forall A p a (m : list (list Z * A)) q,
  lookup ((p, a) :: m) q = if ipos_dec p q then Some a else lookup m q.
Proof. intros. unfold lookup. cbn [find fst]. destruct (ipos_dec p q); reflexivity. Qed.
Lemma lookup_In : forall A (m : list (list Z * A)) q a, lookup m q = Some a -> In (q, a) m.
Proof.
  intros A m q a. induction m as [|[p b] m IH]; [discriminate|]. rewrite lookup_cons.
  destruct (ipos_dec p q) as [->|]; intro H; [injection H as ->; cbn; auto|cbn; auto].
Qed.

Lemma mapM_map : forall A B (f : A -> option B) g l, (forall x, In x l -> f x = Some (g x)) ->
  mapM f l = Some (map g l).
Proof.
  intros A B f g l H. induction l as [|x l IH]; [reflexivity|]. cbn [mapM map].
  rewrite H by (cbn; auto). rewrite IH by (intros; apply H; cbn; auto). reflexivity.
Qed.

Lemma insert_by_x_perm : forall e l, Permutation (insert_by_x e l) (e :: l).
Proof.
  intros e l. induction l as [|e' l IH]; [reflexivity|]. cbn [insert_by_x].
  destruct (_ <=? _)%Z; [reflexivity|]. rewrite IH. apply perm_swap.
Qed.
Lemma sort_by_x_perm : forall l, Permutation (sort_by_x l) l.
Proof.
  induction l as [|e l IH]; [reflexivity|]. cbn [sort_by_x fold_right]. rewrite insert_by_x_perm. constructor. exact IH.
Qed.

(** * Vectors *)
Lemma map2_length : forall A B C (f : A -> B -> C) l m, length (map2 f l m) = Nat.min (length l) (length m).
Proof. induction l as [|a l IH]; intros [|b m]; cbn; auto. Qed.
Lemma map2_nth : forall A B C (f : A -> B -> C) l m i a b c, i < length l -> i < length m ->
  nth i (map2 f l m) c = f (nth i l a) (nth i m b).
Proof.
  induction l as [|x l IH]; intros [|y m] [|i] a b c H1 H2; cbn in *; try lia; auto. apply IH; lia.
Qed.
Lemma veq_nth : forall u v, length u = length v -> (forall i, i < length u -> (nth i u 0 == nth i v 0)%Q) -> veq u v.
Proof.
  induction u as [|a u IH]; intros [|b v] H1 H2; try discriminate H1; constructor.
  - apply (H2 0). cbn; lia.
  - apply IH; [cbn in H1; lia|]. intros i Hi. apply (H2 (S i)). cbn; lia.
Qed.
Lemma veq_length : forall u v, veq u v -> length u = length v.
Proof. intros u v H. apply (F2_length _ _ _ _ _ H). Qed.
Lemma veq_nth_inv : forall u v i, veq u v -> (nth i u 0 == nth i v 0)%Q.
Proof.
  intros u v i H. revert i. induction H; intros [|i]; cbn; auto; reflexivity.
Qed.
Lemma unit_vec_length : forall d k s, length (unit_vec d k s) = d.
Proof. intros. unfold unit_vec. rewrite map_length, seq_length. reflexivity. Qed.
Lemma nth_map_gen : forall A B (f : A -> B) l i a b, i < length l -> nth i (map f l) b = f (nth i l a).
Proof. induction l as [|x l IH]; intros [|i] a b H; cbn in *; try lia; auto. apply IH; lia. Qed.
Lemma unit_vec_nth : forall d k s i, i < d -> nth i (unit_vec d k s) 0%Q = if i =? k then s else 0%Q.
Proof.
  intros d k s i H. unfold unit_vec.
  rewrite (nth_map_gen _ _ _ _ _ 0) by (rewrite seq_length; auto).
  rewrite seq_nth by auto. reflexivity.
Qed.
Lemma norm1_veq : forall u v, veq u v -> (norm1 u == norm1 v)%Q.
Proof.
  intros u v H. induction H as [|a b u v Hab H IH]; cbn [norm1 fold_right]; [reflexivity|].
  fold (norm1 u) (norm1 v). rewrite IH, Hab. reflexivity.
Qed.
Lemma norm1_unit_gen : forall d o k s,
  (norm1 (map (fun j => if Nat.eqb j k then s else 0) (seq o d)) ==
   if (o <=? k)%nat && (k <? o + d)%nat then Qabs s else 0)%Q.
Proof.
  induction d as [|d IH]; intros o k s; cbn [seq map norm1 fold_right].
  - destruct (Nat.leb_spec o k), (Nat.ltb_spec k (o + 0)); cbn; try lia; reflexivity.
  - fold (norm1 (map (fun j => if Nat.eqb j k then s else 0%Q) (seq (S o) d))). rewrite IH.
    destruct (Nat.eqb_spec o k), (Nat.leb_spec (S o) k), (Nat.leb_spec o k),
      (Nat.ltb_spec k (S o + d)), (Nat.ltb_spec k (o + S d)); cbn [andb]; try lia;
      rewrite ?Qplus_0_r; try reflexivity; change (Qabs 0) with 0%Q; ring.
Qed.
Lemma norm1_unit : forall d k s, k < d -> (norm1 (unit_vec d k s) == Qabs s)%Q.
Proof.
  intros d k s H. unfold unit_vec. rewrite norm1_unit_gen.
  destruct (Nat.ltb_spec k (0 + d)); [reflexivity|lia].
Qed.
Lemma normalize_unit : forall d k a v, k < d -> ~ (a == 0)%Q -> veq v (unit_vec d k a) ->
  veq (normalize v) (unit_vec d k (a / Qabs a)).
Proof.
  intros d k a v Hk Ha H. pose proof (veq_length _ _ H) as L. rewrite unit_vec_length in L.
  apply veq_nth; unfold normalize; [rewrite map_length, unit_vec_length; auto|].
  intros i Hi. rewrite map_length, L in Hi.
  rewrite (nth_map_gen _ _ _ _ _ 0%Q) by lia. rewrite (norm1_veq _ _ H), norm1_unit by auto.
  rewrite (veq_nth_inv _ _ i H), !unit_vec_nth by auto.
  assert (~ (Qabs a == 0)%Q).
  { intro C. apply Ha. destruct (Qlt_le_dec a 0) as [L0|L0].
    - rewrite Qabs_neg in C by lra. lra.
    - rewrite Qabs_pos in C by lra. lra. }
  destruct (i =? k); [reflexivity|]. unfold Qdiv. ring.
Qed.
Lemma dot_veq : forall u v w, veq u v -> (dot u w == dot v w)%Q.
Proof.
  intros u v w H. revert w. induction H as [|a b u v Hab H IH]; intros [|c w]; cbn [dot]; try reflexivity.
  rewrite IH, Hab. reflexivity.
Qed.
Lemma dot_unit_gen : forall d o k s w, (dot (map (fun j => if Nat.eqb j k then s else 0) (seq o d)) w ==
   if (o <=? k)%nat && (k <? o + d)%nat then s * nth (k - o) w 0 else 0)%Q.
Proof.
  induction d as [|d IH]; intros o k s w; cbn [seq map dot].
  - destruct (Nat.leb_spec o k), (Nat.ltb_spec k (o + 0)); cbn; try lia; reflexivity.
  - destruct w as [|c w].
    + destruct (_ && _); [|reflexivity]. destruct (k - o); cbn [nth]; ring.
    + rewrite IH. destruct (Nat.eqb_spec o k), (Nat.leb_spec (S o) k), (Nat.leb_spec o k),
      (Nat.ltb_spec k (S o + d)), (Nat.ltb_spec k (o + S d)); cbn [andb]; try lia.
      all: try ring.
      all: try (replace (k - o) with 0 by lia; cbn [nth]; ring).
      all: replace (k - o) with (S (k - S o)) by lia; cbn [nth]; ring.
Qed.
Lemma dot_unit : forall d k s w, k < d -> (dot (unit_vec d k s) w == s * nth k w 0)%Q.
Proof.
  intros d k s w H. unfold unit_vec. rewrite dot_unit_gen.
  destruct (Nat.ltb_spec k (0 + d)); [|lia]. cbn [Nat.leb andb]. rewrite Nat.sub_0_r. reflexivity.
Qed.
Definition phi (p : list Z) (dir : list Q) : Q := dot (map inject_Z p) dir.
Lemma phi_add : forall p k s dir, k < length p ->
  (phi (add_at p k s) dir == phi p dir + inject_Z s * nth k dir 0)%Q.
Proof.
  unfold phi. induction p as [|v p IH]; intros [|k] s dir H; cbn in H; try lia; cbn [add_at map].
  - destruct dir as [|c dir]; cbn [dot nth]; [ring|]. rewrite inject_Z_plus. ring.
  - destruct dir as [|c dir]; cbn [dot nth]; [ring|]. rewrite IH by lia. ring.
Qed.
