(** Lemmas on counting, sums and permutations used by the proofs about sweeps. *)
From Coq Require Import List Arith Bool Lia Permutation QArith Qcanon.
From Verif Require Import Sweep_Model.
Import ListNotations.
Local Open Scope nat_scope.

Lemma pid_eqb_spec : forall p q, reflect (p = q) (pid_eqb p q).
Proof.
  intros [a b] [c d]. unfold pid_eqb; cbn.
  destruct (Nat.eqb_spec a c), (Nat.eqb_spec b d); cbn; constructor; congruence.
Qed.

Lemma pid_eqb_refl : forall p, pid_eqb p p = true.
Proof. intros p. destruct (pid_eqb_spec p p); congruence. Qed.

Lemma existsb_pid : forall p l, existsb (pid_eqb p) l = true <-> In p l.
Proof.
  intros p l. rewrite existsb_exists. split.
  - intros (x & Hin & He). destruct (pid_eqb_spec p x); [subst; auto | discriminate].
  - intros H. exists p. split; auto. apply pid_eqb_refl.
Qed.

Lemma own_spec : forall G r p, own G r p = true <-> rank_of p = r /\ In p (cells G).
Proof.
  intros. unfold own. rewrite andb_true_iff, existsb_pid, Nat.eqb_eq. tauto.
Qed.

Lemma in_own_cells : forall G r c, In c (own_cells G r) <-> In c (cells G) /\ rank_of c = r.
Proof. intros. unfold own_cells. rewrite filter_In, Nat.eqb_eq. tauto. Qed.

Lemma in_others : forall G r x, In x (others G r) <-> x < nranks G /\ x <> r.
Proof.
  intros. unfold others. rewrite filter_In, in_seq, negb_true_iff, Nat.eqb_neq. lia.
Qed.

Lemma is_remote_spec : forall G r x, is_remote_rank G r x = true <-> In x (others G r).
Proof.
  intros. unfold is_remote_rank. rewrite in_others, andb_true_iff, negb_true_iff, Nat.eqb_neq, Nat.ltb_lt. tauto.
Qed.

(** ** countb *)
Lemma countb_nil : forall A (p : A -> bool), countb p [] = 0.
Proof. reflexivity. Qed.

Lemma countb_cons : forall A (p : A -> bool) a l,
  countb p (a :: l) = (if p a then 1 else 0) + countb p l.
Proof. intros. unfold countb. cbn. destruct (p a); reflexivity. Qed.

Lemma countb_app : forall A (p : A -> bool) l1 l2, countb p (l1 ++ l2) = countb p l1 + countb p l2.
Proof. intros. unfold countb. rewrite filter_app, app_length. reflexivity. Qed.

Lemma countb_perm : forall A (p : A -> bool) l1 l2, Permutation l1 l2 -> countb p l1 = countb p l2.
Proof.
  induction 1; auto.
  - rewrite !countb_cons, IHPermutation. reflexivity.
  - rewrite !countb_cons. lia.
  - congruence.
Qed.

Lemma countb_ext : forall A (p q : A -> bool) l, (forall a, In a l -> p a = q a) -> countb p l = countb q l.
Proof.
  induction l as [|a l IH]; intros H; [reflexivity|].
  rewrite !countb_cons, IH by (intros; apply H; right; auto).
  rewrite (H a) by (left; reflexivity). reflexivity.
Qed.

Lemma countb_zero : forall A (p : A -> bool) l, countb p l = 0 <-> forall a, In a l -> p a = false.
Proof.
  induction l as [|a l IH].
  - split; [intros _ a []|reflexivity].
  - rewrite countb_cons. split.
    + intros H b [->|Hb]; [destruct (p b); [lia|reflexivity]|].
      apply IH; [destruct (p a); lia | auto].
    + intros H. rewrite (H a) by (left; reflexivity). cbn. apply IH. intros; apply H; right; auto.
Qed.

Lemma countb_false : forall A (l : list A), countb (fun _ => false) l = 0.
Proof. intros. apply countb_zero. auto. Qed.

Lemma countb_pos : forall A (p : A -> bool) a l, In a l -> p a = true -> 1 <= countb p l.
Proof.
  intros. destruct (Nat.eq_dec (countb p l) 0) as [E|]; [|lia].
  rewrite countb_zero in E. rewrite (E a H) in H0. discriminate.
Qed.

Lemma countb_le_length : forall A (p : A -> bool) l, countb p l <= length l.
Proof.
  induction l as [|a l IH]; [cbn; lia|]. rewrite countb_cons. cbn [length]. destruct (p a); lia.
Qed.

Lemma countb_filter : forall A (p q : A -> bool) l, countb p (filter q l) = countb (fun a => q a && p a) l.
Proof.
  induction l as [|a l IH]; [reflexivity|].
  cbn [filter]. rewrite countb_cons, <- IH. destruct (q a); cbn [andb]; [rewrite countb_cons|]; reflexivity.
Qed.

Lemma countb_flat_map : forall A B (p : B -> bool) (f : A -> list B) l,
  countb p (flat_map f l) = list_sum (map (fun a => countb p (f a)) l).
Proof.
  induction l as [|a l IH]; [reflexivity|].
  cbn [flat_map map]. rewrite countb_app, IH. reflexivity.
Qed.

Lemma length_flat_map : forall A B (f : A -> list B) l,
  length (flat_map f l) = list_sum (map (fun a => length (f a)) l).
Proof.
  induction l as [|a l IH]; [reflexivity|].
  cbn [flat_map map]. rewrite app_length, IH. reflexivity.
Qed.

(** ** list_sum *)
Lemma list_sum_cons : forall a l, list_sum (a :: l) = a + list_sum l.
Proof. reflexivity. Qed.

Lemma list_sum_map_ext : forall A (f g : A -> nat) l, (forall a, In a l -> f a = g a) ->
  list_sum (map f l) = list_sum (map g l).
Proof.
  induction l as [|a l IH]; intros H; [reflexivity|].
  cbn [map]. rewrite !list_sum_cons, IH, (H a) by (intros; try apply H; cbn; auto). reflexivity.
Qed.

Lemma list_sum_map_add : forall A (f g : A -> nat) l,
  list_sum (map (fun a => f a + g a) l) = list_sum (map f l) + list_sum (map g l).
Proof. induction l as [|a l IH]; [reflexivity|]. cbn [map]. rewrite !list_sum_cons. lia. Qed.

Lemma list_sum_map_zero : forall A (f : A -> nat) l,
  list_sum (map f l) = 0 <-> forall a, In a l -> f a = 0.
Proof.
  induction l as [|a l IH]; [split; [intros _ a []|reflexivity]|].
  cbn [map]. rewrite list_sum_cons. split.
  - intros H b [->|Hb]; [lia|]. apply IH; auto; lia.
  - intros H. rewrite (H a) by (left; auto). apply IH. intros; apply H; right; auto.
Qed.

Lemma list_sum_swap : forall A B (f : A -> B -> nat) la lb,
  list_sum (map (fun a => list_sum (map (f a) lb)) la) =
  list_sum (map (fun b => list_sum (map (fun a => f a b) la)) lb).
Proof.
  induction la as [|a la IH]; intros lb.
  - cbn. symmetry. apply list_sum_map_zero. reflexivity.
  - cbn [map]. rewrite list_sum_cons, IH, <- list_sum_map_add.
    apply list_sum_map_ext. intros. cbn [map]. rewrite list_sum_cons. reflexivity.
Qed.

Lemma list_sum_perm : forall A (f : A -> nat) l1 l2, Permutation l1 l2 ->
  list_sum (map f l1) = list_sum (map f l2).
Proof.
  induction 1; auto.
  - cbn [map]. rewrite !list_sum_cons. lia.
  - cbn [map]. rewrite !list_sum_cons. lia.
  - congruence.
Qed.

Lemma list_sum_filter : forall A (p : A -> bool) (f : A -> nat) l,
  list_sum (map f (filter p l)) = list_sum (map (fun a => if p a then f a else 0) l).
Proof.
  induction l as [|a l IH]; [reflexivity|].
  cbn [filter map]. rewrite list_sum_cons, <- IH. destruct (p a); cbn [map]; [rewrite list_sum_cons|]; lia.
Qed.

Lemma list_sum_le : forall A (f g : A -> nat) l, (forall a, In a l -> f a <= g a) ->
  list_sum (map f l) <= list_sum (map g l).
Proof.
  induction l as [|a l IH]; intros H; [cbn; lia|].
  cbn [map]. rewrite !list_sum_cons.
  pose proof (H a (or_introl eq_refl)). specialize (IH (fun b Hb => H b (or_intror Hb))). lia.
Qed.

Lemma list_sum_in : forall A (f : A -> nat) a l, In a l -> f a <= list_sum (map f l).
Proof.
  induction l as [|b l IH]; [intros []|].
  intros [->|H]; cbn [map]; rewrite list_sum_cons; [lia|]. specialize (IH H). lia.
Qed.

(** A sum in which only one element counts. *)
Lemma list_sum_single : forall A (f : A -> nat) a l, NoDup l -> In a l ->
  (forall b, In b l -> b <> a -> f b = 0) -> list_sum (map f l) = f a.
Proof.
  induction l as [|b l IH]; [intros _ []|].
  intros Hnd Hin Hz. cbn [map]. rewrite list_sum_cons. inversion Hnd; subst.
  destruct Hin as [->|Hin].
  - rewrite (proj2 (list_sum_map_zero _ f l)); [lia|].
    intros c Hc. apply Hz; [right; auto|]. intros ->. auto.
  - rewrite (Hz b); [|left; auto|intros ->; auto]. cbn. apply IH; auto.
    intros c Hc. apply Hz. right; auto.
Qed.

(** Counting elements by the (unique) member of a list they belong to. *)
Lemma countb_classify : forall A B (p : A -> bool) (cls : A -> B -> bool) (lb : list B) l,
  (forall a, In a l -> p a = true -> list_sum (map (fun b => if cls a b then 1 else 0) lb) = 1) ->
  countb p l = list_sum (map (fun b => countb (fun a => p a && cls a b) l) lb).
Proof.
  intros A B p cls lb. induction l as [|a l IH]; intros H.
  - cbn. symmetry. apply list_sum_map_zero. reflexivity.
  - rewrite countb_cons, IH by (intros; apply H; [right|]; auto).
    rewrite (list_sum_map_ext _ (fun b => countb (fun a0 => p a0 && cls a0 b) (a :: l))
      (fun b => (if p a && cls a b then 1 else 0) + countb (fun a0 => p a0 && cls a0 b) l))
      by (intros; apply countb_cons).
    rewrite list_sum_map_add. f_equal.
    destruct (p a) eqn:E; cbn [andb].
    + symmetry. apply H; auto. left; auto.
    + symmetry. apply list_sum_map_zero. reflexivity.
Qed.

(** ** filter and permutation *)
Lemma filter_perm : forall A (p : A -> bool) l1 l2, Permutation l1 l2 ->
  Permutation (filter p l1) (filter p l2).
Proof.
  induction 1; cbn [filter]; auto.
  - destruct (p x); auto.
  - destruct (p x), (p y); auto. apply perm_swap.
  - etransitivity; eauto.
Qed.

Lemma filter_remove_one : forall A (p q : A -> bool) a l, NoDup l -> In a l -> p a = true -> q a = false ->
  (forall b, In b l -> b <> a -> q b = p b) ->
  Permutation (filter p l) (a :: filter q l).
Proof.
  induction l as [|b l IH]; [intros _ []|].
  intros Hnd Hin Hp Hq Heq. inversion Hnd; subst. cbn [filter]. destruct Hin as [->|Hin].
  - rewrite Hp, Hq. constructor. erewrite filter_ext_in; [reflexivity|].
    intros c Hc. symmetry. apply Heq; [right; auto|]. intros ->. auto.
  - rewrite (Heq b); [|left; auto|intros ->; auto].
    specialize (IH H2 Hin Hp Hq (fun c Hc => Heq c (or_intror Hc))).
    destruct (p b); auto. rewrite IH. apply perm_swap.
Qed.

Lemma flat_map_perm : forall A B (f : A -> list B) l1 l2, Permutation l1 l2 ->
  Permutation (flat_map f l1) (flat_map f l2).
Proof. intros. apply Permutation_flat_map. auto. Qed.

Lemma filter_nil_iff : forall A (p : A -> bool) l, filter p l = [] <-> forall a, In a l -> p a = false.
Proof.
  intros. rewrite <- countb_zero. unfold countb. destruct (filter p l); cbn; split; intros; auto; discriminate.
Qed.

Lemma NoDup_filter' : forall A (p : A -> bool) l, NoDup l -> NoDup (filter p l).
Proof. intros. apply NoDup_filter. auto. Qed.

Lemma NoDup_list_prod : forall A B (la : list A) (lb : list B), NoDup la -> NoDup lb -> NoDup (list_prod la lb).
Proof.
  induction la as [|a la IH]; intros lb Ha Hb; [constructor|].
  inversion Ha; subst. cbn [list_prod].
  assert (Hmap : NoDup (map (fun y => (a, y)) lb)).
  { apply FinFun.Injective_map_NoDup; auto. intros x y E. congruence. }
  revert Hmap. generalize (IH lb H2 Hb). intros Hp.
  assert (Hdis : forall x, In x (map (fun y => (a, y)) lb) -> ~ In x (list_prod la lb)).
  { intros x Hx Hx'. apply in_map_iff in Hx. destruct Hx as (y & <- & _).
    apply in_prod_iff in Hx'. tauto. }
  induction (map (fun y => (a, y)) lb) as [|x l IHl]; intros Hm; [exact Hp|].
  inversion Hm; subst. cbn [app]. constructor.
  - rewrite in_app_iff. intros [Hx|Hx]; [auto|]. apply (Hdis x); [left; auto|auto].
  - apply IHl; auto. intros y Hy. apply Hdis. right; auto.
Qed.

Lemma concat_app1 : forall A (l : list (list A)) b, concat (l ++ [b]) = concat l ++ b.
Proof. intros. rewrite concat_app. cbn. rewrite app_nil_r. reflexivity. Qed.

(** ** remove_nth *)
Lemma remove_nth_perm : forall A k (l : list A) x, nth_error l k = Some x ->
  Permutation l (x :: remove_nth k l).
Proof.
  intros A k l x H. unfold remove_nth.
  destruct (nth_error_split l k H) as (l1 & l2 & -> & Hl). subst k.
  rewrite firstn_app, firstn_all, Nat.sub_diag. cbn [firstn]. rewrite app_nil_r.
  rewrite skipn_app, skipn_all2 by lia.
  replace (S (length l1) - length l1) with 1 by lia. cbn [skipn app].
  symmetry. apply Permutation_middle.
Qed.

(** ** sorted by sweep number *)
Fixpoint epsorted (l : list msg) : Prop :=
  match l with
  | [] => True
  | m :: l => (forall m', In m' l -> m_ep m <= m_ep m') /\ epsorted l
  end.

Lemma epsorted_app : forall l1 l2, epsorted (l1 ++ l2) <->
  epsorted l1 /\ epsorted l2 /\ (forall a b, In a l1 -> In b l2 -> m_ep a <= m_ep b).
Proof.
  induction l1 as [|m l1 IH]; intros l2; cbn [app epsorted].
  - firstorder.
  - rewrite IH. split.
    + intros (H1 & H2 & H3 & H4). repeat split; auto.
      * intros; apply H1, in_or_app; auto.
      * intros a b [<-|Ha] Hb; auto. apply H1, in_or_app; auto.
    + intros ((H1 & H2) & H3 & H4). split; [|split; [auto|split]]; auto.
      * intros m' Hm. apply in_app_or in Hm. destruct Hm; auto. apply H4; [left|]; auto.
      * intros a b Ha Hb. apply H4; [right|]; auto.
Qed.

Lemma epsorted_const : forall n l, (forall m, In m l -> m_ep m = n) -> epsorted l.
Proof.
  induction l as [|m l IH]; intros H; cbn; auto. split.
  - intros. rewrite (H m), (H m'); [lia|right|left]; auto.
  - apply IH. intros; apply H; right; auto.
Qed.

(** ** Qcsum *)
Lemma Qcsum_cons : forall a l, Qcsum (a :: l) = (a + Qcsum l)%Qc.
Proof. reflexivity. Qed.

Lemma Qcsum_nil : Qcsum [] = 0%Qc.
Proof. reflexivity. Qed.

Lemma Qcsum_app : forall l1 l2, Qcsum (l1 ++ l2) = (Qcsum l1 + Qcsum l2)%Qc.
Proof.
  induction l1 as [|a l1 IH]; intros; cbn [app].
  - rewrite Qcsum_nil. ring.
  - rewrite !Qcsum_cons, IH. ring.
Qed.

Lemma Qcsum_perm : forall l1 l2, Permutation l1 l2 -> Qcsum l1 = Qcsum l2.
Proof.
  induction 1; auto.
  - rewrite !Qcsum_cons. congruence.
  - rewrite !Qcsum_cons. ring.
  - congruence.
Qed.

Lemma list_sum_change : forall A (f g : A -> nat) a k l, NoDup l -> In a l ->
  f a = g a + k -> (forall b, In b l -> b <> a -> f b = g b) ->
  list_sum (map f l) = list_sum (map g l) + k.
Proof.
  induction l as [|b l IH]; [intros _ []|].
  intros Hnd Hin Ha Hb. inversion Hnd; subst. cbn [map]. rewrite !list_sum_cons.
  destruct Hin as [->|Hin].
  - rewrite (list_sum_map_ext _ f g l); [lia|]. intros c Hc. apply Hb; [right; auto|]. intros ->; auto.
  - rewrite (Hb b); [|left; auto|intros ->; auto].
    rewrite IH; auto; [lia|]. intros; apply Hb; auto. right; auto.
Qed.

Lemma others_nodup : forall G r, NoDup (others G r).
Proof. intros. apply NoDup_filter, seq_NoDup. Qed.

Lemma own_cells_nodup : forall G r, NoDup (cells G) -> NoDup (own_cells G r).
Proof. intros. apply NoDup_filter. auto. Qed.

Lemma NoDup_app_intro : forall A (l1 l2 : list A), NoDup l1 -> NoDup l2 ->
  (forall t, In t l1 -> ~ In t l2) -> NoDup (l1 ++ l2).
Proof.
  induction l1 as [|a l1 IH]; intros l2 H1 H2 Hdis; [exact H2|].
  inversion H1; subst. cbn [app]. constructor.
  - intros X. apply in_app_or in X. destruct X as [X|X]; [auto|]. apply (Hdis a); [left; auto|auto].
  - apply IH; auto. intros t Ht. apply Hdis. right; auto.
Qed.
