(** Lemmas about the common pieces of the collective look-ups. *)
From Coq Require Import List Arith Lia.
From Verif Require Import Decomp_Model FileDist_Model FileDist_Proofs ParticleExchange_Proofs Collective_Model.
Import ListNotations.

(** ** Hash maps *)

Lemma hget_hput {A} e a (m : list (nat * A)) e' :
  hget e' (hput e a m) = if (e =? e')%nat then Some a else hget e' m.
Proof.
  induction m as [|[k b] m IH]; cbn [hput hget].
  - reflexivity.
  - destruct (k =? e)%nat eqn:E; cbn [hget].
    + apply Nat.eqb_eq in E as ->. destruct (e =? e')%nat; reflexivity.
    + rewrite IH. destruct (k =? e')%nat eqn:E2; [|reflexivity].
      apply Nat.eqb_eq in E2 as ->. destruct (e =? e')%nat eqn:E3; [|reflexivity].
      apply Nat.eqb_eq in E3 as ->. rewrite Nat.eqb_refl in E. discriminate.
Qed.

Lemma keys_hput {A} e a (m : list (nat * A)) : In e (map fst m) -> map fst (hput e a m) = map fst m.
Proof.
  induction m as [|[k b] m IH]; cbn [hput map fst]; [intros []|].
  destruct (k =? e)%nat eqn:E; cbn [map fst].
  - apply Nat.eqb_eq in E as ->. reflexivity.
  - intros [->|H]; [rewrite Nat.eqb_refl in E; discriminate|]. now rewrite IH.
Qed.

Lemma hput_new {A} e (a : A) m : ~ In e (map fst m) -> hput e a m = m ++ [(e, a)].
Proof.
  induction m as [|[k b] m IH]; cbn [hput map fst app]; [reflexivity|]. intro H.
  destruct (k =? e)%nat eqn:E.
  - apply Nat.eqb_eq in E as ->. exfalso. apply H. now left.
  - rewrite IH; [reflexivity|]. intro. apply H. now right.
Qed.

Lemma hcollect_id {A} (l : list (nat * A)) : NoDup (map fst l) -> hcollect l = l.
Proof.
  intro H. unfold hcollect.
  assert (G : forall l m : list (nat * A), NoDup (map fst (m ++ l)) -> fold_left (fun m p => hput (fst p) (snd p) m) l m = m ++ l).
  { clear l H. induction l as [|[e a] l IH]; intros m H; cbn [fold_left]; [now rewrite app_nil_r|].
    cbn [fst snd]. rewrite hput_new.
    - rewrite IH; rewrite <- app_assoc; [reflexivity|exact H].
    - rewrite map_app in H. cbn in H. apply NoDup_remove_2 in H. intro F. apply H. apply in_or_app. now left. }
  apply (G l []). exact H.
Qed.

Lemma hget_In {A} e (a : A) m : hget e m = Some a -> In (e, a) m.
Proof.
  induction m as [|[k b] m IH]; cbn [hget]; [discriminate|].
  destruct (k =? e)%nat eqn:E.
  - intro F. injection F as <-. apply Nat.eqb_eq in E as ->. now left.
  - intro F. right. auto.
Qed.

Lemma hget_iff {A} e (a : A) m : NoDup (map fst m) -> (hget e m = Some a <-> In (e, a) m).
Proof.
  intro H. split; [apply hget_In|]. induction m as [|[k b] m IH]; cbn [hget]; [intros []|].
  inversion H as [|? ? H1 H2]; subst. intros [E|E].
  - injection E as -> ->. now rewrite Nat.eqb_refl.
  - destruct (k =? e)%nat eqn:E2; [|auto]. apply Nat.eqb_eq in E2 as ->.
    exfalso. apply H1. apply in_map_iff. exists (e, a). auto.
Qed.

Lemma hget_key {A} e (m : list (nat * A)) : In e (map fst m) -> exists a, hget e m = Some a.
Proof.
  induction m as [|[k b] m IH]; cbn [hget map fst]; [intros []|].
  destruct (k =? e)%nat eqn:E; [eauto|]. intros [->|H]; [rewrite Nat.eqb_refl in E; discriminate|auto].
Qed.

(** ** Lists *)

Lemma nth_map_seq {A} (g : nat -> A) n x d : (x < n)%nat -> nth x (map g (seq 0 n)) d = g x.
Proof.
  intro H. rewrite (nth_indep _ d (g 0%nat)) by (rewrite map_length, seq_length; exact H).
  rewrite map_nth. now rewrite seq_nth.
Qed.

Lemma other_ranks_In n x y : In y (other_ranks n x) <-> (y < n)%nat /\ y <> x.
Proof.
  unfold other_ranks. rewrite filter_In, in_seq. split.
  - intros [H1 H2]. split; [lia|]. intros ->. rewrite Nat.eqb_refl in H2. discriminate.
  - intros [H1 H2]. split; [lia|]. apply Nat.eqb_neq in H2. now rewrite H2.
Qed.

Lemma other_ranks_NoDup n x : NoDup (other_ranks n x).
Proof. apply NoDup_filter, seq_NoDup. Qed.

Lemma hget_map_seq {A} (g : nat -> A) l y : In y l -> hget y (map (fun x => (x, g x)) l) = Some (g y).
Proof.
  induction l as [|a l IH]; [intros []|]. cbn [map hget].
  destruct (a =? y)%nat eqn:E; [apply Nat.eqb_eq in E as ->; reflexivity|].
  intros [->|H]; [rewrite Nat.eqb_refl in E; discriminate|auto].
Qed.

Lemma Forall2_map_left {A B C} (f : A -> B) (R : B -> C -> Prop) l l' :
  Forall2 R (map f l) l' -> Forall2 (fun a c => R (f a) c) l l'.
Proof.
  revert l'. induction l as [|a l IH]; intros l' H; inversion H; subst; constructor; auto.
Qed.
Lemma Forall2_impl_in {A B} (R S : A -> B -> Prop) l l' :
  (forall a b, In a l -> R a b -> S a b) -> Forall2 R l l' -> Forall2 S l l'.
Proof.
  intros H F. induction F as [|a b l l' Hab F IH]; constructor.
  - apply H; [now left|exact Hab].
  - apply IH. intros a' b' Hin. apply H. now right.
Qed.

Lemma NoDup_fst_unique {A} (l : list (nat * A)) e a b : NoDup (map fst l) -> In (e, a) l -> In (e, b) l -> a = b.
Proof. intros H H1 H2. apply (hget_iff e a l H) in H1. apply (hget_iff e b l H) in H2. congruence. Qed.

Lemma NoDup_app_split {A} (l l' : list A) : NoDup (l ++ l') ->
  NoDup l /\ NoDup l' /\ forall a, In a l -> ~ In a l'.
Proof.
  induction l as [|a l IH]; cbn [app]; intro H.
  - split; [constructor|]. split; [exact H|]. intros a [].
  - inversion H as [|? ? H1 H2]; subst. destruct (IH H2) as (A1 & A2 & A3). split; [|split].
    + constructor; [|exact A1]. intro F. apply H1. apply in_or_app. now left.
    + exact A2.
    + intros b [<-|Hb]; [|auto]. intro F. apply H1. apply in_or_app. now right.
Qed.

(** ** Rounds *)

Lemma rounds_of_concat {A} c (items : list (list A)) x : (1 <= c)%nat -> (x < length items)%nat ->
  concat (map (fun ch => nth x ch []) (rounds_of c items)) = nth x items [].
Proof.
  intros Hc Hx. unfold rounds_of. rewrite map_map.
  set (k := global_num_chunks (map (@length A) items) c).
  set (divided := map (divide_into_chunks k c) items).
  assert (Hin : In (nth x items []) items) by (apply nth_In; exact Hx).
  destruct (divide_rounds items c Hc _ Hin) as (D1 & D2 & _). fold k in D1, D2.
  transitivity (concat (divide_into_chunks k c (nth x items []))); [|exact D2].
  f_equal. apply nth_ext with (d := []) (d' := []).
  - now rewrite map_length, seq_length, D1.
  - rewrite map_length, seq_length. intros i Hi.
    rewrite (nth_map_seq (fun i => nth x (map (fun l => nth i l []) divided) [])) by exact Hi.
    assert (Hdl : length divided = length items) by (unfold divided; now rewrite map_length).
    rewrite (nth_indep _ [] (nth i (@nil (list A)) [])) by (rewrite map_length; lia).
    rewrite (map_nth (fun l => nth i l []) divided []).
    f_equal. unfold divided. rewrite (nth_indep _ [] (divide_into_chunks k c [])) by (rewrite map_length; exact Hx).
    apply map_nth.
Qed.
