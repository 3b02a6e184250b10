(** The iteration over a tree ends within a number of steps that depends on the tree alone, not on which nodes
    are visited and which particles are selected. *)
From Coq Require Import List Arith QArith Lia Bool.
Import ListNotations.
From Verif Require Import Box_Model Box_Spec Tree_Model Tree_Spec Tree_Proofs.
Local Open Scope nat_scope.

Section Generic.
Variables E L : Type.
Variable K : nat.
Hypothesis K_pos : 0 < K.
Local Notation T := (tree E L).
Fixpoint size (t : T) : nat :=
  match t with
  | Leaf _ _ l => S (length l)
  | Node _ _ ch => S (S (fold_right Nat.add 0 (map size ch)))
  end.
Definition sizes (l : list T) : nat := fold_right Nat.add 0 (map size l).

Section Iterate.
Variable visit : T -> bool.
Variable include : L -> bool.
Local Notation it := (iterate E L visit include K).
Local Notation found := (found E L visit include).
Local Notation resume := (resume E L K visit include).
Local Notation prepend := (prepend L).
Local Notation full := (full E L K).

Lemma tree_run : forall t, full t -> forall pos rest, exists n, n <= size t /\ forall f,
  it (n + f) (new_item E L visit t pos :: rest, 0)
  = prepend (found t) (resume f (leave_node E L visit K pos rest 0)).
Proof.
  induction t as [e d l|e d ch IH] using (tree_ind' E L); intros Hf pos rest.
  - unfold new_item. cbn [found]. destruct (visit (Leaf e d l)) eqn:Hv.
    + exists (S (length l)). split; [cbn [size]; lia|]. intro f. pose proof (leaf_run E L K K_pos visit include e d l pos rest 0 f ltac:(lia)) as R.
      rewrite Nat.sub_0_r in R. exact R.
    + exists 1. split; [cbn [size]; lia|]. intro f. cbn [Nat.add]. rewrite iterate_S, prepend_nil. reflexivity.
  - inversion Hf as [|e1 d1 ch1 Hlen Hfull]; subst e1 d1 ch1. unfold new_item. cbn [found].
    destruct (visit (Node e d ch)) eqn:Hv.
    2: { exists 1. split; [cbn [size]; lia|]. intro f. cbn [Nat.add]. rewrite iterate_S, prepend_nil. reflexivity. }
    set (t := Node e d ch) in *.
    (* all children from the i-th on *)
    assert (HC : forall suffix i c, nth_error ch i = Some c -> suffix = skipn i ch -> exists n, n <= S (sizes suffix) /\ forall f,
      it (n + f) (new_item E L visit c i :: (t, pos, false) :: rest, 0)
      = prepend (flat_map found suffix) (resume f (leave_node E L visit K pos rest 0))).
    { induction suffix as [|c0 suffix IHs]; intros i c Hn Hs.
      - exfalso. assert (length (skipn i ch) = 0) by (rewrite <- Hs; reflexivity).
        rewrite skipn_length in H. assert (i < length ch) by (apply nth_error_Some; congruence). lia.
      - assert (Hc0 : c0 = c /\ suffix = skipn (S i) ch).
        { clear - Hn Hs. revert i Hn Hs. induction ch as [|y l IHl]; intros [|i] Hn Hs; try discriminate.
          - cbn in *. inversion Hs; subst. split; congruence.
          - cbn in Hn, Hs. destruct (IHl i Hn Hs) as [A B]. split; [exact A|]. exact B. }
        destruct Hc0 as [-> Hs']. assert (Hin : In c ch) by (eapply nth_error_In; eauto).
        rewrite Forall_forall in IH, Hfull.
        destruct (IH c Hin (Hfull c Hin) i ((t, pos, false) :: rest)) as (n1 & L1 & R1).
        destruct (nth_error ch (S i)) as [c1|] eqn:Hn1.
        + destruct (IHs (S i) c1 Hn1 Hs') as (n2 & L2 & R2). exists (n1 + n2). split; [unfold sizes in L2 |- *; cbn [map fold_right]; lia|]. intro f.
          rewrite <- Nat.add_assoc, R1. cbn [leave_node].
          assert (Hlt : S i < length ch) by (apply nth_error_Some; congruence).
          rewrite Hlen in Hlt. apply Nat.ltb_lt in Hlt. rewrite Hlt. unfold t at 1. rewrite Hn1.
          cbn [resume]. rewrite R2, prepend_app. reflexivity.
        + exists (n1 + 1). split; [unfold sizes; cbn [map fold_right]; lia|]. intro f. rewrite <- Nat.add_assoc, R1. cbn [leave_node].
          assert (Hge : length ch <= S i) by (apply nth_error_None; exact Hn1).
          rewrite Hlen in Hge. apply Nat.ltb_ge in Hge. rewrite Hge. cbn [resume Nat.add].
          rewrite iterate_S. cbn [iter_step goto_next_node]. 
          assert (suffix = []) as ->. { rewrite Hs'. apply skipn_all2. apply nth_error_None; exact Hn1. }
          cbn [flat_map]. rewrite app_nil_r. unfold t. cbn [iter_step goto_next_node].
          reflexivity. }
    destruct ch as [|c0 ch0]; [cbn in Hlen; lia|].
    destruct (HC (c0 :: ch0) 0 c0 eq_refl eq_refl) as (n & L0 & R).
    exists (S n). split; [unfold t; cbn [size]; unfold sizes in L0; lia|]. intro f. cbn [Nat.add]. rewrite iterate_S. unfold t at 1.
    cbn [iter_step goto_next_node nth_error resume]. fold t. rewrite R. reflexivity.
Qed.


Lemma iterate_within : forall t fuel, full t -> size t <= fuel -> it fuel (iter_start E L visit t) <> None.
Proof.
  intros t fuel Hf Hn. destruct (tree_run t Hf 0 []) as (n & Ln & R).
  replace fuel with (n + (fuel - n)) by lia. unfold iter_start. rewrite R. cbn. discriminate.
Qed.
End Iterate.
End Generic.
