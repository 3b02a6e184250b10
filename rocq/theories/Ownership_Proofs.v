(** Ownership of the particles of a box: the keys of peano_hilbert.rs in the
    decomposition. *)
From Coq Require Import List Arith NArith QArith Lia Permutation.
Import ListNotations.
From Verif Require Import Hilbert_Model Hilbert_Spec Hilbert_Curve Hilbert_Proofs.
From Verif Require Import Decomp_Model Decomp_Spec Decomp_Proofs.
Local Open Scope N_scope.

Lemma particles_owned : forall (P : Type) (key : P -> N) (inside : P -> Prop) kmax
    (points : list (list P)) maxd n cuts loads keys,
  (forall p, inside p -> key p < kmax) ->
  (forall p, In p (concat points) -> inside p) ->
  Forall2 (fun ks ps => Permutation ks (map key ps)) keys points ->
  decompose kmax maxd keys n = Some (cuts, loads) ->
  forall p, In p (concat points) -> interval_ownership (owning_rank cuts) n (key p).
Proof.
  intros P key inside kmax points maxd n cuts loads keys Hlt Hin Hkeys Hdec.
  assert (Hk : forall k, In k (concat keys) <-> exists p, In p (concat points) /\ k = key p).
  { clear Hdec Hin. induction Hkeys as [|ks ps keys points H Hk IH].
    - cbn. intro k. split; [tauto|intros (p & [] & _)].
    - intro k. cbn [concat]. rewrite in_app_iff, IH. split.
      + intros [H1|(p & H1 & H2)].
        * apply (Permutation_in _ H) in H1. apply in_map_iff in H1.
          destruct H1 as (p & H2 & H3). exists p. rewrite in_app_iff. auto.
        * exists p. rewrite in_app_iff. auto.
      + intros (p & H1 & H2). rewrite in_app_iff in H1. destruct H1 as [H1|H1].
        * left. apply (Permutation_in _ (Permutation_sym H)). subst k. apply in_map. exact H1.
        * right. eauto. }
  assert (Hl : forall k, In k (concat keys) -> k < kmax).
  { intros k H. apply Hk in H. destruct H as (p & Hp & ->). auto. }
  destruct (decompose_owner' kmax maxd keys n cuts loads Hl Hdec) as [_ Ho].
  intros p Hp. apply Ho. apply Hk. eauto.
Qed.

Definition inside_2d (mn mx p : Q * Q) : Prop :=
  inside1 (fst mn) (fst mx) (fst p) /\ inside1 (snd mn) (snd mx) (snd p).
Definition inside_3d (mn mx p : Q * Q * Q) : Prop :=
  inside_2d (fst mn) (fst mx) (fst p) /\ inside1 (snd mn) (snd mx) (snd p).

Lemma particles_owned_2d :
  forall mn mx (points : list (list (Q * Q))) maxd n cuts loads keys,
  (forall p, In p (concat points) -> inside_2d mn mx p) ->
  Forall2 (fun ks ps => Permutation ks (map (point_key_2d bits_2d mn mx) ps)) keys points ->
  decompose kmax_2d maxd keys n = Some (cuts, loads) ->
  forall p, In p (concat points) ->
  interval_ownership (owning_rank cuts) n (point_key_2d bits_2d mn mx p).
Proof.
  intros mn mx points maxd n cuts loads keys Hin.
  apply (particles_owned _ (point_key_2d bits_2d mn mx) (inside_2d mn mx)); auto.
  intros p [A B]. apply (point_key_2d_range bits_2d mn mx p); auto. unfold bits_2d. lia.
Qed.

Lemma particles_owned_3d :
  forall mn mx (points : list (list (Q * Q * Q))) maxd n cuts loads keys,
  (forall p, In p (concat points) -> inside_3d mn mx p) ->
  Forall2 (fun ks ps => Permutation ks (map (point_key_3d bits_3d mn mx) ps)) keys points ->
  decompose kmax_3d maxd keys n = Some (cuts, loads) ->
  forall p, In p (concat points) ->
  interval_ownership (owning_rank cuts) n (point_key_3d bits_3d mn mx p).
Proof.
  intros mn mx points maxd n cuts loads keys Hin.
  apply (particles_owned _ (point_key_3d bits_3d mn mx) (inside_3d mn mx)); auto.
  intros p [[A B] C]. eapply N.lt_trans; [apply (point_key_3d_range bits_3d mn mx p); auto; unfold bits_3d; lia|].
  vm_compute. reflexivity.
Qed.
