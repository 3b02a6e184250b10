(** Proofs about the choice of the input files. *)
From Coq Require Import List String Bool Arith Permutation Lia.
Import ListNotations.
From Verif Require Import FileDist_Model FileDist_Spec FileDist_Proofs InputListing_Model InputListing_Spec.

Section Listing.
  Context {path : Type}.
  Lemma is_hdf5_true (e : dir_entry path) : is_hdf5 e = true <-> e_is_file e = true /\ e_extension e = Some "hdf5"%string.
  Proof.
    unfold is_hdf5. destruct (e_extension e) as [x|]; [|split; [discriminate|intros [_ ?]; discriminate]].
    rewrite andb_true_iff, String.eqb_eq. split; intros [A B]; split; congruence.
  Qed.
  Theorem files_exact (look : path -> place path) paths files : all_input_files look paths = Some files ->
    forall f, In f files <-> input_file look paths f.
  Proof.
    revert files. induction paths as [|p ps IH]; intros files H f; cbn in H.
    - injection H as <-. split; [intros []|intros (p & [] & _)].
    - destruct (get_files look p) as [a|] eqn:G; [|discriminate]. destruct (all_input_files look ps) as [b|] eqn:R; [|discriminate].
      injection H as <-. rewrite in_app_iff, (IH b eq_refl f). unfold get_files in G. split.
      + intros [H|(q & Q1 & Q2)]; [|exists q; split; [now right|exact Q2]]. exists p. split; [now left|]. destruct (look p) as [|l|] eqn:L; try discriminate.
        * injection G as <-. destruct H as [<-|[]]. now left.
        * injection G as <-. apply in_map_iff in H. destruct H as (e & E1 & E2). apply filter_In in E2. destruct E2 as [E2 E3].
          apply is_hdf5_true in E3. right. exists l, e. tauto.
      + intros (q & [<-|Q] & H); [left|right; now exists q]. destruct H as [[L ->]|(l & e & L & E1 & E2 & E3)].
        * rewrite L in G. injection G as <-. now left.
        * rewrite L in G. injection G as <-. apply in_map_iff. exists e. split; [exact E2|]. apply filter_In. split; [exact E1|]. now apply is_hdf5_true.
  Qed.

  Lemma filter_perm {B} (f : B -> bool) l m : Permutation l m -> Permutation (filter f l) (filter f m).
  Proof.
    induction 1 as [|x l m P IH|x y l|l m n P1 IH1 P2 IH2]; cbn.
    - constructor.
    - destruct (f x); [now constructor|exact IH].
    - destruct (f x), (f y); try constructor; apply Permutation_refl.
    - eapply Permutation_trans; eassumption.
  Qed.
  Lemma files_perm (look look' : path -> place path) paths : (forall p, same_but_order (look p) (look' p)) ->
    match all_input_files look paths, all_input_files look' paths with
    | Some a, Some b => Permutation a b
    | None, None => True
    | _, _ => False
    end.
  Proof.
    intro S. induction paths as [|p ps IH]; cbn; [constructor|].
    assert (G : match get_files look p, get_files look' p with Some a, Some b => Permutation a b | None, None => True | _, _ => False end).
    { unfold get_files. specialize (S p). destruct (look p), (look' p); cbn in *; try tauto; [apply Permutation_refl|].
      apply Permutation_map, filter_perm, S. }
    destruct (get_files look p), (get_files look' p); try tauto;
      destruct (all_input_files look ps), (all_input_files look' ps); try tauto. now apply Permutation_app.
  Qed.

  Theorem same_listing (A : Type) (look : path -> place path) paths files (content : path -> list A) n :
    all_input_files look paths = Some files -> 1 <= n ->
    read_by_all (read_input look paths content n) n (flat_map content files).
  Proof.
    intros H N. destruct (read_partition (map content files) n 1 N (le_n 1)) as (outs & L & C & R). exists outs.
    split; [exact L|]. split; [rewrite C; symmetry; apply flat_map_concat_map|]. intros r Hr. destruct (R r Hr) as (out & O1 & O2 & _).
    unfold read_input. rewrite H, O1. exact O2.
  Qed.
  Lemma flat_map_perm {A} (content : path -> list A) l m : Permutation l m -> Permutation (flat_map content l) (flat_map content m).
  Proof.
    induction 1 as [|x l m P IH|x y l|l m n P1 IH1 P2 IH2]; cbn.
    - constructor.
    - now apply Permutation_app_head.
    - rewrite !app_assoc. apply Permutation_app_tail, Permutation_app_comm.
    - eapply Permutation_trans; eassumption.
  Qed.
  Theorem order_irrelevant (A : Type) (look look' : path -> place path) paths files (content : path -> list A) n :
    all_input_files look paths = Some files -> (forall p, same_but_order (look p) (look' p)) -> 1 <= n ->
    exists all all', read_by_all (read_input look paths content n) n all /\ read_by_all (read_input look' paths content n) n all' /\ Permutation all all'.
  Proof.
    intros H S N. pose proof (files_perm look look' paths S) as P. rewrite H in P.
    destruct (all_input_files look' paths) as [files'|] eqn:H'; [|tauto].
    exists (flat_map content files), (flat_map content files'). split; [now apply same_listing|]. split; [now apply same_listing|]. now apply flat_map_perm.
  Qed.

  (** Reading commutes with functions of the entries. *)
  Lemma read_slice_map {A B} (f : A -> B) s r : read_slice (map f s) r = option_map (map f) (read_slice s r).
  Proof.
    destruct r as [a b]. unfold read_slice. rewrite map_length. destruct ((a <=? b) && (b <=? List.length s)); [|reflexivity].
    cbn. now rewrite skipn_map, firstn_map.
  Qed.
  Lemma read_slices_map {A B} (f : A -> B) s rs : read_slices (map f s) rs = option_map (map f) (read_slices s rs).
  Proof.
    induction rs as [|r rs IH]; [reflexivity|]. cbn [read_slices]. rewrite read_slice_map, IH.
    destruct (read_slice s r), (read_slices s rs); cbn; try reflexivity. now rewrite map_app.
  Qed.
  Lemma read_region_map {A B} (f : A -> B) fs c r : read_region_chunked (map (map f) fs) c r = option_map (map f) (read_region_chunked fs c r).
  Proof.
    unfold read_region_chunked. rewrite nth_error_map. destruct (nth_error fs (r_file r)); cbn; [|reflexivity].
    destruct (get_chunk_sizes r c); [apply read_slices_map|reflexivity].
  Qed.
  Lemma read_regions_map {A B} (f : A -> B) fs size rs : read_regions (map (map f) fs) size rs = option_map (map f) (read_regions fs size rs).
  Proof.
    induction rs as [|r rs IH]; [reflexivity|]. cbn [read_regions]. destruct (size r); [|reflexivity]. rewrite read_region_map, IH.
    destruct (read_region_chunked fs n r), (read_regions fs size rs); cbn; try reflexivity. now rewrite map_app.
  Qed.
  Theorem rows_together (A B : Type) (f : A -> B) (look : path -> place path) paths content n rank :
    read_input look paths (fun p => map f (content p)) n rank = option_map (map f) (read_input look paths content n rank).
  Proof.
    unfold read_input. destruct (all_input_files look paths) as [files|]; [|reflexivity]. unfold read_dataset.
    assert (E : map (@List.length B) (map (fun p => map f (content p)) files) = map (@List.length A) (map content files)).
    { rewrite !map_map. apply map_ext. intro p. apply map_length. }
    rewrite E. destruct (get_rank_input_assignment_for_rank _ n rank) as [rs|]; [|reflexivity].
    rewrite <- (map_map content (map f)). apply read_regions_map.
  Qed.
End Listing.

(** Two ranks and a directory with two files of one entry. *)
Definition two_files (swapped : bool) (p : nat) : place nat :=
  match p with
  | 0 => let a := mkEntry 1 (Some "hdf5"%string) true in let b := mkEntry 2 (Some "hdf5"%string) true in
         let c := mkEntry 3 (Some "txt"%string) true in
         Directory (if swapped then [b; c; a] else [a; b; c])
  | S _ => File
  end.
Theorem orders_differ : exists (looks : nat -> nat -> place nat) (content : nat -> list nat) num_ranks,
  (forall r r' p, same_but_order (looks r p) (looks r' p)) /\
  exists lost, (exists f, input_file (looks 0) [0] f /\ In lost (content f)) /\
  forall rank, rank < num_ranks -> exists out, read_input (looks rank) [0] content num_ranks rank = Some out /\ ~ In lost out.
Proof.
  exists (fun r => two_files (r =? 1)), (fun f => [f]), 2. split.
  { intros r r' [|p]; cbn; [|exact I]. destruct (r =? 1), (r' =? 1); cbn; try apply Permutation_refl.
    - apply Permutation_sym. eapply perm_trans; [apply perm_swap|]. apply perm_skip, perm_swap.
    - eapply perm_trans; [apply perm_swap|]. apply perm_skip, perm_swap. }
  exists 2. split.
  { exists 2. split; [|now left]. exists 0. split; [now left|]. right. eexists. eexists. split; [reflexivity|]. split; [right; left; reflexivity|]. repeat split. }
  intros [|[|r]] H; [| |lia]; eexists; (split; [vm_compute; reflexivity|]); intros [?|[]]; discriminate.
Qed.
