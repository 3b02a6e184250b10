(** Proofs about the sources read from the initial conditions. *)
From Coq Require Import List Arith QArith Lia.
From Verif Require Import FileDist_Model FileDist_Spec FileDist_Proofs
  Bpass_Model Bpass_Proofs Sources_Model StarSources_Model StartUp_Spec.
Import ListNotations.
Open Scope nat_scope.

(** The share of one rank depends on the number of entries only. *)
Definition share (total num_ranks rank : nat) : nat :=
  if S rank <? num_ranks then total / num_ranks
  else total - total / num_ranks * (num_ranks - 1).

Lemma list_sum_lengths {A} (files : list (list A)) :
  list_sum (map (@length A) files) = length (concat files).
Proof.
  induction files as [|f files IH]; simpl; [reflexivity|].
  rewrite app_length, IH. reflexivity.
Qed.

Lemma read_shares {A} (files : list (list A)) num_ranks : 1 <= num_ranks ->
  exists outs, length outs = num_ranks /\ concat outs = concat files
    /\ forall rank, rank < num_ranks -> exists out,
         nth_error outs rank = Some out
         /\ read_dataset files num_ranks rank = Some out
         /\ length out = share (length (concat files)) num_ranks rank.
Proof.
  intros Hn.
  destruct (input_assignment_partition (map (@length A) files) num_ranks Hn)
    as (asg & A1 & A2 & A3 & A4 & A5).
  assert (Hasg : Forall (Forall (region_ok (map (@length A) files))) asg).
  { apply Forall_forall. intros rs Hin. apply In_nth_error in Hin.
    destruct Hin as (k & Hk). eauto. }
  destruct (read_all_ranks files region_size asg Hasg) as (outs & L & O1 & O2).
  { intros r (Hlt & _). exists (r_end r - r_start r). split; [|lia].
    unfold region_size. apply usub_some. lia. }
  exists outs. split; [congruence|]. split.
  { apply map_Some_inj. rewrite O2, A3. apply value_at_all. }
  intros rank Hr. destruct (nth_error asg rank) as [rs|] eqn:Hk.
  2:{ apply nth_error_None in Hk. lia. }
  destruct (O1 _ _ Hk) as (out & Ho & Hread & Hlen).
  exists out. split; [exact Ho|]. split.
  - unfold read_dataset, get_rank_input_assignment_for_rank. rewrite A1, Hk. exact Hread.
  - rewrite Hlen, (A5 _ _ Hk), list_sum_lengths. reflexivity.
Qed.

Lemma nth_error_ext_len {A} (xs ys : list A) : length xs = length ys ->
  (forall k, k < length xs -> nth_error xs k = nth_error ys k) -> xs = ys.
Proof.
  revert ys. induction xs as [|x xs IH]; intros [|y ys] L H; try easy.
  pose proof (H 0 ltac:(simpl; lia)) as H0. injection H0 as ->. f_equal.
  apply IH; [simpl in L; lia|]. intros k Hk. apply (H (S k)). simpl. lia.
Qed.

(** Cutting a list into pieces of given lengths. *)
Lemma same_pieces {A B} (f : A -> B) (l : list A) (pieces : list (list B)) :
  concat pieces = map f l ->
  exists parts, concat parts = l /\ map (map f) parts = pieces.
Proof.
  revert l. induction pieces as [|p pieces IH]; intros l H; simpl in H.
  - destruct l; [|easy]. exists []. easy.
  - assert (E : map f l = map f (firstn (length p) l ++ skipn (length p) l))
      by (rewrite firstn_skipn; reflexivity).
    assert (P1 : map f (firstn (length p) l) = p).
    { rewrite <- firstn_map, <- H, firstn_app, Nat.sub_diag, firstn_all. simpl.
      apply app_nil_r. }
    assert (P2 : map f (skipn (length p) l) = concat pieces).
    { rewrite <- skipn_map, <- H, skipn_app, Nat.sub_diag, skipn_all. reflexivity. }
    destruct (IH _ (eq_sym P2)) as (parts & C1 & C2).
    exists (firstn (length p) l :: parts). simpl. rewrite C1, C2, P1.
    split; [apply firstn_skipn|reflexivity].
Qed.

Lemma concat_same {A} (xs ys : list (list A)) :
  concat xs = concat ys -> map (@length A) xs = map (@length A) ys -> xs = ys.
Proof.
  revert ys. induction xs as [|x xs IH]; intros [|y ys] H L; try easy.
  simpl in *. injection L as L1 L2.
  destruct (app_eq_app _ _ _ _ H) as (m & [[E1 E2]|[E1 E2]]); subst.
  - rewrite app_length in L1. destruct m; [|simpl in L1; lia].
    rewrite app_nil_r in *. simpl in E2. f_equal. apply IH; congruence.
  - rewrite app_length in L1. destruct m; [|simpl in L1; lia].
    rewrite app_nil_r in *. simpl in E2. f_equal. apply IH; congruence.
Qed.

(** The pieces of one property of the stars. *)
Lemma read_pieces {A B} (f : A -> B) (stars : list A) (files : list (list B))
    num_ranks : 1 <= num_ranks -> concat files = map f stars ->
  exists parts, length parts = num_ranks /\ concat parts = stars
    /\ map (@length A) parts = map (share (length stars) num_ranks) (seq 0 num_ranks)
    /\ forall rank part, nth_error parts rank = Some part ->
         read_dataset files num_ranks rank = Some (map f part).
Proof.
  intros Hn Hf. destruct (read_shares files num_ranks Hn) as (outs & L & C & R).
  rewrite Hf in C. destruct (same_pieces f stars outs C) as (parts & P1 & P2).
  assert (Lp : length parts = num_ranks).
  { rewrite <- L, <- P2, map_length. reflexivity. }
  assert (N : forall rank part, nth_error parts rank = Some part ->
     nth_error outs rank = Some (map f part)).
  { intros rank part H. rewrite <- P2. apply map_nth_error. exact H. }
  assert (Hs : length (concat files) = length stars)
    by (rewrite Hf; apply map_length).
  exists parts. split; [exact Lp|]. split; [exact P1|]. split.
  - apply nth_error_ext_len; [rewrite !map_length, seq_length; exact Lp|].
    intros k. rewrite map_length. intros Hk.
    destruct (nth_error parts k) as [part|] eqn:E; [|apply nth_error_None in E; lia].
    rewrite (map_nth_error _ _ _ E).
    assert (Hk' : k < num_ranks) by lia.
    destruct (R k Hk') as (out & R1 & R2 & R3).
    rewrite (N _ _ E) in R1. injection R1 as <-. rewrite map_length, Hs in R3.
    symmetry. rewrite R3. apply map_nth_error.
    rewrite (nth_error_nth' _ 0) by (rewrite seq_length; lia).
    rewrite seq_nth by lia. reflexivity.
  - intros rank part E. assert (Hk : rank < num_ranks).
    { rewrite <- Lp. apply nth_error_Some. congruence. }
    destruct (R rank Hk) as (out & R1 & R2 & _). rewrite (N _ _ E) in R1. congruence.
Qed.

Section Stars.
  Variable age : Q -> option Q.
  Variable escape : Q.

  Lemma formed_test (st : star) : formed st = negb (Qle_bool (st_scale st) 0).
  Proof.
    unfold formed. destruct (Qlt_le_dec 0 (st_scale st)) as [H|H].
    - destruct (Qle_bool (st_scale st) 0) eqn:E; [|reflexivity].
      apply Qle_bool_iff in E. exfalso. apply (Qlt_not_le _ _ H E).
    - apply Qle_bool_iff in H. rewrite H. reflexivity.
  Qed.

  Lemma zip_good (part : list star) :
    (forall st, In st part -> formed st = true -> exists s, source_of age escape st s) ->
    exists out, zip_sources age escape (map st_pos part) (map st_metallicity part)
                  (map st_scale part) (map st_mass part) = Some out
      /\ Forall2 (source_of age escape) (filter formed part) out.
  Proof.
    induction part as [|st part IH]; intros H; simpl; [exists []; split; [reflexivity|constructor]|].
    destruct IH as (out & O1 & O2). { intros; apply H; simpl; auto. }
    rewrite formed_test. destruct (negb (Qle_bool (st_scale st) 0)) eqn:E.
    - destruct (H st (or_introl eq_refl)) as (s & E1 & a & r & E2 & E3 & E4).
      { rewrite formed_test. exact E. }
      unfold new_bpass_source. rewrite E2, E3, O1.
      eexists. split; [reflexivity|]. constructor; [|exact O2].
      split; [reflexivity|]. exists a, r. split; [exact E2|]. split; [exact E3|]. reflexivity.
    - exists out. split; assumption.
  Qed.

  Lemma zip_bad (part : list star) st : In st part -> formed st = true ->
    age (st_scale st) = None ->
    zip_sources age escape (map st_pos part) (map st_metallicity part)
      (map st_scale part) (map st_mass part) = None.
  Proof.
    intros Hin Hf Ha. induction part as [|st' part IH]; [destruct Hin|]. simpl.
    destruct Hin as [->|Hin].
    - rewrite formed_test in Hf. rewrite Hf. unfold new_bpass_source. rewrite Ha. reflexivity.
    - rewrite (IH Hin). destruct (negb _); [|reflexivity]. destruct (new_bpass_source _ _ _ _ _ _); reflexivity.
  Qed.

  Lemma read_parts stars fp fz fa fm num_ranks : 1 <= num_ranks ->
    concat fp = map st_pos stars -> concat fz = map st_metallicity stars ->
    concat fa = map st_scale stars -> concat fm = map st_mass stars ->
    exists parts, length parts = num_ranks /\ concat parts = stars
      /\ forall rank part, nth_error parts rank = Some part ->
         read_sources age escape fp fz fa fm num_ranks rank
         = zip_sources age escape (map st_pos part) (map st_metallicity part)
                  (map st_scale part) (map st_mass part).
  Proof.
    intros Hn Hp Hz Ha Hm.
    destruct (read_pieces st_pos stars fp num_ranks Hn Hp) as (p1 & L1 & C1 & S1 & R1).
    destruct (read_pieces st_metallicity stars fz num_ranks Hn Hz) as (p2 & L2 & C2 & S2 & R2).
    destruct (read_pieces st_scale stars fa num_ranks Hn Ha) as (p3 & L3 & C3 & S3 & R3).
    destruct (read_pieces st_mass stars fm num_ranks Hn Hm) as (p4 & L4 & C4 & S4 & R4).
    assert (p2 = p1) by (apply concat_same; congruence).
    assert (p3 = p1) by (apply concat_same; congruence).
    assert (p4 = p1) by (apply concat_same; congruence). subst p2 p3 p4.
    exists p1. split; [exact L1|]. split; [exact C1|].
    intros rank part E. unfold read_sources.
    rewrite (R1 _ _ E), (R2 _ _ E), (R3 _ _ E), (R4 _ _ E). reflexivity.
  Qed.

  Lemma all_parts (parts : list (list star)) (f : list star -> option (list source)) :
    (forall part, In part parts -> exists out, f part = Some out
       /\ Forall2 (source_of age escape) (filter formed part) out) ->
    exists outs, length outs = length parts
      /\ (forall rank part, nth_error parts rank = Some part ->
            exists out, nth_error outs rank = Some out /\ f part = Some out)
      /\ Forall2 (source_of age escape) (filter formed (concat parts)) (concat outs).
  Proof.
    induction parts as [|part parts IH]; intros H.
    - exists []. split; [reflexivity|]. split; [intros [|k] ? ?; easy|constructor].
    - destruct IH as (outs & L & N & F). { intros; apply H; simpl; auto. }
      destruct (H part (or_introl eq_refl)) as (out & O1 & O2).
      exists (out :: outs). split; [simpl; congruence|]. split.
      + intros [|k] p E; simpl in *; [injection E as <-; eauto|eauto].
      + simpl. assert (X : forall a b : list star, filter formed (a ++ b) = filter formed a ++ filter formed b).
        { induction a as [|z a IHa]; intros b; simpl; [reflexivity|].
          rewrite IHa. destruct (formed z); reflexivity. }
        rewrite X. apply Forall2_app; assumption.
  Qed.

  Lemma read_sources_spec stars fp fz fa fm num_ranks : 1 <= num_ranks ->
    concat fp = map st_pos stars -> concat fz = map st_metallicity stars ->
    concat fa = map st_scale stars -> concat fm = map st_mass stars ->
    (forall st, In st stars -> formed st = true -> age (st_scale st) <> None) ->
    exists outs, length outs = num_ranks
      /\ (forall rank, rank < num_ranks -> exists out,
            nth_error outs rank = Some out
            /\ read_sources age escape fp fz fa fm num_ranks rank = Some out)
      /\ Forall2 (source_of age escape) (filter formed stars) (concat outs).
  Proof.
    intros Hn Hp Hz Ha Hm Hage.
    destruct (read_parts stars fp fz fa fm num_ranks Hn Hp Hz Ha Hm) as (parts & L & C & R).
    destruct (all_parts parts (fun part => zip_sources age escape (map st_pos part)
        (map st_metallicity part) (map st_scale part) (map st_mass part))) as (outs & L' & N & F).
    { intros part Hin. apply zip_good. intros st Hst Hf.
      assert (Hs : In st stars). { rewrite <- C. apply in_concat. eauto. }
      specialize (Hage st Hs Hf). destruct (age (st_scale st)) as [a|] eqn:E; [|easy].
      destruct (Bpass_Proofs.bpass_spec a (st_metallicity st) (st_mass st))
        as (a' & m' & i & j & v & _ & _ & _ & _ & B & _).
      exists (Source (st_pos st) (v * st_mass st * escape)%Q). split; [reflexivity|].
      exists a, (v * st_mass st)%Q. split; [exact E|]. split; [exact B|]. reflexivity. }
    exists outs. split; [congruence|]. split.
    - intros rank Hr. destruct (nth_error parts rank) as [part|] eqn:E.
      2:{ apply nth_error_None in E. lia. }
      destruct (N _ _ E) as (out & N1 & N2). exists out. split; [exact N1|].
      rewrite (R _ _ E). exact N2.
    - rewrite <- C. exact F.
  Qed.

  Lemma read_sources_panics stars fp fz fa fm num_ranks st : 1 <= num_ranks ->
    concat fp = map st_pos stars -> concat fz = map st_metallicity stars ->
    concat fa = map st_scale stars -> concat fm = map st_mass stars ->
    In st stars -> formed st = true -> age (st_scale st) = None ->
    exists rank, rank < num_ranks
      /\ read_sources age escape fp fz fa fm num_ranks rank = None.
  Proof.
    intros Hn Hp Hz Ha Hm Hin Hf Hage.
    destruct (read_parts stars fp fz fa fm num_ranks Hn Hp Hz Ha Hm) as (parts & L & C & R).
    rewrite <- C in Hin. apply in_concat in Hin. destruct Hin as (part & P1 & P2).
    apply In_nth_error in P1. destruct P1 as (k & Hk).
    exists k. split; [rewrite <- L; apply nth_error_Some; congruence|].
    rewrite (R _ _ Hk). eapply zip_bad; eassumption.
  Qed.
End Stars.
