(** The specified values exist when no cell is downwind of itself; hence all
    finished executions agree. *)
From Coq Require Import List Arith Bool Lia Permutation QArith Qcanon.
From Verif Require Import Sweep_Model Sweep_Spec Sweep_Util Sweep_Local Sweep_Inv Sweep_Count
  Sweep_Steps Sweep_Steps2 Sweep_Steps3 Sweep_Safety Sweep_Value Sweep_Value2.
Import ListNotations.
Local Open Scope nat_scope.

Section Exists.
  Variable G : config.
  Hypothesis HG : consistent G.
  Variable P : pid -> nat -> Qc.

  Section OneSweep.
    Variable cur : nat.
    Variables I O : pid -> nat -> Qc.
    Variable X : pid -> list Qc.

    Definition In' (O' : pid -> nat -> Qc) (c : pid) (d : nat) : Qc :=
      if cur <=? lev G c then Qcmax0 (I c d + received G cur O O' c d)%Qc
      else (I c d + received G cur O O' c d)%Qc.
    Definition F (O' : pid -> nat -> Qc) (c : pid) (d : nat) : Qc :=
      if cur <=? lev G c then resp G c (X c) (rate_of G (In' O') P c d) else O c d.
    Fixpoint iter (n : nat) : pid -> nat -> Qc :=
      match n with 0 => O | S n => F (iter n) end.

    Variable ord : nat -> pid -> nat.
    Hypothesis Hord : forall c p f d, In c (cells G) -> In f (faces G c) -> d < ndirs G ->
        downwind f d = true -> face_to p f = true ->
        cur <= lev G c -> cur <= lev G p -> ord d c < ord d p.

    Lemma received_ext : forall A B c d, d < ndirs G -> (cur <=? lev G c) = true ->
      (forall j, In j (cells G) -> cur <= lev G j -> ord d j < ord d c -> A j d = B j d) ->
      received G cur O A c d = received G cur O B c d.
    Proof.
      intros A B c d Hd Hc H. unfold received. apply Qcsum_map_ext. intros j Hj.
      destruct (Nat.leb_spec cur (lev G j)) as [Hl|]; [|reflexivity].
      apply Qcsum_map_ext. intros f Hf.
      destruct (downwind f d) eqn:Hdw; [|reflexivity]. cbn [andb].
      destruct (reaches G cur c f) eqn:Hre; [|reflexivity].
      rewrite H; auto. apply (Hord j c f d); auto.
      - unfold reaches in Hre. unfold face_to. destruct (f_nb f); try discriminate; auto.
        apply andb_true_iff in Hre. tauto.
      - apply Nat.leb_le; auto.
    Qed.

    Lemma iter_stable : forall n c d, d < ndirs G -> ord d c < n -> iter n c d = iter (S n) c d.
    Proof.
      induction n as [|n IH]; intros c d Hd Hn; [lia|].
      change (F (iter n) c d = F (iter (S n)) c d). unfold F. destruct (cur <=? lev G c) eqn:E; [|reflexivity].
      f_equal. unfold rate_of, In'. rewrite E. do 4 f_equal.
      apply received_ext; auto. intros j Hj Hl Ho. apply IH; auto. lia.
    Qed.

    Lemma bound : exists N, forall c d, In c (cells G) -> d < ndirs G -> ord d c < N.
    Proof.
      exists (S (list_sum (map (fun c => list_sum (map (fun d => ord d c) (seq 0 (ndirs G)))) (cells G)))).
      intros c d Hc Hd. apply le_n_S.
      etransitivity; [|apply (list_sum_in _ (fun c => list_sum (map (fun d => ord d c) (seq 0 (ndirs G)))) _ _ Hc)].
      apply (list_sum_in _ (fun d => ord d c)). apply in_seq. lia.
    Qed.

    Lemma fixpoint : exists O', forall c d, In c (cells G) -> d < ndirs G -> O' c d = F O' c d.
    Proof.
      destruct bound as (N & HN). exists (iter N). intros c d Hc Hd.
      apply (iter_stable N c d Hd). auto.
    Qed.
  End OneSweep.

  Hypothesis HA : acyclic G.

  Lemma prefix_solution : forall i o x n, exists I O X,
    I 0 = i /\ O 0 = o /\ X 0 = x /\
    forall e cur, e < n -> nth_error (sweeps G) e = Some cur ->
      (forall c d, In c (cells G) -> d < ndirs G ->
        I (S e) c d = (if cur <=? lev G c then Qcmax0 (I e c d + received G cur (O e) (O (S e)) c d)%Qc
                      else (I e c d + received G cur (O e) (O (S e)) c d)%Qc) /\
        O (S e) c d = if cur <=? lev G c then resp G c (X e c) (rate_of G (I (S e)) P c d) else O e c d) /\
      (forall c, In c (cells G) ->
        X (S e) c = if cur <=? lev G c
                    then chemup G c (X e c) (Qcsum (map (rate_of G (I (S e)) P c) (seq 0 (ndirs G))))
                    else X e c).
  Proof.
    intros i o x. induction n as [|n (I & O & X & H1 & H2 & H3 & H)].
    - exists (fun _ => i), (fun _ => o), (fun _ => x). repeat split; try lia.
    - destruct (nth_error (sweeps G) n) as [cn|] eqn:En.
      + destruct (HA cn) as (ord & Hord); [apply nth_error_In in En; auto|].
        destruct (fixpoint cn (I n) (O n) (X n) ord Hord) as (O' & HO').
        set (I' := In' cn (I n) (O n) O').
        set (X' := fun c => if cn <=? lev G c
                    then chemup G c (X n c) (Qcsum (map (rate_of G I' P c) (seq 0 (ndirs G))))
                    else X n c).
        exists (fun e => if e <=? n then I e else I'), (fun e => if e <=? n then O e else O'),
               (fun e => if e <=? n then X e else X').
        repeat (split; [assumption|]). intros e cur Hlt He.
        rewrite (proj2 (Nat.leb_le e n)) by lia.
        destruct (Nat.eq_dec e n) as [->|Hne].
        * rewrite En in He. injection He as <-. rewrite (proj2 (Nat.leb_gt (S n) n)) by lia. split.
          -- intros c d Hc Hd. split; [reflexivity|]. rewrite (HO' c d Hc Hd) at 1. reflexivity.
          -- intros c Hc. reflexivity.
        * rewrite (proj2 (Nat.leb_le (S e) n)) by lia. apply H; [lia|auto].
      + exists I, O, X. repeat (split; [assumption|]). intros e cur Hlt He.
        apply H; auto. destruct (Nat.eq_dec e n) as [->|]; [congruence|lia].
  Qed.

  Lemma solution_exists : forall i o x, exists I O X,
    I 0 = i /\ O 0 = o /\ X 0 = x /\ solution G P I O X.
  Proof.
    intros i o x. destruct (prefix_solution i o x (length (sweeps G))) as (I & O & X & H1 & H2 & H3 & H).
    exists I, O, X. repeat (split; [assumption|]).
    constructor; intros e cur; intros.
    - apply (H e cur); auto. apply nth_error_Some; congruence.
    - apply (H e cur); auto. apply nth_error_Some; congruence.
    - apply (H e cur); auto. apply nth_error_Some; congruence.
  Qed.
End Exists.

(** Any two finished executions agree. *)
Lemma schedule_independent : forall G i o p x S S',
  consistent G -> acyclic G -> non_periodic G ->
  reachable G i o p x S -> reachable G i o p x S' -> finished G S -> finished G S' ->
  forall c, In c (cells G) ->
    chem (rs S (rank_of c)) c = chem (rs S' (rank_of c)) c /\
    forall d, d < ndirs G ->
      inc (rs S (rank_of c)) c d = inc (rs S' (rank_of c)) c d /\
      out (rs S (rank_of c)) c d = out (rs S' (rank_of c)) c d /\
      per (rs S (rank_of c)) c d = per (rs S' (rank_of c)) c d.
Proof.
  intros G i o p x S S' HG HA HN R R' F F' c Hc.
  destruct (solution_exists G p HA i o x) as (I & O & X & H1 & H2 & H3 & HS).
  assert (Hi : forall c d, In c (cells G) -> d < ndirs G -> i c d = I 0 c d /\ o c d = O 0 c d /\ p c d = p c d).
  { intros. rewrite H1, H2. auto. }
  assert (Hx : forall c, In c (cells G) -> x c = X 0 c) by (intros; rewrite H3; auto).
  destruct (finished_values G HG HN p I O X HS i o p x S Hi Hx R F c Hc) as [A B].
  destruct (finished_values G HG HN p I O X HS i o p x S' Hi Hx R' F' c Hc) as [A' B'].
  split; [congruence|]. intros d Hd. destruct (B d Hd) as (B1 & B2 & B3). destruct (B' d Hd) as (B1' & B2' & B3').
  repeat split; congruence.
Qed.
