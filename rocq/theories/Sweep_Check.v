(** Decision procedures for the assumptions on small grids, and execution of schedules,
    for the examples. *)
From Coq Require Import List Arith Bool Lia QArith Qcanon.
From Verif Require Import Sweep_Model Sweep_Spec Sweep_Util Sweep_Safety.
Import ListNotations.
Local Open Scope nat_scope.

Section Check.
  Variable G : config.

  Definition memb (c : pid) : bool := existsb (pid_eqb c) (cells G).
  Fixpoint nodupb (l : list pid) : bool :=
    match l with [] => true | c :: l => negb (existsb (pid_eqb c) l) && nodupb l end.

  Definition consistentb : bool :=
    nodupb (cells G) &&
    forallb (fun c => (rank_of c <? nranks G) &&
      forallb (fun f => match f_nb f with
        | Local p | LocalPeriodic p => memb p && (rank_of p =? rank_of c)
        | Remote p | RemotePeriodic p => memb p && negb (rank_of p =? rank_of c) &&
            match halo G (rank_of c) p with Some l => l =? lev G p | None => false end
        | Boundary => true
        end) (faces G c) &&
      forallb (fun p => forallb (fun d =>
        (countb (fun f => upwind f d && face_to p f) (faces G c) =?
         countb (fun f => downwind f d && face_to c f) (faces G p)) &&
        (countb (fun f => upwind f d && face_toP p f) (faces G c) =?
         countb (fun f => downwind f d && face_toP c f) (faces G p))) (seq 0 (ndirs G))) (cells G)) (cells G).

  Definition acyclicb (ord : nat -> nat -> pid -> nat) : bool :=
    forallb (fun cur => forallb (fun c => forallb (fun f => forallb (fun d =>
      negb (downwind f d) || match f_nb f with
        | Local p | Remote p => negb (cur <=? lev G c) || negb (cur <=? lev G p) || (ord cur d c <? ord cur d p)
        | _ => true end)
      (seq 0 (ndirs G))) (faces G c)) (cells G)) (sweeps G).

  Definition non_periodicb : bool :=
    forallb (fun c => forallb (fun f => match f_nb f with LocalPeriodic _ | RemotePeriodic _ => false | _ => true end)
      (faces G c)) (cells G).

  Lemma memb_spec : forall c, memb c = true -> In c (cells G).
  Proof.
    intros c H. apply existsb_exists in H. destruct H as (c' & Hc & E).
    destruct (pid_eqb_spec c c'); [congruence|discriminate].
  Qed.

  Lemma nodupb_spec : forall l, nodupb l = true -> NoDup l.
  Proof.
    induction l as [|c l IH]; intros H; [constructor|]. cbn in H. apply andb_true_iff in H. destruct H as [H1 H2].
    constructor; auto. intros Hin. apply negb_true_iff in H1.
    rewrite (proj2 (existsb_exists _ _)) in H1; [discriminate|]. exists c. split; auto. apply pid_eqb_refl.
  Qed.

  Lemma consistentb_spec : consistentb = true -> consistent G.
  Proof.
    intros H. unfold consistentb in H. apply andb_true_iff in H. destruct H as [H0 H]. rewrite forallb_forall in H.
    assert (X : forall c, In c (cells G) -> rank_of c < nranks G /\
       (forall f, In f (faces G c) -> match f_nb f with
        | Local p | LocalPeriodic p => memb p && (rank_of p =? rank_of c)
        | Remote p | RemotePeriodic p => memb p && negb (rank_of p =? rank_of c) &&
            match halo G (rank_of c) p with Some l => l =? lev G p | None => false end
        | Boundary => true
        end = true) /\
       forall p, In p (cells G) -> forall d, d < ndirs G ->
        countb (fun f => upwind f d && face_to p f) (faces G c) =
         countb (fun f => downwind f d && face_to c f) (faces G p) /\
        countb (fun f => upwind f d && face_toP p f) (faces G c) =
         countb (fun f => downwind f d && face_toP c f) (faces G p)).
    { intros c Hc. specialize (H c Hc). rewrite !andb_true_iff, Nat.ltb_lt, !forallb_forall in H.
      destruct H as [[H1 H2] H3]. split; [auto|]. split; [auto|]. intros p Hp d Hd. specialize (H3 p Hp).
      rewrite forallb_forall in H3. specialize (H3 d). rewrite in_seq, andb_true_iff, !Nat.eqb_eq in H3. apply H3. lia. }
    constructor.
    - apply nodupb_spec; auto.
    - intros c Hc. apply X; auto.
    - intros c f p Hc Hf Hn. destruct (X c Hc) as (_ & X2 & _). specialize (X2 f Hf).
      assert (Y : memb p && (rank_of p =? rank_of c) = true) by (destruct Hn as [E|E]; rewrite E in X2; auto).
      apply andb_true_iff in Y. rewrite Nat.eqb_eq in Y. split; [apply memb_spec|]; tauto.
    - intros c f p Hc Hf Hn. destruct (X c Hc) as (_ & X2 & _). specialize (X2 f Hf).
      assert (Y : memb p && negb (rank_of p =? rank_of c) && match halo G (rank_of c) p with Some l => l =? lev G p | None => false end = true)
        by (destruct Hn as [E|E]; rewrite E in X2; auto).
      rewrite !andb_true_iff, negb_true_iff, Nat.eqb_neq in Y. destruct Y as [[Y1 Y2] Y3].
      split; [apply memb_spec; auto|]. split; [auto|]. destruct (halo G (rank_of c) p); [|discriminate].
      apply Nat.eqb_eq in Y3. congruence.
    - intros c p d Hc Hp Hd. apply X; auto.
    - intros c p d Hc Hp Hd. apply X; auto.
  Qed.

  Lemma acyclicb_spec : forall ord, acyclicb ord = true -> acyclic G.
  Proof.
    intros ord H cur Hcur. exists (ord cur). intros c p f d Hc Hf Hd Hdw Hp Hlc Hlp.
    unfold acyclicb in H. rewrite forallb_forall in H. specialize (H cur Hcur). rewrite forallb_forall in H.
    specialize (H c Hc). rewrite forallb_forall in H. specialize (H f Hf). rewrite forallb_forall in H.
    specialize (H d). rewrite in_seq, Hdw in H. cbn [negb orb] in H. unfold face_to in Hp.
    apply Nat.leb_le in Hlc, Hlp.
    destruct (f_nb f) as [q|q| |q|q]; try discriminate;
      (destruct (pid_eqb_spec q p) as [->|]; [|discriminate]; rewrite Hlc, Hlp in H; cbn [negb orb] in H;
       apply Nat.ltb_lt, H; lia).
  Qed.

  Lemma non_periodicb_spec : non_periodicb = true -> non_periodic G.
  Proof.
    intros H c f Hc Hf. unfold non_periodicb in H. rewrite forallb_forall in H. specialize (H c Hc).
    rewrite forallb_forall in H. specialize (H f Hf). destruct (f_nb f); auto; discriminate.
  Qed.

  (** Execution from the start. *)
  Definition from_start (i o p : pid -> nat -> Qc) (x : pid -> list Qc) (ops : list op) : option state :=
    match init G i o p x with Some S0 => exec G S0 ops | None => None end.

  Definition finishedb (S : state) : bool :=
    forallb (fun r => match pc (rs S r) with PFinished => true | _ => false end) (seq 0 (nranks G)).

  Lemma finishedb_spec : forall S, finishedb S = true -> finished G S.
  Proof.
    intros S H r Hr. unfold finishedb in H. rewrite forallb_forall in H. specialize (H r). rewrite in_seq in H.
    destruct (pc (rs S r)); auto; discriminate H; lia.
  Qed.

  (** A schedule which finishes gives a finished state with the values it computes. *)
  Lemma execution : forall i o p x ops A (view : state -> A) (v : A),
    option_map (fun S => (finishedb S, view S)) (from_start i o p x ops) = Some (true, v) ->
    exists S, reachable G i o p x S /\ finished G S /\ view S = v.
  Proof.
    intros i o p x ops A view v H. unfold from_start in H.
    destruct (init G i o p x) as [S0|] eqn:E0; [|discriminate].
    destruct (exec G S0 ops) as [S|] eqn:E; [|discriminate]. cbn in H. injection H as H1 H2.
    exists S. split; [exists S0, ops; auto|]. split; [apply finishedb_spec; auto|auto].
  Qed.
End Check.
