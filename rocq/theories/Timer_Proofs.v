(** Proofs about the output timer. *)
From Coq Require Import List Arith Lia ZArith QArith Lqa Bool.
Import ListNotations.
From Verif Require Import Timer_Model Timer_Spec.
Local Open Scope Q_scope.

Definition first_of (p : params) : Q := match time_first_snapshot p with Some t => t | None => 0 end.

Lemma due_succ f i k : due f i (S k) == due f i k + i.
Proof. unfold due. rewrite Nat2Z.inj_succ. unfold Z.succ. rewrite inject_Z_plus. cbn [inject_Z]. ring_simplify. reflexivity. Qed.

(** ** Numbers and static fields, for all runs *)

Lemma run_numbers p : forall dts s,
  map number (written (run p s dts)) = seq (snapshot_num s) (length (written (run p s dts))).
Proof.
  induction dts as [|dt dts IH]; intro s; [reflexivity|]. cbn [run]. unfold step.
  set (s1 := sweep s dt). assert (E1 : snapshot_num s1 = snapshot_num s) by (unfold s1, sweep; destruct (is_first s); reflexivity).
  destruct (run_criterion (stop_simulation p s) s1).
  - cbn [written]. cbn [map length seq number]. rewrite E1. f_equal.
    destruct (stop_simulation p s); [reflexivity|]. rewrite IH. cbn [update snapshot_num]. rewrite E1. reflexivity.
  - cbn [written]. destruct (stop_simulation p s); [reflexivity|]. rewrite IH, E1. reflexivity.
Qed.

Lemma run_static p : forall dts s x, In x (written (run p s dts)) -> with_static x = (number x =? 0)%nat.
Proof.
  induction dts as [|dt dts IH]; intros s x; [intros []|]. cbn [run]. unfold step.
  set (s1 := sweep s dt).
  destruct (run_criterion (stop_simulation p s) s1) eqn:E.
  - cbn [written]. intros [<-|H].
    + cbn [with_static number]. unfold dataset_write_run_criterion. rewrite E. reflexivity.
    + destruct (stop_simulation p s); [destruct H|]. exact (IH _ _ H).
  - cbn [written]. destruct (stop_simulation p s); [intros []|]. apply IH.
Qed.

(** A snapshot has the time of its step. *)
Lemma run_time p : forall dts s t x, In (t, Some x) (run p s dts) -> time x = t.
Proof.
  induction dts as [|dt dts IH]; intros s t x; [intros []|]. cbn [run]. unfold step.
  set (s1 := sweep s dt).
  destruct (run_criterion (stop_simulation p s) s1).
  - intros [H|H]; [injection H as <- <-; reflexivity|]. destruct (stop_simulation p s); [destruct H|]. exact (IH _ _ _ H).
  - intros [H|H]; [discriminate H|]. destruct (stop_simulation p s); [destruct H|]. exact (IH _ _ _ H).
Qed.

(** ** Regular output *)

Section Regular.
  Variable p : params.
  Notation interval := (time_between_snapshots p).
  Notation first := (first_of p).

  (** All steps but a final one. *)
  Definition regular (s : state) : Prop :=
    next_output_time s == due first interval (snapshot_num s).

  Lemma init_regular : regular (init p).
  Proof. unfold regular, init, due. cbn. fold (first_of p). ring. Qed.

  Lemma step_regular s dt : regular s -> regular (snd (fst (step p s dt))).
  Proof.
    intro H. unfold step. assert (H1 : regular (sweep s dt)) by (unfold sweep; destruct (is_first s); exact H).
    destruct (run_criterion _ _); [|exact H1]. cbn [fst snd]. unfold regular in *. cbn [update next_output_time snapshot_num].
    rewrite due_succ, H1. reflexivity.
  Qed.

  (** The state before step [i]. *)
  Fixpoint state_at (s : state) (dts : list Q) : state :=
    match dts with
    | [] => s
    | dt :: dts' => state_at (snd (fst (step p s dt))) dts'
    end.

  Lemma state_at_regular dts : forall s, regular s -> regular (state_at s dts).
  Proof. induction dts as [|dt dts IH]; intros s H; [exact H|]. apply IH. apply step_regular. exact H. Qed.

  Lemma nth_error_run : forall dts i s x, nth_error (run p s dts) i = Some x ->
    (i < length dts)%nat
    /\ x = (now (snd (fst (step p (state_at s (firstn i dts)) (nth i dts 0)))),
            fst (fst (step p (state_at s (firstn i dts)) (nth i dts 0)))).
  Proof.
    induction dts as [|dt dts IH]; intros i s x H; [destruct i; discriminate H|].
    cbn [run] in H. destruct (step p s dt) as [[o s'] stop] eqn:E. destruct i as [|i].
    - cbn in H. injection H as <-. split; [cbn; lia|]. cbn [firstn state_at nth]. rewrite E. reflexivity.
    - cbn [nth_error] in H. destruct stop; [destruct i; discriminate H|].
      destruct (IH _ _ _ H) as [L ->]. split; [cbn; lia|]. cbn [firstn state_at nth]. rewrite E. reflexivity.
  Qed.

  (** Steps that are not the last one do not stop. *)
  Lemma nth_error_run_stop : forall dts i s x, nth_error (run p s dts) i = Some x ->
    forall y, nth_error (run p s dts) (S i) = Some y -> stop_simulation p (state_at s (firstn i dts)) = false.
  Proof.
    induction dts as [|dt dts IH]; intros i s x H y H'; [destruct i; discriminate H|].
    cbn [run] in H, H'. destruct (step p s dt) as [[o s'] stop] eqn:E.
    assert (Es : stop = stop_simulation p s) by (unfold step in E; destruct (run_criterion _ _); congruence).
    destruct i as [|i].
    - cbn [firstn state_at]. cbn [nth_error] in H'. destruct stop; [discriminate H'|congruence].
    - cbn [nth_error] in H, H'. destruct stop; [destruct i; discriminate H|].
      cbn [firstn state_at]. rewrite E. cbn [fst snd]. exact (IH _ _ _ H _ H').
  Qed.

  Hypothesis Hint : 0 < interval.
  Hypothesis Hfirst : 0 <= first.

  (** With steps no longer than the interval, the time never reaches the next output
      between two steps. *)
  Definition ahead (s : state) : Prop :=
    if is_first s then now s == 0 /\ snapshot_num s = 0%nat /\ next_output_time s == first
    else now s < next_output_time s.

  Lemma step_ahead s dt : 0 <= dt -> dt <= interval -> ahead s -> ahead (snd (fst (step p s dt))).
  Proof.
    intros H0 H1 H. unfold ahead in H. unfold step, sweep. destruct (is_first s) eqn:Ef.
    - destruct H as (A & B & C). unfold run_criterion. cbn [now next_output_time].
      destruct (stop_simulation p s || Qle_bool (next_output_time s) (now s)) eqn:E; cbn [fst snd].
      + unfold ahead. cbn [update is_first now next_output_time]. rewrite A, C. lra.
      + unfold ahead. cbn [is_first now next_output_time].
        apply orb_false_iff in E as [_ E]. apply Qnot_le_lt. intro F. apply Qle_bool_iff in F. congruence.
    - unfold run_criterion. cbn [now next_output_time].
      destruct (stop_simulation p s || Qle_bool (next_output_time s) (now s + dt)) eqn:E; cbn [fst snd].
      + unfold ahead. cbn [update is_first now next_output_time]. lra.
      + unfold ahead. cbn [is_first now next_output_time].
        apply orb_false_iff in E as [_ E]. apply Qnot_le_lt. intro F. apply Qle_bool_iff in F. congruence.
  Qed.

  Lemma state_at_ahead dts : forall s, Forall (fun dt => 0 <= dt /\ dt <= interval) dts -> ahead s -> ahead (state_at s dts).
  Proof.
    induction dts as [|dt dts IH]; intros s HF H; [exact H|]. inversion HF as [|? ? [A B] C]; subst.
    apply IH; [exact C|]. apply step_ahead; assumption.
  Qed.

  Lemma init_ahead : ahead (init p).
  Proof. unfold ahead, init. cbn. repeat split; reflexivity. Qed.

  Lemma step_now_mono s dt : 0 <= dt -> now s <= now (snd (fst (step p s dt))).
  Proof.
    intro H. unfold step, sweep. destruct (is_first s); destruct (run_criterion _ _); cbn [fst snd update now]; lra.
  Qed.

  Lemma state_at_snoc dts dt : forall s, state_at s (dts ++ [dt]) = snd (fst (step p (state_at s dts) dt)).
  Proof. induction dts as [|d dts IH]; intro s; [reflexivity|]. cbn [app state_at]. apply IH. Qed.

  Lemma firstn_S (dts : list Q) i : (i < length dts)%nat -> firstn (S i) dts = firstn i dts ++ [nth i dts 0].
  Proof.
    revert i. induction dts as [|d dts IH]; intros i H; [cbn in H; lia|]. destruct i; [reflexivity|].
    cbn [firstn nth app]. f_equal. apply IH. cbn in H. lia.
  Qed.

  (** The time after step [j] is that before step [S j], and it never decreases. *)
  Lemma time_mono dts s : Forall (fun dt => 0 <= dt /\ dt <= interval) dts ->
    forall i j, (j <= i)%nat -> (i <= length dts)%nat ->
    now (state_at s (firstn j dts)) <= now (state_at s (firstn i dts)).
  Proof.
    intros HF. induction i as [|i IH]; intros j Hj Hi.
    - replace j with 0%nat by lia. apply Qle_refl.
    - destruct (Nat.eq_dec j (S i)) as [->|E]; [apply Qle_refl|].
      eapply Qle_trans; [apply (IH j); lia|]. rewrite (firstn_S dts i) by lia. rewrite state_at_snoc.
      apply step_now_mono. rewrite Forall_forall in HF. apply (HF (nth i dts 0)). apply nth_In. lia.
  Qed.

  Lemma first_step_state dts s i : is_first (state_at s (firstn (S i) dts)) = true -> (i < length dts)%nat -> False.
  Proof.
    intros H L. rewrite (firstn_S dts i L), state_at_snoc in H. revert H. unfold step, sweep.
    destruct (is_first (state_at s (firstn i dts))); destruct (run_criterion _ _); cbn; discriminate.
  Qed.

  (** The k-th snapshot is written at the first step that reaches it. *)
  Theorem regular_output dts : Forall (fun dt => 0 <= dt /\ dt <= interval) dts ->
    forall i t x, nth_error (run p (init p) dts) i = Some (t, Some x) ->
    stop_simulation p (state_at (init p) (firstn i dts)) = false ->
    first_reaching (run p (init p) dts) (due first interval (number x)) i.
  Proof.
    intros HF i t x Hx Hst. assert (Hx' := Hx). apply nth_error_run in Hx as [L E].
    set (s := state_at (init p) (firstn i dts)) in *.
    assert (R : regular s) by (apply state_at_regular; apply init_regular).
    assert (Hdt : 0 <= nth i dts 0 /\ nth i dts 0 <= interval).
    { rewrite Forall_forall in HF. apply (HF (nth i dts 0)). apply nth_In. exact L. }
    assert (HF' : Forall (fun dt => 0 <= dt /\ dt <= interval) (firstn i dts)).
    { rewrite Forall_forall in *. intros d Hd. apply HF. rewrite <- (firstn_skipn i dts). apply in_or_app. now left. }
    assert (A : ahead s) by (apply state_at_ahead; [exact HF'|apply init_ahead]).
    assert (Ex : number x = snapshot_num s /\ next_output_time s <= t).
    { unfold step in E. rewrite Hst in E. unfold run_criterion in E. cbn [orb] in E.
      destruct (Qle_bool (next_output_time (sweep s (nth i dts 0))) (now (sweep s (nth i dts 0)))) eqn:Eq; cbn [fst snd] in E; [|discriminate E].
      apply Qle_bool_iff in Eq. injection E as Et E2. subst x t.
      cbn [number update now]. unfold sweep in *. destruct (is_first s); cbn in *; auto. }
    destruct Ex as [Ex1 Ex2]. split.
    - exists (t, Some x). split; [exact Hx'|]. cbn [fst]. rewrite Ex1. unfold regular in R. rewrite <- R. exact Ex2.
    - intros j y Hj Hy. apply nth_error_run in Hy as [Lj ->]. cbn [fst].
      rewrite <- state_at_snoc, <- (firstn_S dts j Lj).
      eapply Qle_lt_trans; [apply (time_mono dts (init p) HF i (S j)); lia|]. fold s. rewrite Ex1. unfold regular in R. rewrite <- R.
      unfold ahead in A. destruct (is_first s) eqn:Ef; [|exact A].
      exfalso. destruct i as [|i]; [lia|]. exact (first_step_state dts (init p) i Ef ltac:(lia)).
  Qed.

  (** Every output that is due at some step has been written by then. *)
  Theorem all_written dts : Forall (fun dt => 0 <= dt /\ dt <= interval) dts ->
    forall i t o, nth_error (run p (init p) dts) i = Some (t, o) ->
    forall k, due first interval k <= t ->
    exists j u x, (j <= i)%nat /\ nth_error (run p (init p) dts) j = Some (u, Some x) /\ number x = k.
  Proof.
    intros HF i t o Hi k Hk.
    assert (Hi' := Hi). apply nth_error_run in Hi' as [L E].
    (* the number of snapshots after step i is more than k *)
    assert (HF' : Forall (fun dt => 0 <= dt /\ dt <= interval) (firstn (S i) dts)).
    { rewrite Forall_forall in *. intros d Hd. apply HF. rewrite <- (firstn_skipn (S i) dts). apply in_or_app. now left. }
    assert (A : ahead (state_at (init p) (firstn (S i) dts))) by (apply state_at_ahead; [exact HF'|apply init_ahead]).
    assert (R : regular (state_at (init p) (firstn (S i) dts))) by (apply state_at_regular; apply init_regular).
    assert (Et : t = now (state_at (init p) (firstn (S i) dts))).
    { rewrite (firstn_S dts i L), state_at_snoc. congruence. }
    assert (Hnum : (k < snapshot_num (state_at (init p) (firstn (S i) dts)))%nat).
    { unfold ahead in A. destruct (is_first (state_at (init p) (firstn (S i) dts))) eqn:Ef.
      - exfalso. exact (first_step_state dts (init p) i Ef L).
      - unfold regular in R. rewrite R in A. rewrite <- Et in A. unfold due in *.
        apply Nat2Z.inj_lt. rewrite Zlt_Qlt. apply Qnot_le_lt. intro F.
        assert (G := Qmult_le_compat_r _ _ interval F (Qlt_le_weak _ _ Hint)). lra. }
    clear - Hnum L Hi.
    (* find the step at which it was written *)
    assert (G : forall i, (i < length dts)%nat -> (exists y, nth_error (run p (init p) dts) i = Some y) ->
              (k < snapshot_num (state_at (init p) (firstn (S i) dts)))%nat ->
              exists j u x, (j <= i)%nat /\ nth_error (run p (init p) dts) j = Some (u, Some x) /\ number x = k).
    { clear. induction i as [|i IH]; intros L [y Hy] Hk.
      - assert (Hy' := Hy). apply nth_error_run in Hy as [_ E]. cbn [firstn state_at] in E.
        rewrite (firstn_S dts 0 L) in Hk. cbn [firstn app state_at] in Hk. unfold step in *.
        assert (E1 : snapshot_num (sweep (init p) (nth 0 dts 0)) = 0%nat) by reflexivity.
        destruct (run_criterion (stop_simulation p (init p)) (sweep (init p) (nth 0 dts 0))); cbn [fst snd update snapshot_num] in *.
        + rewrite E1 in Hk. eexists 0%nat, _, _. split; [lia|]. split; [rewrite Hy', E; reflexivity|]. cbn [number]. lia.
        + lia.
      - assert (Hy' := Hy). apply nth_error_run in Hy as [_ E].
        rewrite (firstn_S dts (S i) L), state_at_snoc in Hk.
        set (s := state_at (init p) (firstn (S i) dts)) in *.
        assert (E1 : forall d, snapshot_num (sweep s d) = snapshot_num s) by (intro d; unfold sweep; destruct (is_first s); reflexivity).
        destruct (le_lt_dec (snapshot_num s) k) as [C|C].
        + unfold step in *. destruct (run_criterion (stop_simulation p s) (sweep s (nth (S i) dts 0))); cbn [fst snd update snapshot_num] in *.
          * rewrite E1 in *. eexists (S i), _, _. split; [lia|]. split; [rewrite Hy', E; reflexivity|]. cbn [number]. lia.
          * rewrite E1 in Hk. lia.
        + assert (Hp : exists y0, nth_error (run p (init p) dts) i = Some y0).
          { destruct (nth_error (run p (init p) dts) i) eqn:En; [eauto|]. apply nth_error_None in En.
            assert (nth_error (run p (init p) dts) (S i) <> None) by congruence. apply nth_error_Some in H. lia. }
          destruct (IH ltac:(lia) Hp C) as (j & u & x & A & B & D). exists j, u, x. split; [lia|]. auto. }
    apply (G i L); [eauto|exact Hnum].
  Qed.

  (** The last step. *)
  Theorem last_step_writes dts i : 
    (exists y, nth_error (run p (init p) dts) i = Some y) ->
    stop_simulation p (state_at (init p) (firstn i dts)) = true ->
    length (run p (init p) dts) = S i
    /\ exists t x, nth_error (run p (init p) dts) i = Some (t, Some x).
  Proof.
    clear. generalize (init p). revert i. induction dts as [|dt dts IH]; intros i s [y Hy] Hst; [destruct i; discriminate Hy|].
    cbn [run] in *. destruct (step p s dt) as [[o s'] stop] eqn:E.
    assert (Es : stop = stop_simulation p s /\ (stop = true -> exists x, o = Some x)).
    { unfold step in E. destruct (run_criterion _ _) eqn:Er; injection E as <- <- <-; (split; [reflexivity|]); intro Ht; [eauto|].
      rewrite Ht in Er. discriminate Er. }
    destruct Es as [Es Eo]. destruct i as [|i].
    - cbn [firstn state_at] in Hst. rewrite Hst in Es. subst stop. destruct (Eo eq_refl) as [x ->].
      split; [reflexivity|]. exists (now s'), x. reflexivity.
    - cbn [nth_error] in Hy. destruct stop; [destruct i; discriminate Hy|].
      cbn [firstn state_at] in Hst. rewrite E in Hst. cbn [fst snd] in Hst.
      destruct (IH i s' (ex_intro _ y Hy) Hst) as [A (t & x & B)]. split; [cbn [length]; rewrite A; reflexivity|]. exists t, x. exact B.
  Qed.

  Lemma stop_iff dts i x : nth_error (run p (init p) dts) i = Some x ->
    stop_simulation p (state_at (init p) (firstn i dts)) = true <-> final_reached p (run p (init p) dts) i.
  Proof.
    clear. intro Hx.
    assert (E : time_before (run p (init p) dts) i = now (state_at (init p) (firstn i dts))).
    { destruct i as [|i]; [reflexivity|]. cbn [time_before].
      assert (Hp : exists y, nth_error (run p (init p) dts) i = Some y).
      { destruct (nth_error (run p (init p) dts) i) eqn:En; [eauto|]. apply nth_error_None in En.
        assert (H : nth_error (run p (init p) dts) (S i) <> None) by congruence. apply nth_error_Some in H. lia. }
      destruct Hp as [y Hy]. rewrite (nth_error_nth _ _ _ Hy). apply nth_error_run in Hy as [L ->].
      rewrite (firstn_S dts i L), state_at_snoc. reflexivity. }
    unfold stop_simulation, final_reached. rewrite E. destruct (final_time p) as [f|].
    - rewrite Qle_bool_iff. split; [eauto|]. intros (f' & H & H'). congruence.
    - split; [discriminate|]. intros (f' & H & _). discriminate H.
  Qed.

  (** The theorems in terms of the trace. *)
  Theorem regular_output_trace dts : Forall (fun dt => 0 <= dt /\ dt <= interval) dts ->
    forall i t x, nth_error (run p (init p) dts) i = Some (t, Some x) ->
    ~ final_reached p (run p (init p) dts) i ->
    first_reaching (run p (init p) dts) (due first interval (number x)) i.
  Proof.
    intros HF i t x Hx Hn. apply (regular_output dts HF i t x Hx).
    destruct (stop_simulation p _) eqn:E; [|reflexivity]. exfalso. apply Hn. apply (stop_iff dts i _ Hx). exact E.
  Qed.

  Theorem last_step_trace dts i x : nth_error (run p (init p) dts) i = Some x ->
    final_reached p (run p (init p) dts) i ->
    length (run p (init p) dts) = S i /\ exists t y, x = (t, Some y).
  Proof.
    clear. intros Hx Hf. apply (stop_iff dts i _ Hx) in Hf.
    destruct (last_step_writes dts i (ex_intro _ x Hx) Hf) as [A (t & y & B)].
    split; [exact A|]. exists t, y. congruence.
  Qed.
End Regular.
