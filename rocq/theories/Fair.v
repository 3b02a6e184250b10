(** Fair schedules of a deterministic step function reach a final state, if every
    step either changes nothing or decreases a measure, and in every non-final
    state some repeatedly scheduled operation makes progress. *)
From Coq Require Import Arith Lia.

Section Fair.
Context {St Op : Type}.
Variable step : St -> Op -> St.
Variable inv : St -> Prop.
Variable final : St -> Prop.
Variable allowed : Op -> Prop.
Variable mu : St -> nat.

Fixpoint exec (s : St) (sched : nat -> Op) (n : nat) : St :=
  match n with
  | 0 => s
  | S n' => exec (step s (sched 0)) (fun k => sched (S k)) n'
  end.

Definition fair (sched : nat -> Op) : Prop :=
  forall o, allowed o -> forall n, exists m, n <= m /\ sched m = o.

Hypothesis inv_step : forall s o, inv s -> inv (step s o).
Hypothesis progress_or_same : forall s o, inv s -> step s o = s \/ mu (step s o) < mu s.
Hypothesis can_progress : forall s, inv s ->
  final s \/ exists o, allowed o /\ mu (step s o) < mu s.

Lemma exec_inv n : forall s sched, inv s -> inv (exec s sched n).
Proof. induction n as [|n IH]; intros s sched H; cbn [exec]; auto. Qed.

Lemma fair_shift sched : fair sched -> fair (fun k => sched (S k)).
Proof.
  intros H o Ho n. destruct (H o Ho (S n)) as (m & Hm & E).
  exists (m - 1). split; [lia|]. now replace (S (m - 1)) with m by lia.
Qed.

Lemma fair_reaches_final s sched : inv s -> fair sched ->
  exists n, final (exec s sched n).
Proof.
  remember (mu s) as k eqn:Ek. revert s sched Ek.
  induction k as [k IH] using lt_wf_ind. intros s sched Ek Hi Hf.
  destruct (can_progress s Hi) as [Hfin|(o & Ho & Hlt)]; [now exists 0|].
  destruct (Hf o Ho 0) as (j & _ & Ej).
  assert (H : forall d sc, fair sc -> sc d = o -> exists n, final (exec s sc n)).
  { induction d as [|d IHd]; intros sc Hsc Eo.
    - destruct (IH (mu (step s o)) ltac:(lia) (step s o) (fun k => sc (S k)) eq_refl
                  (inv_step _ _ Hi) (fair_shift _ Hsc)) as (n & Hn).
      exists (S n). cbn [exec]. now rewrite Eo.
    - destruct (progress_or_same s (sc 0) Hi) as [E|Hl].
      + destruct (IHd (fun k => sc (S k)) (fair_shift _ Hsc) Eo) as (n & Hn).
        exists (S n). cbn [exec]. now rewrite E.
      + destruct (IH (mu (step s (sc 0))) ltac:(lia) (step s (sc 0)) (fun k => sc (S k)) eq_refl
                    (inv_step _ _ Hi) (fair_shift _ Hsc)) as (n & Hn).
        exists (S n). exact Hn. }
  exact (H j sched Hf Ej).
Qed.

End Fair.
