(** Properties C29, C30 and C48: the chemistry step. *)
From Coq Require Import List Arith ZArith QArith Qabs.
Import ListNotations.
From Coq Require Import Lqa.
From Verif Require Import Chem_Model Chem_Spec Chem_Proofs.
Local Open Scope Q_scope.

(** C29. Starting from finite values, any sequence of updates with any rates (including
    infinite and invalid ones) and any timesteps succeeds; after every update
    temperature and fraction are finite, and the fraction is strictly between 0 and 1.
    If cooling is disabled, neither temperature nor fraction ever decreases. The only
    condition on the tolerance is that it is below 2^52, where the comparison of
    relative changes saturates. With cooling disabled the initial fraction has to be
    positive and at most 1 - 1e-10 (see the refuted statements below). *)
Theorem C29_bounds : forall prevent_cooling safety l t x,
  safety < 4503599627370496 # 1 -> (prevent_cooling = true -> 0 < x <= 1 - eps) ->
  exists r, updates prevent_cooling safety l (Chem (Fin t) (Fin x)) = Some r
    /\ length r = length l /\ healthy prevent_cooling t x r.
Proof. exact updates_ok. Qed.
Print Assumptions C29_bounds.

(** With a tolerance below one a positive temperature stays positive. *)
Theorem C29_temperature_positive : forall prevent_cooling safety l t x r,
  safety < 1 -> (prevent_cooling = true -> 0 < x <= 1 - eps) -> 0 < t ->
  updates prevent_cooling safety l (Chem (Fin t) (Fin x)) = Some r ->
  forall s, In s r -> exists t', temp s = Fin t' /\ 0 < t'.
Proof. exact updates_temp. Qed.
Print Assumptions C29_temperature_positive.

(** With cooling disabled the initial fraction replaces the lower limit. A cell which
    is read with fraction 0 stays at 0 ([clamp], mod.rs 356-369). *)
Theorem C29_zero_fraction_refuted : exists phys h s s' r,
  frac s = Fin 0 /\ update_abundances true (1 # 10) phys h s = Some (s', r) /\ frac s' = Fin 0.
Proof.
  exists (Physics (fun _ _ => Fin 0) (fun _ _ => Fin (1 # 2))), 1, (Chem (Fin 100) (Fin 0)).
  exists (Chem (Fin 100) (Fin 0)), (Fin (1 / 10)). repeat split; vm_compute; reflexivity.
Qed.
Print Assumptions C29_zero_fraction_refuted.

(** And a cell which is read with fraction 1 makes the program panic, for all rates. *)
Theorem C29_full_fraction_refuted : exists s, frac s = Fin 1
  /\ forall safety phys h, update_abundances true safety phys h s = None.
Proof. exact full_fraction. Qed.
Print Assumptions C29_full_fraction_refuted.

(** C30. An update starts from the state moved into its limits, and goes through
    accepted substeps only: rejected ones have no effect. Each accepted substep changes
    temperature and fraction by at most [safety] times their value, and its length is
    the timestep halved at most 101 times. Either the lengths add up to the timestep, or
    the update reports a tenth of the timestep. *)
Theorem C30_substeps : forall phys floor safety lo h t x, lo <= 1 - eps ->
  ((floor = None /\ lo = eps) \/ exists tl, floor = Some (Fin tl, Fin lo)) -> safety < 4503599627370496 # 1 ->
  exists t0 x0 s' r hs,
    floored floor t t0 /\ limited floor x x0
    /\ perform_timestep phys floor safety (Chem (Fin t) (Fin x)) h = Some (s', r)
    /\ substeps phys floor safety (Chem (Fin t0) (Fin x0)) hs s' /\ Forall (halved 101 h) hs
    /\ (total hs == h \/ (r = Fin (h / 10) /\ (0 < h -> total hs < h))).
Proof. exact perform_spec. Qed.
Print Assumptions C30_substeps.

(** The second case happens: the update returns although there is no substep it could
    have accepted, so that nothing was integrated. *)
Theorem C30_requested_time_refuted : exists phys safety h s s' r, 0 < h /\ 0 < safety
  /\ perform_timestep phys None safety s h = Some (s', r)
  /\ (forall s0 hs, substeps phys None safety s hs s0 -> hs = []).
Proof. exact failed_step. Qed.
Print Assumptions C30_requested_time_refuted.

(** It does not happen if after some number of halvings, at most 100, every substep is
    acceptable: then the whole timestep is integrated. *)
Theorem C30_whole_step : forall phys floor safety lo, lo <= 1 - eps -> 0 < lo ->
  ((floor = None /\ lo = eps) \/ exists tl, floor = Some (Fin tl, Fin lo) /\ 0 < tl) -> safety < 1 ->
  forall h t x k, (k <= 100)%nat -> 0 < t ->
  (forall t x, 0 < t -> lo <= x <= 1 - eps -> acceptable phys safety (halvings k h) t x) ->
  exists t0 x0 s' r hs,
    floored floor t t0 /\ limited floor x x0
    /\ perform_timestep phys floor safety (Chem (Fin t) (Fin x)) h = Some (s', r)
    /\ substeps phys floor safety (Chem (Fin t0) (Fin x0)) hs s' /\ total hs == h.
Proof. exact perform_whole. Qed.
Print Assumptions C30_whole_step.

(** C48. A cell emits nothing below the threshold, never a negative amount, and never
    more than it receives. The exponential is any function with values in [0, 1] on the
    non-positive numbers. *)
Theorem C48_no_amplification : forall expf mp sigma threshold density x size incoming,
  (forall e, e <= 0 -> 0 <= expf e <= 1) -> 0 < mp -> 0 <= sigma -> 0 <= density -> 0 <= size -> 0 <= x <= 1 -> 0 <= threshold ->
  let out := get_outgoing_rate expf mp sigma threshold density x size incoming in
  0 <= out /\ (incoming < threshold -> out == 0) /\ (0 <= incoming -> out <= incoming).
Proof. exact outgoing_ok. Qed.
Print Assumptions C48_no_amplification.

(** An exponential decay of the neutral fraction, with a step which has to be split. *)
Definition ex_phys : physics :=
  Physics (fun s h => match temp s with Fin t => Fin (- t * h / 8) | _ => NaN end)
          (fun s h => match frac s with Fin x => Fin ((1 - x) * h * (1 # 2)) | _ => NaN end).
Example C29_example : (1 # 5) < 4503599627370496 # 1
  /\ match updates true (1 # 5) [(ex_phys, 2); (ex_phys, 1)] (Chem (Fin 100) (Fin (1 # 2))) with
     | Some [Chem (Fin t1) (Fin x1); Chem (Fin t2) (Fin x2)] =>
         Qle_bool 100 t1 && Qlt_bool (1 # 2) x1 && Qlt_bool x1 x2 && Qlt_bool x2 1
     | _ => false end = true
  /\ match updates false (1 # 5) [(ex_phys, 2); (Physics (fun _ _ => NaN) (fun _ _ => NaN), 1)] (Chem (Fin 100) (Fin 2)) with
     | Some [Chem (Fin t1) (Fin x1); Chem (Fin t2) (Fin x2)] => Qlt_bool t1 100 && Qle_bool x1 (1 - eps) && Qeq_bool t1 t2
     | _ => false end = true.
Proof. repeat split; vm_compute; reflexivity. Qed.

(** The step of length 2 is done in several accepted substeps, and meets the hypothesis
    of the statement about whole steps. *)
Example C30_example :
  try_update ex_phys None (1 # 5) (Chem (Fin 100) (Fin (1 # 2))) 2 = Some (Chem (Fin 100) (Fin (1 # 2)), None)
  /\ match perform_timestep ex_phys None (1 # 5) (Chem (Fin 100) (Fin (1 # 2))) 2 with
     | Some (Chem (Fin t) (Fin x), Fin r) => Qlt_bool t 100 && Qlt_bool (1 # 2) x && Qlt_bool 0 r
     | _ => false end = true.
Proof. split; vm_compute; reflexivity. Qed.
Example C30_whole_example : exists phys, forall t x, 0 < t -> (1 # 2) <= x <= 1 - eps ->
  acceptable phys (1 # 10) (halvings 3 1) t x.
Proof.
  exists (Physics (fun s h => match temp s with Fin t => Fin (t * h * (1 # 2)) | _ => NaN end)
                  (fun s h => match frac s with Fin x => Fin (x * h * (-1 # 2)) | _ => NaN end)).
  intros t x Ht Hx. unfold acceptable. cbn [d_temp d_frac temp frac].
  eexists. eexists. split; [reflexivity|]. split; [|split; [reflexivity|]].
  - change (halvings 3 1) with (1 / 2 / 2 / 2). rewrite !Qabs_pos; unfold Qdiv; change (/ 2) with (1 # 2); lra.
  - change (halvings 3 1) with (1 / 2 / 2 / 2). rewrite Qabs_neg, Qabs_pos; unfold Qdiv; change (/ 2) with (1 # 2); lra.
Qed.
Example C48_example :
  let e := fun q => if Qle_bool q 0 then 1 / (1 - q) else 2 in
  (forall q, q <= 0 -> 0 <= e q <= 1) /\ get_outgoing_rate e 1 2 1 3 (1 # 2) 1 8 == 2
  /\ get_outgoing_rate e 1 2 1 3 (1 # 2) 1 (1 # 2) == 0.
Proof. cbv zeta. split; [exact ex_exp|]. split; vm_compute; reflexivity. Qed.
