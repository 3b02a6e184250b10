(** What is expected of a chemistry step. *)
From Coq Require Import List Arith ZArith QArith Qabs.
From Verif Require Import Chem_Model.
Import ListNotations.
Local Open Scope Q_scope.

(** Fraction allowed at the end of a step: at least the floor (or [eps]), and at most
    [1 - eps]. *)
Definition limited (floor : option (num * num)) (x y : Q) : Prop :=
  (* y is x moved into the allowed interval *)
  let hi := 1 - eps in
  exists lo, match floor with Some (_, f) => f = Fin lo | None => lo = eps end
  /\ ((x < lo /\ y = lo) \/ (hi < x /\ y = hi) \/ (lo <= x <= hi /\ y = x)).
Definition floored (floor : option (num * num)) (t u : Q) : Prop :=
  match floor with
  | None => u = t
  | Some (f, _) => exists lo, f = Fin lo /\ ((t < lo /\ u = lo) \/ (lo <= t /\ u = t))
  end.

Section Steps.
  Variable phys : physics.
  Variable floor : option (num * num).
  Variable safety : Q.

  (** One accepted substep of length [h]: temperature and fraction change by at most
      [safety] times their value; the change of the fraction is evaluated with the new
      temperature; then the limits are applied. *)
  Definition accepted (s : chem) (h : Q) (s' : chem) : Prop :=
    exists t x dt dx t' x',
      s = Chem (Fin t) (Fin x) /\ d_temp phys s h = Fin dt
      /\ Qabs dt <= safety * Qabs t
      /\ d_frac phys (Chem (Fin (t + dt)) (Fin x)) h = Fin dx /\ Qabs dx <= safety * Qabs x
      /\ floored floor (t + dt) t' /\ limited floor (x + dx) x' /\ s' = Chem (Fin t') (Fin x').

  Inductive substeps : chem -> list Q -> chem -> Prop :=
  | no_substep : forall s, substeps s [] s
  | a_substep : forall s h s1 hs s2, accepted s h s1 -> substeps s1 hs s2 -> substeps s (h :: hs) s2.

  Definition total (hs : list Q) : Q := fold_right Qplus 0 hs.
End Steps.

(** Lengths of substeps: the timestep halved at most [n] times. *)
Definition halved (n : nat) (h : Q) (a : Q) : Prop := exists k, (k <= n)%nat /\ a == h / inject_Z (2 ^ Z.of_nat k).

(** Along the list values are finite, fractions are in the interval, and with
    [prevent_cooling] nothing decreases. *)
Fixpoint healthy (pc : bool) (t x : Q) (l : list chem) : Prop :=
  match l with
  | [] => True
  | s :: l' => exists t' x', s = Chem (Fin t') (Fin x') /\ 0 < x' < 1 /\ x' <= 1 - eps
      /\ (if pc then t <= t' /\ x <= x' else eps <= x') /\ healthy pc t' x' l'
  end.

Fixpoint halvings (k : nat) (h : Q) : Q := match k with O => h | S k' => halvings k' (h / 2) end.

(** Both changes are within the tolerance for a step of length [h]. *)
Definition acceptable (phys : physics) (safety : Q) (h t x : Q) : Prop :=
  exists dt dx, d_temp phys (Chem (Fin t) (Fin x)) h = Fin dt /\ Qabs dt <= safety * Qabs t
    /\ d_frac phys (Chem (Fin (t + dt)) (Fin x)) h = Fin dx /\ Qabs dx <= safety * Qabs x.
