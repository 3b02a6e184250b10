From Coq Require Import String QArith ZArith Bool Arith List Permutation Sorted Lia Lqa.
From Verif Require Import Performance_Model Performance_Spec.
Import ListNotations.
Local Open Scope nat_scope.

(** ** One name at a time. *)
Inductive kind : Type := KStart | KStop | KRecord (z : Z).
Definition cell : Type := (option result * option Q)%type.
Definition perform_cell (k : kind) (t : Q) (c : cell) : option cell :=
  match k with
  | KStart => Some (fst c, Some t)
  | KStop => match snd c with
      | None => None
      | Some started => match fst c with
          | None => Some (Some (RunTimes [t - started]%Q), None)
          | Some (RunTimes l) => Some (Some (RunTimes (l ++ [t - started]%Q)), None)
          | Some (Number _) => None
          end
      end
  | KRecord z => if in_i32 z then Some (Some (Number z), snd c) else None
  end.
Fixpoint perform_cells (l : list (Q * kind)) (c : cell) : option cell :=
  match l with [] => Some c | (t, k) :: l => match perform_cell k t c with Some c => perform_cells l c | None => None end end.
Definition kind_of (o : op) : kind := match o with Start _ => KStart | Stop _ => KStop | Record _ z => KRecord z end.
Definition at_name (n : name) (p : performance) : cell := (results p n, timers p n).
Definition ops_of (n : name) (o : op) : list kind := if name_eq_dec (name_of o) n then [kind_of o] else [].
Definition proj (n : name) (l : list (Q * op)) : list (Q * kind) := flat_map (fun e => map (fun k => (fst e, k)) (ops_of n (snd e))) l.

Lemma update_same : forall {A} (f : name -> A) n a, update f n a n = a.
Proof. intros. unfold update. destruct (name_eq_dec n n); congruence. Qed.
Lemma update_other : forall {A} (f : name -> A) n a m, m <> n -> update f n a m = f m.
Proof. intros. unfold update. destruct (name_eq_dec m n); congruence. Qed.

Lemma perform_same : forall o t p, option_map (at_name (name_of o)) (perform o t p) = perform_cell (kind_of o) t (at_name (name_of o) p).
Proof.
  intros [n|n|n z] t p; cbn [perform kind_of name_of perform_cell at_name fst snd option_map].
  - unfold at_name. cbn. now rewrite update_same.
  - destruct (timers p n) as [s|]; [|reflexivity]. destruct (results p n) as [[l|z]|]; cbn; unfold at_name; cbn; now rewrite ?update_same.
  - destruct (in_i32 z); [|reflexivity]. cbn. unfold at_name. cbn. now rewrite update_same.
Qed.
Lemma perform_other : forall o t p p' n, perform o t p = Some p' -> n <> name_of o -> at_name n p' = at_name n p.
Proof.
  intros [m|m|m z] t p p' n H N; cbn [perform name_of] in *.
  - injection H as <-. unfold at_name. cbn. now rewrite update_other.
  - destruct (timers p m) as [s|]; [|discriminate]. destruct (results p m) as [[l|z]|]; try discriminate H; injection H as <-;
      unfold at_name; cbn; now rewrite !update_other.
  - destruct (in_i32 z); [|discriminate]. injection H as <-. unfold at_name. cbn. now rewrite update_other.
Qed.

Lemma perform_all_cells : forall l p p' n, perform_all l p = Some p' -> perform_cells (proj n l) (at_name n p) = Some (at_name n p').
Proof.
  induction l as [|[t o] l IH]; intros p p' n H; cbn [perform_all] in H; [now injection H as <-|].
  destruct (perform o t p) as [q|] eqn:E; [|discriminate]. cbn [proj flat_map]. fold (proj n l). unfold ops_of. cbn [fst snd].
  destruct (name_eq_dec (name_of o) n) as [<-|N]; cbn [map app].
  - cbn [perform_cells]. pose proof (perform_same o t p) as S. rewrite E in S. cbn [option_map] in S. rewrite <- S. now apply IH.
  - pose proof (perform_other o t p q n E ltac:(congruence)) as O. rewrite <- O. now apply IH.
Qed.
Lemma perform_all_exists : forall l p, (forall n, perform_cells (proj n l) (at_name n p) <> None) -> exists p', perform_all l p = Some p'.
Proof.
  induction l as [|[t o] l IH]; intros p H; [now exists p|]. cbn [perform_all].
  destruct (perform o t p) as [q|] eqn:E.
  - apply IH. intros n. specialize (H n). cbn [proj flat_map] in H. fold (proj n l) in H. unfold ops_of in H. cbn [fst snd] in H.
    destruct (name_eq_dec (name_of o) n) as [<-|N]; cbn [map app] in H.
    + cbn [perform_cells] in H. pose proof (perform_same o t p) as S. rewrite E in S. cbn [option_map] in S. now rewrite <- S in H.
    + now rewrite (perform_other o t p q n E ltac:(congruence)).
  - exfalso. specialize (H (name_of o)). apply H. cbn [proj flat_map]. unfold ops_of at 1. cbn [fst snd].
    destruct (name_eq_dec (name_of o) (name_of o)) as [_|N]; [|congruence]. cbn [map app perform_cells].
    pose proof (perform_same o t p) as S. rewrite E in S. cbn [option_map] in S. now rewrite <- S.
Qed.

Lemma proj_app : forall n a b, proj n (a ++ b) = proj n a ++ proj n b.
Proof. intros. unfold proj. apply flat_map_app. Qed.
Lemma perform_cells_app : forall a b c, perform_cells (a ++ b) c = match perform_cells a c with Some c => perform_cells b c | None => None end.
Proof. induction a as [|[t k] a IH]; intros b c; [reflexivity|]. cbn. destruct (perform_cell k t c); [apply IH | reflexivity]. Qed.

Definition kinds (n : name) (l : list op) : list kind := flat_map (ops_of n) l.
Lemma proj_kinds : forall n l, map snd (proj n l) = kinds n (map snd l).
Proof.
  induction l as [|[t o] l IH]; [reflexivity|]. cbn [proj flat_map map kinds snd fst]. fold (proj n l). fold (kinds n (map snd l)).
  rewrite map_app, IH, map_map. cbn. now rewrite map_id.
Qed.
Lemma kinds_perm : forall n l l', Permutation l l' -> Permutation (kinds n l) (kinds n l').
Proof. intros. unfold kinds. now apply Permutation_flat_map. Qed.
Lemma kinds_app : forall n l l', kinds n (l ++ l') = kinds n l ++ kinds n l'.
Proof. intros. unfold kinds. apply flat_map_app. Qed.
Lemma kinds_own : forall l n, (forall o, In o l -> own o = true) -> kinds (OfLabel n) l = [].
Proof.
  induction l as [|o l IH]; intros n H; [reflexivity|]. unfold kinds. cbn [flat_map]. fold (kinds (OfLabel n) l). rewrite IH by (intros; apply H; now right).
  unfold ops_of. assert (O : own o = true) by (apply H; now left). unfold own in O. destruct (name_of o); [discriminate|].
  destruct (name_eq_dec (Own s) (OfLabel n)); [discriminate | reflexivity].
Qed.
Lemma perm_short : forall {A} (l l' : list A), Permutation l l' -> length l' <= 1 -> l = l'.
Proof.
  intros A l l' P L. destruct l' as [|a [|b l']]; cbn in L; [now apply Permutation_sym, Permutation_nil in P | now apply Permutation_sym, Permutation_length_1_inv in P | lia].
Qed.

(** The operations on the name of a stage in one pass. *)
Lemma pass_kinds : forall labels remaining tr n, pass labels remaining tr ->
  (forall l, In l remaining -> length (kinds (OfLabel n) (timer_systems labels l)) <= 1) ->
  map snd (proj (OfLabel n) tr) = flat_map (fun l => kinds (OfLabel n) (timer_systems labels l)) remaining.
Proof.
  intros labels remaining tr n P. induction P as [|l remaining block others rest B O _ P IH]; intros S; [reflexivity|].
  rewrite proj_app, map_app, IH by (intros; apply S; now right). cbn [flat_map]. f_equal. rewrite proj_kinds.
  apply (kinds_perm (OfLabel n)) in B. rewrite kinds_app, (kinds_own others n O), app_nil_r in B.
  apply perm_short; [exact B | apply S; now left].
Qed.

(** Every stage: start, stop. *)
Definition label_ok (labels : list label) (n : label) : bool :=
  forallb (fun l => length (kinds (OfLabel n) (timer_systems labels l)) <=? 1) labels &&
  (match flat_map (fun l => kinds (OfLabel n) (timer_systems labels l)) labels with [KStart; KStop] => true | _ => false end).
Lemma label_ok_pass : forall labels tr n, label_ok labels n = true -> pass labels labels tr ->
  exists t1 t2, proj (OfLabel n) tr = [(t1, KStart); (t2, KStop)].
Proof.
  intros labels tr n H P. apply andb_true_iff in H. destruct H as [H1 H2].
  assert (K : map snd (proj (OfLabel n) tr) = [KStart; KStop]).
  { rewrite (pass_kinds labels labels tr n P).
    - destruct (flat_map _ labels) as [|[] [|[] []]]; congruence.
    - intros l Hl. rewrite forallb_forall in H1. apply Nat.leb_le, H1, Hl. }
  destruct (proj (OfLabel n) tr) as [|[t1 k1] [|[t2 k2] [|]]]; try discriminate K. injection K as -> ->. now exists t1, t2.
Qed.
(** Labels that do not occur. *)
Definition label_absent (labels : list label) (n : label) : Prop := ~ In n labels.
Lemma systems_in : forall labels l o, In o (timer_systems labels l) -> exists s, In s labels /\ is_timer_stage s = false /\ name_of o = OfLabel s.
Proof.
  intros labels l o H. unfold timer_systems in H. apply in_flat_map in H. destruct H as ([[s1 s2] s3] & W & H).
  assert (In s2 labels).
  { clear H. revert W. induction labels as [|a labels IH]; [intros []|]. intros W. destruct labels as [|b [|c labels]]; try destruct W.
    - injection H as _ -> _. right. now left.
    - right. apply IH. exact H. }
  destruct (is_timer_stage s2) eqn:T; [destruct H|]. exists s2. split; [assumption|]. split; [exact T|].
  apply in_app_or in H. destruct H as [H|H]; [destruct (label_eq_dec s1 l) | destruct (label_eq_dec s3 l)]; cbn in H; try contradiction; destruct H as [<-|[]]; reflexivity.
Qed.
Lemma absent_pass : forall labels remaining tr n, pass labels remaining tr -> ~ (In n labels /\ is_timer_stage n = false) -> proj (OfLabel n) tr = [].
Proof.
  intros labels remaining tr n P A. induction P as [|l remaining block others rest B O _ P IH]; [reflexivity|].
  rewrite proj_app, IH, app_nil_r.
  assert (K : map snd (proj (OfLabel n) block) = []).
  { rewrite proj_kinds. apply (kinds_perm (OfLabel n)) in B. rewrite kinds_app, (kinds_own others n O), app_nil_r in B.
    assert (Z : kinds (OfLabel n) (timer_systems labels l) = []).
    { assert (forall o, In o (timer_systems labels l) -> ops_of (OfLabel n) o = []).
      { intros o Ho. apply systems_in in Ho. destruct Ho as (s & Hs & T & E). unfold ops_of. rewrite E.
        destruct (name_eq_dec (OfLabel s) (OfLabel n)) as [Q|]; [|reflexivity]. injection Q as ->. elim A. now split. }
      clear B. unfold kinds. revert H. generalize (timer_systems labels l). intros ops H. induction ops as [|o ops IHo]; [reflexivity|]. cbn. rewrite H by now left. apply IHo. intros; apply H; now right. }
    rewrite Z in B. now apply Permutation_sym, Permutation_nil in B. }
  now apply map_eq_nil in K.
Qed.

(** Own names: only the own operations count. *)
Lemma proj_own : forall s tr, proj (Own s) tr = proj (Own s) (filter (fun e => own (snd e)) tr).
Proof.
  intros s. induction tr as [|[t o] tr IH]; [reflexivity|]. cbn [filter]. destruct (own (snd (t, o))) eqn:E.
  - unfold proj in *. cbn [flat_map]. now rewrite IH.
  - rewrite <- IH. unfold proj. cbn [flat_map fst snd]. unfold ops_of at 1. unfold own in E. cbn [snd] in E.
    destruct (name_of o); [|discriminate]. destruct (name_eq_dec (OfLabel l) (Own s)); [discriminate | reflexivity].
Qed.

(** Repeated start and stop. *)
Lemma pairs_run : forall labels n tr s, label_ok labels s = true -> passes labels n tr -> forall l,
  exists times, length times = n /\ perform_cells (proj (OfLabel s) tr) (Some (RunTimes l), None) = Some (Some (RunTimes (l ++ times)), None).
Proof.
  intros labels n tr s H P. induction P as [|n block rest B P IH]; intros l; [exists []; rewrite app_nil_r; split; reflexivity|].
  destruct (label_ok_pass labels block s H B) as (t1 & t2 & E). rewrite proj_app, perform_cells_app, E. cbn.
  destruct (IH (l ++ [(t2 - t1)%Q])) as (times & L & R). exists ((t2 - t1)%Q :: times). split; [cbn; now rewrite L|]. rewrite R, <- app_assoc. reflexivity.
Qed.
Lemma pairs_first : forall labels n tr s, label_ok labels s = true -> passes labels (S n) tr ->
  exists times, length times = S n /\ perform_cells (proj (OfLabel s) tr) (None, None) = Some (Some (RunTimes times), None).
Proof.
  intros labels n tr s H P. inversion P as [|n' block rest B P']; subst.
  destruct (label_ok_pass labels block s H B) as (t1 & t2 & E). rewrite proj_app, perform_cells_app, E. cbn.
  destruct (pairs_run labels n rest s H P' [(t2 - t1)%Q]) as (times & L & R). exists ((t2 - t1)%Q :: times). split; [cbn; now rewrite L|]. exact R.
Qed.
Lemma absent_passes : forall labels n tr s, passes labels n tr -> ~ (In s labels /\ is_timer_stage s = false) -> proj (OfLabel s) tr = [].
Proof.
  intros labels n tr s P A. induction P as [|n block rest B P IH]; [reflexivity|]. now rewrite proj_app, IH, (absent_pass labels labels block s B A).
Qed.

Lemma startup_ok : forall sl, add_timers get_startup_stages = Some sl -> forallb (label_ok sl) get_startup_stages = true /\
  (forall s, In s sl /\ is_timer_stage s = false -> In s get_startup_stages).
Proof.
  intros sl H. injection H as <-. split; [vm_compute; reflexivity|]. intros s [I T]. cbn in I.
  repeat (destruct I as [<-|I]; [try discriminate T; cbn; tauto|]). destruct I.
Qed.
Lemma main_ok : forall ml, add_timers get_stages = Some ml -> forallb (label_ok ml) get_stages = true /\
  (forall s, In s ml /\ is_timer_stage s = false -> In s get_stages).
Proof.
  intros ml H. injection H as <-. split; [vm_compute; reflexivity|]. intros s [I T]. cbn in I.
  repeat (destruct I as [<-|I]; [try discriminate T; cbn; tauto|]). destruct I.
Qed.

Theorem stage_timers : forall sl ml, add_timers get_startup_stages = Some sl -> add_timers get_stages = Some ml ->
  forall n trace, run sl ml (S n) trace -> forall pu, perform_all (filter (fun e => own (snd e)) trace) empty = Some pu ->
  exists p, perform_all trace empty = Some p /\
    (forall s, In s get_startup_stages -> exists t, results p (OfLabel s) = Some (RunTimes [t])) /\
    (forall s, In s get_stages -> exists times, results p (OfLabel s) = Some (RunTimes times) /\ length times = S n) /\
    (forall l, timers p (OfLabel l) = None) /\
    (forall s, results p (Own s) = results pu (Own s) /\ timers p (Own s) = timers pu (Own s)).
Proof.
  intros sl ml Hs Hm n trace (t1 & t2 & P1 & P2 & ->) pu Hu.
  destruct (startup_ok sl Hs) as [S1 S2]. destruct (main_ok ml Hm) as [M1 M2]. rewrite forallb_forall in S1, M1.
  assert (CS : forall s, In s get_startup_stages -> exists t, perform_cells (proj (OfLabel s) (t1 ++ t2)) (None, None) = Some (Some (RunTimes [t]), None)).
  { intros s I. destruct (label_ok_pass sl t1 s (S1 s I) P1) as (a & b & E). rewrite proj_app, perform_cells_app, E.
    rewrite (absent_passes ml (S n) t2 s P2); [exists (b - a)%Q; reflexivity|]. intros A. apply M2 in A. apply in_map_iff in A, I.
    destruct A as (? & <- & _), I as (? & ? & _). discriminate. }
  assert (CM : forall s, In s get_stages -> exists times, length times = S n /\ perform_cells (proj (OfLabel s) (t1 ++ t2)) (None, None) = Some (Some (RunTimes times), None)).
  { intros s I. rewrite proj_app, perform_cells_app. rewrite (absent_pass sl sl t1 s P1).
    - cbn [perform_cells]. exact (pairs_first ml n t2 s (M1 s I) P2).
    - intros A. apply S2 in A. apply in_map_iff in A, I. destruct A as (? & <- & _), I as (? & ? & _). discriminate. }
  assert (CO : forall l, ~ In l get_startup_stages -> ~ In l get_stages -> proj (OfLabel l) (t1 ++ t2) = []).
  { intros l N1 N2. rewrite proj_app, (absent_pass sl sl t1 l P1), (absent_passes ml (S n) t2 l P2); [reflexivity | |]; intros A; [apply M2 in A | apply S2 in A]; auto. }
  assert (L : forall l, exists r, perform_cells (proj (OfLabel l) (t1 ++ t2)) (None, None) = Some (r, None)).
  { intros l. destruct (in_dec label_eq_dec l get_startup_stages) as [I|N1]; [destruct (CS l I) as (t & E); eexists; exact E|].
    destruct (in_dec label_eq_dec l get_stages) as [I|N2]; [destruct (CM l I) as (t & _ & E); eexists; exact E|]. rewrite (CO l N1 N2). now exists None. }
  destruct (perform_all_exists (t1 ++ t2) empty) as (p & E).
  { intros [l|s].
    - destruct (L l) as (r & Er). change (at_name (OfLabel l) empty) with ((None, None) : cell). rewrite Er. discriminate.
    - rewrite proj_own. rewrite (perform_all_cells _ _ _ (Own s) Hu). discriminate. }
  exists p. split; [exact E|].
  repeat split.
  - intros s I. destruct (CS s I) as (t & C). pose proof (perform_all_cells _ _ _ (OfLabel s) E) as A. change (at_name (OfLabel s) empty) with ((None, None) : cell) in A.
    rewrite C in A. injection A as A _. exists t. now symmetry.
  - intros s I. destruct (CM s I) as (times & Len & C). pose proof (perform_all_cells _ _ _ (OfLabel s) E) as A. change (at_name (OfLabel s) empty) with ((None, None) : cell) in A.
    rewrite C in A. injection A as A _. exists times. split; [now symmetry | exact Len].
  - intros l. destruct (L l) as (r & C). pose proof (perform_all_cells _ _ _ (OfLabel l) E) as A. change (at_name (OfLabel l) empty) with ((None, None) : cell) in A.
    rewrite C in A. injection A as _ A. now symmetry.
  - pose proof (perform_all_cells _ _ _ (Own s) E) as A. rewrite proj_own, (perform_all_cells _ _ _ (Own s) Hu) in A. now injection A as A _.
  - pose proof (perform_all_cells _ _ _ (Own s) E) as A. rewrite proj_own, (perform_all_cells _ _ _ (Own s) Hu) in A. now injection A as _ A.
Qed.

(** ** Invariants of one name. *)
Lemma cells_invariant : forall (I : cell -> Prop) l c c', (forall k t c c', In (t, k) l -> I c -> perform_cell k t c = Some c' -> I c') ->
  I c -> perform_cells l c = Some c' -> I c'.
Proof.
  intros I l. induction l as [|[t k] l IH]; intros c c' H Ic E; cbn in E; [now injection E as <-|].
  destruct (perform_cell k t c) as [d|] eqn:D; [|discriminate]. apply (IH d c'); [|exact (H k t c d (or_introl eq_refl) Ic D) | exact E].
  intros k' t' x y Hi. apply H. now right.
Qed.

Definition not_empty (c : cell) : Prop := forall l, fst c = Some (RunTimes l) -> l <> [].
Lemma not_empty_step : forall k t c c', not_empty c -> perform_cell k t c = Some c' -> not_empty c'.
Proof.
  intros [| |z] t [r s] c' N E; cbn in E.
  - injection E as <-. exact N.
  - destruct s; [|discriminate]. destruct r as [[l|]|]; try discriminate E; injection E as <-; intros l' E'; injection E' as <-; [now destruct l | discriminate].
  - destruct (in_i32 z); [|discriminate]. injection E as <-. intros l E. discriminate E.
Qed.

Lemma fold_from : forall l a, (fold_left Qplus l a == a + fold_right Qplus 0 l)%Q.
Proof. induction l as [|x l IH]; intros a; cbn; [ring|]. rewrite IH. ring. Qed.

Theorem statistics_ok : forall trace p, perform_all trace empty = Some p -> forall now n total average num_calls,
  as_output p now n = Some (Statistics total average num_calls) ->
  exists l a, average = Some a /\ num_calls = length l /\ 0 < num_calls /\ (total == fold_right Qplus 0 l)%Q /\ (a * inject_Z (Z.of_nat num_calls) == total)%Q /\
    (results p n = Some (RunTimes l) \/ n = TOTAL /\ exists t, timers p n = Some t /\ l = [now - t]%Q).
Proof.
  intros trace p E now n total average num_calls H.
  assert (S : forall l, l <> [] -> statistics l = Statistics total average num_calls ->
    exists a, average = Some a /\ num_calls = length l /\ 0 < num_calls /\ (total == fold_right Qplus 0 l)%Q /\ (a * inject_Z (Z.of_nat num_calls) == total)%Q).
  { intros l N Q. unfold statistics in Q. injection Q as <- <- <-. destruct l as [|x l]; [congruence|].
    eexists. split; [reflexivity|]. split; [reflexivity|]. split; [cbn; lia|]. split; [rewrite fold_from; ring|].
    field. intros Z. unfold Qeq in Z. cbn in Z. lia. }
  assert (R : forall r, results p n = Some r -> as_value r = Statistics total average num_calls ->
    exists l a, average = Some a /\ num_calls = length l /\ 0 < num_calls /\ (total == fold_right Qplus 0 l)%Q /\ (a * inject_Z (Z.of_nat num_calls) == total)%Q /\
    (results p n = Some (RunTimes l) \/ n = TOTAL /\ exists t, timers p n = Some t /\ l = [now - t]%Q)).
  { intros r Er V. destruct r as [l|z]; [|discriminate V].
    assert (N : l <> []).
    { pose proof (perform_all_cells _ _ _ n E) as C. apply (cells_invariant not_empty) in C.
      - now apply C.
      - intros k t c c' _. apply not_empty_step.
      - intros l' Q. discriminate Q. }
    destruct (S l N V) as (a & A). exists l, a. destruct A as (A1 & A2 & A3 & A4 & A5). repeat (split; [assumption|]). now left. }
  unfold as_output in H. destruct (timers p TOTAL) as [s|] eqn:T.
  - destruct (name_eq_dec n TOTAL) as [->|N].
    + assert (H' : statistics [now - s]%Q = Statistics total average num_calls) by (remember (statistics [now - s]%Q); congruence). destruct (S [now - s]%Q ltac:(discriminate) H') as (a & A1 & A2 & A3 & A4 & A5).
      exists [now - s]%Q, a. repeat (split; [assumption|]). right. split; [reflexivity|]. exists s. now split.
    + destruct (results p n) as [r|] eqn:Er; [|discriminate]. assert (H' : as_value r = Statistics total average num_calls) by (cbn [option_map] in H; congruence). now apply (R r).
  - destruct (results p n) as [r|] eqn:Er; [|discriminate]. assert (H' : as_value r = Statistics total average num_calls) by (cbn [option_map] in H; congruence). now apply (R r).
Qed.

Definition known (c : cell) : Prop := fst c <> None \/ snd c <> None.
Lemma known_step : forall k t c c', known c -> perform_cell k t c = Some c' -> known c'.
Proof.
  intros [| |z] t [r s] c' N E; cbn in E.
  - injection E as <-. right. discriminate.
  - destruct s; [|discriminate]. destruct r as [[l|]|]; try discriminate E; injection E as <-; left; discriminate.
  - destruct (in_i32 z); [|discriminate]. injection E as <-. left. discriminate.
Qed.
Theorem total_written : forall t0 trace p, perform_all ((t0, Start TOTAL) :: trace) empty = Some p -> forall now, as_output p now TOTAL <> None.
Proof.
  intros t0 trace p E now. cbn [perform_all perform] in E. apply (perform_all_cells _ _ _ TOTAL) in E.
  apply (cells_invariant known) in E; [| intros k t c c' _; apply known_step | right; unfold at_name; cbn [snd timers]; rewrite update_same; discriminate].
  unfold as_output. destruct (timers p TOTAL) as [s|] eqn:T.
  - destruct (name_eq_dec TOTAL TOTAL); [discriminate | congruence].
  - destruct E as [E|E]; cbn [at_name fst snd] in E; [|congruence]. destruct (results p TOTAL); [discriminate | congruence].
Qed.

(** With a clock that does not go backwards all times are positive or zero. *)
Lemma proj_sorted : forall n tr, clock tr -> StronglySorted (fun a b => (fst a <= fst b)%Q) (proj n tr).
Proof.
  intros n tr H. induction H as [|[t o] tr S IH F]; [constructor|]. cbn [proj flat_map]. fold (proj n tr). unfold ops_of. cbn [fst snd].
  destruct (name_eq_dec (name_of o) n); cbn [map app]; [|exact IH]. constructor; [exact IH|]. apply Forall_forall. intros [t' k] I.
  unfold proj in I. apply in_flat_map in I. destruct I as ([t'' o'] & I & K). cbn [fst snd] in K. apply in_map_iff in K. destruct K as (k' & E & _). injection E as -> _.
  rewrite Forall_forall in F. specialize (F _ I). exact F.
Qed.
Definition nonneg (r : option result) : Prop := forall l, r = Some (RunTimes l) -> Forall (fun t => (0 <= t)%Q) l.
Lemma cells_nonneg : forall l c c', StronglySorted (fun a b => (fst a <= fst b)%Q) l -> nonneg (fst c) ->
  (forall s t k, snd c = Some s -> In (t, k) l -> (s <= t)%Q) -> perform_cells l c = Some c' -> nonneg (fst c').
Proof.
  induction l as [|[t k] l IH]; intros c c' S N B E; cbn in E; [now injection E as <-|].
  inversion S as [|x y S' F]; subst. rewrite Forall_forall in F.
  destruct (perform_cell k t c) as [d|] eqn:D; [|discriminate]. apply (IH d c' S'); [| | exact E].
  - destruct k as [| |z]; cbn in D.
    + injection D as <-. exact N.
    + destruct c as [r s]. cbn in *. destruct s as [s|]; [|discriminate]. specialize (B s t KStop eq_refl (or_introl eq_refl)).
      destruct r as [[lt|]|]; try discriminate D; injection D as <-; intros l' El; injection El as <-.
      * apply Forall_app. split; [now apply N|]. constructor; [lra | constructor].
      * constructor; [lra | constructor].
    + destruct (in_i32 z); [|discriminate]. injection D as <-. intros l' El. discriminate El.
  - intros s t' k' Es I. destruct k as [| |z]; cbn in D.
    + injection D as <-. cbn in Es. injection Es as <-. apply (F _ I).
    + destruct c as [r s0]. cbn in *. destruct s0; [|discriminate]. destruct r as [[|]|]; try discriminate D; injection D as <-; discriminate Es.
    + destruct (in_i32 z); [|discriminate]. injection D as <-. apply (B s t' k' Es). now right.
Qed.
Theorem times_nonneg : forall trace p, clock trace -> perform_all trace empty = Some p -> forall n times,
  results p n = Some (RunTimes times) -> Forall (fun t => (0 <= t)%Q) times.
Proof.
  intros trace p C E n times H. apply (perform_all_cells _ _ _ n) in E. apply cells_nonneg in E.
  - now apply E.
  - now apply proj_sorted.
  - intros l Q. discriminate Q.
  - intros s t k Q. discriminate Q.
Qed.

Theorem record_ok : forall n val t p, (exists p', perform (Record n val) t p = Some p') <-> (- 2 ^ 31 <= val < 2 ^ 31)%Z.
Proof.
  intros n val t p. cbn [perform]. unfold in_i32. split.
  - intros (p' & H). destruct ((- 2 ^ 31 <=? val)%Z && (val <? 2 ^ 31)%Z) eqn:E; [|discriminate]. apply andb_true_iff in E. destruct E as [E1 E2].
    apply Z.leb_le in E1. apply Z.ltb_lt in E2. now split.
  - intros [H1 H2]. apply Z.leb_le in H1. apply Z.ltb_lt in H2. rewrite H1, H2. cbn. eexists. reflexivity.
Qed.

(** A run in which nothing takes any time. *)
Lemma canonical_pass : forall labels (mine : label -> list op) remaining, (forall l o, In o (mine l) -> own o = true) ->
  (forall l, is_timer_stage l = true -> mine l = []) ->
  pass labels remaining (map (fun o => (0%Q, o)) (flat_map (fun l => timer_systems labels l ++ mine l) remaining)).
Proof.
  intros labels mine remaining O T. induction remaining as [|l remaining IH]; [constructor|]. cbn [flat_map]. rewrite map_app.
  apply (pass_stage labels l remaining _ (mine l)); [rewrite map_map; cbn; now rewrite map_id | apply O | apply T | exact IH].
Qed.

(** ** The list of all stages *)
Lemma combine_snoc {A B} : forall (T : list A) (x : A) (S : list B), length S <= length T -> combine (T ++ [x]) S = combine T S.
Proof.
  induction T as [|t T IH]; intros x S H.
  - destruct S; [reflexivity | cbn in H; lia].
  - destruct S as [|s S]; [reflexivity|]. cbn. rewrite IH; [reflexivity | cbn in H; lia].
Qed.
Definition zipped {A} (T S : list A) : list A := flat_map (fun p => [fst p; snd p]) (combine T S).
Lemma zipped_in {A} : forall (T S : list A) a, In a (zipped T S) -> In a T \/ In a S.
Proof.
  intros T S a H. unfold zipped in H. apply in_flat_map in H. destruct H as ((t & s) & I & H). cbn in H. pose proof (in_combine_l _ _ _ _ I). pose proof (in_combine_r _ _ _ _ I).
  destruct H as [<-|[<-|[]]]; tauto.
Qed.
Lemma zipped_nodup {A} : forall (T S : list A), NoDup T -> NoDup S -> (forall a, In a T -> ~ In a S) -> NoDup (zipped T S).
Proof.
  induction T as [|t T IH]; intros S NT NS D; [constructor|]. destruct S as [|s S]; [constructor|]. inversion NT; subst. inversion NS; subst.
  unfold zipped. cbn [combine flat_map fst snd app]. assert (N : NoDup (zipped T S)) by (apply IH; [assumption | assumption | intros a Ia Is; apply (D a); now right]).
  constructor.
  - intros [E|I]; [subst; apply (D t); now left|]. apply zipped_in in I. destruct I as [I|I]; [contradiction|]. apply (D t); [now left | now right].
  - constructor; [|exact N]. intro I. apply zipped_in in I. destruct I as [I|I]; [|contradiction]. apply (D s); [now right | now left].
Qed.
Lemma zipped_filter {A} (f : A -> bool) : forall (T S : list A), length S <= length T -> (forall a, In a T -> f a = false) -> (forall a, In a S -> f a = true) -> filter f (zipped T S) = S.
Proof.
  induction T as [|t T IH]; intros S L FT FS.
  - destruct S; [reflexivity | cbn in L; lia].
  - destruct S as [|s S]; [reflexivity|]. unfold zipped. cbn [combine flat_map fst snd app filter]. rewrite (FT t), (FS s) by now left. f_equal. apply IH; [cbn in L; lia | |]; intros a I; [apply FT | apply FS]; now right.
Qed.
Lemma zipped_around {A} : forall (T S : list A) (x : A) s, length S <= length T -> In s S ->
  exists l1 t1 t2 l2, zipped T S ++ [x] = l1 ++ t1 :: s :: t2 :: l2 /\ (In t1 (T ++ [x])) /\ In t2 (T ++ [x]).
Proof.
  induction T as [|t T IH]; intros S x s L I.
  - destruct S; [destruct I | cbn in L; lia].
  - destruct S as [|s0 S]; [destruct I|]. unfold zipped. cbn [combine flat_map fst snd app]. fold (zipped T S). destruct I as [->|I].
    + destruct (zipped T S) as [|z Z] eqn:E.
      * exists [], t, x, []. split; [reflexivity|]. split; [now left|]. right. apply in_or_app. right. now left.
      * destruct T as [|t' T]; [discriminate E|]. destruct S as [|s1 S]; [discriminate E|]. unfold zipped in E. cbn in E. injection E as <- <-.
        eexists [], t, t', _. split; [reflexivity|]. split; [now left | right; now left].
    + destruct (IH S x s ltac:(cbn in L; lia) I) as (l1 & t1 & t2 & l2 & E & I1 & I2). exists (t :: s0 :: l1), t1, t2, l2. rewrite E.
      split; [reflexivity|]. split; now right.
Qed.

Lemma timer_stage_iff l : is_timer_stage l = true <-> In l all_timers.
Proof. unfold is_timer_stage. destruct (in_dec label_eq_dec l all_timers); split; (tauto || discriminate). Qed.

Theorem labels_ok : forall stages, NoDup stages -> (forall s, In s stages -> is_timer_stage s = false) ->
  match add_timers stages with
  | None => length all_timers <= length stages
  | Some l => NoDup l /\ filter (fun s => negb (is_timer_stage s)) l = stages /\
      forall s, In s stages -> exists l1 t1 t2 l2, l = l1 ++ t1 :: s :: t2 :: l2 /\ is_timer_stage t1 = true /\ is_timer_stage t2 = true
  end.
Proof.
  intros stages N D. unfold add_timers. destruct (length stages <? length all_timers) eqn:E; [|apply Nat.ltb_ge in E; exact E].
  apply Nat.ltb_lt in E. set (T := map Timer [1; 2; 3; 4; 5; 6; 7; 8; 9; 10; 11; 12; 13]).
  assert (L : length stages <= length T) by (cbn in E |- *; lia).
  assert (Z : flat_map (fun p => [fst p; snd p]) (combine all_timers stages) ++ [last all_timers (Timer 0)] = zipped T stages ++ [Timer 14])
    by (change all_timers with (T ++ [Timer 14]) at 1; rewrite (combine_snoc T (Timer 14) stages L); reflexivity).
  rewrite Z.
  assert (NT : NoDup (T ++ [Timer 14])) by (cbn; repeat constructor; cbn; intuition discriminate).
  assert (TT : forall a, In a (T ++ [Timer 14]) -> is_timer_stage a = true) by (intros a I; apply timer_stage_iff; exact I).
  split; [|split].
  - apply NoDup_remove_2 in NT as N14. rewrite app_nil_r in N14. apply NoDup_remove_1 in NT. rewrite app_nil_r in NT.
    apply (Permutation_NoDup (Permutation_cons_append _ _)). constructor.
    + intro I. apply zipped_in in I. destruct I as [I|I]; [contradiction|]. apply D in I. discriminate I.
    + apply zipped_nodup; [exact NT | exact N|]. intros a Ia Is. apply D in Is. rewrite TT in Is; [discriminate | apply in_or_app; now left].
  - rewrite filter_app. cbn [filter]. rewrite (TT (Timer 14)) by (apply in_or_app; right; now left). cbn [negb]. rewrite app_nil_r.
    apply (zipped_filter (fun s => negb (is_timer_stage s)) T stages L); intros a I; [rewrite TT; [reflexivity | apply in_or_app; now left] | now rewrite D].
  - intros s I. destruct (zipped_around T stages (Timer 14) s L I) as (l1 & t1 & t2 & l2 & Eq & I1 & I2). exists l1, t1, t2, l2. split; [exact Eq|]. split; now apply TT.
Qed.

Definition before_b (l : list label) (a b : label) : bool :=
  (fix go l := match l with [] => false | x :: r => if label_eq_dec x a then if in_dec label_eq_dec b r then true else false else go r end) l.
Lemma before_b_ok l a b : before_b l a b = true -> before l a b.
Proof.
  induction l as [|x l IH]; cbn [before_b]; [discriminate|]. destruct (label_eq_dec x a) as [->|_].
  - destruct (in_dec label_eq_dec b l) as [I|]; [|discriminate]. intros _. apply in_split in I. destruct I as (l2 & l3 & ->). exists [], l2, l3. reflexivity.
  - intro H. destruct (IH H) as (l1 & l2 & l3 & ->). exists (x :: l1), l2, l3. reflexivity.
Qed.
Theorem order_ok : forall sl ml, add_timers get_startup_stages = Some sl -> add_timers get_stages = Some ml ->
  (forall a b, In (a, b) startup_needs -> before sl (Startup a) (Startup b)) /\ (forall a b, In (a, b) main_needs -> before ml (Main a) (Main b)).
Proof.
  intros sl ml Hs Hm. injection Hs as <-. injection Hm as <-. split; intros a b I; apply before_b_ok;
    repeat (destruct I as [I|I]; [injection I as <- <-; reflexivity|]); destruct I.
Qed.
