(** Proofs about the selection of output fields. *)
From Coq Require Import List String Bool.
Import ListNotations.
From Verif Require Import OutputFields_Model OutputFields_Spec.

Lemma desired_iff f o : is_desired_field f o = true <-> o_attribute o = true \/ wanted f (o_name o).
Proof.
  unfold is_desired_field, wanted. rewrite orb_true_iff. destruct f as [|names]; [tauto|]. rewrite existsb_exists. split.
  - intros [H|(x & H & E)]; [now left|]. apply String.eqb_eq in E. subst x. now right.
  - intros [H|H]; [now left|]. right. exists (o_name o). split; [exact H|apply String.eqb_refl].
Qed.
Lemma added p m f os : forall s, let r := fold_left (add_output p m f) os s in
  create_systems r = create_systems s ++ (if p || m then filter (is_desired_field f) os else []) /\
  write_systems r = write_systems s ++ filter (fun o => is_desired_field f o && negb (o_attribute o)) os /\
  registered_fields r = registered_fields s ++ (if m then map o_name os else []).
Proof.
  induction os as [|o os IH]; intro s; cbn [fold_left].
  - destruct (p || m), m; cbn; rewrite !app_nil_r; repeat split.
  - destruct (IH (add_output p m f s o)) as (A & B & C). cbv zeta in *. rewrite A, B, C. clear A B C IH.
    unfold add_output, build_everywhere, build_on_main_rank. cbn [filter map].
    destruct p, m, (is_desired_field f o), (o_attribute o); cbn; rewrite ?app_nil_r, <- ?app_assoc; repeat split.
Qed.
Lemma result p m f os : create_systems (add_outputs p m f os) = (if p || m then filter (is_desired_field f) os else []) /\
  write_systems (add_outputs p m f os) = filter (fun o => is_desired_field f o && negb (o_attribute o)) os /\
  registered_fields (add_outputs p m f os) = (if m then map o_name os else []).
Proof. exact (added p m f os new_sim). Qed.

Theorem selection p m f os o :
  (In o (write_systems (add_outputs p m f os)) <-> In o os /\ o_attribute o = false /\ wanted f (o_name o)) /\
  (In o (create_systems (add_outputs p m f os)) <-> (p = true \/ m = true) /\ In o os /\ (o_attribute o = true \/ wanted f (o_name o))).
Proof.
  destruct (result p m f os) as (C & W & _). rewrite C, W. split.
  - rewrite filter_In, andb_true_iff, desired_iff, negb_true_iff. split; [|tauto]. intros (A & [B|B] & D); [congruence|tauto].
  - rewrite <- orb_true_iff. destruct (p || m); [rewrite filter_In, desired_iff; tauto|]. split; [intros []|intros [? _]; discriminate].
Qed.
Theorem created_before_written f os rank_is_main o : In o (write_systems (add_outputs false rank_is_main f os)) ->
  In o (create_systems (add_outputs false true f os)).
Proof. intro H. apply selection in H. apply selection. tauto. Qed.
Theorem same_order p m f os : filter (fun o => negb (o_attribute o)) (create_systems (add_outputs p true f os)) = write_systems (add_outputs p m f os).
Proof.
  destruct (result p true f os) as (C & _). destruct (result p m f os) as (_ & W & _). rewrite C, W, orb_true_r.
  induction os as [|o os IH]; [reflexivity|]. cbn [filter].
  assert (I : filter (fun o => negb (o_attribute o)) (filter (is_desired_field f) os) = filter (fun o => is_desired_field f o && negb (o_attribute o)) os).
  { apply IH; [destruct (result p true f os) as (X & _); exact X|destruct (result p m f os) as (_ & X & _); exact X]. }
  destruct (is_desired_field f o); cbn [filter andb]; [|exact I]. destruct (negb (o_attribute o)); [now rewrite I|exact I].
Qed.
Theorem reported p names os field :
  In field (unknown_fields (Chosen names) (add_outputs p true (Chosen names) os)) <-> In field names /\ ~ exists o, In o os /\ o_name o = field.
Proof.
  unfold unknown_fields. destruct (result p true (Chosen names) os) as (_ & _ & R). rewrite R, filter_In, negb_true_iff. split; intros [A B]; (split; [exact A|]).
  - intros (o & O1 & O2). assert (T : existsb (String.eqb field) (map o_name os) = true); [|congruence].
    apply existsb_exists. exists field. split; [rewrite <- O2; now apply in_map|apply String.eqb_refl].
  - destruct (existsb (String.eqb field) (map o_name os)) eqn:E; [|reflexivity]. exfalso. apply B. apply existsb_exists in E. destruct E as (x & X1 & X2).
    apply String.eqb_eq in X2. subst x. apply in_map_iff in X1. destruct X1 as (o & O1 & O2). now exists o.
Qed.
Lemma texts_map names : texts (map NText names) = Some names.
Proof. induction names as [|n names IH]; [reflexivity|]. cbn. now rewrite IH. Qed.
Lemma texts_some l : forall names, texts l = Some names -> l = map NText names.
Proof.
  induction l as [|x l IH]; intros names H; cbn in H; [injection H as <-; reflexivity|]. destruct x; try discriminate.
  destruct (texts l) as [r|]; [|discriminate]. injection H as <-. cbn. now rewrite (IH r eq_refl).
Qed.
Theorem readable value f : read_fields value = Some f <->
  (value = None \/ value = Some NNull) /\ f = All \/ exists names, value = Some (NSequence (map NText names)) /\ f = Chosen names.
Proof.
  split.
  - destruct value as [[| | |]|]; cbn; try discriminate.
    + intro H. injection H as <-. left. tauto.
    + destruct (texts items) as [names|] eqn:E; [|discriminate]. intro H. injection H as <-. right. exists names. now rewrite (texts_some _ _ E).
    + intro H. injection H as <-. left. tauto.
  - intros [[[-> | ->] ->]|(names & -> & ->)]; try reflexivity. cbn. now rewrite texts_map.
Qed.
