(** Proofs about parameter overrides. *)
From Coq Require Import List String Ascii Bool Arith Lia.
From Verif Require Import Params_Model Params_Spec.
Import ListNotations.
Local Open Scope string_scope.

Section Assoc.
  Variable A : Type.
  Lemma get_in : forall k (m : list (string * A)) v, get k m = Some v -> In (k, v) m.
  Proof.
    intros k m v. induction m as [|[k' v'] m IH]; cbn; [discriminate|].
    destruct (String.eqb_spec k k') as [->|]; intro H; [injection H as ->; auto|auto].
  Qed.
  Lemma get_none : forall k (m : list (string * A)), get k m = None -> ~ In k (map fst m).
  Proof.
    intros k m. induction m as [|[k' v'] m IH]; cbn; [auto|].
    destruct (String.eqb_spec k k') as [->|]; [discriminate|]. intros H [C|C]; [congruence|]. apply IH; auto.
  Qed.
  Lemma in_get : forall k (m : list (string * A)) v, NoDup (map fst m) -> In (k, v) m -> get k m = Some v.
  Proof.
    intros k m v. induction m as [|[k' v'] m IH]; cbn; [contradiction|]. intros Hn [H|H].
    - injection H as -> ->. rewrite String.eqb_refl. reflexivity.
    - inversion Hn as [|? ? N1 N2]; subst. destruct (String.eqb_spec k k') as [->|]; [|auto].
      exfalso. apply N1. apply in_map_iff. exists (k', v). auto.
  Qed.
  Lemma put_keys : forall k (v : A) m, map fst (put k v m) = map fst m.
  Proof. intros k v m. induction m as [|[k' v'] m IH]; cbn; [auto|]. destruct (String.eqb k k'); cbn; congruence. Qed.
  Lemma put_same : forall k (v w : A) m, get k m = Some w -> In (k, v) (put k v m).
  Proof.
    intros k v w m. induction m as [|[k' v'] m IH]; cbn; [discriminate|].
    destruct (String.eqb_spec k k') as [->|]; [left; reflexivity|right; auto].
  Qed.
  Lemma get_put_same : forall k (v w : A) m, get k m = Some w -> get k (put k v m) = Some v.
  Proof.
    intros k v w m. induction m as [|[k' v'] m IH]; cbn; [discriminate|].
    destruct (String.eqb k k') eqn:E; cbn; rewrite E; auto.
  Qed.
  Lemma get_put_other : forall k k' (v : A) m, k <> k' -> get k (put k' v m) = get k m.
  Proof.
    intros k k' v m H. induction m as [|[k2 v2] m IH]; cbn; [reflexivity|].
    destruct (String.eqb_spec k' k2) as [->|]; cbn; destruct (String.eqb_spec k k2); auto; congruence.
  Qed.
  Lemma put_other : forall k k' (v w : A) m, k <> k' -> (In (k, w) (put k' v m) <-> In (k, w) m).
  Proof.
    intros k k' v w m H. induction m as [|[k2 v2] m IH]; cbn; [tauto|].
    destruct (String.eqb_spec k' k2) as [->|]; cbn; [|rewrite IH; tauto].
    split; intros [E|E]; auto; injection E as ? ?; congruence.
  Qed.
  Lemma put_in : forall k k' (v w : A) m, In (k, w) (put k' v m) -> (k = k' /\ w = v) \/ In (k, w) m.
  Proof.
    intros k k' v w m. induction m as [|[k2 v2] m IH]; cbn; [tauto|].
    destruct (String.eqb_spec k' k2) as [->|]; cbn; intros [E|E]; auto.
    - injection E as -> ->. auto.
    - destruct (IH E) as [X|X]; auto.
  Qed.
End Assoc.

Lemma found_fun : forall v p w, well_formed v -> found v p w -> forall w', found v p w' -> w' = w.
Proof.
  intros v p w Hw H. induction H as [v|m k sub p v Hin H IH]; intros w' H'.
  - inversion H'. reflexivity.
  - inversion H' as [|? ? sub' ? ? Hin' H'']; subst. inversion Hw as [| |? N W]; subst.
    pose proof (in_get _ _ _ _ N Hin) as G. rewrite (in_get _ _ _ _ N Hin') in G. injection G as ->.
    apply IH; eauto.
Qed.

Lemma found_construct : forall keys v, found (construct_sub_mapping keys v) keys v.
Proof. induction keys as [|k keys IH]; intro v; cbn; [constructor|]. econstructor; [left; reflexivity|auto]. Qed.
Lemma construct_only : forall keys v p w, found (construct_sub_mapping keys v) p w -> prefix p keys \/ prefix keys p.
Proof.
  induction keys as [|k keys IH]; intros v p w H.
  - right. exists p. reflexivity.
  - cbn in H. inversion H as [|m k' sub p' v' Hin H']; subst; [left; exists (k :: keys); reflexivity|].
    destruct Hin as [E|[]]. injection E as <- <-.
    destruct (IH v p' w H') as [[r ->]|[r ->]]; [left|right]; exists r; reflexivity.
Qed.
Lemma wf_construct : forall keys v, well_formed v -> well_formed (construct_sub_mapping keys v).
Proof.
  induction keys as [|k keys IH]; intros v H; cbn; [exact H|]. constructor.
  - cbn. constructor; [intros []|constructor].
  - intros k' v' [E|[]]. injection E as <- <-. auto.
Qed.

Lemma prefix_cons : forall k p q, prefix p q -> prefix (k :: p) (k :: q).
Proof. intros k p q [r ->]. exists r. reflexivity. Qed.
Lemma apart_tail : forall k p q, apart (k :: p) (k :: q) -> apart p q.
Proof. intros k p q [H1 H2]. split; intro C; [apply H1|apply H2]; apply prefix_cons; exact C. Qed.

Lemma nodup_snoc : forall (A : Type) (l : list A) a, NoDup l -> ~ In a l -> NoDup (l ++ [a]).
Proof.
  intros A l a N H. induction N as [|b l Hb N IH]; cbn; [constructor; [intros []|constructor]|].
  constructor; [|apply IH; intro; apply H; right; assumption].
  rewrite in_app_iff. intros [C|[C|[]]]; [contradiction|]. apply H. left. congruence.
Qed.

(** A successful override sets the value and nothing else. *)
Lemma set_ok : forall keys v target v', set_sublevel_value_by_keys v keys target = Some v' -> well_formed v -> well_formed target ->
  well_formed v' /\ found v' keys target /\ forall p w, apart p keys -> (found v' p w <-> found v p w).
Proof.
  induction keys as [|k keys IH]; intros v target v' H Hw Ht; cbn in H.
  - injection H as <-. split; [exact Ht|]. split; [constructor|]. intros p w [_ C]. exfalso. apply C. exists p. reflexivity.
  - destruct v as [|s|m]; try discriminate. inversion Hw as [| |? N W]; subst.
    destruct (get k m) as [sub|] eqn:G.
    + destruct (set_sublevel_value_by_keys sub keys target) as [sub'|] eqn:E; [|discriminate]. cbn in H. injection H as <-.
      destruct (IH sub target sub' E (W _ _ (get_in _ _ _ _ G)) Ht) as (W' & F' & U').
      assert (Nput : NoDup (map fst (put k sub' m))) by (rewrite put_keys; exact N).
      split; [constructor; [exact Nput|]|].
      { intros k' v' Hin. destruct (put_in _ _ _ _ _ _ Hin) as [[-> ->]|X]; [exact W'|eauto]. }
      split; [econstructor; [eapply put_same; eauto|exact F']|].
      intros p w Hap. split; intro F.
      * inversion F as [|? k2 sub2 p2 ? Hin F2]; subst; [exfalso; destruct Hap as [C _]; apply C; exists (k :: keys); reflexivity|].
        destruct (String.eqb_spec k2 k) as [->|Hne].
        -- pose proof (in_get _ _ _ _ Nput Hin) as G2. rewrite (in_get _ _ _ _ Nput (put_same _ _ sub' _ _ G)) in G2. injection G2 as <-.
           econstructor; [exact (get_in _ _ _ _ G)|]. apply U'; [eapply apart_tail; eauto|exact F2].
        -- econstructor; [|exact F2]. apply put_other in Hin; auto.
      * inversion F as [|? k2 sub2 p2 ? Hin F2]; subst; [exfalso; destruct Hap as [C _]; apply C; exists (k :: keys); reflexivity|].
        destruct (String.eqb_spec k2 k) as [->|Hne].
        -- pose proof (in_get _ _ _ _ N Hin) as G2. rewrite G in G2. injection G2 as <-.
           econstructor; [eapply put_same; eauto|]. apply U'; [eapply apart_tail; eauto|exact F2].
        -- econstructor; [|exact F2]. apply put_other; auto.
    + injection H as <-. pose proof (get_none _ _ _ G) as Hk.
      split; [constructor|].
      { rewrite map_app. cbn. apply nodup_snoc; auto. }
      { intros k' v' Hin. apply in_app_or in Hin. destruct Hin as [Hin|[E|[]]]; [eauto|]. injection E as <- <-. apply wf_construct. exact Ht. }
      split; [econstructor; [apply in_or_app; right; left; reflexivity|apply found_construct]|].
      intros p w Hap. split; intro F.
      * inversion F as [|? k2 sub2 p2 ? Hin F2]; subst; [exfalso; destruct Hap as [C _]; apply C; exists (k :: keys); reflexivity|].
        apply in_app_or in Hin. destruct Hin as [Hin|[E|[]]]; [econstructor; eauto|]. injection E as <- <-. exfalso.
        apply apart_tail in Hap. destruct Hap as [A1 A2]. destruct (construct_only _ _ _ _ F2); auto.
      * inversion F as [|? k2 sub2 p2 ? Hin F2]; subst; [exfalso; destruct Hap as [C _]; apply C; exists (k :: keys); reflexivity|].
        econstructor; [apply in_or_app; left; exact Hin|exact F2].
Qed.

(** When an override panics. *)
Lemma set_none : forall keys v target, well_formed v ->
  (set_sublevel_value_by_keys v keys target = None
   <-> exists p k r w, keys = (p ++ k :: r)%list /\ found v p w /\ (forall m, w <> Mapping m)).
Proof.
  induction keys as [|k keys IH]; intros v target Hw; cbn.
  - split; [discriminate|]. intros (p & k & r & w & E & _). destruct p; discriminate.
  - destruct v as [|s|m].
    + split; [intros _|reflexivity]. exists [], k, keys, Null. split; [reflexivity|]. split; [constructor|congruence].
    + split; [intros _|reflexivity]. exists [], k, keys, (Scalar s). split; [reflexivity|]. split; [constructor|congruence].
    + inversion Hw as [| |? N W]; subst. destruct (get k m) as [sub|] eqn:G.
      * pose proof (get_in _ _ _ _ G) as Hin. specialize (IH sub target (W _ _ Hin)).
        destruct (set_sublevel_value_by_keys sub keys target) as [sub'|] eqn:E; cbn.
        -- split; [discriminate|]. intros (p & k2 & r & w & Ek & F & Nm). destruct p as [|k3 p].
           ++ inversion F; subst. exfalso. eapply Nm. reflexivity.
           ++ injection Ek as <- Ek. inversion F as [|? ? sub2 ? ? Hin2 F2]; subst.
              pose proof (in_get _ _ _ _ N Hin2) as G2. rewrite G in G2. injection G2 as <-.
              assert (X : Some sub' = None) by (apply IH; eauto 8). discriminate.
        -- split; [intros _|reflexivity]. destruct (proj1 IH eq_refl) as (p & k2 & r & w & -> & F & Nm).
           exists (k :: p), k2, r, w. split; [reflexivity|]. split; [econstructor; eauto|exact Nm].
      * split; [discriminate|]. intros (p & k2 & r & w & Ek & F & Nm). destruct p as [|k3 p].
        -- inversion F; subst. exfalso. eapply Nm. reflexivity.
        -- injection Ek as <- Ek. inversion F as [|? ? sub2 ? ? Hin2 F2]; subst.
           exfalso. apply (get_none _ _ _ G). apply in_map_iff. eexists. split; [|exact Hin2]. reflexivity.
Qed.

Lemma insert_overrides_ok : forall l v v', insert_overrides v l = Some v' -> well_formed v ->
  (forall o, In o l -> o_keys o <> [] /\ well_formed (o_value o)) ->
  well_formed v'
  /\ (forall l1 o l2, l = (l1 ++ o :: l2)%list -> (forall o', In o' l2 -> apart (o_keys o) (o_keys o')) -> found v' (o_keys o) (o_value o))
  /\ (forall p w, (forall o, In o l -> apart p (o_keys o)) -> (found v' p w <-> found v p w)).
Proof.
  induction l as [|o l IH]; intros v v' H Hw Hl; cbn [insert_overrides] in H.
  - injection H as <-. split; [exact Hw|]. split; [|tauto]. intros [|? ?] ? ? E; discriminate.
  - destruct (Hl o (or_introl eq_refl)) as [Ho Hv]. destruct (o_keys o) as [|k keys] eqn:Ek; [congruence|]. rewrite <- Ek in *.
    destruct (set_sublevel_value_by_keys v (o_keys o) (o_value o)) as [v1|] eqn:E; [|discriminate].
    destruct (set_ok _ _ _ _ E Hw Hv) as (W1 & F1 & U1).
    destruct (IH v1 v' H W1) as (W2 & F2 & U2); [intros; apply Hl; right; assumption|].
    split; [exact W2|]. split.
    + intros [|o1 l1] o' l2 El Hap; injection El as <- El.
      * subst l. apply U2; [exact Hap|exact F1].
      * eapply F2; eauto.
    + intros p w Hap. rewrite U2 by (intros; apply Hap; right; assumption). apply U1. apply Hap. left. reflexivity.
Qed.

(** An override of a whole section ends the list. *)
Lemma whole_section : forall l1 o l2 v v1, o_keys o = [] -> (forall o', In o' l1 -> o_keys o' <> []) ->
  insert_overrides v l1 = Some v1 -> insert_overrides v (l1 ++ o :: l2) = Some (o_value o).
Proof.
  induction l1 as [|o1 l1 IH]; intros o l2 v v1 Ho Hl H; cbn [app insert_overrides] in *.
  - rewrite Ho. reflexivity.
  - destruct (o_keys o1) as [|k keys] eqn:E; [exfalso; apply (Hl o1); [left; reflexivity|exact E]|].
    destruct (set_sublevel_value_by_keys _ _ _) as [v2|]; [|discriminate]. eapply IH; eauto. intros. apply Hl. right. assumption.
Qed.

(** * Extraction *)
Section Extract.
  Variable T : Type.
  Variable parse : value -> option T.
  Variable unparse : T -> value.

  Lemma extract_ok : forall c name t c', extract_parameter_struct T parse unparse c name = Some (t, c') ->
    (exists v', insert_overrides (match get name (sections c) with Some v => v | None => Mapping [] end) (get_overrides_for_section c name) = Some v'
       /\ (parse v' = Some t \/ (get name (sections c) = None /\ parse v' = None /\ parse Null = Some t))
       /\ get name (sections c') = Some (if get name (sections c) then v' else unparse t))
    /\ overrides c' = overrides c
    /\ forall other, other <> name -> get other (sections c') = get other (sections c).
  Proof.
    intros c name t c' H. unfold extract_parameter_struct in H. cbv zeta in H.
    destruct (get name (sections c)) as [v|] eqn:G.
    - destruct (insert_overrides v _) as [v'|] eqn:E; [|discriminate]. destruct (parse v') as [t'|] eqn:P; [|discriminate].
      injection H as <- <-. split.
      + exists v'. split; [auto|]. split; [left; exact P|]. cbn. exact (get_put_same _ _ _ _ _ G).
      + split; [reflexivity|]. intros other Ho. cbn. apply get_put_other. exact Ho.
    - unfold extract_from_default in H. destruct (insert_overrides (Mapping []) _) as [v'|] eqn:E; [|discriminate].
      assert (G2 : forall (t2 : T) other, other <> name -> get other (sections c ++ [(name, unparse t2)])%list = get other (sections c)).
      { clear. intros t2 other Ho. induction (sections c) as [|[k v] m IH]; cbn; [destruct (String.eqb_spec other name); congruence|].
        destruct (String.eqb other k); auto. }
      assert (G3 : forall t2 : T, get name (sections c ++ [(name, unparse t2)])%list = Some (unparse t2)).
      { clear - G. intros t2. induction (sections c) as [|[k v] m IH]; cbn in *; [rewrite String.eqb_refl; reflexivity|].
        destruct (String.eqb name k); [discriminate|auto]. }
      destruct (parse v') as [t'|] eqn:P.
      + injection H as <- <-. split; [exists v'; split; [auto|]; split; [auto|]; apply G3|]. split; [reflexivity|]. intros. apply G2. assumption.
      + destruct (parse Null) as [t'|] eqn:P2; [|discriminate]. injection H as <- <-. split; [exists v'; split; [auto|]; split; [auto|]; apply G3|]. split; [reflexivity|].
        intros. apply G2. assumption.
  Qed.
End Extract.

Lemma section_overrides : forall c name o, In o (get_overrides_for_section c name) <-> In o (overrides c) /\ o_section o = name.
Proof. intros c name o. unfold get_overrides_for_section. rewrite filter_In, String.eqb_eq. tauto. Qed.

(** * Command line *)
Lemma append_assoc : forall a b c : string, (a ++ b) ++ c = a ++ (b ++ c).
Proof. induction a as [|x a IH]; intros b c; cbn; [reflexivity|]. rewrite IH. reflexivity. Qed.
Lemma append_nil : forall a, a ++ "" = a. Proof. induction a as [|x a IH]; cbn; congruence. Qed.

Lemma split_at_plain : forall sep s cur, without sep s -> split_at sep cur s = [cur ++ s].
Proof.
  intros sep. induction s as [|c s IH]; intros cur H; cbn; [rewrite append_nil; reflexivity|].
  destruct H as [Hc Hs]. destruct (Ascii.eqb_spec c sep); [congruence|]. rewrite IH by exact Hs. rewrite append_assoc. reflexivity.
Qed.
Lemma split_at_sep : forall sep s cur rest, without sep s ->
  split_at sep cur (s ++ String sep rest) = (cur ++ s) :: split_at sep "" rest.
Proof.
  intros sep. induction s as [|c s IH]; intros cur rest H; cbn.
  - rewrite Ascii.eqb_refl, append_nil. reflexivity.
  - destruct H as [Hc Hs]. destruct (Ascii.eqb_spec c sep); [congruence|]. rewrite IH by exact Hs. rewrite append_assoc. reflexivity.
Qed.

Lemma split_joined : forall keys section, without "/" section -> Forall (without "/") keys -> split "/" (joined section keys) = section :: keys.
Proof.
  induction keys as [|k keys IH]; intros section Hs Hk; cbn [joined].
  - unfold split. rewrite split_at_plain by exact Hs. reflexivity.
  - inversion Hk; subst. unfold split. rewrite split_at_sep by exact Hs. cbn [append]. f_equal. apply IH; auto.
Qed.
Lemma without_append : forall c a b, without c a -> without c b -> without c (a ++ b).
Proof. intros c. induction a as [|x a IH]; intros b Ha Hb; cbn in *; [exact Hb|]. destruct Ha. split; auto. Qed.
Lemma without_joined : forall keys section, without ":" section -> Forall (without ":") keys -> without ":" (joined section keys).
Proof.
  induction keys as [|k keys IH]; intros section Hs Hk; cbn [joined]; [exact Hs|]. inversion Hk; subst.
  apply without_append; [exact Hs|]. split; [discriminate|]. apply IH; auto.
Qed.

Lemma from_str_ok : forall yaml section keys text v,
  without "/" section -> without ":" section -> Forall (without "/") keys -> Forall (without ":") keys -> without ":" text ->
  yaml text = Some v -> from_str yaml (joined section keys ++ String ":" text) = Parsed (Override section keys v).
Proof.
  intros yaml section keys text v S1 S2 K1 K2 T1 Y. unfold from_str.
  assert (E : split ":" (joined section keys ++ String ":" text) = [joined section keys; text]).
  { unfold split. rewrite split_at_sep by (apply without_joined; auto). rewrite split_at_plain by exact T1. reflexivity. }
  rewrite E, split_joined, Y by auto. reflexivity.
Qed.

Lemma split_length : forall sep s cur, List.length (split_at sep cur s) = S (occurrences sep s).
Proof.
  intros sep. induction s as [|c s IH]; intro cur; cbn; [reflexivity|].
  destruct (Ascii.eqb c sep); cbn; rewrite IH; reflexivity.
Qed.
Lemma from_str_error : forall yaml s, from_str yaml s = ParseError <-> occurrences ":" s <> 1.
Proof.
  intros yaml s. unfold from_str. pose proof (split_length ":" s "") as L. change (split_at ":" "" s) with (split ":" s) in L.
  destruct (split ":" s) as [|a [|b [|c l]]]; cbn in L.
  - lia.
  - split; [intros _; lia|reflexivity].
  - split; [|intro C; lia]. destruct (split "/" a); [discriminate|]. destruct (yaml b); discriminate.
  - split; [intros _; lia|reflexivity].
Qed.
