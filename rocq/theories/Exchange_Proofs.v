(** The exchange protocol: an inductive invariant, exact delivery, progress. *)
From Coq Require Import List Arith Bool Lia.
Import ListNotations.
From Verif Require Import DataByRank_Model DataByRank_Spec DataByRank_Proofs
  Fair Exchange_Model Exchange_Spec.

Definition b2n (b : bool) : nat := if b then 1 else 0.
Definition mem (y : nat) (t : list nat) : bool := existsb (Nat.eqb y) t.

Lemma mem_in y t : mem y t = true <-> In y t.
Proof.
  unfold mem. rewrite existsb_exists. split.
  - intros (z & Hz & E). apply Nat.eqb_eq in E. now subst.
  - intro H. exists y. split; [exact H|apply Nat.eqb_refl].
Qed.

Lemma mem_false y t : mem y t = false <-> ~ In y t.
Proof. rewrite <- mem_in. now destruct (mem y t). Qed.

(** A container with a value for every rank below [n] except [x]. *)
Definition tab {B} (n x : nat) (v : dbr B) (f : nat -> B) : Prop :=
  length v = n
  /\ forall y, y < n -> nth_error v y = Some (if y =? x then None else Some (f y)).

Lemma tab_ext {B} n x (v : dbr B) f g :
  (forall y, y < n -> y <> x -> f y = g y) -> tab n x v f -> tab n x v g.
Proof.
  intros H [Hl Hn]. split; [exact Hl|]. intros y Hy. rewrite Hn by assumption.
  destruct (Nat.eqb_spec y x); [reflexivity|]. now rewrite H.
Qed.

Lemma tab_index {B} n x (v : dbr B) f y :
  tab n x v f -> y < n -> y <> x -> dindex v y = Some (f y).
Proof.
  intros [Hl Hn] Hy Hx. unfold dindex, dget. rewrite Hn by assumption.
  now destruct (Nat.eqb_spec y x).
Qed.

Lemma tab_set {B} n x (v : dbr B) f y b : tab n x v f -> y < n -> y <> x ->
  exists w, set_slot v y (Some b) = Some w
    /\ tab n x w (fun q => if q =? y then b else f q).
Proof.
  intros [Hl Hn] Hy Hx.
  destruct (set_slot_some v y (Some b)) as (w & E & El & En); [lia|].
  exists w. split; [exact E|]. split; [lia|]. intros q Hq. rewrite En.
  destruct (Nat.eqb_spec q y) as [->|].
  - now destruct (Nat.eqb_spec y x).
  - now apply Hn.
Qed.

Lemma tab_modify {B} n x (v : dbr B) f y g : tab n x v f -> y < n -> y <> x ->
  exists w, dmodify v y g = Some w
    /\ tab n x w (fun q => if q =? y then g (f q) else f q).
Proof.
  intros Ht Hy Hx. unfold dmodify. rewrite (tab_index n x v f y Ht Hy Hx).
  destruct (tab_set n x v f y (g (f y)) Ht Hy Hx) as (w & E & Hw).
  exists w. split; [exact E|]. eapply tab_ext; [|exact Hw].
  intros q _ _. cbn. destruct (Nat.eqb_spec q y); now subst.
Qed.

Lemma tab_insert {B} n x (v : dbr B) f y b : tab n x v f -> y < n -> y <> x ->
  exists w, dinsert v y b = Some w
    /\ tab n x w (fun q => if q =? y then b else f q).
Proof.
  intros Ht Hy Hx. unfold dinsert. destruct Ht as [Hl Hn].
  destruct (Nat.leb_spec (length v) y); [lia|].
  apply (tab_set n x v f y b (conj Hl Hn) Hy Hx).
Qed.

Lemma tab_closure {B} n x (b : B) : tab n x (dfrom_closure b n (Some x)) (fun _ => b).
Proof.
  split; [unfold dfrom_closure; now rewrite map_length, seq_length|].
  intros y Hy. unfold dfrom_closure. rewrite nth_error_map.
  assert (E : nth_error (seq 0 n) y = Some y).
  { rewrite (nth_error_nth' _ 0) by (now rewrite seq_length).
    now rewrite seq_nth by assumption. }
  rewrite E. reflexivity.
Qed.

Section Exchange.
Context {A : Type}.
Variable n R : nat.
Variable data : nat -> nat -> dbr (list A).
Hypothesis HG : forall e x, e < R -> x < n -> names_others n x (data e x).

Notation phase := (@phase A).
Notation state := (@state A).
Notation step := (@step A n R data).
Notation run_rank := (@run_rank A n R data).

Implicit Types s : state.

Definition hasd (e x y : nat) : bool :=
  match nth_error (data e x) y with Some (Some _) => true | _ => false end.
Definition cont (e x y : nat) : list A := addressed (data e x) y.

(** Has [x] already posted its message to [y] / taken the one from [y] in the
    current exchange? *)
Definition sc (p : phase) (e x y : nat) : bool :=
  match p with
  | PPost t => hasd e x y && negb (mem y (map fst t))
  | PEmpty t | PBlock _ t => hasd e x y || negb (mem y t)
  | PRecv _ _ | PWait _ => true
  | PDone | PPanic => false
  end.
Definition rc (p : phase) (y : nat) : bool :=
  match p with
  | PRecv t _ => negb (mem y t)
  | PWait _ => true
  | _ => false
  end.

Definition phase_ok (p : phase) (e x : nat) : Prop :=
  match p with
  | PPost t => e < R /\ exists pre, diter (data e x) = pre ++ t
  | PEmpty t => e < R /\ exists pre, others n x = pre ++ t
  | PBlock y t => e < R /\ exists pre, others n x = pre ++ y :: t
  | PRecv t got => e < R /\ (exists pre, others n x = pre ++ t)
      /\ tab n x got (fun y => if mem y t then [] else cont e y x)
  | PWait got => e < R /\ tab n x got (fun y => cont e y x)
  | PDone => e = R
  | PPanic => False
  end.

Record inv (s : state) : Prop := {
  i_ph : forall x, x < n -> phase_ok (ph s x) (ex s x) x;
  i_pend : forall x, x < n ->
    tab n x (pend s x) (fun y => sc (ph s x) (ex s x) x y && negb (rc (ph s x) y));
  i_sent : forall x y, x < n -> y < n -> x <> y ->
    sent s x y = ex s x + b2n (sc (ph s x) (ex s x) x y);
  i_taken : forall x y, x < n -> y < n -> x <> y ->
    taken s y x = ex s x + b2n (rc (ph s x) y);
  i_le : forall x y, x < n -> y < n -> x <> y -> taken s x y <= sent s x y;
  i_chan : forall x y, x < n -> y < n -> x <> y ->
    chan s x y = map (fun e => cont e x y) (seq (taken s x y) (sent s x y - taken s x y));
  i_compl : forall x y, completed s x y <= sent s x y;
  i_self : forall x y, (x = y \/ n <= x \/ n <= y) -> sent s x y = 0;
  i_tself : forall x y, (x = y \/ n <= x \/ n <= y) -> taken s x y = 0;
  i_res : forall x, x < n -> length (res s x) = ex s x
    /\ forall e got, nth_error (res s x) e = Some got -> delivered n (data e) x got }.

Lemma others_in x y : In y (others n x) <-> y < n /\ y <> x.
Proof.
  unfold others. rewrite filter_In, in_seq, negb_true_iff, Nat.eqb_neq. lia.
Qed.

Lemma others_nodup x : NoDup (others n x).
Proof. apply NoDup_filter, seq_NoDup. Qed.

Lemma others_split x pre y t : others n x = pre ++ y :: t ->
  y < n /\ y <> x /\ ~ In y t.
Proof.
  intro E. assert (H : In y (others n x)) by (rewrite E, in_app_iff; right; now left).
  apply others_in in H. destruct H as [H1 H2]. split; [exact H1|split; [exact H2|]].
  pose proof (others_nodup x) as Hn. rewrite E in Hn. apply NoDup_remove_2 in Hn.
  intro Hi. apply Hn, in_app_iff. now right.
Qed.

Lemma sorted_nodup l : Sorted.StronglySorted lt l -> NoDup l.
Proof.
  induction 1 as [|a l Hs IH Hf]; constructor; auto.
  intro Hi. rewrite Forall_forall in Hf. specialize (Hf _ Hi). lia.
Qed.

Lemma diter_nodup (v : dbr (list A)) : NoDup (map fst (diter v)).
Proof. apply sorted_nodup. apply (diter_lists v). Qed.

Lemma diter_has e x y : mem y (map fst (diter (data e x))) = hasd e x y.
Proof.
  destruct (diter_lists (data e x)) as [H _]. unfold hasd, contents in *.
  destruct (nth_error (data e x) y) as [[l|]|] eqn:E.
  - apply mem_in, in_map_iff. exists (y, l). split; [reflexivity|]. apply H. now rewrite E.
  - apply mem_false. intro Hi. apply in_map_iff in Hi. destruct Hi as ([z l] & Ez & Hi).
    cbn in Ez; subst z. apply H in Hi. rewrite E in Hi. discriminate.
  - apply mem_false. intro Hi. apply in_map_iff in Hi. destruct Hi as ([z l] & Ez & Hi).
    cbn in Ez; subst z. apply H in Hi. rewrite E in Hi. discriminate.
Qed.

Lemma diter_split e x pre y l t : e < R -> x < n ->
  diter (data e x) = pre ++ (y, l) :: t ->
  y < n /\ y <> x /\ hasd e x y = true /\ cont e x y = l /\ mem y (map fst t) = false.
Proof.
  intros He Hx E. destruct (diter_lists (data e x)) as [H _].
  assert (Hi : In (y, l) (diter (data e x))) by (rewrite E, in_app_iff; right; now left).
  apply H in Hi. unfold contents in Hi.
  assert (Hn : nth_error (data e x) y = Some (Some l)).
  { destruct (nth_error (data e x) y); congruence. }
  destruct (HG e x He Hx y l Hn) as [H1 H2]. split; [exact H1|split; [exact H2|]].
  split; [unfold hasd; now rewrite Hn|]. split; [unfold cont, addressed; now rewrite Hn|].
  pose proof (diter_nodup (data e x)) as Hd. rewrite E, map_app in Hd. cbn in Hd.
  apply NoDup_remove_2 in Hd. apply mem_false. intro Hi'. apply Hd, in_app_iff. now right.
Qed.

Lemma start_ok x e : e <= R -> phase_ok (start R data x e) e x.
Proof.
  intro H. unfold start. destruct (Nat.ltb_spec e R); cbn; [|lia].
  split; [assumption|]. now exists [].
Qed.

Lemma start_sc x e y : sc (start R data x e) e x y = false.
Proof.
  unfold start. destruct (e <? R); cbn; [|reflexivity].
  rewrite diter_has. now destruct (hasd e x y).
Qed.

Lemma start_rc x e y : rc (start R data x e) y = false.
Proof. unfold start. now destruct (e <? R). Qed.

Lemma inv_init : inv (init n R data).
Proof.
  constructor; cbn [init ph ex pend res chan sent taken completed]; intros.
  - apply start_ok. lia.
  - eapply tab_ext; [|apply tab_closure]. intros y _ _. cbn. now rewrite start_sc.
  - now rewrite start_sc.
  - now rewrite start_rc.
  - lia.
  - reflexivity.
  - lia.
  - reflexivity.
  - reflexivity.
  - split; [reflexivity|]. intros e got He. destruct e; discriminate.
Qed.

Lemma upd_same {B} (f : nat -> B) k v : upd f k v k = v.
Proof. unfold upd. now rewrite Nat.eqb_refl. Qed.
Lemma upd_other {B} (f : nat -> B) k v q : q <> k -> upd f k v q = f q.
Proof. intro. unfold upd. now destruct (Nat.eqb_spec q k). Qed.
Lemma upd2_same {B} (f : nat -> nat -> B) k l v : upd2 f k l v k l = v.
Proof. unfold upd2. now rewrite !Nat.eqb_refl. Qed.
Lemma upd2_other {B} (f : nat -> nat -> B) k l v p q :
  ~ (p = k /\ q = l) -> upd2 f k l v p q = f p q.
Proof.
  intro. unfold upd2. destruct (Nat.eqb_spec p k), (Nat.eqb_spec q l); cbn; auto; tauto.
Qed.
Lemma upd2_cases {B} (f : nat -> nat -> B) k l v p q :
  (p = k /\ q = l /\ upd2 f k l v p q = v) \/ (~ (p = k /\ q = l) /\ upd2 f k l v p q = f p q).
Proof.
  destruct (Nat.eq_dec p k) as [->|]; [destruct (Nat.eq_dec q l) as [->|]|].
  - left. now rewrite upd2_same.
  - right. split; [tauto|]. apply upd2_other. tauto.
  - right. split; [tauto|]. apply upd2_other. tauto.
Qed.

(** Changing only the phase of [x], without sending or receiving. *)
Lemma inv_set_phase s x p : inv s -> x < n ->
  phase_ok p (ex s x) x ->
  (forall y, y < n -> y <> x -> sc p (ex s x) x y = sc (ph s x) (ex s x) x y) ->
  (forall y, y < n -> y <> x -> rc p y = rc (ph s x) y) ->
  inv (set_phase s x p).
Proof.
  intros Hi Hx Hp Hs Hr. destruct Hi.
  constructor; cbn [set_phase ph ex pend res chan sent taken completed]; auto.
  - intros z Hz. destruct (Nat.eq_dec z x) as [->|Hn]; [now rewrite upd_same|].
    rewrite upd_other by assumption. now apply i_ph0.
  - intros z Hz. destruct (Nat.eq_dec z x) as [->|Hn].
    + rewrite upd_same. eapply tab_ext; [|now apply i_pend0].
      intros y Hy Hyx. cbn. now rewrite Hs, Hr.
    + rewrite upd_other by assumption. now apply i_pend0.
  - intros z y Hz Hy Hn. destruct (Nat.eq_dec z x) as [->|Hzx].
    + rewrite upd_same, Hs by auto. now apply i_sent0.
    + rewrite upd_other by assumption. now apply i_sent0.
  - intros z y Hz Hy Hn. destruct (Nat.eq_dec z x) as [->|Hzx].
    + rewrite upd_same, Hr by auto. now apply i_taken0.
    + rewrite upd_other by assumption. now apply i_taken0.
Qed.

(** Posting the message of the current exchange to [y]. *)
Lemma inv_post s x y m pd p : inv s -> x < n -> y < n -> y <> x ->
  phase_ok p (ex s x) x ->
  m = cont (ex s x) x y ->
  sc (ph s x) (ex s x) x y = false -> sc p (ex s x) x y = true ->
  (forall z, z < n -> z <> x -> z <> y -> sc p (ex s x) x z = sc (ph s x) (ex s x) x z) ->
  (forall z, rc p z = false) -> (forall z, rc (ph s x) z = false) ->
  tab n x pd (fun q => if q =? y then true
                       else sc (ph s x) (ex s x) x q && negb (rc (ph s x) q)) ->
  inv (post s x y m pd p).
Proof.
  intros Hi Hx Hy Hyx Hp Hm Hf Ht Hs Hr Hr0 Hpd. destruct Hi.
  assert (Hsent : sent s x y = ex s x) by (rewrite i_sent0, Hf by auto; cbn; lia).
  constructor; cbn [post ph ex pend res chan sent taken completed]; auto.
  - intros z Hz. destruct (Nat.eq_dec z x) as [->|Hn]; [now rewrite upd_same|].
    rewrite upd_other by assumption. now apply i_ph0.
  - intros z Hz. destruct (Nat.eq_dec z x) as [->|Hn].
    + rewrite !upd_same. eapply tab_ext; [|exact Hpd].
      intros q Hq Hqx. cbn. rewrite Hr. destruct (Nat.eqb_spec q y) as [->|Hqy].
      * now rewrite Ht.
      * rewrite Hs by assumption. now rewrite Hr0.
    + rewrite !upd_other by assumption. now apply i_pend0.
  - intros z q Hz Hq Hn. destruct (Nat.eq_dec z x) as [->|Hzx].
    + rewrite upd_same. destruct (Nat.eq_dec q y) as [->|Hqy].
      * rewrite upd2_same, Ht, Hsent. cbn; lia.
      * rewrite upd2_other by tauto. rewrite Hs by auto. now apply i_sent0.
    + rewrite upd_other by assumption. rewrite upd2_other by tauto. now apply i_sent0.
  - intros z q Hz Hq Hn. destruct (Nat.eq_dec z x) as [->|Hzx].
    + rewrite upd_same, Hr. specialize (i_taken0 x q Hz Hq Hn). now rewrite Hr0 in i_taken0.
    + rewrite upd_other by assumption. now apply i_taken0.
  - intros z q Hz Hq Hn. destruct (upd2_cases (sent s) x y (S (sent s x y)) z q)
      as [(-> & -> & ->)|[_ ->]]; [specialize (i_le0 x y Hz Hq Hn); lia|now apply i_le0].
  - intros z q Hz Hq Hn.
    destruct (upd2_cases (chan s) x y (chan s x y ++ [m]) z q) as [(-> & -> & ->)|[Hne ->]].
    + rewrite upd2_same. rewrite i_chan0 by auto.
      specialize (i_le0 x y Hx Hy ltac:(auto)).
      replace (S (sent s x y) - taken s x y) with (S (sent s x y - taken s x y)) by lia.
      rewrite seq_S, map_app. cbn [map]. f_equal.
      rewrite Hm. replace (taken s x y + (sent s x y - taken s x y)) with (ex s x) by lia.
      reflexivity.
    + rewrite (upd2_other (sent s)) by assumption. now apply i_chan0.
  - intros z q. destruct (upd2_cases (sent s) x y (S (sent s x y)) z q)
      as [(-> & -> & ->)|[_ ->]]; [specialize (i_compl0 x y); lia|apply i_compl0].
  - intros z q Hzq. rewrite upd2_other; [now apply i_self0|]. intros [-> ->]. lia.
Qed.

Lemma b2n_le b : b2n b <= 1.
Proof. destruct b; cbn; lia. Qed.

(** Taking the message of the current exchange from [y]. *)
Lemma inv_take s x y t got m c : inv s -> x < n ->
  ph s x = PRecv (y :: t) got -> chan s y x = m :: c ->
  exists got' pd, dinsert got y m = Some got'
    /\ dmodify (pend s x) y (fun _ => false) = Some pd
    /\ inv (mkState (upd (ph s) x (PRecv t got')) (ex s) (upd (pend s) x pd) (res s)
              (upd2 (chan s) y x c) (sent s)
              (upd2 (taken s) y x (S (taken s y x))) (completed s)).
Proof.
  intros Hi Hx Ep Ec. destruct Hi.
  pose proof (i_ph0 x Hx) as Hp. rewrite Ep in Hp. destruct Hp as (He & (pre & Hpre) & Htab).
  destruct (others_split _ _ _ _ Hpre) as (Hy & Hyx & Hnt).
  assert (Hmt : mem y t = false) by now apply mem_false.
  destruct (tab_insert n x got _ y m Htab Hy Hyx) as (got' & Eg & Hgot').
  destruct (tab_modify n x _ _ y (fun _ => false) (i_pend0 x Hx) Hy Hyx) as (pd & Epd & Hpd).
  exists got', pd. split; [exact Eg|split; [exact Epd|]].
  assert (Htk : taken s y x = ex s x).
  { rewrite (i_taken0 x y) by auto. rewrite Ep. cbn [rc]. unfold mem. cbn [existsb].
    rewrite Nat.eqb_refl. cbn; lia. }
  pose proof (i_chan0 y x Hy Hx Hyx) as Hc. rewrite Ec in Hc.
  assert (Hlt : taken s y x < sent s y x).
  { pose proof (i_le0 y x Hy Hx Hyx). destruct (Nat.eq_dec (taken s y x) (sent s y x)) as [E|]; [|lia].
    rewrite E, Nat.sub_diag in Hc. discriminate. }
  replace (sent s y x - taken s y x) with (S (sent s y x - S (taken s y x))) in Hc by lia.
  cbn [seq map] in Hc. injection Hc as Hm Hc.
  assert (Hmem : forall q, q <> y -> mem q (y :: t) = mem q t).
  { intros q Hq. unfold mem. cbn. destruct (Nat.eqb_spec q y); [contradiction|reflexivity]. }
  constructor; cbn [ph ex pend res chan sent taken completed]; auto.
  - intros z Hz. destruct (Nat.eq_dec z x) as [->|Hn].
    + rewrite upd_same. cbn [phase_ok]. split; [exact He|]. split.
      * exists (pre ++ [y]). now rewrite <- app_assoc.
      * eapply tab_ext; [|exact Hgot']. intros q Hq Hqx. cbv beta.
        destruct (Nat.eqb_spec q y) as [->|Hqy].
        -- rewrite Hmt. now rewrite Hm, Htk.
        -- now rewrite Hmem.
    + rewrite upd_other by assumption. now apply i_ph0.
  - intros z Hz. destruct (Nat.eq_dec z x) as [->|Hn].
    + rewrite !upd_same. eapply tab_ext; [|exact Hpd]. intros q Hq Hqx. cbv beta.
      rewrite Ep. cbn [sc rc]. destruct (Nat.eqb_spec q y) as [->|Hqy].
      * rewrite Hmt. reflexivity.
      * now rewrite Hmem.
    + rewrite !upd_other by assumption. now apply i_pend0.
  - intros z q Hz Hq Hn. destruct (Nat.eq_dec z x) as [->|Hzx].
    + rewrite upd_same. cbn [sc]. rewrite i_sent0 by auto. now rewrite Ep.
    + rewrite upd_other by assumption. now apply i_sent0.
  - intros z q Hz Hq Hn. destruct (Nat.eq_dec z x) as [->|Hzx].
    + rewrite upd_same. cbn [rc]. destruct (Nat.eq_dec q y) as [->|Hqy].
      * rewrite upd2_same, Htk, Hmt. cbn; lia.
      * rewrite upd2_other by tauto. rewrite (i_taken0 x q) by auto. rewrite Ep. cbn [rc].
        now rewrite Hmem.
    + rewrite upd_other by assumption. rewrite upd2_other by tauto. now apply i_taken0.
  - intros z q Hz Hq Hn. destruct (upd2_cases (taken s) y x (S (taken s y x)) z q)
      as [(-> & -> & ->)|[_ ->]]; [lia|now apply i_le0].
  - intros z q Hz Hq Hn.
    destruct (upd2_cases (chan s) y x c z q) as [(-> & -> & ->)|[Hne ->]].
    + rewrite upd2_same. exact Hc.
    + rewrite (upd2_other (taken s)) by assumption. now apply i_chan0.
  - intros z q Hzq. rewrite upd2_other; [now apply i_tself0|]. intros [-> ->]. lia.
Qed.

(** Leaving the exchange. *)
Lemma inv_finish s x got : inv s -> x < n -> ph s x = PWait got ->
  inv (mkState (upd (ph s) x (start R data x (S (ex s x)))) (upd (ex s) x (S (ex s x))) (pend s)
        (upd (res s) x (res s x ++ [got])) (chan s) (sent s) (taken s) (completed s)).
Proof.
  intros Hi Hx Ep. destruct Hi.
  pose proof (i_ph0 x Hx) as Hp. rewrite Ep in Hp. destruct Hp as (He & Htab).
  constructor; cbn [ph ex pend res chan sent taken completed]; auto.
  - intros z Hz. destruct (Nat.eq_dec z x) as [->|Hn].
    + rewrite !upd_same. apply start_ok. lia.
    + rewrite !upd_other by assumption. now apply i_ph0.
  - intros z Hz. destruct (Nat.eq_dec z x) as [->|Hn].
    + rewrite !upd_same. eapply tab_ext; [|now apply i_pend0].
      intros q Hq Hqx. cbn. rewrite start_sc, start_rc, Ep. reflexivity.
    + rewrite !upd_other by assumption. now apply i_pend0.
  - intros z q Hz Hq Hn. destruct (Nat.eq_dec z x) as [->|Hzx].
    + rewrite !upd_same, start_sc. rewrite i_sent0, Ep by auto. cbn; lia.
    + rewrite !upd_other by assumption. now apply i_sent0.
  - intros z q Hz Hq Hn. destruct (Nat.eq_dec z x) as [->|Hzx].
    + rewrite !upd_same, start_rc. rewrite (i_taken0 x q), Ep by auto. cbn; lia.
    + rewrite !upd_other by assumption. now apply i_taken0.
  - intros z Hz. destruct (Nat.eq_dec z x) as [->|Hzx].
    + rewrite !upd_same. destruct (i_res0 x Hx) as [Hl Hr]. split.
      * rewrite app_length, Hl. cbn; lia.
      * intros e g Hg. destruct (Nat.lt_ge_cases e (length (res s x))) as [H|H].
        -- rewrite nth_error_app1 in Hg by assumption. now apply Hr.
        -- rewrite nth_error_app2 in Hg by assumption.
           assert (e = ex s x).
           { destruct (e - length (res s x)) as [|k] eqn:E; [lia|]. cbn in Hg.
             destruct k; discriminate. }
           subst e. rewrite Hl, Nat.sub_diag in Hg. injection Hg as <-.
           destruct Htab as [H1 H2]. split; [exact H1|exact H2].
    + rewrite !upd_other by assumption. now apply i_res0.
Qed.

Lemma run_rank_inv s x : inv s -> x < n -> inv (run_rank s x).
Proof.
  intros Hi Hx. unfold Exchange_Model.run_rank.
  pose proof (i_ph s Hi x Hx) as Hp.
  destruct (ph s x) as [[|[y l] t]|[|y t]|y t|[|y t] got|got| |] eqn:Ep; cbn [phase_ok] in Hp.
  - (* PPost [] *)
    apply inv_set_phase; auto.
    + cbn. split; [tauto|]. now exists [].
    + intros z Hz Hzx. rewrite Ep. cbn [sc map mem existsb negb].
      assert (E : mem z (others n x) = true) by (apply mem_in, others_in; auto).
      rewrite E. cbn. now rewrite orb_false_r, andb_true_r.
    + intros z Hz Hzx. now rewrite Ep.
  - (* PPost (y,l)::t *)
    destruct Hp as (He & pre & Hpre).
    destruct (diter_split _ _ _ _ _ _ He Hx Hpre) as (Hy & Hyx & Hh & Hc & Hm).
    pose proof (i_pend s Hi x Hx) as Ht. rewrite Ep in Ht.
    rewrite (tab_index n x _ _ y Ht Hy Hyx).
    assert (E0 : sc (PPost ((y, l) :: t)) (ex s x) x y = false).
    { cbn [sc map fst]. unfold mem. cbn [existsb]. rewrite Nat.eqb_refl. cbn.
      apply andb_false_r. }
    rewrite E0. cbn [andb].
    destruct (tab_modify n x _ _ y (fun _ => true) Ht Hy Hyx) as (pd & Epd & Hpd).
    rewrite Epd. apply inv_post; auto.
    + cbn. split; [exact He|]. exists (pre ++ [(y, l)]). now rewrite <- app_assoc.
    + now rewrite Ep.
    + cbn. rewrite Hh, Hm. reflexivity.
    + intros z Hz Hzx Hzy. rewrite Ep. cbn [sc map fst]. unfold mem. cbn [existsb].
      destruct (Nat.eqb_spec z y); [contradiction|reflexivity].
    + intro z. now rewrite Ep.
    + rewrite Ep. exact Hpd.
  - (* PEmpty [] *)
    destruct Hp as (He & pre & Hpre).
    pose proof (i_pend s Hi x Hx) as Ht. rewrite Ep in Ht.
    assert (Ef : forallb (fun y => match dindex (pend s x) y with Some b => b | None => false end)
                   (others n x) = true).
    { apply forallb_forall. intros z Hz. apply others_in in Hz. destruct Hz as [Hz Hzx].
      rewrite (tab_index n x _ _ z Ht Hz Hzx). cbn. now rewrite orb_true_r. }
    rewrite Ef. apply inv_set_phase; auto.
    + cbn [phase_ok]. split; [exact He|]. split; [now exists []|].
      eapply tab_ext; [|apply tab_closure]. intros z Hz Hzx. cbn.
      assert (E : mem z (others n x) = true) by (apply mem_in, others_in; auto).
      now rewrite E.
    + intros z Hz Hzx. rewrite Ep. cbn. now rewrite orb_true_r.
    + intros z Hz Hzx. rewrite Ep. cbn [rc].
      assert (E : mem z (others n x) = true) by (apply mem_in, others_in; auto).
      now rewrite E.
  - (* PEmpty y::t *)
    destruct Hp as (He & pre & Hpre).
    destruct (others_split _ _ _ _ Hpre) as (Hy & Hyx & Hnt).
    apply mem_false in Hnt.
    pose proof (i_pend s Hi x Hx) as Ht. rewrite Ep in Ht.
    rewrite (tab_index n x _ _ y Ht Hy Hyx).
    assert (Ey : sc (PEmpty (y :: t)) (ex s x) x y = hasd (ex s x) x y).
    { cbn [sc]. unfold mem. cbn [existsb]. rewrite Nat.eqb_refl. cbn. apply orb_false_r. }
    rewrite Ey. cbn [rc negb]. rewrite andb_true_r.
    assert (Ez : forall z, z <> y -> mem z (y :: t) = mem z t).
    { intros z Hz. unfold mem. cbn. now destruct (Nat.eqb_spec z y). }
    destruct (hasd (ex s x) x y) eqn:Eh.
    + apply inv_set_phase; auto.
      * cbn. split; [exact He|]. exists (pre ++ [y]). now rewrite <- app_assoc.
      * intros z Hz Hzx. rewrite Ep. cbn [sc]. destruct (Nat.eq_dec z y) as [->|Hzy].
        -- now rewrite Eh.
        -- now rewrite Ez.
      * intros z Hz Hzx. now rewrite Ep.
    + destruct (tab_modify n x _ _ y (fun _ => true) Ht Hy Hyx) as (pd & Epd & Hpd).
      rewrite Epd. apply inv_post; auto.
      * cbn. split; [exact He|]. now exists pre.
      * unfold hasd in Eh. unfold cont, addressed.
        destruct (nth_error (data (ex s x) x) y) as [[q|]|]; congruence.
      * now rewrite Ep, Ey.
      * cbn [sc]. rewrite Hnt. now rewrite orb_true_r.
      * intros z Hz Hzx Hzy. rewrite Ep. cbn [sc]. now rewrite Ez.
      * intro z. now rewrite Ep.
      * rewrite Ep. exact Hpd.
  - (* PBlock *)
    destruct (completed s x y =? sent s x y); [|exact Hi].
    destruct Hp as (He & pre & Hpre). apply inv_set_phase; auto.
    + cbn. split; [exact He|]. exists (pre ++ [y]). now rewrite <- app_assoc.
    + intros z Hz Hzx. now rewrite Ep.
    + intros z Hz Hzx. now rewrite Ep.
  - (* PRecv [] *)
    destruct Hp as (He & _ & Ht). apply inv_set_phase; auto.
    + split; [exact He|exact Ht].
    + intros. now rewrite Ep.
    + intros. now rewrite Ep.
  - (* PRecv y::t *)
    destruct (chan s y x) as [|m c] eqn:Ec; [exact Hi|].
    destruct (inv_take s x y t got m c Hi Hx Ep Ec) as (got' & pd & Eg & Epd & H).
    rewrite Eg, Epd. exact H.
  - (* PWait *)
    destruct (all_completed n s x); [|exact Hi]. now apply inv_finish.
  - exact Hi.
  - destruct Hp.
Qed.

Lemma step_inv s o : inv s -> inv (step s o).
Proof.
  intro Hi. destruct o as [x|x y|x y]; cbn [Exchange_Model.step].
  - destruct (Nat.ltb_spec x n); [now apply run_rank_inv|exact Hi].
  - destruct (Nat.ltb_spec (completed s x y) (sent s x y)) as [H|H]; [|exact Hi].
    destruct Hi. constructor; cbn [ph ex pend res chan sent taken completed]; auto.
    intros p q. destruct (upd2_cases (completed s) x y (sent s x y) p q)
      as [(-> & -> & ->)|[_ ->]]; [lia|apply i_compl0].
  - destruct (Nat.ltb_spec (completed s x y) (taken s x y)) as [H|H]; [|exact Hi].
    destruct Hi. constructor; cbn [ph ex pend res chan sent taken completed]; auto.
    intros p q. destruct (upd2_cases (completed s) x y (taken s x y) p q)
      as [(-> & -> & ->)|[_ ->]]; [|apply i_compl0].
    destruct (Nat.eq_dec x y) as [Exy|Hxy]; [specialize (i_tself0 x y (or_introl Exy)); lia|].
    destruct (Nat.lt_ge_cases x n) as [Hx|Hx]; [|specialize (i_tself0 x y); lia].
    destruct (Nat.lt_ge_cases y n) as [Hy|Hy]; [|specialize (i_tself0 x y); lia].
    now apply i_le0.
Qed.

Lemma reach_inv l : inv (reach n R data l).
Proof.
  unfold reach. generalize inv_init. generalize (init n R data).
  induction l as [|o l IH]; intros s Hs; cbn [fold_left]; [exact Hs|].
  apply IH, step_inv, Hs.
Qed.

(** Exact delivery in every reachable state. *)
Lemma exchange_exact l x e got : x < n ->
  nth_error (res (reach n R data l) x) e = Some got ->
  delivered n (data e) x got.
Proof. intros Hx H. exact (proj2 (i_res _ (reach_inv l) x Hx) e got H). Qed.

Lemma exchange_no_panic l x : x < n -> ph (reach n R data l) x <> PPanic.
Proof.
  intros Hx E. pose proof (i_ph _ (reach_inv l) x Hx) as H. rewrite E in H. exact H.
Qed.

(** ** Progress *)

Definition weight (p : phase) : nat :=
  match p with
  | PPost t => 4 * n + 8 + length t
  | PEmpty t => 2 * n + 6 + 2 * length t
  | PBlock _ t => 2 * n + 7 + 2 * length t
  | PRecv t _ => 3 + length t
  | PWait _ => 2
  | PDone | PPanic => 0
  end.

Definition rank_mu (s : state) (x : nat) : nat :=
  (R - ex s x) * (5 * n + 20) + weight (ph s x)
  + list_sum (map (fun y => S R - completed s x y) (seq 0 n)).

Definition mu (s : state) : nat := list_sum (map (rank_mu s) (seq 0 n)).

Lemma sum_lt (f g : nat -> nat) l x : In x l -> (forall y, In y l -> f y <= g y) ->
  f x < g x -> list_sum (map f l) < list_sum (map g l).
Proof.
  induction l as [|a l IH]; intros Hx Hle Hlt; [destruct Hx|].
  cbn [map list_sum fold_right].
  assert (Hle' : list_sum (map f l) <= list_sum (map g l)).
  { clear - Hle. induction l as [|b l IH]; cbn; [lia|].
    assert (f b <= g b) by (apply Hle; right; now left).
    assert (list_sum (map f l) <= list_sum (map g l)).
    { apply IH. intros y [Hy|Hy]; apply Hle; [now left|right; now right]. }
    unfold list_sum in *. lia. }
  destruct Hx as [->|Hx].
  - unfold list_sum in *. lia.
  - assert (f a <= g a) by (apply Hle; now left).
    assert (list_sum (map f l) < list_sum (map g l)).
    { apply IH; auto. intros y Hy. apply Hle. now right. }
    unfold list_sum in *. lia.
Qed.

Lemma sum_ext (f g : nat -> nat) l : (forall y, In y l -> f y = g y) ->
  list_sum (map f l) = list_sum (map g l).
Proof. intro H. f_equal. apply map_ext_in. exact H. Qed.

Lemma diter_length_le (v : dbr (list A)) x e : e < R -> x < n -> v = data e x ->
  length (diter v) <= n.
Proof.
  intros He Hx ->. rewrite <- (map_length fst). rewrite <- (seq_length n 0).
  apply NoDup_incl_length; [apply diter_nodup|].
  intros y Hy. apply mem_in in Hy. rewrite diter_has in Hy. unfold hasd in Hy.
  apply in_seq. destruct (nth_error (data e x) y) as [[l|]|] eqn:E; try discriminate.
  destruct (HG e x He Hx y l E). lia.
Qed.

Lemma others_length x : length (others n x) <= n.
Proof.
  rewrite <- (seq_length n 0) at 2. apply NoDup_incl_length; [apply others_nodup|].
  intros y Hy. apply others_in in Hy. apply in_seq. lia.
Qed.

Lemma start_weight x e : x < n -> weight (start R data x e) <= 5 * n + 8.
Proof.
  intro Hx. unfold start. destruct (Nat.ltb_spec e R) as [H|H]; cbn [weight]; [|lia].
  pose proof (diter_length_le (data e x) x e H Hx eq_refl). lia.
Qed.

Lemma ex_le s x : inv s -> x < n -> ex s x <= R.
Proof.
  intros Hi Hx. pose proof (i_ph s Hi x Hx) as Hp.
  destruct (ph s x); cbn in Hp; try tauto; lia.
Qed.

Lemma mu_rank_step s s' x : x < n ->
  (forall y, y <> x -> ph s' y = ph s y /\ ex s' y = ex s y) ->
  completed s' = completed s ->
  (R - ex s' x) * (5 * n + 20) + weight (ph s' x)
    < (R - ex s x) * (5 * n + 20) + weight (ph s x) ->
  mu s' < mu s.
Proof.
  intros Hx Ho Hc Hlt. unfold mu. apply (sum_lt (rank_mu s') (rank_mu s) _ x).
  - apply in_seq. lia.
  - intros y _. unfold rank_mu. rewrite Hc. destruct (Nat.eq_dec y x) as [->|Hy]; [lia|].
    destruct (Ho y Hy) as [-> ->]. lia.
  - unfold rank_mu. rewrite Hc. lia.
Qed.

Lemma mu_set_phase s x p : x < n -> weight p < weight (ph s x) ->
  mu (set_phase s x p) < mu s.
Proof.
  intros Hx H. apply (mu_rank_step _ _ x); auto.
  - intros y Hy. cbn. now rewrite upd_other.
  - cbn. rewrite upd_same. lia.
Qed.

Lemma run_rank_mu s x : inv s -> x < n ->
  run_rank s x = s \/ mu (run_rank s x) < mu s.
Proof.
  intros Hi Hx. pose proof (run_rank_inv s x Hi Hx) as Hi'. pose proof (i_ph _ Hi' x Hx) as Hp'.
  pose proof (i_ph s Hi x Hx) as Hp. revert Hp'.
  unfold Exchange_Model.run_rank.
  destruct (ph s x) as [[|[y l] t]|[|y t]|y t|[|y t] got|got| |] eqn:Ep; intro Hp'.
  - right. apply mu_set_phase; [exact Hx|]. rewrite Ep. cbn [weight length].
    pose proof (others_length x). lia.
  - destruct (dindex (pend s x) y) as [[]|]; cbn in Hp'; try rewrite upd_same in Hp';
      try destruct Hp'.
    destruct (dmodify (pend s x) y (fun _ => true)) as [pd|];
      cbn in Hp'; rewrite upd_same in Hp'; [|destruct Hp'].
    right. apply (mu_rank_step _ _ x); auto.
    + intros z Hz. cbn. now rewrite upd_other.
    + cbn [post ph ex]. rewrite upd_same, Ep. cbn [weight length]. lia.
  - match goal with |- context [if ?b then _ else _] => destruct b end;
      cbn in Hp'; rewrite upd_same in Hp'; [|destruct Hp'].
    right. apply mu_set_phase; [exact Hx|]. rewrite Ep. cbn [weight length].
    pose proof (others_length x). lia.
  - destruct (dindex (pend s x) y) as [[]|]; cbn in Hp'.
    + right. apply mu_set_phase; [exact Hx|]. rewrite Ep. cbn [weight length]. lia.
    + destruct (dmodify (pend s x) y (fun _ => true)) as [pd|];
        cbn in Hp'; rewrite upd_same in Hp'; [|destruct Hp'].
      right. apply (mu_rank_step _ _ x); auto.
      * intros z Hz. cbn. now rewrite upd_other.
      * cbn [post ph ex]. rewrite upd_same, Ep. cbn [weight length]. lia.
    + rewrite upd_same in Hp'. destruct Hp'.
  - destruct (completed s x y =? sent s x y); [|now left].
    right. apply mu_set_phase; [exact Hx|]. rewrite Ep. cbn [weight length]. lia.
  - right. apply mu_set_phase; [exact Hx|]. rewrite Ep. cbn [weight length]. lia.
  - destruct (chan s y x) as [|m c]; [now left|].
    destruct (dinsert got y m), (dmodify (pend s x) y (fun _ => false));
      cbn in Hp'; rewrite upd_same in Hp'; try destruct Hp'.
    right. apply (mu_rank_step _ _ x); auto.
    + intros z Hz. cbn. now rewrite upd_other.
    + cbn [ph ex]. rewrite upd_same, Ep. cbn [weight length]. lia.
  - destruct (all_completed n s x); [|now left].
    right. apply (mu_rank_step _ _ x); auto.
    + intros z Hz. cbn. now rewrite !upd_other.
    + cbn [ph ex]. rewrite !upd_same, Ep. cbn [weight].
      pose proof (start_weight x (S (ex s x)) Hx). cbn in Hp.
      replace (R - ex s x) with (S (R - S (ex s x))) by lia. lia.
  - now left.
  - now left.
Qed.

Lemma mu_completed s x y v : inv s -> x < n -> y < n -> completed s x y < v -> v <= R ->
  mu (mkState (ph s) (ex s) (pend s) (res s) (chan s) (sent s) (taken s)
        (upd2 (completed s) x y v)) < mu s.
Proof.
  intros Hi Hx Hy Hv HR. unfold mu.
  assert (Hlt : list_sum (map (fun q => S R - upd2 (completed s) x y v x q) (seq 0 n))
                < list_sum (map (fun q => S R - completed s x q) (seq 0 n))).
  { apply (sum_lt _ _ _ y); [apply in_seq; lia| |].
    - intros q _. destruct (upd2_cases (completed s) x y v x q) as [(_ & -> & ->)|[_ ->]]; lia.
    - rewrite upd2_same. lia. }
  apply (sum_lt _ _ _ x); [apply in_seq; lia| |].
  - intros z _. unfold rank_mu. cbn [ph ex completed].
    destruct (Nat.eq_dec z x) as [->|Hz]; [lia|].
    rewrite (sum_ext (fun q => S R - upd2 (completed s) x y v z q)
               (fun q => S R - completed s z q)); [lia|].
    intros q _. rewrite upd2_other; [reflexivity|tauto].
  - unfold rank_mu. cbn [ph ex completed]. lia.
Qed.

Lemma sent_le s x y : inv s -> x < n -> y < n -> x <> y -> sent s x y <= R.
Proof.
  intros Hi Hx Hy Hn. rewrite (i_sent s Hi) by assumption.
  pose proof (i_ph s Hi x Hx) as Hp. pose proof (b2n_le (sc (ph s x) (ex s x) x y)).
  destruct (ph s x); cbn [phase_ok] in Hp; try (cbn [sc b2n] in *; lia);
    first [destruct Hp as [Hp _]; cbn [sc b2n] in *; lia | destruct Hp].
Qed.

Lemma step_mu s o : inv s -> step s o = s \/ mu (step s o) < mu s.
Proof.
  intro Hi. destruct o as [x|x y|x y]; cbn [Exchange_Model.step].
  - destruct (Nat.ltb_spec x n); [now apply run_rank_mu|now left].
  - destruct (Nat.ltb_spec (completed s x y) (sent s x y)) as [H|H]; [|now left]. right.
    assert (~ (x = y \/ n <= x \/ n <= y)) by (intro Hc; pose proof (i_self s Hi x y Hc); lia).
    apply mu_completed; auto; try lia. apply sent_le; auto; lia.
  - destruct (Nat.ltb_spec (completed s x y) (taken s x y)) as [H|H]; [|now left]. right.
    assert (~ (x = y \/ n <= x \/ n <= y)) by (intro Hc; pose proof (i_tself s Hi x y Hc); lia).
    apply mu_completed; auto; try lia.
    transitivity (sent s x y); [apply (i_le s Hi); lia|apply sent_le; auto; lia].
Qed.

(** Progress is possible in every unfinished state: ranks still sending can run,
    or wait for a send that the library may complete. *)
Definition sending (p : phase) : bool :=
  match p with PPost _ | PEmpty _ | PBlock _ _ => true | _ => false end.

Lemma set_phase_neq s x (p : phase) : p <> ph s x -> set_phase s x p <> s.
Proof.
  intros H E. apply H. rewrite <- E at 1. cbn. now rewrite upd_same.
Qed.

Lemma run_progress s x : inv s -> x < n -> run_rank s x <> s -> mu (run_rank s x) < mu s.
Proof. intros Hi Hx H. destruct (run_rank_mu s x Hi Hx); [contradiction|assumption]. Qed.

Lemma weight_change s s' x : weight (ph s' x) <> weight (ph s x) -> s' <> s.
Proof. intros H ->. now apply H. Qed.

(** A sending rank that is not blocked can run. *)
Lemma sending_runs s x : inv s -> x < n ->
  match ph s x with
  | PPost _ | PEmpty _ => True
  | PBlock y _ => completed s x y = sent s x y
  | PRecv (y :: _) _ => chan s y x <> []
  | PRecv [] _ => True
  | PWait _ => forall y, y < n -> completed s x y = sent s x y
  | PDone | PPanic => False
  end -> mu (run_rank s x) < mu s.
Proof.
  intros Hi Hx H. apply run_progress; auto.
  pose proof (run_rank_inv s x Hi Hx) as Hi'. pose proof (i_ph _ Hi' x Hx) as Hp'.
  revert Hp'. unfold Exchange_Model.run_rank.
  destruct (ph s x) as [[|[y l] t]|[|y t]|y t|[|y t] got|got| |] eqn:Ep; intro Hp'.
  - apply set_phase_neq. now rewrite Ep.
  - destruct (dindex (pend s x) y) as [[]|]; cbn in Hp'; try rewrite upd_same in Hp';
      try destruct Hp'.
    destruct (dmodify (pend s x) y (fun _ => true)) as [pd|];
      cbn in Hp'; rewrite upd_same in Hp'; [|destruct Hp'].
    apply (weight_change _ _ x). cbn [post ph]. rewrite upd_same, Ep. cbn [weight length]. lia.
  - match goal with |- context [if ?b then _ else _] => destruct b end;
      cbn in Hp'; rewrite upd_same in Hp'; [|destruct Hp'].
    apply set_phase_neq. now rewrite Ep.
  - destruct (dindex (pend s x) y) as [[]|]; cbn in Hp'.
    + apply (weight_change _ _ x). cbn [set_phase ph]. rewrite upd_same, Ep.
      cbn [weight length]. lia.
    + destruct (dmodify (pend s x) y (fun _ => true)) as [pd|];
        cbn in Hp'; rewrite upd_same in Hp'; [|destruct Hp'].
      apply (weight_change _ _ x). cbn [post ph]. rewrite upd_same, Ep. cbn [weight length]. lia.
    + rewrite upd_same in Hp'. destruct Hp'.
  - rewrite H, Nat.eqb_refl. apply set_phase_neq. now rewrite Ep.
  - apply set_phase_neq. now rewrite Ep.
  - destruct (chan s y x) as [|m c]; [congruence|].
    destruct (dinsert got y m), (dmodify (pend s x) y (fun _ => false));
      cbn in Hp'; rewrite upd_same in Hp'; try destruct Hp'.
    apply (weight_change _ _ x). cbn [ph]. rewrite upd_same, Ep. cbn [weight length]. lia.
  - assert (E : all_completed n s x = true).
    { apply forallb_forall. intros y Hy. apply in_seq in Hy. apply Nat.eqb_eq, H. lia. }
    rewrite E. intro Es. assert (Ee : ex s x = S (ex s x)); [|lia].
    rewrite <- Es at 1. cbn. now rewrite upd_same.
  - destruct H.
  - destruct H.
Qed.

Lemma min_rank (P : nat -> Prop) (f : nat -> nat) :
  (forall x, P x \/ ~ P x) -> forall k,
  (forall x, x < k -> ~ P x) \/
  exists x, x < k /\ P x /\ forall y, y < k -> P y -> f x <= f y.
Proof.
  intros Hd k. induction k as [|k IH]; [left; lia|].
  destruct (Hd k) as [Hk|Hk].
  - destruct IH as [IH|(x & Hx & Px & Hm)].
    + right. exists k. split; [lia|]. split; [exact Hk|]. intros y Hy Py.
      destruct (Nat.eq_dec y k) as [->|]; [lia|]. exfalso. apply (IH y); [lia|exact Py].
    + right. destruct (Nat.le_gt_cases (f x) (f k)) as [H|H].
      * exists x. split; [lia|]. split; [exact Px|]. intros y Hy Py.
        destruct (Nat.eq_dec y k) as [->|]; [exact H|]. apply Hm; [lia|exact Py].
      * exists k. split; [lia|]. split; [exact Hk|]. intros y Hy Py.
        destruct (Nat.eq_dec y k) as [->|]; [lia|].
        assert (f x <= f y) by (apply Hm; [lia|exact Py]). lia.
  - destruct IH as [IH|(x & Hx & Px & Hm)].
    + left. intros y Hy. destruct (Nat.eq_dec y k) as [->|]; [exact Hk|apply IH; lia].
    + right. exists x. split; [lia|]. split; [exact Px|]. intros y Hy Py.
      destruct (Nat.eq_dec y k) as [->|]; [contradiction|]. apply Hm; [lia|exact Py].
Qed.

(** If nobody is sending, a rank that is furthest behind can receive. *)
Lemma behind_can_receive s x y t got : inv s -> x < n ->
  (forall z, z < n -> sending (ph s z) = false) ->
  (forall z, z < n -> ph s z <> PDone -> ex s x <= ex s z) ->
  ph s x = PRecv (y :: t) got -> chan s y x <> [].
Proof.
  intros Hi Hx Hns Hmin Ep. pose proof (i_ph s Hi x Hx) as Hp. rewrite Ep in Hp.
  destruct Hp as (He & (pre & Hpre) & _).
  destruct (others_split _ _ _ _ Hpre) as (Hy & Hyx & _).
  rewrite (i_chan s Hi y x) by auto.
  assert (Htk : taken s y x = ex s x).
  { rewrite (i_taken s Hi x y) by auto. rewrite Ep. cbn [rc]. unfold mem. cbn [existsb].
    rewrite Nat.eqb_refl. cbn; lia. }
  assert (Hlt : ex s x < sent s y x).
  { rewrite (i_sent s Hi y x) by auto. pose proof (i_ph s Hi y Hy) as Hpy.
    specialize (Hns y Hy). specialize (Hmin y Hy).
    destruct (ph s y) as [t'|t'|y' t'|t' got'|got'| |]; try discriminate;
      cbn [sc b2n phase_ok] in *.
    - specialize (Hmin ltac:(discriminate)). lia.
    - specialize (Hmin ltac:(discriminate)). lia.
    - lia.
    - destruct Hpy. }
  rewrite Htk. destruct (sent s y x - ex s x) eqn:E; [lia|]. cbn. discriminate.
Qed.

Lemma unsent s x y : inv s -> x < n -> y < n ->
  completed s x y = sent s x y \/ (completed s x y < sent s x y).
Proof. intros Hi Hx Hy. pose proof (i_compl s Hi x y). lia. Qed.

Lemma find_incomplete s x : inv s ->
  (forall y, y < n -> completed s x y = sent s x y) \/
  exists y, y < n /\ completed s x y < sent s x y.
Proof.
  intro Hi. assert (H : forall k, (forall y, y < k -> completed s x y = sent s x y) \/
    exists y, y < k /\ completed s x y < sent s x y).
  { induction k as [|k IH]; [left; lia|].
    pose proof (i_compl s Hi x k).
    destruct IH as [IH|(y & Hy & H')]; [|right; exists y; split; [lia|exact H']].
    destruct (Nat.eq_dec (completed s x k) (sent s x k)) as [E|E].
    - left. intros y Hy. destruct (Nat.eq_dec y k) as [->|]; [exact E|apply IH; lia].
    - right. exists k. lia. }
  apply H.
Qed.

Lemma buffer_progress s x y : inv s -> completed s x y < sent s x y ->
  mu (step s (Buffer x y)) < mu s.
Proof.
  intros Hi H. destruct (step_mu s (Buffer x y) Hi) as [E|E]; [|exact E].
  exfalso. cbn [Exchange_Model.step] in E. apply Nat.ltb_lt in H as H'. rewrite H' in E.
  assert (Ec : completed s x y = sent s x y); [|lia].
  rewrite <- E at 1. cbn. now rewrite upd2_same.
Qed.

Lemma notice_progress s x y : inv s -> completed s x y < taken s x y ->
  mu (step s (Notice x y)) < mu s.
Proof.
  intros Hi H. destruct (step_mu s (Notice x y) Hi) as [E|E]; [|exact E].
  exfalso. cbn [Exchange_Model.step] in E. apply Nat.ltb_lt in H as H'. rewrite H' in E.
  assert (Ec : completed s x y = taken s x y); [|lia].
  rewrite <- E at 1. cbn. now rewrite upd2_same.
Qed.

Lemma run_step s x : x < n -> step s (Run x) = run_rank s x.
Proof. intro H. cbn [Exchange_Model.step]. apply Nat.ltb_lt in H. now rewrite H. Qed.

Lemma sending_dec (p : phase) : sending p = true \/ ~ sending p = true.
Proof. destruct (sending p); [now left|now right]. Qed.

Lemma not_done_dec (p : phase) : p <> PDone \/ ~ p <> PDone.
Proof. destruct p; try (left; discriminate). right. intro H. now apply H. Qed.

Lemma done_dec (p : phase) : p = PDone \/ p <> PDone.
Proof. destruct p; auto; right; discriminate. Qed.

Lemma progress_buffered s : inv s ->
  (finished n R) s \/ exists o, match o with Run x => x < n | Buffer x y => x < n /\ y < n | Notice _ _ => False end
    /\ mu (step s o) < mu s.
Proof.
  intro Hi.
  destruct (min_rank (fun x => sending (ph s x) = true) (fun _ => 0)
              (fun x => sending_dec (ph s x)) n)
    as [Hns|(x & Hx & Hsx & _)].
  2:{ right. pose proof (i_ph s Hi x Hx) as Hp. pose proof (sending_runs s x Hi Hx) as Hr.
      destruct (ph s x) as [t|t|y t|t got|got| |] eqn:Ep; try discriminate.
      - exists (Run x). split; [exact Hx|]. rewrite run_step by exact Hx. now apply Hr.
      - exists (Run x). split; [exact Hx|]. rewrite run_step by exact Hx. now apply Hr.
      - destruct Hp as (He & pre & Hpre). destruct (others_split _ _ _ _ Hpre) as (Hy & _ & _).
        destruct (unsent s x y Hi Hx Hy) as [H|H].
        + exists (Run x). split; [exact Hx|]. rewrite run_step by exact Hx. now apply Hr.
        + exists (Buffer x y). split; [auto|]. now apply buffer_progress. }
  assert (Hns' : forall z, z < n -> sending (ph s z) = false).
  { intros z Hz. specialize (Hns z Hz). now destruct (sending (ph s z)). }
  destruct (min_rank (fun x => ph s x <> PDone) (ex s)
              (fun x => not_done_dec (ph s x)) n)
    as [Hd|(x & Hx & Hnd & Hmin)].
  { left. intros x Hx. specialize (Hd x Hx). destruct (done_dec (ph s x)) as [E|]; [|tauto].
    split; [exact E|]. rewrite (proj1 (i_res s Hi x Hx)).
    pose proof (i_ph s Hi x Hx) as Hp. rewrite E in Hp. exact Hp. }
  right. pose proof (i_ph s Hi x Hx) as Hp. pose proof (sending_runs s x Hi Hx) as Hr.
  specialize (Hns' x Hx) as Hsx.
  destruct (ph s x) as [t|t|y t|[|y t] got|got| |] eqn:Ep; try discriminate.
  - exists (Run x). split; [exact Hx|]. rewrite run_step by exact Hx. now apply Hr.
  - exists (Run x). split; [exact Hx|]. rewrite run_step by exact Hx. apply Hr.
    eapply behind_can_receive; eauto.
  - destruct (find_incomplete s x Hi) as [H|(y & Hy & H)].
    + exists (Run x). split; [exact Hx|]. rewrite run_step by exact Hx. now apply Hr.
    + exists (Buffer x y). split; [auto|]. now apply buffer_progress.
  - congruence.
  - destruct Hp.
Qed.

(** Without any buffering by the library, provided no empty message has to be
    sent by the blocking send. *)
Definition no_block (s : state) : Prop :=
  forall x, x < n -> match ph s x with PBlock _ _ => False | _ => True end.

Lemma no_block_step s o :
  (forall e x, e < R -> x < n -> names_all_others n x (data e x)) ->
  inv s -> no_block s -> no_block (step s o).
Proof.
  intros Hall Hi Hnb x Hx. specialize (Hnb x Hx).
  destruct o as [z|z q|z q]; cbn [Exchange_Model.step];
    try (match goal with |- context [if ?b then _ else _] => destruct b end; exact Hnb).
  destruct (Nat.ltb_spec z n) as [Hz|]; [|exact Hnb].
  destruct (Nat.eq_dec z x) as [->|Hzx].
  - pose proof (i_ph s Hi x Hx) as Hp. unfold Exchange_Model.run_rank.
    destruct (ph s x) as [[|[y l] t]|[|y t]|y t|[|y t] got|got| |] eqn:Ep;
      try (cbn; rewrite ?upd_same, ?Ep; exact Logic.I).
    + destruct (dindex (pend s x) y) as [[]|]; try (cbn; rewrite upd_same; exact Logic.I).
      destruct (dmodify _ _ _); cbn; rewrite upd_same; exact Logic.I.
    + match goal with |- context [if ?b then _ else _] => destruct b end;
        cbn; rewrite upd_same; exact Logic.I.
    + destruct Hp as (He & pre & Hpre).
      destruct (others_split _ _ _ _ Hpre) as (Hy & Hyx & Hnt).
      pose proof (i_pend s Hi x Hx) as Ht. rewrite Ep in Ht.
      rewrite (tab_index n x _ _ y Ht Hy Hyx).
      destruct (Hall _ _ He Hx y Hy Hyx) as (l & Hl).
      cbn [sc]. unfold hasd. rewrite Hl. cbn. rewrite upd_same. exact Logic.I.
    + destruct Hnb.
    + destruct (chan s y x); [now rewrite Ep|].
      match goal with |- context [dinsert ?a ?b ?c] => destruct (dinsert a b c) end;
        match goal with |- context [dmodify ?a ?b ?c] => destruct (dmodify a b c) | _ => idtac end;
        cbn; rewrite upd_same; exact Logic.I.
    + destruct (all_completed n s x); [|now rewrite Ep]. cbn. rewrite upd_same.
      unfold start. now destruct (_ <? _).
  - assert (E : ph (run_rank s z) x = ph s x); [|now rewrite E].
    unfold Exchange_Model.run_rank.
    repeat match goal with
    | |- context [match ?m with _ => _ end] => destruct m
    end; cbn; rewrite ?upd_other by auto; reflexivity.
Qed.

Lemma progress_unbuffered s : inv s -> no_block s ->
  (finished n R) s \/ exists o, match o with Run x => x < n | Notice x y => x < n /\ y < n | Buffer _ _ => False end
    /\ mu (step s o) < mu s.
Proof.
  intros Hi Hnb.
  destruct (min_rank (fun x => sending (ph s x) = true) (fun _ => 0)
              (fun x => sending_dec (ph s x)) n)
    as [Hns|(x & Hx & Hsx & _)].
  2:{ right. pose proof (sending_runs s x Hi Hx) as Hr. specialize (Hnb x Hx).
      exists (Run x). split; [exact Hx|]. rewrite run_step by exact Hx.
      destruct (ph s x) as [t|t|y t|t got|got| |] eqn:Ep; try discriminate; try tauto;
        now apply Hr. }
  assert (Hns' : forall z, z < n -> sending (ph s z) = false).
  { intros z Hz. specialize (Hns z Hz). now destruct (sending (ph s z)). }
  (* a receiver furthest behind *)
  destruct (min_rank (fun x => ph s x <> PDone)
              (fun x => 2 * ex s x + match ph s x with PRecv _ _ => 0 | _ => 1 end)
              (fun x => not_done_dec (ph s x)) n)
    as [Hd|(x & Hx & Hnd & Hmin)].
  { left. intros x Hx. specialize (Hd x Hx). destruct (done_dec (ph s x)) as [E|]; [|tauto].
    split; [exact E|]. rewrite (proj1 (i_res s Hi x Hx)).
    pose proof (i_ph s Hi x Hx) as Hp. rewrite E in Hp. exact Hp. }
  right. pose proof (i_ph s Hi x Hx) as Hp. pose proof (sending_runs s x Hi Hx) as Hr.
  specialize (Hns' x Hx) as Hsx.
  destruct (ph s x) as [t|t|y t|[|y t] got|got| |] eqn:Ep; try discriminate.
  - exists (Run x). split; [exact Hx|]. rewrite run_step by exact Hx. now apply Hr.
  - exists (Run x). split; [exact Hx|]. rewrite run_step by exact Hx. apply Hr.
    eapply behind_can_receive; eauto. intros z Hz Hzd. specialize (Hmin z Hz Hzd). cbv beta in Hmin.
    destruct (ph s z); lia.
  - destruct (find_incomplete s x Hi) as [H|(y & Hy & H)].
    + exists (Run x). split; [exact Hx|]. rewrite run_step by exact Hx. now apply Hr.
    + exists (Notice x y). split; [auto|]. apply notice_progress; [exact Hi|].
      assert (Hxy : x <> y) by (intros ->; pose proof (i_self s Hi y y); lia).
      rewrite (i_taken s Hi y x) by auto.
      pose proof (i_sent s Hi x y Hx Hy Hxy) as Hs. rewrite Ep in Hs. cbn [sc b2n] in Hs.
      pose proof (i_ph s Hi y Hy) as Hpy.
      destruct (done_dec (ph s y)) as [Ed|Ed].
      * rewrite Ed in *. cbn in *. lia.
      * specialize (Hmin y Hy Ed). cbv beta in Hmin. specialize (Hns' y Hy).
        destruct (ph s y) as [t'|t'|y' t'|t' got'|got'| |]; try discriminate; cbn [rc b2n] in *;
          try lia; [congruence|destruct Hpy].
  - congruence.
  - destruct Hp.
Qed.

Lemma exchange_terminates sched :
  fair (fun o => match o with Run x => x < n | Buffer x y => x < n /\ y < n | Notice _ _ => False end) sched ->
  exists k, (finished n R) (exec step (init n R data) sched k).
Proof.
  intro Hf. apply (fair_reaches_final step inv (finished n R) _ mu step_inv step_mu progress_buffered
                     (init n R data) sched inv_init Hf).
Qed.

Lemma exchange_terminates_unbuffered sched :
  (forall e x, e < R -> x < n -> names_all_others n x (data e x)) ->
  fair (fun o => match o with Run x => x < n | Notice x y => x < n /\ y < n | Buffer _ _ => False end) sched ->
  exists k, (finished n R) (exec step (init n R data) sched k).
Proof.
  intros Hall Hf.
  apply (fair_reaches_final step (fun s => inv s /\ no_block s) (finished n R)
           (fun o => match o with Run x => x < n | Notice x y => x < n /\ y < n | Buffer _ _ => False end) mu).
  - intros s o [Hi Hb]. split; [now apply step_inv|now apply no_block_step].
  - intros s o [Hi _]. now apply step_mu.
  - intros s [Hi Hb]. now apply progress_unbuffered.
  - split; [exact inv_init|]. intros x Hx. cbn. unfold start. now destruct (_ <? _).
  - exact Hf.
Qed.

(** The states of an execution are reachable. *)
Lemma exec_reach sched k : exec step (init n R data) sched k
  = reach n R data (map sched (seq 0 k)).
Proof.
  unfold reach. generalize (init n R data). revert sched.
  induction k as [|k IH]; intros sched s; [reflexivity|].
  cbn [exec seq map fold_left]. rewrite IH. rewrite <- seq_shift, map_map. reflexivity.
Qed.

End Exchange.

(** Two ranks without data, neither of whose sends completes before its message
    is taken, stay in their first blocking send. *)
Lemma rendezvous_stuck (l' : list op) :
  Forall (fun o => match o with Buffer _ _ => False | _ => True end) l' ->
  ~ finished 2 1 (reach 2 1 (fun _ _ => ([] : dbr (list nat)))
                    ([Run 0; Run 1; Run 0; Run 1] ++ l')).
Proof.
  intro Hl. unfold reach. rewrite fold_left_app.
  set (D := fun _ _ => ([] : dbr (list nat))).
  set (s0 := fold_left (step 2 1 D) [Run 0; Run 1; Run 0; Run 1] (init 2 1 D)).
  set (P := fun s : @state nat =>
    (exists t, ph s 0 = PBlock 1 t) /\ (exists t, ph s 1 = PBlock 0 t)
    /\ completed s 0 1 = 0 /\ sent s 0 1 = 1 /\ completed s 1 0 = 0 /\ sent s 1 0 = 1
    /\ taken s 0 1 = 0 /\ taken s 1 0 = 0).
  assert (H0 : P s0).
  { split; [eexists; reflexivity|]. split; [eexists; reflexivity|]. repeat split; reflexivity. }
  clearbody s0. revert s0 H0. induction Hl as [|o l Ho Hl IH]; intros s H.
  - cbn. intro F. destruct (F 0) as [F0 _]; [lia|]. destruct H as [[t E] _]. congruence.
  - cbn [fold_left]. apply IH. destruct H as ((t0 & E0) & (t1 & E1) & C0 & S0 & C1 & S1 & T0 & T1).
    destruct o as [x|x y|x y]; [| destruct Ho |].
    + unfold step. destruct (Nat.ltb_spec x 2) as [Hx|_].
      2:{ unfold P; repeat split; eauto. }
      assert (E : run_rank 2 1 D s x = s).
      { unfold run_rank. destruct x as [|[|x]]; [| |lia].
        - rewrite E0, C0, S0. reflexivity.
        - rewrite E1, C1, S1. reflexivity. }
      rewrite E. unfold P; repeat split; eauto.
    + unfold step. destruct (Nat.ltb_spec (completed s x y) (taken s x y)) as [Hc|_].
      2:{ unfold P; repeat split; eauto. }
      unfold P. cbn. unfold upd2.
      repeat split; eauto;
      match goal with |- context [(?a =? ?b) && (?c =? ?d)] =>
        destruct (Nat.eqb_spec a b), (Nat.eqb_spec c d); cbn; subst; auto; lia end.
Qed.
