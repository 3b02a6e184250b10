(** Proofs about the names of output files. *)
From Coq Require Import List Arith QArith Qround ZArith Lia String Ascii.
Import ListNotations.
From Verif Require Import OutputNames_Model OutputNames_Spec.
Local Open Scope nat_scope.

Definition read (l : list nat) : nat := fold_left (fun a d => 10 * a + d) l 0.
Lemma fold_shift l : forall a, fold_left (fun a d => 10 * a + d) l a = a * 10 ^ List.length l + read l.
Proof.
  unfold read. induction l as [|d l IH]; intro a; cbn [fold_left List.length Nat.pow]; [lia|].
  rewrite (IH (10 * a + d)), (IH (10 * 0 + d)). lia.
Qed.
Lemma read_cons d l : read (d :: l) = d * 10 ^ List.length l + read l.
Proof. unfold read at 1. cbn [fold_left]. rewrite fold_shift. lia. Qed.
Lemma read_snoc l d : read (l ++ [d]) = 10 * read l + d.
Proof. unfold read. rewrite fold_left_app. reflexivity. Qed.
Lemma read_zeros k l : read (repeat 0 k ++ l) = read l.
Proof. induction k as [|k IH]; [reflexivity|]. cbn [repeat app]. rewrite read_cons, IH. lia. Qed.

Lemma digits_from_ok fuel : forall n, n < fuel -> read (digits_from fuel n) = n /\ Forall (fun d => d < 10) (digits_from fuel n) /\
  1 <= List.length (digits_from fuel n) /\ forall k, n < 10 ^ k -> List.length (digits_from fuel n) <= max 1 k.
Proof.
  induction fuel as [|fuel IH]; intros n H; [lia|]. cbn [digits_from]. destruct (Nat.ltb_spec n 10) as [L|L].
  - split; [reflexivity|]. split; [constructor; [exact L|constructor]|]. split; [cbn; lia|]. intros k _. cbn [List.length]. lia.
  - pose proof (Nat.div_mod n 10 ltac:(lia)) as D. pose proof (Nat.mod_upper_bound n 10 ltac:(lia)) as M.
    destruct (IH (n / 10)) as (R & F & L1 & L2); [nia|]. rewrite read_snoc, R, app_length. cbn [List.length].
    split; [lia|]. split; [apply Forall_app; split; [exact F|constructor; [exact M|constructor]]|]. split; [lia|].
    intros k Hk. destruct k as [|k]; [cbn in Hk; lia|]. cbn [Nat.pow] in Hk.
      destruct k as [|k]; [cbn in Hk; lia|]. specialize (L2 (S k)). assert (n / 10 < 10 ^ S k) by (apply Nat.div_lt_upper_bound; lia).
      specialize (L2 H0). lia.
Qed.
Lemma digits_ok n : read (digits n) = n /\ Forall (fun d => d < 10) (digits n) /\ 1 <= List.length (digits n) /\
  forall k, n < 10 ^ k -> List.length (digits n) <= max 1 k.
Proof. apply digits_from_ok. lia. Qed.

Lemma map_code_inj l : forall m, map (fun d => nat_of_ascii "0" + d) l = map (fun d => nat_of_ascii "0" + d) m -> l = m.
Proof.
  induction l as [|a l IH]; intros [|b m] H; cbn [map] in H; try discriminate; [reflexivity|].
  injection H as H1 H2. f_equal; [cbn in H1; lia|apply IH, H2].
Qed.
Lemma padded_inj p m n : padded p m = padded p n -> m = n.
Proof.
  intro H. apply map_code_inj in H. apply (f_equal read) in H. rewrite !read_zeros in H.
  destruct (digits_ok m) as (A & _). destruct (digits_ok n) as (B & _). congruence.
Qed.
Lemma padded_length p n : n < 10 ^ p -> 1 <= p -> List.length (padded p n) = p.
Proof.
  intros H P. unfold padded. rewrite map_length, app_length, repeat_length. destruct (digits_ok n) as (_ & _ & _ & L). specialize (L p H). lia.
Qed.

Theorem paths_distinct log10 p f s i s' i' : file_path log10 p f s i = file_path log10 p f s' i' -> s = s' /\ i = i'.
Proof.
  unfold file_path, snapshot_name, file_name. intro H. injection H as H1 H2. split; [eapply padded_inj; exact H1|].
  apply app_inv_tail in H2. eapply padded_inj; exact H2.
Qed.
Theorem logs_distinct log10 n r r' : log_file log10 n r = log_file log10 n r' -> r = r'.
Proof.
  unfold log_file. intro H. apply app_inv_head in H. apply app_inv_tail in H. eapply padded_inj; exact H.
Qed.

Lemma read_bound l : Forall (fun d => d < 10) l -> read l < 10 ^ List.length l.
Proof.
  induction 1 as [|d l D _ IH]; [cbn; lia|]. rewrite read_cons. cbn [List.length Nat.pow]. nia.
Qed.
Lemma before_read l : forall m, List.length l = List.length m -> Forall (fun d => d < 10) l -> Forall (fun d => d < 10) m ->
  before l m <-> read l < read m.
Proof.
  induction l as [|a l IH]; intros [|b m] L F G; try discriminate; [cbn; split; [tauto|lia]|].
  injection L as L. inversion F as [|? ? Fa Fl]. inversion G as [|? ? Gb Gm]. subst. cbn [before]. rewrite (IH m L Fl Gm), !read_cons, L.
  pose proof (read_bound l Fl) as B1. pose proof (read_bound m Gm) as B2. rewrite L in B1. split.
  - intros [H|[-> H]]; [nia|lia].
  - intro H. destruct (lt_eq_lt_dec a b) as [[H1|H1]|H1]; [now left|right; split; [exact H1|nia]|nia].
Qed.
Lemma before_map l : forall m, before (map (fun d => nat_of_ascii "0" + d) l) (map (fun d => nat_of_ascii "0" + d) m) <-> before l m.
Proof.
  induction l as [|a l IH]; intros [|b m]; cbn [map before]; try tauto. rewrite IH. cbn. split; intros [H|[H K]]; (left; lia) || (right; split; [lia|exact K]).
Qed.
Lemma before_irrefl s : ~ before s s.
Proof. induction s as [|a s IH]; cbn; [tauto|]. intros [H|[_ H]]; [lia|tauto]. Qed.
Lemma before_tail s l : forall m, List.length l = List.length m -> before (l ++ s) (m ++ s) <-> before l m.
Proof.
  induction l as [|a l IH]; intros [|b m] L; try discriminate; cbn [app before].
  - pose proof (before_irrefl s). tauto.
  - injection L as L. rewrite (IH m L). tauto.
Qed.
Lemma before_head s l m : before (s ++ l) (s ++ m) <-> before l m.
Proof. induction s as [|a s IH]; cbn [app before]; [tauto|]. rewrite IH. split; [intros [H|[_ H]]; [lia|exact H]|intro H; right; split; [reflexivity|exact H]]. Qed.

Lemma padded_before p i j : 1 <= p -> i < 10 ^ p -> j < 10 ^ p -> before (padded p i) (padded p j) <-> i < j.
Proof.
  intros P Hi Hj. unfold padded. rewrite before_map.
  destruct (digits_ok i) as (Ri & Fi & Li & Ki). destruct (digits_ok j) as (Rj & Fj & Lj & Kj).
  specialize (Ki p Hi). specialize (Kj p Hj).
  rewrite before_read.
  - rewrite !read_zeros, Ri, Rj. tauto.
  - rewrite !app_length, !repeat_length. lia.
  - apply Forall_app. split; [|exact Fi]. apply Forall_forall. intros x Hx. apply repeat_spec in Hx. lia.
  - apply Forall_app. split; [|exact Fj]. apply Forall_forall. intros x Hx. apply repeat_spec in Hx. lia.
Qed.
Theorem snapshots_sorted p i j : 1 <= p -> i < 10 ^ p -> j < 10 ^ p ->
  before (snapshot_name p i) (snapshot_name p j) <-> i < j.
Proof. apply padded_before. Qed.

(** The power of ten that a number reaches. *)
Lemma reach n : 1 <= n -> exists k, 10 ^ k <= n < 10 ^ S k.
Proof.
  intro H. induction n as [|n IH]; [lia|]. destruct n as [|n]; [exists 0; cbn; lia|]. destruct IH as [k K]; [lia|].
  destruct (Nat.eq_dec (S (S n)) (10 ^ S k)) as [E|E].
  - exists (S k). rewrite E. split; [lia|]. apply Nat.pow_lt_mono_r; lia.
  - exists k. lia.
Qed.
Lemma width_enough log10 n i : not_too_small log10 -> i < n -> i < 10 ^ number_width log10 n.
Proof.
  intros A H. destruct (Nat.eq_dec i 0) as [->|N]; [apply Nat.neq_0_lt_0, Nat.pow_nonzero; lia|].
  destruct (reach i ltac:(lia)) as [k [K1 K2]]. assert (W : S k <= number_width log10 n).
  { unfold number_width. specialize (A k n ltac:(lia)). assert (Z.of_nat k <= Qfloor (log10 n))%Z; [|lia].
    rewrite <- (Qfloor_Z (Z.of_nat k)). apply Qfloor_resp_le, A. }
  apply Nat.lt_le_trans with (10 ^ S k); [exact K2|]. apply Nat.pow_le_mono_r; lia.
Qed.
Theorem files_sorted log10 n i j : not_too_small log10 -> i < n -> j < n ->
  (before (file_name log10 n i) (file_name log10 n j) <-> i < j) /\ List.length (file_name log10 n i) = List.length (file_name log10 n j).
Proof.
  intros A Hi Hj. pose proof (width_enough log10 n i A Hi) as Wi. pose proof (width_enough log10 n j A Hj) as Wj.
  assert (P : 1 <= number_width log10 n) by (unfold number_width; lia).
  pose proof (padded_length _ _ Wi P) as Li. pose proof (padded_length _ _ Wj P) as Lj. unfold file_name. split.
  - rewrite before_tail by congruence. now apply padded_before.
  - rewrite !app_length. congruence.
Qed.
Theorem logs_sorted log10 n i j : not_too_small log10 -> i < n -> j < n ->
  (before (log_file log10 n i) (log_file log10 n j) <-> i < j) /\ List.length (log_file log10 n i) = List.length (log_file log10 n j).
Proof.
  intros A Hi Hj. pose proof (width_enough log10 n i A Hi) as Wi. pose proof (width_enough log10 n j A Hj) as Wj.
  assert (P : 1 <= number_width log10 n) by (unfold number_width; lia).
  pose proof (padded_length _ _ Wi P) as Li. pose proof (padded_length _ _ Wj P) as Lj. unfold log_file. split.
  - rewrite before_head, before_tail by congruence. now apply padded_before.
  - rewrite !app_length. congruence.
Qed.

(** An example of a logarithm: rounded down. *)
Definition floor_log10 (n : nat) : Q := inject_Z (Z.of_nat (List.length (digits n) - 1)).
Lemma floor_log10_ok : not_too_small floor_log10.
Proof.
  intros k n H. unfold floor_log10. rewrite <- Zle_Qle. destruct (digits_ok n) as (R & F & L & _).
  pose proof (read_bound _ F) as B. rewrite R in B. assert (k < List.length (digits n)); [|lia].
  apply (Nat.pow_lt_mono_r_iff 10); lia.
Qed.
