(** The keys of peano_hilbert.rs follow curves of [Hilbert_Curve]. *)
From Coq Require Import List Arith NArith ZArith Lia Bool QArith Qround Qfield Lqa.
Import ListNotations.
From Verif Require Import Hilbert_Model Hilbert_Spec Hilbert_Curve.
Local Open Scope N_scope.

(** * A boolean check of an automaton with states [0 .. count-1] *)
Section Check.
Variable D : nat.
Variable count : nat.
Variable digit : nat -> nat -> nat.
Variable nxt : nat -> nat -> nat.
Local Notation M := (2 ^ D)%nat.

Definition inv_of (r k : nat) : nat := hd 0%nat (filter (fun p => Nat.eqb (digit r p) k) (seq 0 M)).

Definition check_inv1 (r p : nat) : bool :=
  Nat.ltb (digit r p) M && Nat.eqb (inv_of r (digit r p)) p && Nat.ltb (nxt r p) count.
Definition check_inv2 (r k : nat) : bool :=
  Nat.ltb (inv_of r k) M && Nat.eqb (digit r (inv_of r k)) k.
Definition check_ends (r : nat) : bool :=
  Nat.eqb (inv_of (nxt r (inv_of r 0)) 0) (inv_of r 0)
  && Nat.eqb (inv_of (nxt r (inv_of r (M - 1))) (M - 1)) (inv_of r (M - 1)).
Definition check_adj (r k : nat) : bool :=
  let p := inv_of r k in let q := inv_of r (S k) in
  let a := inv_of (nxt r p) (M - 1)%nat in let b := inv_of (nxt r q) 0%nat in
  existsb (fun i =>
    Bool.eqb (Nat.testbit p i) (negb (Nat.testbit q i))
    && Bool.eqb (Nat.testbit a i) (Nat.testbit q i)
    && Bool.eqb (Nat.testbit b i) (Nat.testbit p i)
    && forallb (fun j => Nat.eqb j i ||
         (Bool.eqb (Nat.testbit p j) (Nat.testbit q j) && Bool.eqb (Nat.testbit a j) (Nat.testbit b j)))
         (seq 0 D)) (seq 0 D).
Definition check : bool :=
  forallb (fun r => forallb (check_inv1 r) (seq 0 M) && forallb (check_inv2 r) (seq 0 M)
    && check_ends r && forallb (check_adj r) (seq 0 (M - 1))) (seq 0 count).

Hypothesis Hcheck : check = true.
Local Notation ok r := (r < count)%nat.

Lemma check_at : forall r, ok r ->
  (forall p, (p < M)%nat -> check_inv1 r p = true) /\ (forall p, (p < M)%nat -> check_inv2 r p = true)
  /\ check_ends r = true /\ (forall k, (S k < M)%nat -> check_adj r k = true).
Proof.
  intros r Hr. unfold check in Hcheck. rewrite forallb_forall in Hcheck.
  assert (Hin : In r (seq 0 count)) by (apply in_seq; lia). specialize (Hcheck r Hin).
  apply andb_prop in Hcheck. destruct Hcheck as [H H4].
  apply andb_prop in H. destruct H as [H H3]. apply andb_prop in H. destruct H as [H1 H2].
  rewrite forallb_forall in H1, H2, H4.
  split; [|split; [|split]]; auto; intros; [apply H1|apply H2|apply H4]; apply in_seq; lia.
Qed.

Lemma ck_inv1 : forall r p, ok r -> (p < M)%nat -> (digit r p < M)%nat /\ inv_of r (digit r p) = p.
Proof.
  intros r p Hr Hp. destruct (check_at r Hr) as (H & _). specialize (H p Hp). unfold check_inv1 in H.
  apply andb_prop in H. destruct H as [H _]. apply andb_prop in H. destruct H as [A B].
  apply Nat.ltb_lt in A. apply Nat.eqb_eq in B. auto.
Qed.
Lemma ck_ok : forall r p, ok r -> (p < M)%nat -> ok (nxt r p).
Proof.
  intros r p Hr Hp. destruct (check_at r Hr) as (H & _). specialize (H p Hp). unfold check_inv1 in H.
  apply andb_prop in H. destruct H as [_ H]. apply Nat.ltb_lt in H. auto.
Qed.
Lemma ck_inv2 : forall r k, ok r -> (k < M)%nat -> (inv_of r k < M)%nat /\ digit r (inv_of r k) = k.
Proof.
  intros r p Hr Hp. destruct (check_at r Hr) as (_ & H & _). specialize (H p Hp). unfold check_inv2 in H.
  apply andb_prop in H. destruct H as [A B].
  apply Nat.ltb_lt in A. apply Nat.eqb_eq in B. auto.
Qed.
Lemma ck_entry : forall r, ok r -> centry nat inv_of (nxt r (centry nat inv_of r)) = centry nat inv_of r.
Proof.
  intros r Hr. destruct (check_at r Hr) as (_ & _ & H & _). unfold check_ends in H.
  apply andb_prop in H. destruct H as [H _]. apply Nat.eqb_eq in H. exact H.
Qed.
Lemma ck_exit : forall r, ok r -> cexit D nat inv_of (nxt r (cexit D nat inv_of r)) = cexit D nat inv_of r.
Proof.
  intros r Hr. destruct (check_at r Hr) as (_ & _ & H & _). unfold check_ends in H.
  apply andb_prop in H. destruct H as [_ H]. apply Nat.eqb_eq in H. exact H.
Qed.
Lemma ck_adj : forall r k, ok r -> (S k < M)%nat ->
  let p := inv_of r k in let q := inv_of r (S k) in
  let a := cexit D nat inv_of (nxt r p) in let b := centry nat inv_of (nxt r q) in
  exists i, (i < D)%nat
  /\ Nat.testbit p i = negb (Nat.testbit q i)
  /\ Nat.testbit a i = Nat.testbit q i /\ Nat.testbit b i = Nat.testbit p i
  /\ forall j, (j < D)%nat -> j <> i ->
       Nat.testbit p j = Nat.testbit q j /\ Nat.testbit a j = Nat.testbit b j.
Proof.
  intros r k Hr Hk. destruct (check_at r Hr) as (_ & _ & _ & H). specialize (H k Hk). unfold check_adj in H.
  cbv zeta in *. apply existsb_exists in H. destruct H as (i & Hi & H). apply in_seq in Hi.
  apply andb_prop in H. destruct H as [H H4]. apply andb_prop in H. destruct H as [H H3].
  apply andb_prop in H. destruct H as [H1 H2].
  apply eqb_prop in H1. apply eqb_prop in H2. apply eqb_prop in H3.
  exists i. split; [lia|]. split; [exact H1|]. split; [exact H2|]. split; [exact H3|].
  intros j Hj Hne. rewrite forallb_forall in H4. assert (Hj' : In j (seq 0 D)) by (apply in_seq; lia).
  specialize (H4 j Hj'). apply orb_prop in H4. destruct H4 as [H4|H4].
  - apply Nat.eqb_eq in H4. contradiction.
  - apply andb_prop in H4. destruct H4 as [A B]. apply eqb_prop in A. apply eqb_prop in B. split; auto.
Qed.
End Check.

Lemma land_pow2 : forall x j, (N.land x (2 ^ j) =? 0) = negb (N.testbit x j).
Proof.
  intros x j. destruct (N.testbit x j) eqn:E; cbn [negb].
  - apply N.eqb_neq. intro H. assert (N.testbit (N.land x (2 ^ j)) j = true).
    { rewrite N.land_spec, E, N.pow2_bits_true. reflexivity. }
    rewrite H in H0. rewrite N.bits_0 in H0. discriminate.
  - apply N.eqb_eq. apply N.bits_inj_iff. intro m. rewrite N.land_spec, N.bits_0.
    destruct (N.eq_dec m j) as [->|Hn]; [rewrite E; reflexivity|].
    rewrite N.pow2_bits_false by auto. apply andb_false_r.
Qed.

Lemma half_pow2 : forall i, 2 ^ N.of_nat (S i) / 2 = 2 ^ N.of_nat i.
Proof.
  intro i. rewrite Nat2N.inj_succ, N.pow_succ_r', N.mul_comm. apply N.div_mul. lia.
Qed.

(** * Two dimensions *)
Definition b2n (b : bool) : nat := if b then 1%nat else 0%nat.
Definition pixel_2d (f : nat -> bool) : nat := (2 * b2n (f 1%nat) + b2n (f 0%nat))%nat.

(** The state: 2*flip + swap. *)
Definition st_flip (r : nat) : bool := Nat.testbit r 1.
Definition st_swap (r : nat) : bool := Nat.testbit r 0.
Definition cur_bits (r p : nat) : bool * bool :=
  let bx := Nat.testbit p 1 in let by_ := Nat.testbit p 0 in
  let '(u, v) := if st_swap r then (by_, bx) else (bx, by_) in
  (xorb (st_flip r) u, xorb (st_flip r) v).
Definition digit_2d (r p : nat) : nat :=
  let '(rx, ry) := cur_bits r p in
  if rx then (if ry then 2%nat else 3%nat) else (if ry then 1%nat else 0%nat).
Definition nxt_2d (r p : nat) : nat :=
  let '(rx, ry) := cur_bits r p in
  if ry then r
  else (2 * b2n (xorb (st_flip r) rx) + b2n (negb (st_swap r)))%nat.

Lemma check_2d : check 2 4 digit_2d nxt_2d = true.
Proof. vm_compute. reflexivity. Qed.

Lemma pixel_2d_ok : forall f, (pixel_2d f < 2 ^ 2)%nat.
Proof. intro f. unfold pixel_2d. destruct (f 1%nat), (f 0%nat); cbn; lia. Qed.
Lemma pixel_2d_bit : forall f i, (i < 2)%nat -> Nat.testbit (pixel_2d f) i = f i.
Proof.
  intros f i Hi. unfold pixel_2d.
  destruct i as [|[|i]]; [| |lia]; destruct (f 1%nat), (f 0%nat); reflexivity.
Qed.
Lemma pixel_2d_of : forall f p, (p < 2 ^ 2)%nat -> (forall i, (i < 2)%nat -> f i = Nat.testbit p i) -> pixel_2d f = p.
Proof.
  intros f p Hp H. unfold pixel_2d. rewrite (H 0%nat), (H 1%nat) by lia. change (2 ^ 2)%nat with 4%nat in Hp.
  do 4 (destruct p as [|p]; [reflexivity|]). lia.
Qed.

Definition coords_2d (p : N * N) : nat -> N := fun i => match i with O => snd p | _ => fst p end.
Definition fkey_2d (r d : nat) (f : nat -> N) : N := fkey 2 nat digit_2d nxt_2d pixel_2d r d f.

(** The current coordinates as a function of the state and the original ones. *)
Definition cur_coords (n : N) (r : nat) (p : N * N) : N * N :=
  let '(u, v) := if st_swap r then (snd p, fst p) else (fst p, snd p) in
  if st_flip r then (n - 1 - u, n - 1 - v) else (u, v).

Lemma flip_bit : forall bits x j, x < 2 ^ N.of_nat bits -> (j < bits)%nat ->
  N.testbit (2 ^ N.of_nat bits - 1 - x) (N.of_nat j) = negb (N.testbit x (N.of_nat j)).
Proof.
  intros bits x j Hx Hj.
  replace (2 ^ N.of_nat bits - 1) with (N.ones (N.of_nat bits)) by (rewrite N.ones_equiv; lia).
  destruct (N.eq_dec x 0) as [->|Hx0].
  - rewrite N.sub_0_r, N.bits_0. apply N.ones_spec_low. lia.
  - rewrite <- N.lnot_sub_low. 
    + apply N.lnot_spec_low. lia.
    + apply N.log2_lt_pow2; lia.
Qed.

Lemma cur_coords_bit : forall bits r p j, in_grid_2d (2 ^ N.of_nat bits) p -> (j < bits)%nat ->
  let c := cur_coords (2 ^ N.of_nat bits) r p in
  (N.testbit (fst c) (N.of_nat j), N.testbit (snd c) (N.of_nat j))
  = cur_bits r (pixel_2d (fun i => N.testbit (coords_2d p i) (N.of_nat j))).
Proof.
  intros bits r p j [H1 H2] Hj. cbv zeta. unfold cur_bits, cur_coords.
  rewrite !pixel_2d_bit by lia. cbn [coords_2d].
  destruct (st_swap r), (st_flip r); cbn [fst snd]; rewrite ?flip_bit by auto; 
    destruct (N.testbit (fst p) (N.of_nat j)), (N.testbit (snd p) (N.of_nat j)); reflexivity.
Qed.

Lemma rot_cur_coords : forall bits r p (rx ry : bool) q, in_grid_2d (2 ^ N.of_nat bits) p -> (r < 4)%nat ->
  cur_bits r q = (rx, ry) ->
  rot (2 ^ N.of_nat bits) (fst (cur_coords (2 ^ N.of_nat bits) r p)) (snd (cur_coords (2 ^ N.of_nat bits) r p))
      (if rx then 1 else 0) (if ry then 1 else 0)
  = cur_coords (2 ^ N.of_nat bits) (nxt_2d r q) p.
Proof.
  intros bits r [x y] rx ry q [H1 H2] Hr Hq. unfold nxt_2d. rewrite Hq. cbn [fst snd] in *.
  unfold rot. destruct ry; [cbn [N.eqb]; apply eq_sym, surjective_pairing|].
  assert (F : forall z, z < 2 ^ N.of_nat bits -> 2 ^ N.of_nat bits - 1 - (2 ^ N.of_nat bits - 1 - z) = z) by (intros; lia).
  unfold cur_coords. do 4 (destruct r as [|r]; [destruct rx; cbn -[N.pow N.sub]; rewrite ?F by auto; reflexivity|]). lia.
Qed.

Lemma loop_2d_fkey : forall bits i r p d, in_grid_2d (2 ^ N.of_nat bits) p -> (r < 4)%nat -> (i <= bits)%nat ->
  loop_2d bits (S i) (2 ^ N.of_nat i / 2) (fst (cur_coords (2 ^ N.of_nat bits) r p))
          (snd (cur_coords (2 ^ N.of_nat bits) r p)) d
  = d + fkey_2d r i (coords_2d p).
Proof.
  intros bits. induction i as [|i IH]; intros r p d Hp Hr Hi; [cbn; lia|].
  remember (S i) as i1. cbn [loop_2d]. subst i1. rewrite half_pow2.
  assert (Hs : 0 < 2 ^ N.of_nat i) by (apply N.neq_0_lt_0, N.pow_nonzero; lia).
  assert (Hs' := Hs). apply N.ltb_lt in Hs'. rewrite Hs'.
  set (q := pixel_2d (fun k => N.testbit (coords_2d p k) (N.of_nat i))).
  pose proof (cur_coords_bit bits r p i Hp Hi) as Hb. cbv zeta in Hb. fold q in Hb.
  set (c := cur_coords (2 ^ N.of_nat bits) r p) in *.
  assert (Hbit : forall x, bit_at x (2 ^ N.of_nat i) = if N.testbit x (N.of_nat i) then 1 else 0).
  { intro x. unfold bit_at. pose proof (land_pow2 x (N.of_nat i)) as L.
    destruct (N.testbit x (N.of_nat i)); cbn [negb] in L.
    - apply N.eqb_neq in L. replace (0 <? N.land x (2 ^ N.of_nat i)) with true; auto.
      symmetry. apply N.ltb_lt. lia.
    - apply N.eqb_eq in L. rewrite L. reflexivity. }
  rewrite !Hbit. 
  destruct (cur_bits r q) as [rx ry] eqn:Hq. injection Hb as E1 E2. rewrite E1, E2.
  unfold subdivisions, c. rewrite (rot_cur_coords bits r p rx ry q Hp Hr Hq).
  assert (Hn : (nxt_2d r q < 4)%nat).
  { unfold nxt_2d. rewrite Hq. destruct ry; [exact Hr|].
    destruct (xorb (st_flip r) rx), (negb (st_swap r)); cbn; lia. }
  destruct (cur_coords (2 ^ N.of_nat bits) (nxt_2d r q) p) as [x' y'] eqn:Ec.
  pose proof (IH (nxt_2d r q) p (d + 2 ^ N.of_nat i * 2 ^ N.of_nat i * N.lxor (3 * (if rx then 1 else 0)) (if ry then 1 else 0)) Hp Hn ltac:(lia)) as IH'.
  rewrite Ec in IH'. cbn [fst snd] in IH'. rewrite IH'.
  unfold fkey_2d, fkey. cbn [cpath ckey]. fold q. rewrite cpath_length.
  unfold digit_2d. rewrite Hq.
  replace (N.of_nat (2 ^ 2) ^ N.of_nat i) with (2 ^ N.of_nat i * 2 ^ N.of_nat i)
    by (rewrite <- N.pow_mul_l; reflexivity).
  assert (Hdig : N.lxor (3 * (if rx then 1 else 0)) (if ry then 1 else 0)
    = N.of_nat (if rx then (if ry then 2 else 3) else (if ry then 1 else 0))%nat)
    by (destruct rx, ry; reflexivity).
  rewrite Hdig. rewrite N.mul_comm, N.add_assoc. reflexivity.
Qed.

Lemma key_2d_fkey : forall bits p, in_grid_2d (2 ^ N.of_nat bits) p ->
  key_2d bits p = fkey_2d 0 bits (coords_2d p).
Proof.
  intros bits p Hp. unfold key_2d, subdivisions.
  pose proof (loop_2d_fkey bits bits 0 p 0 Hp ltac:(lia) ltac:(lia)) as H.
  unfold cur_coords in H. cbn [st_swap st_flip Nat.testbit Nat.odd Nat.even negb Nat.div2 fst snd] in H.
  rewrite H. reflexivity.
Qed.

Lemma grid_2d_coords : forall n p, in_grid_2d n p -> forall i, (i < 2)%nat -> coords_2d p i < n.
Proof. intros n p [A B] i Hi. destruct i; cbn; auto. Qed.

Lemma pow4 : forall bits, N.of_nat (2 ^ 2) ^ N.of_nat bits = 2 ^ N.of_nat (2 * bits).
Proof.
  intro bits. rewrite Nat2N.inj_mul, N.pow_mul_r. reflexivity.
Qed.

Lemma key_2d_bijection : forall bits,
  bijection (in_grid_2d (2 ^ N.of_nat bits)) (2 ^ N.of_nat (2 * bits)) (key_2d bits).
Proof.
  intro bits. rewrite <- pow4. split; [|split].
  - intros p Hp. rewrite key_2d_fkey by auto.
    apply fkey_bound with (inv := inv_of 2 digit_2d) (ok := fun r => (r < 4)%nat);
      eauto using ck_inv1, ck_ok, check_2d, pixel_2d_ok.
  - intros p q Hp Hq E. rewrite !key_2d_fkey in E by auto.
    assert (forall i, (i < 2)%nat -> coords_2d p i = coords_2d q i).
    { apply (fkey_inj 2 nat digit_2d (inv_of 2 digit_2d) nxt_2d (fun r => (r < 4)%nat)) 
        with (pixel := pixel_2d) (r := 0%nat) (d := bits);
        eauto using ck_inv1, ck_ok, check_2d, pixel_2d_ok, pixel_2d_bit, grid_2d_coords; lia. }
    destruct p, q. pose proof (H 0%nat ltac:(lia)) as A. pose proof (H 1%nat ltac:(lia)) as B.
    cbn in A, B. congruence.
  - intros k Hk.
    destruct (fkey_surj 2 nat digit_2d (inv_of 2 digit_2d) nxt_2d (fun r => (r < 4)%nat)) 
        with (pixel := pixel_2d) (r := 0%nat) (d := bits) (k := k) as (f & Hf & E);
      eauto using ck_inv1, ck_inv2, ck_ok, check_2d, pixel_2d_ok, pixel_2d_bit, pixel_2d_of; try lia.
    exists (f 1%nat, f 0%nat).
    assert (Hg : in_grid_2d (2 ^ N.of_nat bits) (f 1%nat, f 0%nat)) by (split; apply Hf; lia).
    split; [exact Hg|]. rewrite key_2d_fkey by auto. rewrite <- E. unfold fkey_2d, fkey. f_equal.
    apply (cpath_ext 2) with (pixel := pixel_2d); auto using pixel_2d_ok, pixel_2d_bit, pixel_2d_of.
    intros i j Hi _. destruct i as [|[|i]]; [reflexivity|reflexivity|lia].
Qed.

Lemma key_2d_adjacent : forall bits,
  consecutive_adjacent (in_grid_2d (2 ^ N.of_nat bits)) dist_2d (key_2d bits).
Proof.
  intros bits p q Hp Hq E. rewrite !key_2d_fkey in E by auto.
  destruct (fkey_adj 2 nat digit_2d (inv_of 2 digit_2d) nxt_2d (fun r => (r < 4)%nat)) 
        with (pixel := pixel_2d) (r := 0%nat) (d := bits) (f := coords_2d p) (g := coords_2d q) as (i & Hi & A & B);
    eauto using ck_inv1, ck_inv2, ck_ok, ck_entry, ck_exit, ck_adj, check_2d, pixel_2d_ok, pixel_2d_bit, pixel_2d_of, grid_2d_coords; try lia.
  unfold dist_2d, dist1. destruct p as [x y], q as [x' y'].
  destruct i as [|[|i]]; [| |lia].
  - specialize (B 1%nat ltac:(lia) ltac:(lia)). cbn in A, B |- *. lia.
  - specialize (B 0%nat ltac:(lia) ltac:(lia)). cbn in A, B |- *. lia.
Qed.

(** The last key belongs to the corner (max, 0). *)
Lemma key_2d_last : forall bits p, in_grid_2d (2 ^ N.of_nat bits) p ->
  key_2d bits p + 1 = 2 ^ N.of_nat (2 * bits) -> snd p = 0.
Proof.
  intros bits p Hp E. rewrite key_2d_fkey, <- pow4 in E by auto.
  pose proof (fkey_last 2 nat digit_2d (inv_of 2 digit_2d) nxt_2d (fun r => (r < 4)%nat)
    (ck_inv1 2 4 digit_2d nxt_2d check_2d) (ck_ok 2 4 digit_2d nxt_2d check_2d)
    (ck_exit 2 4 digit_2d nxt_2d check_2d) pixel_2d pixel_2d_ok pixel_2d_bit 0%nat bits (coords_2d p)
    ltac:(cbv beta; lia) (grid_2d_coords _ p Hp) E 0%nat ltac:(lia)) as H.
  exact H.
Qed.

(** * Three dimensions *)
Definition pixel_3d (f : nat -> bool) : nat :=
  (4 * b2n (f 2%nat) + 2 * b2n (f 1%nat) + b2n (f 0%nat))%nat.
Definition digit_3d (r p : nat) : nat := nth p (nth r subpix_table []) 0%nat.
Definition nxt_3d (r p : nat) : nat := nth p (nth r rotation_table []) 0%nat.

Lemma check_3d : check 3 48 digit_3d nxt_3d = true.
Proof. vm_compute. reflexivity. Qed.

Lemma pixel_3d_ok : forall f, (pixel_3d f < 2 ^ 3)%nat.
Proof. intro f. unfold pixel_3d. destruct (f 2%nat), (f 1%nat), (f 0%nat); cbn; lia. Qed.
Lemma pixel_3d_bit : forall f i, (i < 3)%nat -> Nat.testbit (pixel_3d f) i = f i.
Proof.
  intros f i Hi. unfold pixel_3d.
  destruct i as [|[|[|i]]]; [| | |lia]; destruct (f 2%nat), (f 1%nat), (f 0%nat); reflexivity.
Qed.
Lemma pixel_3d_of : forall f p, (p < 2 ^ 3)%nat -> (forall i, (i < 3)%nat -> f i = Nat.testbit p i) -> pixel_3d f = p.
Proof.
  intros f p Hp H. unfold pixel_3d. rewrite (H 0%nat), (H 1%nat), (H 2%nat) by lia.
  change (2 ^ 3)%nat with 8%nat in Hp.
  do 8 (destruct p as [|p]; [reflexivity|]). lia.
Qed.

Definition coords_3d (p : N * N * N) : nat -> N :=
  fun i => match i with O => snd p | S O => snd (fst p) | _ => fst (fst p) end.
Definition fkey_3d (r d : nat) (f : nat -> N) : N := fkey 3 nat digit_3d nxt_3d pixel_3d r d f.

Lemma lor_digit : forall key d, d < 8 -> N.lor (N.shiftl key 3) d = 8 * key + d.
Proof.
  intros key d Hd. rewrite N.shiftl_mul_pow2. change (2 ^ 3) with 8.
  assert (Hland : N.land (key * 8) d = 0).
  { apply N.bits_inj_iff. intro m. rewrite N.land_spec, N.bits_0.
    destruct (N.lt_ge_cases m 3).
    - change 8 with (2 ^ 3). rewrite N.mul_pow2_bits_low by auto. reflexivity.
    - replace (N.testbit d m) with false; [apply andb_false_r|]. symmetry.
      destruct (N.eq_dec d 0) as [->|]; [apply N.bits_0|]. apply N.bits_above_log2.
      assert (N.log2 d < 3) by (apply N.log2_lt_pow2; [lia|exact Hd]). lia. }
  rewrite <- N.lxor_lor by exact Hland. rewrite <- N.add_nocarry_lxor by exact Hland. lia.
Qed.

Lemma loop_3d_fkey : forall i x y z key r mask, (r < 48)%nat -> mask = 2 ^ N.of_nat i / 2 ->
  loop_3d (S i) mask x y z key r = key * 8 ^ N.of_nat i + fkey_3d r i (coords_3d (x, y, z)).
Proof.
  induction i as [|i IH]; intros x y z key r mask Hr ->; [cbn; lia|].
  remember (S i) as i1. cbn [loop_3d]. subst i1. rewrite half_pow2.
  assert (Hs : 0 < 2 ^ N.of_nat i) by (apply N.neq_0_lt_0, N.pow_nonzero; lia).
  apply N.ltb_lt in Hs. rewrite Hs, !land_pow2.
  set (q := pixel_3d (fun k => N.testbit (coords_3d (x, y, z) k) (N.of_nat i))).
  match goal with |- context [N.to_nat ?e] => replace (N.to_nat e) with q end.
  2: { unfold q, pixel_3d. cbn [coords_3d fst snd].
       destruct (N.testbit x (N.of_nat i)), (N.testbit y (N.of_nat i)), (N.testbit z (N.of_nat i)); reflexivity. }
  fold (digit_3d r q). fold (nxt_3d r q).
  assert (Hq : (q < 2 ^ 3)%nat) by apply pixel_3d_ok.
  pose proof (ck_inv1 3 48 digit_3d nxt_3d check_3d r q Hr Hq) as [Hd _].
  pose proof (ck_ok 3 48 digit_3d nxt_3d check_3d r q Hr Hq) as Hn.
  change (2 ^ 3)%nat with 8%nat in Hd.
  rewrite lor_digit by lia.
  rewrite IH; [|exact Hn|rewrite N.shiftr_div_pow2; reflexivity].
  unfold fkey_3d, fkey. cbn [cpath ckey]. fold q. rewrite cpath_length.
  change (N.of_nat (2 ^ 3)) with 8. rewrite Nat2N.inj_succ, N.pow_succ_r'. lia.
Qed.

Lemma key_3d_fkey : forall bits p, (1 <= bits)%nat -> key_3d bits p = fkey_3d 0 bits (coords_3d p).
Proof.
  intros bits [[x y] z] Hb. unfold key_3d. cbn [fst snd]. rewrite loop_3d_fkey; [reflexivity|lia|].
  destruct bits as [|b]; [lia|]. rewrite half_pow2, N.shiftl_mul_pow2, N.mul_1_l. f_equal. lia.
Qed.

Lemma grid_3d_coords : forall n p, in_grid_3d n p -> forall i, (i < 3)%nat -> coords_3d p i < n.
Proof. intros n p [[A B] C] i Hi. destruct i as [|[|i]]; cbn; auto. Qed.

Lemma pow8 : forall bits, N.of_nat (2 ^ 3) ^ N.of_nat bits = 2 ^ N.of_nat (3 * bits).
Proof.
  intro bits. rewrite Nat2N.inj_mul, N.pow_mul_r. reflexivity.
Qed.

Lemma key_3d_bijection : forall bits, (1 <= bits)%nat ->
  bijection (in_grid_3d (2 ^ N.of_nat bits)) (2 ^ N.of_nat (3 * bits)) (key_3d bits).
Proof.
  intros bits Hb. rewrite <- pow8. split; [|split].
  - intros p Hp. rewrite key_3d_fkey by auto.
    apply fkey_bound with (inv := inv_of 3 digit_3d) (ok := fun r => (r < 48)%nat);
      eauto using ck_inv1, ck_ok, check_3d, pixel_3d_ok; try lia.
  - intros p q Hp Hq E. rewrite !key_3d_fkey in E by auto.
    assert (forall i, (i < 3)%nat -> coords_3d p i = coords_3d q i).
    { apply (fkey_inj 3 nat digit_3d (inv_of 3 digit_3d) nxt_3d (fun r => (r < 48)%nat)) 
        with (pixel := pixel_3d) (r := 0%nat) (d := bits);
        eauto using ck_inv1, ck_ok, check_3d, pixel_3d_ok, pixel_3d_bit, grid_3d_coords; lia. }
    destruct p as [[? ?] ?], q as [[? ?] ?]. pose proof (H 0%nat ltac:(lia)) as A. pose proof (H 1%nat ltac:(lia)) as B.
    pose proof (H 2%nat ltac:(lia)) as C.
    cbn in A, B, C. congruence.
  - intros k Hk.
    destruct (fkey_surj 3 nat digit_3d (inv_of 3 digit_3d) nxt_3d (fun r => (r < 48)%nat)) 
        with (pixel := pixel_3d) (r := 0%nat) (d := bits) (k := k) as (f & Hf & E);
      eauto using ck_inv1, ck_inv2, ck_ok, check_3d, pixel_3d_ok, pixel_3d_bit, pixel_3d_of; try lia.
    exists (f 2%nat, f 1%nat, f 0%nat).
    split; [split; [split|]; apply Hf; lia|]. rewrite key_3d_fkey by auto. rewrite <- E. unfold fkey_3d, fkey. f_equal.
    apply (cpath_ext 3) with (pixel := pixel_3d); auto using pixel_3d_ok, pixel_3d_bit, pixel_3d_of.
    intros i j Hi _. destruct i as [|[|[|i]]]; [reflexivity|reflexivity|reflexivity|lia].
Qed.

Lemma key_3d_adjacent : forall bits, (1 <= bits)%nat ->
  consecutive_adjacent (in_grid_3d (2 ^ N.of_nat bits)) dist_3d (key_3d bits).
Proof.
  intros bits Hb p q Hp Hq E. rewrite !key_3d_fkey in E by auto.
  destruct (fkey_adj 3 nat digit_3d (inv_of 3 digit_3d) nxt_3d (fun r => (r < 48)%nat)) 
        with (pixel := pixel_3d) (r := 0%nat) (d := bits) (f := coords_3d p) (g := coords_3d q) as (i & Hi & A & B);
    eauto using ck_inv1, ck_inv2, ck_ok, ck_entry, ck_exit, ck_adj, check_3d, pixel_3d_ok, pixel_3d_bit, pixel_3d_of, grid_3d_coords; try lia.
  unfold dist_3d, dist_2d, dist1. destruct p as [[x y] z], q as [[x' y'] z'].
  pose proof (B 0%nat ltac:(lia)) as B0. pose proof (B 1%nat ltac:(lia)) as B1.
  pose proof (B 2%nat ltac:(lia)) as B2.
  destruct i as [|[|[|i]]]; [| | |lia]; cbn in A, B0, B1, B2 |- *.
  - specialize (B1 ltac:(lia)). specialize (B2 ltac:(lia)). lia.
  - specialize (B0 ltac:(lia)). specialize (B2 ltac:(lia)). lia.
  - specialize (B0 ltac:(lia)). specialize (B1 ltac:(lia)). lia.
Qed.

(** * Contiguous key intervals are connected *)
Section Interval.
Variable P : Type.
Variable point : P -> Prop.
Variable dist : P -> P -> N.
Variable key : P -> N.
Variable count : N.
Hypothesis dist_sym : forall p q, dist p q = dist q p.
Hypothesis Hbij : bijection point count key.
Hypothesis Hadj : consecutive_adjacent point dist key.

Lemma joined_up : forall lo hi n p q, key_interval point key lo hi p -> key_interval point key lo hi q ->
  key q = key p + N.of_nat n -> joined (key_interval point key lo hi) dist p q
                               /\ joined (key_interval point key lo hi) dist q p.
Proof.
  intros lo hi n. destruct Hbij as (Hb & Hi & Hs).
  assert (Htrans : forall a b c, joined (key_interval point key lo hi) dist a b ->
    joined (key_interval point key lo hi) dist b c -> joined (key_interval point key lo hi) dist a c).
  { intros a b c H. induction H; intros; auto. eapply joined_step; eauto. }
  induction n as [|n IH]; intros p q [Hp Kp] [Hq Kq] E.
  - assert (p = q) by (apply Hi; auto; lia). subst q. split; constructor; split; auto.
  - destruct (Hs (key p + 1)) as (m & Hm & Em); [specialize (Hb q Hq); lia|].
    assert (Im : key_interval point key lo hi m) by (split; [auto|lia]).
    destruct (IH m q Im (conj Hq Kq) ltac:(lia)) as [J1 J2].
    assert (D1 : dist p m = 1) by (apply Hadj; auto).
    split.
    + eapply joined_step; [split; [exact Hp|lia]|exact D1|exact J1].
    + eapply Htrans; [exact J2|]. eapply joined_step; [exact Im|rewrite dist_sym; exact D1|].
      constructor. split; auto.
Qed.

Lemma interval_connected : forall lo hi, connected (key_interval point key lo hi) dist.
Proof.
  intros lo hi p q Hp Hq. destruct (N.le_gt_cases (key p) (key q)).
  - apply (joined_up lo hi (N.to_nat (key q - key p)) p q); auto. lia.
  - apply (joined_up lo hi (N.to_nat (key p - key q)) q p); auto. lia.
Qed.
End Interval.

Lemma dist1_sym : forall a b, dist1 a b = dist1 b a.
Proof. intros. unfold dist1. lia. Qed.
Lemma dist_2d_sym : forall p q, dist_2d p q = dist_2d q p.
Proof. intros. unfold dist_2d. rewrite (dist1_sym (fst p)), (dist1_sym (snd p)). reflexivity. Qed.
Lemma dist_3d_sym : forall p q, dist_3d p q = dist_3d q p.
Proof. intros. unfold dist_3d. rewrite dist_2d_sym, (dist1_sym (snd p)). reflexivity. Qed.

Lemma key_2d_connected : forall bits lo hi,
  connected (key_interval (in_grid_2d (2 ^ N.of_nat bits)) (key_2d bits) lo hi) dist_2d.
Proof.
  intros. eapply interval_connected; eauto using dist_2d_sym, key_2d_bijection, key_2d_adjacent.
Qed.
Lemma key_3d_connected : forall bits lo hi, (1 <= bits)%nat ->
  connected (key_interval (in_grid_3d (2 ^ N.of_nat bits)) (key_3d bits) lo hi) dist_3d.
Proof.
  intros. eapply interval_connected; eauto using dist_3d_sym, key_3d_bijection, key_3d_adjacent.
Qed.

(** * Points of the box *)
Lemma scaled_range : forall mn mx p, (mn < mx)%Q -> (mn <= p)%Q -> (p <= mx)%Q ->
  ((1 # 1002) <= scaled mn mx p)%Q /\ (scaled mn mx p <= (1001 # 1002))%Q.
Proof.
  intros mn mx p H1 H2 H3. unfold scaled, padded_min, padded_max.
  assert (Hw : (0 < mx + (mx - mn) * (1 # 1000) - (mn - (mx - mn) * (1 # 1000)))%Q) by lra.
  split; [apply Qle_shift_div_l; auto; lra|apply Qle_shift_div_r; auto; lra].
Qed.

Lemma integer_coord_range : forall bits mn mx p, (mn < mx)%Q -> (mn <= p)%Q -> (p <= mx)%Q ->
  integer_coord bits mn mx p < 2 ^ N.of_nat bits
  /\ ((10 <= bits)%nat -> 0 < integer_coord bits mn mx p).
Proof.
  intros bits mn mx p H1 H2 H3. destruct (scaled_range mn mx p H1 H2 H3) as [A B].
  unfold integer_coord. set (s := scaled mn mx p) in *.
  assert (Hz : (0 < 2 ^ Z.of_nat bits)%Z) by (apply Z.pow_pos_nonneg; lia).
  assert (Hq : (0 < inject_Z (2 ^ Z.of_nat bits))%Q) by (unfold Qlt; cbn; lia).
  set (w := inject_Z (2 ^ Z.of_nat bits)) in *.
  assert (Hup : (s * w < w)%Q) by nra.
  assert (Hlo : (0 <= s * w)%Q) by nra.
  assert (F0 : (0 <= Qfloor (s * w))%Z).
  { change 0%Z with (Qfloor 0). apply Qfloor_resp_le. exact Hlo. }
  assert (F1 : (Qfloor (s * w) < 2 ^ Z.of_nat bits)%Z).
  { rewrite Zlt_Qlt. fold w. eapply Qle_lt_trans; [apply Qfloor_le|exact Hup]. }
  split.
  - apply N2Z.inj_lt. rewrite Z2N.id by auto. rewrite N2Z.inj_pow, nat_N_Z. exact F1.
  - intro Hb. assert (Hw : (inject_Z 1024 <= w)%Q).
    { unfold w. rewrite <- Zle_Qle. change 1024%Z with (2 ^ 10)%Z. apply Z.pow_le_mono_r; lia. }
    assert (H1024 : (1 <= s * w)%Q) by (change (inject_Z 1024) with (1024 # 1)%Q in Hw; nra).
    assert (F2 : (1 <= Qfloor (s * w))%Z).
    { change 1%Z with (Qfloor 1). apply Qfloor_resp_le. exact H1024. }
    lia.
Qed.

(** Inside the (closed) extent. *)
Definition inside1 (mn mx p : Q) : Prop := (mn < mx)%Q /\ (mn <= p)%Q /\ (p <= mx)%Q.

Lemma point_key_2d_range : forall bits mn mx p, (10 <= bits)%nat ->
  inside1 (fst mn) (fst mx) (fst p) -> inside1 (snd mn) (snd mx) (snd p) ->
  point_key_2d bits mn mx p < 2 ^ N.of_nat (2 * bits) - 1.
Proof.
  intros bits mn mx p Hb (A1 & A2 & A3) (B1 & B2 & B3). unfold point_key_2d.
  destruct (integer_coord_range bits _ _ _ A1 A2 A3) as [CA _].
  destruct (integer_coord_range bits _ _ _ B1 B2 B3) as [CB PB].
  set (c := (_, _)). assert (Hc : in_grid_2d (2 ^ N.of_nat bits) c) by (split; auto).
  destruct (key_2d_bijection bits) as (Hbd & _ & _). specialize (Hbd c Hc).
  assert (key_2d bits c + 1 <> 2 ^ N.of_nat (2 * bits)).
  { intro E. apply key_2d_last in E; auto. cbn in E. specialize (PB Hb). lia. }
  lia.
Qed.

Lemma point_key_3d_range : forall bits mn mx p, (1 <= bits)%nat ->
  inside1 (fst (fst mn)) (fst (fst mx)) (fst (fst p)) ->
  inside1 (snd (fst mn)) (snd (fst mx)) (snd (fst p)) ->
  inside1 (snd mn) (snd mx) (snd p) ->
  point_key_3d bits mn mx p < 2 ^ N.of_nat (3 * bits).
Proof.
  intros bits mn mx p Hb (A1 & A2 & A3) (B1 & B2 & B3) (C1 & C2 & C3). unfold point_key_3d.
  destruct (integer_coord_range bits _ _ _ A1 A2 A3) as [CA _].
  destruct (integer_coord_range bits _ _ _ B1 B2 B3) as [CB _].
  destruct (integer_coord_range bits _ _ _ C1 C2 C3) as [CC _].
  destruct (key_3d_bijection bits Hb) as (Hbd & _ & _). apply Hbd. split; [split|]; auto.
Qed.
