From Coq Require Import List Arith Lia Bool.
Import ListNotations.
From Verif Require Import FileDist_Model FileDist_Spec.

Lemma usub_some a b : b <= a -> usub a b = Some (a - b).
Proof. unfold usub. intros. destruct (Nat.leb_spec b a); [easy|lia]. Qed.

Lemma seq_split_at s n k : k <= n -> seq s n = seq s k ++ seq (s + k) (n - k).
Proof. intros. rewrite <- seq_app. f_equal. lia. Qed.

(** Slots from position (f, p) to the end. *)
Definition rest_slots (files : list nat) (p : position) : list (nat * nat) :=
  match skipn (file_index p) files with
  | [] => []
  | n :: fs => map (fun k => (file_index p, k)) (seq (pos p) (n - pos p))
                 ++ slots_from (S (file_index p)) fs
  end.

Lemma slots_from_length i fs : length (slots_from i fs) = list_sum fs.
Proof. revert i. induction fs as [|n fs IH]; intros i; simpl; [easy|].
  rewrite app_length, map_length, seq_length, IH. easy. Qed.

Lemma skipn_nth_error {A} (l : list A) i x :
  nth_error l i = Some x -> skipn i l = x :: skipn (S i) l.
Proof.
  revert i. induction l as [|a l IH]; intros [|i] H; simpl in *; try discriminate.
  - injection H as ->. easy.
  - rewrite (IH i H). easy.
Qed.

Lemma rest_slots_nth files f p n :
  nth_error files f = Some n ->
  rest_slots files (mkPos f p)
  = map (fun k => (f, k)) (seq p (n - p)) ++ slots_from (S f) (skipn (S f) files).
Proof. intros H. unfold rest_slots. simpl file_index. rewrite (skipn_nth_error _ _ _ H). easy. Qed.

Lemma slots_from_rest files f :
  f <= length files ->
  slots_from f (skipn f files) = rest_slots files (mkPos f 0).
Proof.
  intros H. unfold rest_slots. simpl. destruct (skipn f files) eqn:E; [easy|].
  simpl. rewrite Nat.sub_0_r. easy.
Qed.

(** A region in the unfiltered result: inside its file, possibly empty. *)
Definition region_wf (files : list nat) (r : region) : Prop :=
  r_start r <= r_end r /\ exists n, nth_error files (r_file r) = Some n /\ r_end r <= n.

Lemma regions_loop_spec files : forall fuel f sp num,
  (f < length files) ->
  length files < fuel + f ->
  (exists n, nth_error files f = Some n /\ sp <= n) ->
  0 < num ->
  num <= length (rest_slots files (mkPos f sp)) ->
  exists rs e, regions_loop fuel files sp (mkPos f (sp + num)) = Some (rs, e)
    /\ (exists n, nth_error files (file_index e) = Some n /\ pos e <= n)
    /\ Forall (region_wf files) rs
    /\ rest_slots files (mkPos f sp) = rank_slots rs ++ rest_slots files e
    /\ length (rank_slots rs) = num.
Proof.
  induction fuel as [|fuel IH]; intros f sp num Hf Hfuel (n & Hn & Hsp) Hnum Hlen; [lia|].
  simpl. rewrite Hn. destruct (Nat.ltb_spec n (sp + num)) as [Hlt|Hge].
  - rewrite usub_some by lia.
    rewrite (rest_slots_nth _ _ _ _ Hn) in *.
    rewrite app_length, map_length, seq_length, slots_from_length in Hlen.
    set (num' := sp + num - n) in *.
    assert (Hf' : S f < length files).
    { destruct (Nat.lt_ge_cases (S f) (length files)) as [|Hge']; [easy|].
      rewrite skipn_all2 in Hlen by lia. simpl in Hlen. lia. }
    destruct (nth_error files (S f)) as [n'|] eqn:Hn'; [|apply nth_error_None in Hn'; lia].
    edestruct (IH (S f) 0 num') as (rs & e & Heq & He & Hwf & Hslots & Hl).
    { easy. } { lia. } { exists n'. split; [easy|lia]. } { lia. }
    { rewrite <- slots_from_rest by lia. rewrite slots_from_length. lia. }
    simpl in Heq. rewrite Heq. eexists _, _. split; [easy|]. split; [easy|].
    split. { constructor; [|easy]. split; simpl; [easy|]. exists n. easy. }
    split.
    + rewrite slots_from_rest by lia. rewrite Hslots. unfold rank_slots. simpl.
      unfold region_slots at 2. simpl. rewrite <- app_assoc. easy.
    + unfold rank_slots in *. simpl. rewrite app_length, Hl. unfold region_slots. simpl.
      rewrite map_length, seq_length. lia.
  - eexists _, _. split; [easy|]. split. { exists n. easy. }
    split. { constructor; [|constructor]. split; simpl; [lia|]. exists n. easy. }
    rewrite !(rest_slots_nth _ _ _ _ Hn). unfold rank_slots. simpl. unfold region_slots. simpl.
    rewrite app_nil_r. split.
    + rewrite app_assoc, <- map_app. f_equal. f_equal.
      rewrite (seq_split_at sp (n - sp) num) by lia. f_equal; [|f_equal; lia].
      f_equal. lia.
    + rewrite map_length, seq_length. lia.
Qed.

(** Position invariant between ranks: inside a file unless nothing is left. *)
Definition pos_ok (files : list nat) (p : position) : Prop :=
  (exists n, nth_error files (file_index p) = Some n /\ pos p <= n)
  \/ rest_slots files p = [].

Lemma rest_slots_all files : rest_slots files (mkPos 0 0) = all_slots files.
Proof. rewrite <- slots_from_rest by lia. easy. Qed.

Lemma get_regions_from_spec files p num :
  pos_ok files p ->
  num <= length (rest_slots files p) ->
  exists rs e, get_regions_from files p num = Some (rs, e)
    /\ pos_ok files e
    /\ Forall (region_wf files) rs
    /\ rest_slots files p = rank_slots rs ++ rest_slots files e
    /\ length (rank_slots rs) = num.
Proof.
  intros Hok Hlen. unfold get_regions_from.
  destruct (Nat.eqb_spec num 0) as [->|Hnz].
  { exists [], p. repeat split; easy. }
  destruct Hok as [(n & Hn & Hp)|Hnil]; [|rewrite Hnil in Hlen; simpl in Hlen; lia].
  rewrite Hn. destruct p as [f p]. simpl in *.
  assert (Hf : f < length files). { apply nth_error_Some. rewrite Hn. easy. }
  destruct (Nat.eqb_spec p n) as [->|Hne].
  - rewrite (rest_slots_nth _ _ _ _ Hn) in *. rewrite Nat.sub_diag in *. cbn [seq map app] in Hlen.
    destruct (Nat.lt_ge_cases (S f) (length files)) as [Hf'|Hge'].
    2:{ rewrite (skipn_all2 (n := S f)) in Hlen by lia. simpl in Hlen. lia. }
    destruct (nth_error files (S f)) as [n'|] eqn:Hn'; [|apply nth_error_None in Hn'; lia].
    rewrite slots_from_length in Hlen. cbn [seq map app].
    rewrite slots_from_rest by lia.
    edestruct (regions_loop_spec files (S (length files)) (S f) 0 num)
      as (rs & e & Heq & He & Hwf & Hslots & Hl).
    { easy. } { lia. } { exists n'. split; [easy|lia]. } { lia. }
    { rewrite <- slots_from_rest by lia. rewrite slots_from_length. easy. }
    exists rs, e. split; [exact Heq|]. split; [left; easy|]. auto.
  - edestruct (regions_loop_spec files (S (length files)) f p num)
      as (rs & e & Heq & He & Hwf & Hslots & Hl).
    { easy. } { lia. } { exists n. easy. } { lia. } { easy. }
    exists rs, e. split; [exact Heq|]. split; [left; easy|]. auto.
Qed.

Lemma filter_nonempty_spec files rs :
  Forall (region_wf files) rs ->
  exists rs', filter_nonempty rs = Some rs' /\ Forall (region_ok files) rs'
     /\ rank_slots rs' = rank_slots rs.
Proof.
  induction 1 as [|r rs Hr Hrs (rs' & IH1 & IH2 & IH3)]; simpl.
  - exists []. repeat split; constructor.
  - destruct Hr as (Hle & n & Hn & He). unfold region_size. rewrite usub_some by easy.
    rewrite IH1. destruct (Nat.ltb_spec 0 (r_end r - r_start r)).
    + eexists. split; [easy|]. split.
      * constructor; [|easy]. split; [lia|]. exists n. easy.
      * unfold rank_slots in *. simpl. rewrite IH3. easy.
    + exists rs'. split; [easy|]. split; [easy|].
      unfold rank_slots in *. simpl. rewrite IH3. unfold region_slots at 2.
      replace (r_end r - r_start r) with 0 by lia. easy.
Qed.

Lemma rank_loop_spec files : forall per_rank p,
  pos_ok files p ->
  list_sum per_rank <= length (rest_slots files p) ->
  exists asg e, rank_loop files p per_rank = Some asg
    /\ Forall (Forall (region_ok files)) asg
    /\ rest_slots files p = concat (map rank_slots asg) ++ rest_slots files e
    /\ map (fun rs => length (rank_slots rs)) asg = per_rank.
Proof.
  induction per_rank as [|num rest IH]; intros p Hok Hlen; simpl in *.
  - exists [], p. repeat split; easy.
  - destruct (get_regions_from_spec files p num Hok) as (rs & e & Heq & Hok' & Hwf & Hs & Hl);
      [lia|].
    rewrite Heq. destruct (filter_nonempty_spec _ _ Hwf) as (rs' & Hf & Hrok & Hsl).
    rewrite Hf. destruct (IH e Hok') as (asg & e' & Hr & Hall & Hs' & Hm).
    { rewrite Hs, app_length in Hlen. lia. }
    rewrite Hr. exists (rs' :: asg), e'. split; [easy|]. split; [constructor; easy|].
    simpl. rewrite Hs, Hs', Hsl, app_assoc, Hm, Hl. easy.
Qed.

Lemma list_sum_repeat x n : list_sum (repeat x n) = x * n.
Proof. induction n; simpl; [|rewrite IHn]; lia. Qed.

Lemma get_rank_assignment_spec files per_rank :
  list_sum per_rank = list_sum files ->
  exists asg, get_rank_assignment files per_rank = Some asg
    /\ Forall (Forall (region_ok files)) asg
    /\ concat (map rank_slots asg) = all_slots files
    /\ map (fun rs => length (rank_slots rs)) asg = per_rank.
Proof.
  intros Hsum.
  destruct (rank_loop_spec files per_rank (mkPos 0 0)) as (asg & e & H1 & H2 & H3 & H4).
  - destruct files as [|n fs]; [right; easy|]. left. exists n. simpl. split; [easy|lia].
  - rewrite rest_slots_all. unfold all_slots. rewrite slots_from_length. lia.
  - exists asg. rewrite rest_slots_all in H3. repeat split; try easy.
    assert (Hn : length (rest_slots files e) = 0).
    { apply (f_equal (@length _)) in H3. rewrite app_length in H3.
      unfold all_slots in H3. rewrite slots_from_length in H3.
      assert (length (concat (map rank_slots asg)) = list_sum per_rank); [|lia].
      rewrite <- H4. clear. induction asg; simpl; [easy|]. rewrite app_length, IHasg. easy. }
    destruct (rest_slots files e); [|easy]. rewrite H3, app_nil_r. easy.
Qed.

Lemma div_mul_le a n : a / S n * n <= a.
Proof.
  pose proof (Nat.mul_div_le a (S n)). assert (S n <> 0) by lia. specialize (H H0). nia.
Qed.

Lemma input_assignment_partition files num_ranks :
  1 <= num_ranks ->
  exists asg, get_input_rank_assignment files num_ranks = Some asg
    /\ length asg = num_ranks
    /\ concat (map rank_slots asg) = all_slots files
    /\ (forall r rs, nth_error asg r = Some rs -> Forall (region_ok files) rs)
    /\ (forall r rs, nth_error asg r = Some rs ->
          length (rank_slots rs) =
            if S r <? num_ranks then list_sum files / num_ranks
            else list_sum files - list_sum files / num_ranks * (num_ranks - 1)).
Proof.
  destruct num_ranks as [|n]; [lia|]. intros _. unfold get_input_rank_assignment.
  rewrite usub_some by apply div_mul_le.
  set (each := list_sum files / S n). set (last := list_sum files - each * n).
  destruct (get_rank_assignment_spec files (repeat each n ++ [last])) as (asg & H1 & H2 & H3 & H4).
  { rewrite list_sum_app, list_sum_repeat. simpl. pose proof (div_mul_le (list_sum files) n).
    fold each in H. unfold last. lia. }
  exists asg. split; [easy|].
  assert (Hlen : length asg = S n).
  { rewrite <- (map_length (fun rs => length (rank_slots rs)) asg), H4, app_length,
      repeat_length. simpl. lia. }
  split; [easy|]. split; [easy|]. split.
  - intros r rs Hr. apply nth_error_In in Hr. rewrite Forall_forall in H2. auto.
  - intros r rs Hr.
    assert (Hr' : nth_error (repeat each n ++ [last]) r = Some (length (rank_slots rs))).
    { rewrite <- H4. apply (map_nth_error (fun rs => length (rank_slots rs))). easy. }
    assert (Hlt : r < S n). { rewrite <- Hlen. apply nth_error_Some. rewrite Hr. easy. }
    destruct (Nat.ltb_spec (S r) (S n)).
    + rewrite nth_error_app1 in Hr' by (rewrite repeat_length; lia).
      apply nth_error_In, repeat_spec in Hr'. easy.
    + rewrite nth_error_app2 in Hr' by (rewrite repeat_length; lia).
      rewrite repeat_length in Hr'. replace (r - n) with 0 in Hr' by lia. simpl in Hr'.
      injection Hr' as <-. unfold last. f_equal. f_equal. lia.
Qed.

Lemma output_file_sizes_some per_rank num_files :
  1 <= num_files ->
  output_file_sizes per_rank num_files
  = Some (repeat (list_sum per_rank / num_files) (num_files - 1)
          ++ [list_sum per_rank - list_sum per_rank / num_files * (num_files - 1)])
  /\ list_sum (repeat (list_sum per_rank / num_files) (num_files - 1)
          ++ [list_sum per_rank - list_sum per_rank / num_files * (num_files - 1)])
     = list_sum per_rank.
Proof.
  destruct num_files as [|n]; [lia|]. intros _. unfold output_file_sizes.
  pose proof (div_mul_le (list_sum per_rank) n) as Hd.
  rewrite list_sum_repeat, usub_some by easy. replace (S n - 1) with n by lia.
  split; [easy|]. rewrite list_sum_app, list_sum_repeat. set (e := _ / _) in *.
  change (list_sum [list_sum per_rank - e * n]) with (list_sum per_rank - e * n + 0). lia.
Qed.

Lemma output_assignment_partition per_rank num_files :
  1 <= num_files ->
  exists files asg, output_file_sizes per_rank num_files = Some files
    /\ get_output_rank_assignment per_rank num_files = Some asg
    /\ length files = num_files
    /\ (forall i n, nth_error files i = Some n ->
          n = if S i <? num_files then list_sum per_rank / num_files
              else list_sum per_rank - list_sum per_rank / num_files * (num_files - 1))
    /\ concat (map rank_slots asg) = all_slots files
    /\ map (fun rs => length (rank_slots rs)) asg = per_rank
    /\ Forall (Forall (region_ok files)) asg.
Proof.
  intros Hn. destruct (output_file_sizes_some per_rank num_files Hn) as (H1 & H2).
  set (files := repeat _ _ ++ [_]) in *.
  destruct (get_rank_assignment_spec files per_rank) as (asg & A1 & A2 & A3 & A4); [lia|].
  exists files, asg. split; [easy|]. split. { unfold get_output_rank_assignment. rewrite H1. easy. }
  split. { unfold files. rewrite app_length, repeat_length. simpl. lia. }
  split; [|auto].
  intros i n Hi. assert (Hi' : i < num_files).
  { assert (length files = num_files). { unfold files. rewrite app_length, repeat_length. simpl. lia. }
    rewrite <- H. apply nth_error_Some. rewrite Hi. easy. }
  unfold files in Hi. destruct (Nat.ltb_spec (S i) num_files).
  - rewrite nth_error_app1 in Hi by (rewrite repeat_length; lia).
    apply nth_error_In, repeat_spec in Hi. easy.
  - rewrite nth_error_app2 in Hi by (rewrite repeat_length; lia).
    rewrite repeat_length in Hi. replace (i - (num_files - 1)) with 0 in Hi by lia.
    simpl in Hi. injection Hi as <-. easy.
Qed.

(** ** Chunks *)

Lemma get_chunk_sizes_concat r c :
  r_start r <= r_end r -> 1 <= c ->
  exists ranges, get_chunk_sizes r c = Some ranges
    /\ flat_map (fun g => seq (fst g) (snd g - fst g)) ranges
       = seq (r_start r) (r_end r - r_start r)
    /\ Forall (fun g => fst g < snd g /\ snd g - fst g <= c /\ snd g <= r_end r) ranges
    /\ length ranges = div_ceil (r_end r - r_start r) c.
Proof.
  intros Hr Hc. unfold get_chunk_sizes, region_size. rewrite usub_some by easy.
  destruct (Nat.eqb_spec c 0) as [|Hc0]; [lia|].
  eexists. split; [reflexivity|].
  fold (div_ceil (r_end r - r_start r) c). unfold div_ceil.
  set (n := r_end r - r_start r). set (k := n / c + _).
  assert (Hk : forall i, i < k <-> i * c < n).
  { intros i. unfold k. pose proof (Nat.div_mod_eq n c). pose proof (Nat.mod_upper_bound n c Hc0).
    destruct (Nat.ltb_spec 0 (n mod c)); nia. }
  split; [|split].
  - assert (H : forall m, m <= k ->
      flat_map (fun g : nat * nat => seq (fst g) (snd g - fst g))
        (map (fun i => (r_start r + i * c, Nat.min (r_start r + (i + 1) * c) (r_end r))) (seq 0 m))
      = seq (r_start r) (Nat.min (m * c) n)).
    { induction m as [|m IH]; intros Hm; [easy|].
      rewrite seq_S, map_app, flat_map_app, IH by lia. simpl. rewrite app_nil_r.
      assert (m * c < n) by (apply Hk; lia).
      replace (Nat.min (m * c) n) with (m * c) by lia.
      rewrite <- seq_app. f_equal. unfold n in *. nia. }
    rewrite H by lia. f_equal.
    destruct (Nat.le_gt_cases n (k * c)); [lia|]. apply Hk in H0. lia.
  - apply Forall_forall. intros g Hg. apply in_map_iff in Hg. destruct Hg as (i & <- & Hi).
    apply in_seq in Hi. simpl. assert (i * c < n) by (apply Hk; lia). unfold n in *. nia.
  - rewrite map_length, seq_length. easy.
Qed.

Lemma chunks_fuel_concat {A} c : 1 <= c -> forall fuel (l : list A), length l <= fuel ->
  concat (chunks_fuel fuel c l) = l.
Proof.
  intros Hc. induction fuel as [|fuel IH]; intros l Hl.
  - destruct l; [easy|simpl in Hl; lia].
  - simpl. destruct l as [|a l]; [easy|]. simpl concat. rewrite IH.
    + apply firstn_skipn.
    + rewrite skipn_length. cbn [length] in *. lia.
Qed.

Lemma div_ceil_sub n c : 1 <= c -> c <= n -> div_ceil n c = S (div_ceil (n - c) c).
Proof.
  intros Hc Hn. unfold div_ceil.
  assert (E : n = (n - c) + 1 * c) by lia.
  rewrite E at 1 2. rewrite Nat.div_add, Nat.mod_add by lia. lia.
Qed.

Lemma div_ceil_small n c : 1 <= c -> 0 < n -> n <= c -> div_ceil n c = 1.
Proof.
  intros. unfold div_ceil. destruct (Nat.eq_dec n c) as [->|].
  - rewrite Nat.div_same, Nat.mod_same by lia. easy.
  - rewrite Nat.div_small, Nat.mod_small by lia. destruct (Nat.ltb_spec 0 n); lia.
Qed.

Lemma chunks_fuel_length {A} c : 1 <= c -> forall fuel (l : list A), length l <= fuel ->
  length (chunks_fuel fuel c l) = div_ceil (length l) c.
Proof.
  intros Hc. induction fuel as [|fuel IH]; intros l Hl.
  - destruct l; simpl in *; [|lia]. unfold div_ceil. rewrite Nat.div_small, Nat.mod_small by lia. easy.
  - simpl. destruct l as [|a l].
    { simpl. unfold div_ceil. rewrite Nat.div_small, Nat.mod_small by lia. easy. }
    change (length (firstn c (a :: l) :: chunks_fuel fuel c (skipn c (a :: l))))
      with (S (length (chunks_fuel fuel c (skipn c (a :: l))))).
    rewrite IH by (rewrite skipn_length; cbn [length] in *; lia). rewrite skipn_length.
    destruct (Nat.le_gt_cases c (length (a :: l))).
    + rewrite (div_ceil_sub (length (a :: l))) by lia. easy.
    + rewrite (div_ceil_small (length (a :: l))) by (cbn [length] in *; lia).
      replace (length (a :: l) - c) with 0 by lia. unfold div_ceil.
      rewrite Nat.div_small, Nat.mod_small by lia. easy.
Qed.

Lemma chunks_fuel_bound {A} c : 1 <= c -> forall fuel (l : list A),
  Forall (fun ch => length ch <= c) (chunks_fuel fuel c l).
Proof.
  intros Hc. induction fuel as [|fuel IH]; intros l; simpl; [constructor|].
  destruct l; constructor; [|apply IH]. rewrite firstn_length. lia.
Qed.

Lemma map_nth_seq_pad {A} (d : list A) (l : list (list A)) k : length l <= k -> d = [] ->
  concat (map (fun i => nth i l d) (seq 0 k)) = concat l.
Proof.
  intros Hk ->. revert k Hk. induction l as [|a l IH]; intros k Hk.
  - clear Hk. simpl. generalize 0. induction k; intros s; simpl; [easy|].
    rewrite IHk. destruct s; easy.
  - destruct k; [simpl in Hk; lia|]. simpl. rewrite <- seq_shift, map_map.
    rewrite (IH k); [easy|simpl in Hk; lia].
Qed.

Lemma global_num_chunks_ge lengths c n : In n lengths -> div_ceil n c <= global_num_chunks lengths c.
Proof.
  unfold global_num_chunks. induction lengths as [|a ls IH]; simpl; [easy|].
  intros [->|H]; [lia|]. specialize (IH H). lia.
Qed.

Lemma divide_rounds {A} (items_per_rank : list (list A)) c :
  1 <= c ->
  let k := global_num_chunks (map (@length A) items_per_rank) c in
  forall items, In items items_per_rank ->
    length (divide_into_chunks k c items) = k
    /\ concat (divide_into_chunks k c items) = items
    /\ Forall (fun ch => length ch <= c) (divide_into_chunks k c items).
Proof.
  intros Hc k items Hin. unfold divide_into_chunks. rewrite map_length, seq_length.
  split; [easy|]. split.
  - rewrite map_nth_seq_pad; [apply chunks_fuel_concat; lia| |easy].
    unfold chunks. rewrite chunks_fuel_length by lia.
    apply global_num_chunks_ge. apply in_map. easy.
  - apply Forall_forall. intros ch Hch. apply in_map_iff in Hch. destruct Hch as (i & <- & _).
    destruct (Nat.lt_ge_cases i (length (chunks c items))) as [Hi|Hi].
    + assert (H := chunks_fuel_bound c Hc (length items) items). rewrite Forall_forall in H.
      apply H. apply nth_In. easy.
    + rewrite nth_overflow by easy. simpl. lia.
Qed.

(** ** Reading *)

Section ReadProofs.
  Context {A : Type}.
  Implicit Types files : list (list A).

  Definition value_at files (s : nat * nat) : option A :=
    match nth_error files (fst s) with None => None | Some l => nth_error l (snd s) end.

  Lemma map_nth_error_seq (l : list A) s n : s + n <= length l ->
    map (nth_error l) (seq s n) = map Some (firstn n (skipn s l)).
  Proof.
    revert s. induction n as [|n IH]; intros s H; [easy|].
    simpl seq. simpl map. rewrite IH by lia.
    destruct (nth_error l s) as [x|] eqn:E; [|apply nth_error_None in E; lia].
    rewrite (skipn_nth_error _ _ _ E). easy.
  Qed.

  Lemma value_at_slots files pre :
    map (value_at (pre ++ files)) (slots_from (length pre) (map (@length A) files))
    = map Some (concat files).
  Proof.
    revert pre. induction files as [|l fs IH]; intros pre; [easy|].
    simpl. rewrite !map_app. f_equal.
    - rewrite map_map. unfold value_at. simpl.
      rewrite nth_error_app2, Nat.sub_diag by lia. simpl.
      rewrite map_nth_error_seq by lia. simpl. rewrite firstn_all. easy.
    - specialize (IH (pre ++ [l])). rewrite app_length in IH. simpl in IH.
      rewrite Nat.add_1_r, <- app_assoc in IH. exact IH.
  Qed.

  Lemma value_at_all files : map (value_at files) (all_slots (map (@length A) files)) = map Some (concat files).
  Proof. apply (value_at_slots files []). Qed.

  Lemma read_slices_spec (slots : list A) ranges n :
    n <= length slots ->
    Forall (fun g : nat * nat => fst g < snd g /\ snd g <= n) ranges ->
    exists out, read_slices slots ranges = Some out
      /\ map Some out = map (nth_error slots) (flat_map (fun g => seq (fst g) (snd g - fst g)) ranges).
  Proof.
    intros Hn. induction 1 as [|[s e] gs (H1 & H2) H IH]; simpl in *.
    - exists []. easy.
    - destruct IH as (out & IH1 & IH2). rewrite IH1.
      destruct (Nat.leb_spec s e); [|lia]. destruct (Nat.leb_spec e (length slots)); [|lia].
      simpl. eexists. split; [reflexivity|]. rewrite !map_app, IH2. f_equal.
      rewrite map_nth_error_seq by lia. easy.
  Qed.

  Lemma read_region_spec files c r :
    1 <= c -> region_ok (map (@length A) files) r ->
    exists out, read_region_chunked files c r = Some out
      /\ map Some out = map (value_at files) (region_slots r).
  Proof.
    intros Hc (Hlt & n & Hn & He). unfold read_region_chunked.
    rewrite nth_error_map in Hn. destruct (nth_error files (r_file r)) as [slots|] eqn:Hf; [|easy].
    simpl in Hn. injection Hn as <-.
    destruct (get_chunk_sizes_concat r c) as (ranges & G1 & G2 & G3 & _); [lia|lia|].
    rewrite G1. destruct (read_slices_spec slots ranges (length slots)) as (out & O1 & O2); [lia| |].
    { eapply Forall_impl; [|exact G3]. simpl. intros g (? & ? & ?). lia. }
    exists out. split; [easy|]. rewrite O2, G2. unfold region_slots. rewrite map_map.
    apply map_ext. intros k. unfold value_at. simpl. rewrite Hf. easy.
  Qed.

  Lemma read_regions_spec files size rs :
    Forall (region_ok (map (@length A) files)) rs ->
    (forall r, In r rs -> exists c, size r = Some c /\ 1 <= c) ->
    exists out, read_regions files size rs = Some out
      /\ map Some out = map (value_at files) (rank_slots rs).
  Proof.
    induction 1 as [|r rs Hr Hrs IH]; intros Hs; simpl.
    - exists []. easy.
    - destruct (Hs r) as (c & -> & Hc); [left; easy|].
      destruct (read_region_spec files c r Hc Hr) as (o1 & -> & O1).
      destruct IH as (o2 & -> & O2); [intros; apply Hs; right; easy|].
      exists (o1 ++ o2). split; [easy|]. unfold rank_slots in *. simpl.
      rewrite !map_app, O1, O2. easy.
  Qed.

  Lemma map_Some_inj (l l' : list A) : map Some l = map Some l' -> l = l'.
  Proof.
    revert l'. induction l as [|a l IH]; intros [|b l'] H; simpl in *; try discriminate; [easy|].
    injection H as -> H. rewrite (IH _ H). easy.
  Qed.

  Lemma read_all_ranks files (size : region -> option nat) asg :
    Forall (Forall (region_ok (map (@length A) files))) asg ->
    (forall r, region_ok (map (@length A) files) r -> exists c, size r = Some c /\ 1 <= c) ->
    exists outs, length outs = length asg
      /\ (forall k rs, nth_error asg k = Some rs -> exists out, nth_error outs k = Some out
            /\ read_regions files size rs = Some out
            /\ length out = length (rank_slots rs))
      /\ map Some (concat outs) = map (value_at files) (concat (map rank_slots asg)).
  Proof.
    intros Hasg Hs. induction Hasg as [|rs asg Hrs Hasg IH].
    - exists []. split; [easy|]. split; [|easy]. intros [|k] rs H; easy.
    - destruct IH as (outs & L & H1 & H2).
      destruct (read_regions_spec files size rs Hrs) as (out & R1 & R2).
      { intros r Hin. apply Hs. rewrite Forall_forall in Hrs. auto. }
      exists (out :: outs). split; [simpl; congruence|]. split.
      + intros [|k] rs' H; simpl in *; [|auto]. injection H as <-. exists out. split; [easy|].
        split; [easy|]. apply (f_equal (@length _)) in R2. rewrite !map_length in R2. easy.
      + simpl. rewrite !map_app, R2, H2. easy.
  Qed.

  Lemma read_partition files num_ranks chunk_size :
    1 <= num_ranks -> 1 <= chunk_size ->
    exists outs, length outs = num_ranks
      /\ concat outs = concat files
      /\ forall rank, rank < num_ranks -> exists out, nth_error outs rank = Some out
           /\ read_dataset files num_ranks rank = Some out
           /\ read_dataset_chunked files num_ranks rank chunk_size = Some out.
  Proof.
    intros Hn Hc.
    destruct (input_assignment_partition (map (@length A) files) num_ranks Hn)
      as (asg & A1 & A2 & A3 & A4 & _).
    assert (Hasg : Forall (Forall (region_ok (map (@length A) files))) asg).
    { apply Forall_forall. intros rs Hin. apply In_nth_error in Hin. destruct Hin as (k & Hk). eauto. }
    destruct (read_all_ranks files region_size asg Hasg) as (outs & L & O1 & O2).
    { intros r (Hlt & _). exists (r_end r - r_start r). split; [|lia].
      unfold region_size. apply usub_some. lia. }
    destruct (read_all_ranks files (fun _ => Some chunk_size) asg Hasg) as (outs' & L' & O1' & O2').
    { intros r _. exists chunk_size. easy. }
    exists outs. split; [congruence|]. split.
    { apply map_Some_inj. rewrite O2, A3. apply value_at_all. }
    intros rank Hr. destruct (nth_error asg rank) as [rs|] eqn:Hk.
    2:{ apply nth_error_None in Hk. lia. }
    destruct (O1 _ _ Hk) as (out & Ho & Hread & _). destruct (O1' _ _ Hk) as (out' & Ho' & Hread' & _).
    exists out. split; [easy|]. unfold read_dataset, read_dataset_chunked, get_rank_input_assignment_for_rank.
    rewrite A1, Hk. split; [easy|]. rewrite Hread'. f_equal.
    (* both reads return the values of the same slots *)
    assert (F : Forall (region_ok (map (@length A) files)) rs) by eauto.
    destruct (read_regions_spec files region_size rs F) as (o1 & P1 & Q1).
    { intros r Hin. rewrite Forall_forall in F. destruct (F _ Hin) as (Hlt & _).
      exists (r_end r - r_start r). split; [|lia]. unfold region_size. apply usub_some. lia. }
    destruct (read_regions_spec files (fun _ => Some chunk_size) rs F) as (o2 & P2 & Q2).
    { intros. exists chunk_size. easy. }
    apply map_Some_inj. congruence.
  Qed.
End ReadProofs.

(** ** Writing *)

Section WriteProofs.
  Context {A : Type}.
  Implicit Types ds : list (nat * list (option A)).

  Lemma addrs_vals_length ds : length (addrs ds) = length (vals ds).
  Proof.
    induction ds as [|d ds IH]; simpl; [easy|].
    rewrite !app_length, map_length, seq_length, IH. easy.
  Qed.

  Lemma in_addrs ds i k : In (i, k) (addrs ds) <-> exists l, In (i, l) ds /\ k < length l.
  Proof.
    unfold addrs. rewrite in_flat_map. split.
    - intros ([j l] & Hin & H). apply in_map_iff in H. destruct H as (k' & E & Hk).
      simpl in *. injection E as -> ->. apply in_seq in Hk. exists l. split; [easy|lia].
    - intros (l & Hin & Hk). exists (i, l). split; [easy|]. apply in_map_iff. exists k.
      split; [easy|]. apply in_seq. simpl. lia.
  Qed.

  Lemma write_to_file_spec r data : forall ds P R,
    NoDup (map fst ds) ->
    r_start r < r_end r ->
    length data = r_end r - r_start r ->
    addrs ds = P ++ region_slots r ++ R ->
    exists ds', write_to_file ds r data = Some ds'
      /\ addrs ds' = addrs ds /\ map fst ds' = map fst ds
      /\ vals ds' = firstn (length P) (vals ds) ++ map Some data
                      ++ skipn (length P + length data) (vals ds).
  Proof.
    induction ds as [|[i slots] ds IH]; intros P R Hnd Hlt Hlen Haddr.
    { simpl in Haddr. exfalso. unfold region_slots in Haddr.
      destruct (r_end r - r_start r) eqn:E; [lia|]. simpl in Haddr.
      destruct P; discriminate. }
    simpl in Hnd. inversion Hnd as [|? ? Hnotin Hnd']; subst. simpl write_to_file.
    simpl in Haddr.
    assert (Hslot : forall k, r_start r <= k < r_end r ->
        nth_error (P ++ region_slots r ++ R) (length P + (k - r_start r)) = Some (r_file r, k)).
    { intros k Hk. rewrite nth_error_app2 by lia.
      replace (length P + (k - r_start r) - length P) with (k - r_start r) by lia.
      rewrite nth_error_app1.
      2:{ unfold region_slots. rewrite map_length, seq_length. lia. }
      unfold region_slots. rewrite nth_error_map.
      rewrite (nth_error_nth' _ 0) by (rewrite seq_length; lia).
      rewrite seq_nth by lia. simpl. f_equal. f_equal. lia. }
    destruct (Nat.eqb_spec i (r_file r)) as [->|Hne].
    - (* the region lies in this file *)
      assert (Hin : forall k, r_start r <= k < r_end r -> k < length slots /\ length P + (k - r_start r) = k).
      { intros k Hk. specialize (Hslot k Hk). rewrite <- Haddr in Hslot.
        set (H := map (fun k => (r_file r, k)) (seq 0 (length slots))) in *.
        destruct (Nat.lt_ge_cases (length P + (k - r_start r)) (length slots)) as [Hl|Hg].
        - rewrite nth_error_app1 in Hslot by (unfold H; rewrite map_length, seq_length; easy).
          unfold H in Hslot. rewrite nth_error_map in Hslot.
          rewrite (nth_error_nth' _ 0) in Hslot by (rewrite seq_length; easy).
          rewrite seq_nth in Hslot by easy. simpl in Hslot. injection Hslot as E. lia.
        - rewrite nth_error_app2 in Hslot by (unfold H; rewrite map_length, seq_length; easy).
          apply nth_error_In in Hslot. fold (addrs ds) in Hslot. apply in_addrs in Hslot. destruct Hslot as (l & Hin & _).
          exfalso. apply Hnotin. apply in_map_iff. exists (r_file r, l). easy. }
      destruct (Hin (r_start r)) as (_ & HP); [lia|].
      destruct (Hin (r_end r - 1)) as (He & _); [lia|].
      assert (HP' : length P = r_start r) by lia.
      unfold write_slice.
      destruct (Nat.leb_spec (r_start r) (r_end r)); [|lia].
      destruct (Nat.leb_spec (r_end r) (length slots)); [|lia].
      destruct (Nat.eqb_spec (length data) (r_end r - r_start r)); [|lia]. simpl.
      eexists. split; [reflexivity|]. simpl.
      assert (Hlen' : length (firstn (r_start r) slots ++ map Some data ++ skipn (r_end r) slots) = length slots).
      { rewrite !app_length, firstn_length, map_length, skipn_length. lia. }
      rewrite Hlen'. split; [easy|]. split; [easy|].
      rewrite HP'. rewrite firstn_app, skipn_app.
      replace (r_start r - length slots) with 0 by lia. simpl. rewrite app_nil_r.
      rewrite <- !app_assoc. f_equal. f_equal.
      replace (r_start r + length data) with (r_end r) by lia.
      replace (r_end r - length slots) with 0 by lia. simpl. easy.
    - (* the region lies in a later file *)
      assert (HP : length slots <= length P).
      { destruct (Nat.le_gt_cases (length slots) (length P)) as [|Hg]; [easy|]. exfalso.
        specialize (Hslot (r_start r)). rewrite Nat.sub_diag, Nat.add_0_r in Hslot.
        rewrite <- Haddr in Hslot.
        rewrite nth_error_app1 in Hslot by (rewrite map_length, seq_length; easy).
        rewrite nth_error_map in Hslot.
        rewrite (nth_error_nth' _ 0) in Hslot by (rewrite seq_length; easy).
        simpl in Hslot. assert (Hs := Hslot ltac:(lia)). injection Hs as E. congruence. }
      assert (HPs : P = map (fun k => (i, k)) (seq 0 (length slots)) ++ skipn (length slots) P).
      { rewrite <- (firstn_skipn (length slots) P) at 1. f_equal.
        apply (f_equal (firstn (length slots))) in Haddr.
        rewrite !firstn_app in Haddr.
        rewrite map_length, seq_length, Nat.sub_diag in Haddr.
        rewrite firstn_all2 in Haddr by (rewrite map_length, seq_length; easy).
        simpl in Haddr. rewrite app_nil_r in Haddr.
        replace (length slots - length P) with 0 in Haddr by lia.
        simpl in Haddr. rewrite app_nil_r in Haddr. congruence. }
      rewrite HPs, <- app_assoc in Haddr. apply app_inv_head in Haddr.
      destruct (IH (skipn (length slots) P) R Hnd' Hlt Hlen Haddr) as (ds' & W & Ha & Hf & Hv).
      rewrite W. eexists. split; [reflexivity|]. simpl. fold (addrs ds') (addrs ds). rewrite Ha, Hf.
      split; [easy|]. split; [easy|].
      fold (vals ds') (vals ds). rewrite Hv.
      rewrite firstn_app, skipn_app.
      rewrite (firstn_all2 (n := length P)) by lia.
      rewrite (skipn_all2 (n := length P + length data)) by lia.
      rewrite skipn_length. simpl. rewrite <- app_assoc. f_equal. f_equal. f_equal.
      f_equal. lia.
  Qed.

  Lemma region_slots_length r : length (region_slots r) = r_end r - r_start r.
  Proof. unfold region_slots. rewrite map_length, seq_length. easy. Qed.

  Lemma write_regions_spec files : forall rs ds P R data don m,
    NoDup (map fst ds) ->
    Forall (region_ok files) rs ->
    length (rank_slots rs) = length data ->
    addrs ds = P ++ rank_slots rs ++ R ->
    vals ds = map Some don ++ repeat None (length data + m) ->
    length don = length P ->
    exists ds', write_regions ds rs data = Some ds'
      /\ addrs ds' = addrs ds /\ map fst ds' = map fst ds
      /\ vals ds' = map Some (don ++ data) ++ repeat None m.
  Proof.
    induction rs as [|r rs IH]; intros ds P R data don m Hnd Hok Hlen Ha Hv Hd.
    - simpl in Hlen. destruct data; [|easy]. simpl. exists ds. rewrite app_nil_r. auto.
    - inversion Hok as [|? ? Hr Hrs]; subst. destruct Hr as (Hlt & _).
      unfold rank_slots in Hlen, Ha. simpl in Hlen, Ha. fold (rank_slots rs) in Hlen, Ha.
      rewrite app_length, region_slots_length in Hlen.
      simpl. unfold region_size. rewrite usub_some by lia.
      set (n := r_end r - r_start r) in *.
      destruct (Nat.leb_spec n (length data)); [|lia].
      rewrite <- app_assoc in Ha.
      destruct (write_to_file_spec r (firstn n data) ds P (rank_slots rs ++ R) Hnd Hlt)
        as (ds' & W & Ha' & Hf' & Hv').
      { rewrite firstn_length. lia. } { easy. }
      rewrite W.
      destruct (IH ds' (P ++ region_slots r) R (skipn n data) (don ++ firstn n data) m)
        as (ds'' & W' & Ha'' & Hf'' & Hv'').
      + congruence.
      + easy.
      + rewrite skipn_length. lia.
      + rewrite Ha', Ha, <- app_assoc. easy.
      + rewrite Hv', Hv. rewrite map_app.
        rewrite firstn_app, map_length, Hd, Nat.sub_diag. simpl. rewrite app_nil_r.
        rewrite firstn_all2 by (rewrite map_length; lia).
        rewrite <- app_assoc. f_equal. f_equal.
        rewrite skipn_app, map_length, skipn_all2 by (rewrite map_length; lia).
        simpl. rewrite firstn_length, skipn_length.
        replace (length P + Nat.min n (length data) - length don) with n by lia.
        replace (length data + m) with (n + (length data - n + m)) by lia.
        rewrite repeat_app. rewrite skipn_app, repeat_length, Nat.sub_diag.
        rewrite skipn_all2 by (rewrite repeat_length; lia). easy.
      + rewrite !app_length, region_slots_length, firstn_length. lia.
      + exists ds''. split; [easy|]. split; [congruence|]. split; [congruence|].
        rewrite Hv''. rewrite <- app_assoc, firstn_skipn. easy.
  Qed.

  Lemma write_ranks_spec files : forall asg data ds P don,
    NoDup (map fst ds) ->
    Forall (Forall (region_ok files)) asg ->
    map (fun rs => length (rank_slots rs)) asg = map (@length A) data ->
    addrs ds = P ++ concat (map rank_slots asg) ->
    vals ds = map Some don ++ repeat None (length (concat data)) ->
    length don = length P ->
    exists ds', write_ranks ds asg data = Some ds'
      /\ addrs ds' = addrs ds /\ map fst ds' = map fst ds
      /\ vals ds' = map Some (don ++ concat data).
  Proof.
    induction asg as [|rs asg IH]; intros data ds P don Hnd Hok Hlen Ha Hv Hd.
    - destruct data; [|easy]. simpl in *. exists ds. rewrite !app_nil_r in *. auto.
    - destruct data as [|d data]; [easy|]. simpl in *. injection Hlen as Hl1 Hl2.
      inversion Hok; subst. rewrite app_length in Hv.
      destruct (write_regions_spec files rs ds P (concat (map rank_slots asg)) d don
                  (length (concat data)) Hnd) as (ds' & W & Ha' & Hf' & Hv'); try easy.
      rewrite W.
      destruct (IH data ds' (P ++ rank_slots rs) (don ++ d)) as (ds'' & W' & Ha'' & Hf'' & Hv'').
      + congruence.
      + easy.
      + easy.
      + rewrite Ha', Ha, <- app_assoc. easy.
      + easy.
      + rewrite !app_length. lia.
      + exists ds''. split; [easy|]. split; [congruence|]. split; [congruence|].
        rewrite Hv'', <- app_assoc. easy.
  Qed.

  (** The regions of a single rank all start at 0. *)
  Lemma regions_loop_start0 files : forall fuel e rs e',
    regions_loop fuel files 0 e = Some (rs, e') -> Forall (fun r => r_start r = 0) rs.
  Proof.
    induction fuel as [|fuel IH]; intros e rs e' H; simpl in H; [easy|].
    destruct (nth_error files (file_index e)); [|easy].
    destruct (n <? pos e).
    - destruct (usub (pos e) n); [|easy].
      destruct (regions_loop fuel files 0 _) as [[rs1 e1]|] eqn:E; [|easy].
      injection H as <- <-. constructor; [easy|]. eauto.
    - injection H as <- <-. repeat constructor.
  Qed.

  Lemma filter_nonempty_forall (Q : region -> Prop) : forall rs rs',
    filter_nonempty rs = Some rs' -> Forall Q rs -> Forall Q rs'.
  Proof.
    induction rs as [|r rs IH]; intros rs' H HF; simpl in H.
    - injection H as <-. constructor.
    - destruct (region_size r); [|easy]. destruct (filter_nonempty rs); [|easy].
      injection H as <-. inversion HF; subst. destruct (0 <? n); auto.
  Qed.

  Lemma get_regions_from_start0 files num rs e :
    get_regions_from files (mkPos 0 0) num = Some (rs, e) -> Forall (fun r => r_start r = 0) rs.
  Proof.
    unfold get_regions_from. destruct (num =? 0).
    { intros H. injection H as <- <-. constructor. }
    destruct (nth_error files (file_index (mkPos 0 0))); [|discriminate].
    cbv zeta. intros H.
    destruct (pos (mkPos 0 0) =? n); eapply regions_loop_start0; exact H.
  Qed.

  Lemma single_rank_start0 files total rs :
    get_rank_assignment files [total] = Some [rs] -> Forall (fun r => r_start r = 0) rs.
  Proof.
    unfold get_rank_assignment. cbn [rank_loop].
    destruct (get_regions_from files (mkPos 0 0) total) as [[rs0 e0]|] eqn:E; [|discriminate].
    destruct (filter_nonempty rs0) eqn:Ef; [|discriminate]. intros H. injection H as <-.
    eapply filter_nonempty_forall; [exact Ef|]. eapply get_regions_from_start0. exact E.
  Qed.

  Lemma NoDup_app_r {B} (l1 l2 : list B) : NoDup (l1 ++ l2) -> NoDup l2.
  Proof. induction l1 as [|a l1 IH]; simpl; intros H; [easy|]. inversion H; auto. Qed.

  Lemma create_datasets_spec files : forall rs,
    Forall (fun r => r_start r = 0) rs ->
    Forall (region_ok files) rs ->
    NoDup (rank_slots rs) ->
    exists ds, @create_datasets A rs = Some ds
      /\ addrs ds = rank_slots rs
      /\ vals ds = repeat None (length (rank_slots rs))
      /\ NoDup (map fst ds)
      /\ map fst ds = map r_file rs.
  Proof.
    induction rs as [|r rs IH]; intros H0 Hok Hnd.
    - exists []. simpl. repeat split; constructor.
    - inversion H0 as [|? ? Hs H0']; inversion Hok as [|? ? Hr Hok']; subst.
      unfold rank_slots in *. simpl in *.
      destruct IH as (ds & C & Ha & Hv & Hn & Hm); try easy.
      { apply NoDup_app_r in Hnd. easy. }
      rewrite Hs, C. rewrite usub_some by lia. rewrite Nat.sub_0_r.
      eexists. split; [reflexivity|]. simpl. rewrite repeat_length.
      assert (E : map (fun k => (r_file r, k)) (seq 0 (r_end r)) = region_slots r).
      { unfold region_slots. rewrite Hs, Nat.sub_0_r. easy. }
      split. { rewrite E. f_equal. exact Ha. }
      split.
      { fold (vals ds). rewrite Hv, app_length, repeat_app, region_slots_length, Hs, Nat.sub_0_r. easy. }
      split; [|rewrite Hm; easy].
      constructor; [|easy]. rewrite Hm. intros Hin. apply in_map_iff in Hin.
      destruct Hin as (r' & E' & Hin').
      assert (Hin0 : In (r_file r, 0) (flat_map region_slots rs)).
      { apply in_flat_map. exists r'. split; [easy|]. unfold region_slots. rewrite E'.
        rewrite Forall_forall in H0', Hok'. rewrite (H0' _ Hin').
        apply in_map_iff. exists 0. split; [easy|]. apply in_seq.
        destruct (Hok' _ Hin') as (? & _). lia. }
      assert (Hin1 : In (r_file r, 0) (region_slots r)).
      { rewrite <- E. apply in_map_iff. exists 0. split; [easy|]. apply in_seq.
        destruct Hr as (? & _). lia. }
      clear -Hnd Hin0 Hin1. revert Hnd Hin1. generalize (region_slots r) as l.
      induction l as [|a l IHl]; simpl; intros Hnd; [easy|]. intros [->|Hin1].
      + inversion Hnd; subst. apply H1. apply in_app_iff. right. easy.
      + inversion Hnd; subst. auto.
  Qed.

  Lemma slots_from_NoDup : forall files i, NoDup (slots_from i files)
     /\ (forall j k, In (j, k) (slots_from i files) -> i <= j).
  Proof.
    induction files as [|n fs IH]; intros i; simpl.
    - split; [constructor|easy].
    - destruct (IH (S i)) as (H1 & H2). split.
      + assert (Hs : forall s m, NoDup (map (fun k => (i, k)) (seq s m) ++ slots_from (S i) fs)).
        { intros s m. revert s. induction m as [|m IHm]; intros s; simpl; [easy|].
          constructor; [|apply IHm]. intros Hin. apply in_app_iff in Hin. destruct Hin as [Hin|Hin].
          - apply in_map_iff in Hin. destruct Hin as (k & E & Hk). injection E as E.
            apply in_seq in Hk. lia.
          - apply H2 in Hin. lia. }
        apply Hs.
      + intros j k Hin. apply in_app_iff in Hin. destruct Hin as [Hin|Hin].
        * apply in_map_iff in Hin. destruct Hin as (k' & E & _). injection E. lia.
        * apply H2 in Hin. lia.
  Qed.

  Lemma write_snapshot_spec (data : list (list A)) num_files :
    1 <= num_files ->
    exists ds files, write_snapshot data num_files = Some ds
      /\ output_file_sizes (map (@length A) data) num_files = Some files
      /\ addrs ds = all_slots files
      /\ vals ds = map Some (concat data).
  Proof.
    intros Hn. set (per := map (@length A) data). set (total := list_sum per).
    assert (Htot : total = length (concat data)).
    { unfold total, per. clear. induction data as [|d data IH]; simpl; [easy|].
      rewrite app_length. lia. }
    destruct (output_assignment_partition per num_files Hn)
      as (files & asg & F1 & F2 & F3 & F4 & F5 & F6 & F7).
    destruct (output_assignment_partition [total] num_files Hn)
      as (files' & asg' & G1 & G2 & G3 & G4 & G5 & G6 & G7).
    assert (files' = files) as ->.
    { destruct (output_file_sizes_some per num_files Hn) as (E1 & _).
      destruct (output_file_sizes_some [total] num_files Hn) as (E2 & _).
      simpl list_sum in E2. rewrite Nat.add_0_r in E2. fold total in E1. congruence. }
    destruct asg' as [|rs [|? ?]]; try (simpl in G6; discriminate).
    simpl in G5. rewrite app_nil_r in G5.
    assert (Hs0 : Forall (fun r => r_start r = 0) rs).
    { unfold get_output_rank_assignment in G2. rewrite G1 in G2.
      eapply single_rank_start0. exact G2. }
    inversion G7; subst.
    destruct (create_datasets_spec files rs Hs0) as (ds & C & Ha & Hv & Hnd & _); [easy| |].
    { rewrite G5. apply slots_from_NoDup. }
    destruct (write_ranks_spec files asg data ds [] []) as (ds' & W & Ha' & Hf' & Hv').
    - easy.
    - easy.
    - easy.
    - simpl. congruence.
    - rewrite Hv. simpl. simpl in G6. injection G6 as G6. congruence.
    - easy.
    - exists ds', files. split; [|split; [easy|]].
      + unfold write_snapshot, create_files, get_rank_output_assignment_for_rank.
        fold per. fold total. rewrite G2. simpl. rewrite C, F2. easy.
      + split; [congruence|]. easy.
  Qed.
End WriteProofs.

(** Values per file, in file order, of a completely written snapshot. *)
Section RoundTrip.
  Context {A : Type}.

  Lemma vals_strip (ds : list (nat * list (option A))) (l : list A) :
    vals ds = map Some l ->
    exists files, map (fun d => snd d) ds = map (map Some) files /\ concat files = l.
  Proof.
    revert l. induction ds as [|[i slots] ds IH]; intros l H; simpl in *.
    - exists []. destruct l; easy.
    - fold (vals ds) in H.
      assert (Hsplit : exists l1 l2, l = l1 ++ l2 /\ slots = map Some l1 /\ vals ds = map Some l2).
      { exists (firstn (length slots) l), (skipn (length slots) l).
        rewrite firstn_skipn. split; [easy|]. rewrite <- firstn_map, <- skipn_map, <- H.
        rewrite firstn_app, Nat.sub_diag, firstn_all, skipn_app, Nat.sub_diag, skipn_all.
        simpl. rewrite app_nil_r. easy. }
      destruct Hsplit as (l1 & l2 & -> & -> & H2). destruct (IH _ H2) as (files & F1 & F2).
      exists (l1 :: files). simpl. rewrite F1, F2. easy.
  Qed.

  Lemma snapshot_round_trip (data : list (list A)) num_files num_ranks :
    1 <= num_files -> 1 <= num_ranks ->
    exists ds files outs,
      write_snapshot data num_files = Some ds
      /\ map snd ds = map (map Some) files
      /\ length outs = num_ranks
      /\ (forall r, r < num_ranks -> read_dataset files num_ranks r = nth_error outs r)
      /\ concat outs = concat data.
  Proof.
    intros Hf Hr. destruct (write_snapshot_spec data num_files Hf) as (ds & sizes & W & _ & _ & V).
    destruct (vals_strip _ _ V) as (files & F1 & F2).
    destruct (read_partition files num_ranks 1 Hr (le_n 1)) as (outs & O1 & O2 & O3).
    exists ds, files, outs. split; [easy|]. split; [easy|]. split; [easy|]. split; [|congruence].
    intros r Hlt. destruct (O3 r Hlt) as (out & E & Hread & _). congruence.
  Qed.
End RoundTrip.
