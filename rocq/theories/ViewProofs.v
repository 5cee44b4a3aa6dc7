(** Proofs about the view layer. *)
From Coq Require Import List Arith NArith Bool Lia ZifyBool ZifyNat ZifyN.
From Verif Require Import PidModel ViewModel ViewSpec.
Import ListNotations.
Open Scope nat_scope.

Lemma high_bit a i : (a < 2 ^ 16)%N -> (16 <= i)%N -> N.testbit a i = false.
Proof.
  intros Ha Hi. destruct (N.eq_dec a 0) as [->|Hz]; [apply N.bits_0|]. apply N.bits_above_log2.
  assert (N.log2 a < 16)%N by (apply N.log2_lt_pow2; lia). lia.
Qed.
Lemma shl64_bit a k i : (a < 2 ^ 16)%N -> (k <= 48)%N -> N.testbit (shl64 a k) i = ((k <=? i) && N.testbit a (i - k))%N.
Proof.
  intros Ha Hk. unfold shl64. destruct (N.ltb_spec i 64).
  - rewrite N.mod_pow2_bits_low by assumption. destruct (N.leb_spec k i).
    + now rewrite N.shiftl_spec_high' by assumption.
    + now rewrite N.shiftl_spec_low by assumption.
  - rewrite N.mod_pow2_bits_high by assumption. rewrite (high_bit a (i - k)) by lia. now rewrite andb_false_r.
Qed.
Lemma field_bit a i : N.testbit (N.land a window) i = ((i <? 16)%N && N.testbit a i).
Proof.
  unfold window. replace (2 ^ 16 - 1)%N with (N.ones 16) by reflexivity. rewrite N.land_spec.
  destruct (N.ltb_spec i 16).
  - rewrite N.ones_spec_low by assumption. now rewrite andb_true_r.
  - rewrite N.ones_spec_high by assumption. now rewrite andb_false_r.
Qed.
Lemma compress_bit a b c d i : (a < 2 ^ 16)%N -> (b < 2 ^ 16)%N -> (c < 2 ^ 16)%N -> (d < 2 ^ 16)%N ->
  N.testbit (compress (a, b) (c, d)) i =
  (((48 <=? i) && N.testbit a (i - 48)) || ((32 <=? i) && N.testbit b (i - 32)) || ((16 <=? i) && N.testbit c (i - 16)) || N.testbit d i)%N.
Proof.
  intros. unfold compress. cbn [fst snd]. rewrite !N.lor_spec.
  change (16 * 3)%N with 48%N. change (16 * 2)%N with 32%N. change (16 * 1)%N with 16%N.
  now rewrite !shl64_bit by (assumption || lia).
Qed.
Lemma extract_compress a b c d : (a < 2 ^ 16)%N -> (b < 2 ^ 16)%N -> (c < 2 ^ 16)%N -> (d < 2 ^ 16)%N ->
  extract (compress (a, b) (c, d)) = ((a, b), (c, d)).
Proof.
  intros Ha Hb Hc Hd. unfold extract.
  change (16 * 3)%N with 48%N. change (16 * 2)%N with 32%N. change (16 * 1)%N with 16%N.
  repeat f_equal; apply N.bits_inj; intros i; rewrite field_bit, ?N.shiftr_spec', compress_bit by assumption.
  all: destruct (N.ltb_spec i 16); cbn [andb]; [|rewrite high_bit by assumption; reflexivity].
  - replace (48 <=? i + 48)%N with true by lia. replace (i + 48 - 48)%N with i by lia.
    rewrite (high_bit b), (high_bit c), (high_bit d) by lia. rewrite !andb_false_r, !orb_false_r. reflexivity.
  - replace (48 <=? i + 32)%N with false by lia. replace (32 <=? i + 32)%N with true by lia. replace (i + 32 - 32)%N with i by lia.
    rewrite (high_bit c), (high_bit d) by lia. rewrite !andb_false_r, !orb_false_r. reflexivity.
  - replace (48 <=? i + 16)%N with false by lia. replace (32 <=? i + 16)%N with false by lia. replace (16 <=? i + 16)%N with true by lia.
    replace (i + 16 - 16)%N with i by lia. rewrite (high_bit d) by lia. rewrite !orb_false_r. reflexivity.
  - replace (48 <=? i)%N with false by lia. replace (32 <=? i)%N with false by lia. replace (16 <=? i)%N with false by lia. reflexivity.
Qed.

Lemma raw_size a s o : small s -> small o -> v_size (from_raw_parts a s o) = s.
Proof.
  intros [H1 H2] [H3 H4]. unfold v_size, from_raw_parts. cbn [v_meta].
  rewrite extract_compress by assumption. cbn. rewrite !Nat2N.id. now destruct s.
Qed.
Lemma raw_offsets a s o : small s -> small o -> v_offsets (from_raw_parts a s o) = o.
Proof.
  intros [H1 H2] [H3 H4]. unfold v_offsets, from_raw_parts. cbn [v_meta].
  rewrite extract_compress by assumption. cbn. rewrite !Nat2N.id. now destruct o.
Qed.

(** [v] shows what [r] shows, on an [n * m] row-major (or transposed) allocation *)
Definition shows (m : nat) (v : view) (r : rview) : Prop :=
  v_size v = (rv_h r, rv_w r) /\ small (v_size v) /\ small (v_offsets v) /\ 0 < fst (v_offsets v) /\ 0 < snd (v_offsets v) /\
  (forall i j, i < rv_h r -> j < rv_w r ->
     v_addr v + (i * fst (v_offsets v) + j * snd (v_offsets v)) = fst (rv_at r i j) * m + snd (rv_at r i j)).

Lemma shows_full n m : 0 < m -> small (n, m) -> shows m (owner_view (owner_new n m)) (rv_full n m).
Proof.
  intros Hm Hs. unfold owner_view, owner_new. cbn [o_size o_offsets].
  assert (Ho : small (m, 1)) by (destruct Hs; split; cbn in *; lia).
  unfold shows. rewrite raw_size, raw_offsets by assumption. cbn. repeat split; try lia; apply Hs || apply Ho.
Qed.
Lemma shows_owner_transpose n m : 0 < m -> small (n, m) ->
  shows m (owner_view (owner_transpose (owner_new n m))) (rv_transpose (rv_full n m)).
Proof.
  intros Hm Hs. unfold owner_view, owner_transpose, owner_new. cbn [o_size o_offsets fst snd].
  assert (Ho : small (1, m)) by (destruct Hs; split; cbn in *; lia).
  assert (Hs' : small (m, n)) by (destruct Hs; split; cbn in *; lia).
  unfold shows. rewrite raw_size, raw_offsets by assumption. cbn. repeat split; try lia; apply Hs' || apply Ho.
Qed.
Lemma shows_transpose m v r : shows m v r -> shows m (v_transpose v) (rv_transpose r).
Proof.
  intros (E & [S1 S2] & [O1 O2] & P1 & P2 & H). unfold v_transpose.
  destruct (v_size v) as [h w] eqn:Es. destruct (v_offsets v) as [o1 o2] eqn:Eo. cbn in *. injection E as -> ->.
  unfold shows. rewrite raw_size, raw_offsets by (split; cbn; assumption). cbn. repeat split; auto.
  intros i j Hi Hj. rewrite <- H by assumption. lia.
Qed.
Lemma as_ptr_ok m v r : shows m v r -> as_ptr v = if (rv_h r =? 0) || (rv_w r =? 0) then None else Some (v_addr v).
Proof.
  intros (E & _ & _ & P1 & P2 & _). unfold as_ptr, slice_len. rewrite E. cbn [fst snd].
  destruct (Nat.eqb_spec (rv_h r) 0) as [->|H1]; [reflexivity|]. destruct (Nat.eqb_spec (rv_w r) 0) as [->|H2].
  - cbn [Nat.mul Nat.eqb]. rewrite orb_true_r. reflexivity.
  - replace (rv_h r * fst (v_offsets v) =? 0) with false by (symmetry; apply Nat.eqb_neq; nia).
    replace (rv_w r * snd (v_offsets v) =? 0) with false by (symmetry; apply Nat.eqb_neq; nia). reflexivity.
Qed.
Lemma shows_sub m v r rows cols : shows m v r ->
  match v_sub v rows cols, rv_sub r rows cols with
  | Some v', Some r' => shows m v' r'
  | None, None => True
  | _, _ => False
  end.
Proof.
  intros Hs. assert (Hp := as_ptr_ok m v r Hs). destruct Hs as (E & [S1 S2] & [O1 O2] & P1 & P2 & H).
  unfold v_sub. rewrite E. cbn [fst snd].
  assert (Hu : forall q len, unpack_bounds q len = Some (interval q len)) by (intros [] len; reflexivity).
  rewrite !Hu. cbn [obind]. unfold rv_sub.
  destruct (interval rows (rv_h r)) as [r0 r1]. destruct (interval cols (rv_w r)) as [c0 c1]. cbn [fst snd].
  unfold check_bounds. rewrite E in S1, S2. cbn [fst snd] in S1, S2.
  destruct (r1 <? r0) eqn:B1; [replace (r0 <=? r1) with false by lia; exact I|]. replace (r0 <=? r1) with true by lia.
  destruct (r1 <=? rv_h r) eqn:B2; [|rewrite andb_false_r; exact I]. replace (r1 - r0 <=? rv_h r) with true by lia. cbn [andb obind].
  destruct (c1 <? c0) eqn:B3; [replace (c0 <=? c1) with false by lia; exact I|]. replace (c0 <=? c1) with true by lia.
  destruct (c1 <=? rv_w r) eqn:B4; [|rewrite andb_false_r; exact I]. replace (c1 - c0 <=? rv_w r) with true by lia. cbn [andb obind].
  rewrite Hp. destruct (rv_h r =? 0) eqn:B5; [replace (0 <? rv_h r) with false by lia; exact I|].
  destruct (rv_w r =? 0) eqn:B6; [replace (0 <? rv_w r) with false by lia; rewrite andb_false_r; exact I|].
  replace (0 <? rv_h r) with true by lia. replace (0 <? rv_w r) with true by lia. cbn [orb obind andb].
  unfold shows. rewrite raw_size, raw_offsets by (split; cbn [fst snd]; first [assumption | lia]). cbn [v_addr from_raw_parts rv_h rv_w rv_at fst snd].
  split; [reflexivity|]. split; [split; cbn [fst snd]; lia|]. split; [split; assumption|]. split; [assumption|]. split; [assumption|].
  intros i j Hi Hj. rewrite <- H by lia. nia.
Qed.
Lemma shows_run m ops : forall v r, shows m v r ->
  match run_vops v ops, rv_run r ops with
  | Some v', Some r' => shows m v' r'
  | None, None => True
  | _, _ => False
  end.
Proof.
  induction ops as [|[rows cols|] ops IH]; intros v r Hs; cbn [run_vops rv_run]; [exact Hs| |].
  - pose proof (shows_sub m v r rows cols Hs) as H.
    destruct (v_sub v rows cols), (rv_sub r rows cols); cbn [obind]; [now apply IH|contradiction|contradiction|exact I].
  - apply IH. now apply shows_transpose.
Qed.
Lemma shows_cell m v r i j : shows m v r ->
  v_cell v i j = if (i <? rv_h r) && (j <? rv_w r) then Some (fst (rv_at r i j) * m + snd (rv_at r i j)) else None.
Proof.
  intros Hs. unfold v_cell. rewrite (as_ptr_ok m v r Hs). destruct Hs as (E & _ & _ & _ & _ & H). rewrite E. cbn [fst snd].
  destruct (i <? rv_h r) eqn:B1; [|reflexivity]. destruct (j <? rv_w r) eqn:B2; [|reflexivity]. cbn [andb].
  replace (rv_h r =? 0) with false by lia. replace (rv_w r =? 0) with false by lia. cbn [orb obind]. rewrite H by lia. reflexivity.
Qed.

(** positions shown are inside the matrix *)
Definition inside (n m : nat) (r : rview) : Prop :=
  forall i j, i < rv_h r -> j < rv_w r -> fst (rv_at r i j) < n /\ snd (rv_at r i j) < m.
Definition injective_at (r : rview) : Prop :=
  forall i j i' j', i < rv_h r -> j < rv_w r -> i' < rv_h r -> j' < rv_w r -> rv_at r i j = rv_at r i' j' -> i = i' /\ j = j'.
Lemma run_inside n m ops : forall r r', inside n m r -> rv_run r ops = Some r' -> inside n m r'.
Proof.
  induction ops as [|[rows cols|] ops IH]; intros r r' Hi; cbn [rv_run].
  - intros [= <-]. exact Hi.
  - unfold rv_sub. destruct (interval rows _) as [r0 r1]. destruct (interval cols _) as [c0 c1].
    destruct (_ && _) eqn:B; [|discriminate]. apply IH. intros i j H1 H2. cbn in *. apply Hi; lia.
  - apply IH. intros i j H1 H2. cbn in *. apply Hi; lia.
Qed.
Lemma run_injective ops : forall r r', injective_at r -> rv_run r ops = Some r' -> injective_at r'.
Proof.
  induction ops as [|[rows cols|] ops IH]; intros r r' Hi; cbn [rv_run].
  - intros [= <-]. exact Hi.
  - unfold rv_sub. destruct (interval rows _) as [r0 r1]. destruct (interval cols _) as [c0 c1].
    destruct (_ && _) eqn:B; [|discriminate]. apply IH. intros i j i' j' H1 H2 H3 H4 E. cbn in *. apply Hi in E; lia.
  - apply IH. intros i j i' j' H1 H2 H3 H4 E. cbn in *. apply Hi in E; lia.
Qed.
Lemma addr_inj m a b c d : b < m -> d < m -> a * m + b = c * m + d -> a = c /\ b = d.
Proof. intros Hb Hd E. assert (a = c) by nia. subst. lia. Qed.

Section Mem.
  Context {T : Type}.
  Lemma nth_error_app_lt (a b : list T) i : i < length a -> nth_error (a ++ b) i = nth_error a i.
  Proof. apply nth_error_app1. Qed.
  Lemma firstn_nth (k : nat) : forall (l : list T) i, nth_error (firstn k l) i = if i <? k then nth_error l i else None.
  Proof.
    induction k as [|k IH]; intros [|x l] [|i]; cbn [firstn nth_error]; try reflexivity.
    - destruct (_ <? _); reflexivity.
    - rewrite IH. reflexivity.
  Qed.
  Lemma skipn_nth (k : nat) : forall (l : list T) i, nth_error (skipn k l) i = nth_error l (k + i).
  Proof.
    induction k as [|k IH]; intros [|x l] i; cbn [skipn nth_error plus]; try reflexivity.
    - now destruct i.
    - apply IH.
  Qed.
  Lemma load_store (mem : list T) a x b : a < length mem -> exists mem', store mem a x = Some mem' /\ length mem' = length mem /\
    load mem' b = if b =? a then Some x else load mem b.
  Proof.
    intros Ha. unfold store, load. replace (a <? length mem) with true by lia. eexists. split; [reflexivity|]. split.
    - rewrite app_length. cbn [length]. rewrite firstn_length, skipn_length. lia.
    - assert (Hl : length (firstn a mem) = a) by (rewrite firstn_length; lia).
      destruct (Nat.eqb_spec b a) as [->|Hne].
      + rewrite nth_error_app2 by lia. rewrite Hl, Nat.sub_diag. reflexivity.
      + destruct (le_lt_dec a b) as [Hle|Hlt].
        * rewrite nth_error_app2 by lia. rewrite Hl. destruct (b - a) as [|k] eqn:E; [lia|]. cbn [nth_error].
          rewrite skipn_nth. f_equal. lia.
        * rewrite nth_error_app1 by lia. rewrite firstn_nth. now replace (b <? a) with true by lia.
  Qed.
End Mem.
