(** Proofs about the util model. *)
From Coq Require Import List Arith ZArith NArith Bool Lia ZifyBool ZifyNat ZifyN.
From Verif Require Import UtilModel UtilSpec.
Import ListNotations.
Ltac Zify.zify_post_hook ::= Z.div_mod_to_equations.

(* ---------------------------------------------------------------- count_ones *)
Fixpoint pc_pos (p : positive) : nat :=
  match p with xH => 1 | xO p => pc_pos p | xI p => S (pc_pos p) end.
Definition pc (x : N) : nat := match x with N0 => 0 | Npos p => pc_pos p end.

Lemma pc_double x : pc (2 * x) = pc x.
Proof. destruct x; reflexivity. Qed.
Lemma pc_sdouble x : pc (2 * x + 1) = S (pc x).
Proof. destruct x; reflexivity. Qed.

Lemma pc_kernighan_pos p : S (pc (N.land (Npos p) (Npos p - 1))) = pc_pos p.
Proof.
  induction p as [p IH|p IH|].
  - replace (Npos p~1 - 1)%N with (2 * Npos p)%N by lia.
    change (Npos p~1) with (2 * Npos p + 1)%N.
    replace (N.land (2 * Npos p + 1) (2 * Npos p)) with (2 * Npos p)%N.
    + rewrite pc_double. reflexivity.
    + apply N.bits_inj; intro n. rewrite N.land_spec.
      destruct (N.eq_dec n 0) as [->|Hn].
      * rewrite N.testbit_even_0, andb_false_r. reflexivity.
      * replace n with (N.succ (N.pred n)) by lia.
        rewrite N.testbit_odd_succ, N.testbit_even_succ by lia. now rewrite andb_diag.
  - replace (Npos p~0 - 1)%N with (2 * (Npos p - 1) + 1)%N by lia.
    change (Npos p~0) with (2 * Npos p)%N.
    replace (N.land (2 * Npos p) (2 * (Npos p - 1) + 1)) with (2 * N.land (Npos p) (Npos p - 1))%N.
    + rewrite pc_double. exact IH.
    + apply N.bits_inj; intro n. rewrite N.land_spec.
      destruct (N.eq_dec n 0) as [->|Hn].
      * now rewrite !N.testbit_even_0.
      * replace n with (N.succ (N.pred n)) by lia.
        rewrite N.testbit_odd_succ, !N.testbit_even_succ by lia. now rewrite N.land_spec.
  - reflexivity.
Qed.

Lemma count_ones_loop_pc fuel : forall x c, pc x < fuel -> count_ones_loop fuel x c = Some (c + pc x).
Proof.
  induction fuel as [|f IH]; intros x c Hf; [lia|]. cbn [count_ones_loop].
  destruct (N.eqb_spec x 0) as [->|Hx]; [cbn; f_equal; lia|].
  destruct x as [|p]; [lia|].
  pose proof (pc_kernighan_pos p) as HK.
  rewrite IH; cbn [pc] in *; [f_equal|]; lia.
Qed.

Lemma popcount_pc n : forall x, (x < 2 ^ N.of_nat n)%N -> popcount n x = pc x.
Proof.
  induction n as [|n IH]; intros x Hx.
  - cbn in Hx. assert (x = 0%N) as -> by lia. reflexivity.
  - unfold popcount. cbn [seq filter].
    rewrite Nat2N.inj_succ, N.pow_succ_r' in Hx.
    assert (Hs : length (filter (fun i => N.testbit x (N.of_nat i)) (seq 1 n)) = popcount n (N.div2 x)).
    { unfold popcount. rewrite <- seq_shift.
      assert (G : forall l, length (filter (fun i => N.testbit x (N.of_nat i)) (map S l)) =
                   length (filter (fun i => N.testbit (N.div2 x) (N.of_nat i)) l)).
      { induction l as [|a l IHl]; [reflexivity|]. cbn [map filter].
        assert (E : N.testbit (N.div2 x) (N.of_nat a) = N.testbit x (N.of_nat (S a)))
          by (rewrite Nat2N.inj_succ, N.div2_spec, N.shiftr_spec', N.add_1_r; reflexivity).
        rewrite E. destruct (N.testbit x (N.of_nat (S a))); cbn [length]; lia. }
      apply G. }
    rewrite (N.div2_odd x) in Hx.
    assert (Hlt : (N.div2 x < 2 ^ N.of_nat n)%N) by (destruct (N.odd x); cbn [N.b2n] in Hx; lia).
    specialize (IH _ Hlt). change (N.of_nat 0) with 0%N. rewrite N.bit0_odd.
    transitivity (pc (2 * N.div2 x + N.b2n (N.odd x))); [|now rewrite <- N.div2_odd].
    destruct (N.odd x); cbn [N.b2n].
    + rewrite pc_sdouble. cbn [length]. lia.
    + rewrite N.add_0_r, pc_double. lia.
Qed.

Lemma filter_len_le {A} (f : A -> bool) l : length (filter f l) <= length l.
Proof. induction l as [|a l IH]; cbn; [lia|]. destruct (f a); cbn; lia. Qed.
Lemma popcount_le n x : popcount n x <= n.
Proof. unfold popcount. pose proof (filter_len_le (fun i => N.testbit x (N.of_nat i)) (seq 0 n)) as H. rewrite seq_length in H. exact H. Qed.

Lemma count_ones_spec x : (x < 2 ^ 64)%N -> count_ones x = Some (popcount 64 x).
Proof.
  intros Hx. pose proof (popcount_pc 64 x Hx) as E. pose proof (popcount_le 64 x) as L.
  unfold count_ones. rewrite count_ones_loop_pc by lia. f_equal. lia.
Qed.

(* ---------------------------------------------------------------- pools *)
Definition bit (d : list N) (i : nat) : bool :=
  N.testbit (nth (i / 64) d 0%N) (N.of_nat (i mod 64)).
Definition members (d : list N) (len : nat) : list nat := filter (bit d) (seq 0 len).

Record Inv (p : pool) : Prop := {
  I_dlen : length (p_data p) = p_len p / 64 + 1;
  I_word : Forall (fun w => (w < 2 ^ 64)%N) (p_data p);
  I_clear : forall i, p_len p <= i -> bit (p_data p) i = false;
  I_n : p_n p = length (members (p_data p) (p_len p))
}.

Lemma mask_bits i n : N.testbit (mask i) n = (n =? N.of_nat (i mod 64))%N.
Proof.
  unfold mask. rewrite N.shiftl_1_l, N.pow2_bits_eqb. apply N.eqb_sym.
Qed.

Lemma land_mask w i : N.eqb (N.land w (mask i)) (mask i) = N.testbit w (N.of_nat (i mod 64)).
Proof.
  destruct (N.testbit w (N.of_nat (i mod 64))) eqn:E.
  - apply N.eqb_eq. apply N.bits_inj; intro n. rewrite N.land_spec, mask_bits.
    destruct (N.eqb_spec n (N.of_nat (i mod 64))) as [->|]; [now rewrite E|apply andb_false_r].
  - apply N.eqb_neq. intro H.
    assert (N.testbit (N.land w (mask i)) (N.of_nat (i mod 64)) = true) as H1
      by (rewrite H, mask_bits; apply N.eqb_refl).
    rewrite N.land_spec, E in H1. discriminate.
Qed.

Lemma contains_spec p i : length (p_data p) = p_len p / 64 + 1 ->
  pool_contains p i = if i <? p_len p then Some (bit (p_data p) i) else None.
Proof.
  intros HL. unfold pool_contains, check_bounds.
  destruct (Nat.ltb_spec i (p_len p)) as [Hi|Hi]; [|reflexivity].
  assert (Hd : i / 64 < length (p_data p)) by lia.
  destruct (nth_error (p_data p) (i / 64)) as [w|] eqn:E; [|apply nth_error_None in E; lia].
  rewrite land_mask. unfold bit. now rewrite (nth_error_nth _ _ _ E).
Qed.

Lemma upd_spec {A} (f : A -> A) d : forall l k, k < length l ->
  exists l', upd l k f = Some l' /\ length l' = length l /\
    (forall j, nth j l' d = if j =? k then f (nth k l d) else nth j l d).
Proof.
  induction l as [|x l IH]; intros k Hk; [cbn in Hk; lia|].
  destruct k as [|k].
  - exists (f x :: l). repeat split; auto. intros [|j]; reflexivity.
  - cbn in Hk. destruct (IH k) as (l' & E & L & H); [lia|].
    exists (x :: l'). cbn [upd]. rewrite E. repeat split; [cbn; lia|].
    intros [|j]; [reflexivity|]. cbn [nth]. apply H.
Qed.

Lemma upd_none {A} (f : A -> A) : forall l k, length l <= k -> upd l k f = None.
Proof.
  induction l as [|x l IH]; intros k Hk; [reflexivity|]. cbn in Hk.
  destruct k; [lia|]. cbn [upd]. rewrite IH by lia. reflexivity.
Qed.

Lemma Forall_upd {A} (P : A -> Prop) (f : A -> A) : forall l k l', upd l k f = Some l' ->
  Forall P l -> (forall x, P x -> P (f x)) -> Forall P l'.
Proof.
  induction l as [|x l IH]; intros k l' E HF Hf; [discriminate|].
  inversion HF; subst. destruct k; cbn [upd] in E.
  - injection E as <-. constructor; auto.
  - destruct (upd l k f) eqn:E'; [|discriminate]. injection E as <-. constructor; eauto.
Qed.

(* updating one index of a boolean predicate changes the filtered list in a controlled way *)
Lemma nth_upd_bit d k f i : k < length d ->
  (forall w n, (n < 64)%N -> N.testbit (f w) n =
     if (n =? N.of_nat (i mod 64))%N then true else N.testbit w n) -> k = i / 64 ->
  forall d', upd d k f = Some d' -> forall j, bit d' j = if j =? i then true else bit d j.
Proof.
  intros Hk Hf -> d' E j. destruct (upd_spec f 0%N d (i/64) Hk) as (d2 & E2 & L & H).
  rewrite E in E2. injection E2 as <-. unfold bit. rewrite H.
  destruct (Nat.eqb_spec (j/64) (i/64)) as [Hq|Hq].
  - rewrite Hf by lia. rewrite <- Hq.
    destruct (N.eqb_spec (N.of_nat (j mod 64)) (N.of_nat (i mod 64))) as [Hm|Hm];
    destruct (Nat.eqb_spec j i) as [Hj|Hj]; try reflexivity; exfalso; lia.
  - destruct (Nat.eqb_spec j i) as [->|Hj]; [congruence|reflexivity].
Qed.
Lemma nth_upd_bit_clear d k f i : k < length d ->
  (forall w n, (n < 64)%N -> N.testbit (f w) n =
     if (n =? N.of_nat (i mod 64))%N then false else N.testbit w n) -> k = i / 64 ->
  forall d', upd d k f = Some d' -> forall j, bit d' j = if j =? i then false else bit d j.
Proof.
  intros Hk Hf -> d' E j. destruct (upd_spec f 0%N d (i/64) Hk) as (d2 & E2 & L & H).
  rewrite E in E2. injection E2 as <-. unfold bit. rewrite H.
  destruct (Nat.eqb_spec (j/64) (i/64)) as [Hq|Hq].
  - rewrite Hf by lia. rewrite <- Hq.
    destruct (N.eqb_spec (N.of_nat (j mod 64)) (N.of_nat (i mod 64))) as [Hm|Hm];
    destruct (Nat.eqb_spec j i) as [Hj|Hj]; try reflexivity; exfalso; lia.
  - destruct (Nat.eqb_spec j i) as [->|Hj]; [congruence|reflexivity].
Qed.

Lemma count_set (f g : nat -> bool) i : forall l, NoDup l -> In i l -> f i = false ->
  (forall j, g j = if j =? i then true else f j) ->
  length (filter g l) = S (length (filter f l)).
Proof.
  induction l as [|a l IH]; intros ND HI Hf Hg; [contradiction|].
  inversion ND; subst. cbn [filter]. rewrite Hg.
  destruct (Nat.eqb_spec a i) as [->|Ha].
  - rewrite Hf. cbn [length]. f_equal.
    rewrite (filter_ext_in g f); [reflexivity|].
    intros j Hj. rewrite Hg. destruct (Nat.eqb_spec j i) as [->|]; [contradiction|reflexivity].
  - destruct HI as [->|HI]; [congruence|]. specialize (IH H2 HI Hf Hg).
    destruct (f a); cbn [length]; lia.
Qed.

Lemma word_lt_bits w : (forall n, (64 <= n)%N -> N.testbit w n = false) -> (w < 2 ^ 64)%N.
Proof.
  intros H. destruct (N.eq_dec w 0) as [->|Hw]; [reflexivity|].
  apply N.log2_lt_pow2; [lia|]. destruct (N.lt_ge_cases (N.log2 w) 64) as [|Hge]; [assumption|].
  specialize (H _ Hge). rewrite N.bit_log2 in H by assumption. discriminate.
Qed.
Lemma bits_word_lt w n : (w < 2 ^ 64)%N -> (64 <= n)%N -> N.testbit w n = false.
Proof.
  intros H Hn. destruct (N.eq_dec w 0) as [->|Hw]; [apply N.bits_0|].
  apply N.bits_above_log2. apply N.log2_lt_pow2 in H; lia.
Qed.

Lemma add_spec p i : Inv p -> i < p_len p ->
  exists p', pool_add p i = Some p' /\ Inv p' /\ p_len p' = p_len p /\
    (forall j, bit (p_data p') j = if j =? i then true else bit (p_data p) j).
Proof.
  intros [HL HW HC HN] Hi. unfold pool_add, check_bounds.
  destruct (Nat.ltb_spec i (p_len p)); [|lia].
  rewrite contains_spec by assumption. destruct (Nat.ltb_spec i (p_len p)); [|lia].
  assert (Hk : i / 64 < length (p_data p)) by lia.
  destruct (upd_spec (fun w => N.lor w (mask i)) 0%N (p_data p) (i/64) Hk) as (d' & E & L & Hn).
  assert (HB : forall j, bit d' j = if j =? i then true else bit (p_data p) j).
  { intro j. eapply nth_upd_bit; try exact E; try reflexivity; try assumption.
    intros w n Hn'. cbn beta. rewrite N.lor_spec, mask_bits.
    destruct (n =? _)%N; [apply orb_true_r|apply orb_false_r]. }
  rewrite E. eexists; split; [reflexivity|]. cbn [p_len p_n p_data]. split; [|split; [reflexivity|exact HB]].
  constructor; cbn [p_len p_n p_data].
  - lia.
  - eapply Forall_upd; [exact E|exact HW|]. intros w Hw. cbn beta. apply word_lt_bits. intros n Hge.
    rewrite N.lor_spec, mask_bits, bits_word_lt by assumption. cbn [orb].
    apply N.eqb_neq. lia.
  - intros j Hj. rewrite HB. destruct (Nat.eqb_spec j i); [lia|]. now apply HC.
  - rewrite HN. unfold members. destruct (bit (p_data p) i) eqn:Eb.
    + f_equal. apply filter_ext. intro j. rewrite HB.
      destruct (Nat.eqb_spec j i) as [->|]; [assumption|reflexivity].
    + symmetry. apply count_set with (i := i); auto using seq_NoDup. apply in_seq. lia.
Qed.

Lemma lnot_mask w i n : (n < 64)%N -> N.testbit (N.land w (N.lnot (mask i) 64)) n =
  if (n =? N.of_nat (i mod 64))%N then false else N.testbit w n.
Proof.
  intros Hn. rewrite N.land_spec, N.lnot_spec_low, mask_bits by assumption.
  destruct (n =? _)%N; [apply andb_false_r|apply andb_true_r].
Qed.

Lemma remove_spec p i : Inv p -> i < p_len p ->
  exists p', pool_remove p i = Some p' /\ Inv p' /\ p_len p' = p_len p /\
    (forall j, bit (p_data p') j = if j =? i then false else bit (p_data p) j).
Proof.
  intros [HL HW HC HN] Hi. unfold pool_remove, check_bounds.
  destruct (Nat.ltb_spec i (p_len p)); [|lia].
  rewrite contains_spec by assumption. destruct (Nat.ltb_spec i (p_len p)); [|lia].
  assert (Hk : i / 64 < length (p_data p)) by lia.
  destruct (upd_spec (fun w => N.land w (N.lnot (mask i) 64)) 0%N (p_data p) (i/64) Hk) as (d' & E & L & Hn).
  assert (HB : forall j, bit d' j = if j =? i then false else bit (p_data p) j).
  { intro j. eapply nth_upd_bit_clear; try exact E; try reflexivity; try assumption.
    intros w n Hn'. cbn beta. now apply lnot_mask. }
  assert (HW' : Forall (fun w => (w < 2 ^ 64)%N) d').
  { eapply Forall_upd; [exact E|exact HW|]. intros w Hw. cbn beta. apply word_lt_bits. intros n Hge.
    rewrite N.land_spec, bits_word_lt by assumption. reflexivity. }
  assert (HC' : forall j, p_len p <= j -> bit d' j = false).
  { intros j Hj. rewrite HB. destruct (Nat.eqb_spec j i); [reflexivity|]. now apply HC. }
  rewrite E. destruct (bit (p_data p) i) eqn:Eb.
  - assert (HS : length (members (p_data p) (p_len p)) = S (length (members d' (p_len p)))).
    { unfold members. apply count_set with (i := i); auto using seq_NoDup.
      - apply in_seq. lia.
      - rewrite HB, Nat.eqb_refl. reflexivity.
      - intro j. rewrite HB. destruct (Nat.eqb_spec j i) as [->|]; auto. }
    rewrite HN, HS. eexists; split; [reflexivity|]. cbn [p_len p_n p_data]. split; [|split; [reflexivity|exact HB]].
    constructor; cbn [p_len p_n p_data a_len a_mem]; auto; lia.
  - eexists; split; [reflexivity|]. cbn [p_len p_n p_data]. split; [|split; [reflexivity|exact HB]].
    constructor; cbn [p_len p_n p_data a_len a_mem]; auto; try lia. rewrite HN. unfold members. f_equal. apply filter_ext.
    intro j. rewrite HB. destruct (Nat.eqb_spec j i) as [->|]; auto.
Qed.

Lemma nth_repeat0 n k : nth k (repeat 0%N n) 0%N = 0%N.
Proof. revert k; induction n; intros [|k]; cbn; auto. Qed.

Lemma filter_none {A} (f : A -> bool) l : (forall x, In x l -> f x = false) -> filter f l = [].
Proof. induction l as [|a l IH]; intros H; [reflexivity|]. cbn. rewrite H by now left. apply IH. intros; apply H; now right. Qed.

Lemma new_spec n : Inv (pool_new n) /\ p_len (pool_new n) = n /\ forall i, bit (p_data (pool_new n)) i = false.
Proof.
  assert (HB : forall i, bit (repeat 0%N (n/64+1)) i = false).
  { intro i. unfold bit. rewrite nth_repeat0. apply N.bits_0. }
  split; [|split; [reflexivity|exact HB]]. constructor; cbn [p_len p_data p_n pool_new].
  - apply repeat_length.
  - apply Forall_forall. intros w Hw. apply repeat_spec in Hw. subst. reflexivity.
  - auto.
  - unfold members. rewrite filter_none; auto.
Qed.

Lemma add_all_spec : forall l p, Inv p -> Forall (fun i => i < p_len p) l ->
  exists p', pool_add_all p l = Some p' /\ Inv p' /\ p_len p' = p_len p /\
    (forall j, bit (p_data p') j = mem j l || bit (p_data p) j).
Proof.
  induction l as [|i l IH]; intros p HI HF.
  - exists p. auto.
  - inversion HF; subst. destruct (add_spec p i HI H1) as (p1 & E & HI1 & HL1 & HB1).
    cbn [pool_add_all]. rewrite E.
    destruct (IH p1 HI1) as (p2 & E2 & HI2 & HL2 & HB2).
    { now rewrite HL1. }
    exists p2. repeat split; try congruence; try apply HI2.
    intro j. rewrite HB2, HB1. unfold mem. cbn [existsb].
    destruct (Nat.eqb_spec j i) as [->|]; cbn; [now rewrite orb_true_r|reflexivity].
Qed.

Lemma add_oob p i : p_len p <= i -> pool_add p i = None.
Proof. intros H. unfold pool_add, check_bounds. destruct (Nat.ltb_spec i (p_len p)); [lia|reflexivity]. Qed.
Lemma remove_oob p i : p_len p <= i -> pool_remove p i = None.
Proof. intros H. unfold pool_remove, check_bounds. destruct (Nat.ltb_spec i (p_len p)); [lia|reflexivity]. Qed.

Lemma pool_add_len p i p' : pool_add p i = Some p' -> p_len p' = p_len p.
Proof.
  unfold pool_add. destruct (check_bounds p i); [|discriminate].
  destruct (pool_contains p i); [|discriminate]. destruct (upd _ _ _); [|discriminate].
  intros [= <-]. reflexivity.
Qed.

Lemma add_all_oob : forall l p, ~ Forall (fun i => i < p_len p) l -> pool_add_all p l = None.
Proof.
  induction l as [|i l IH]; intros p H; [destruct H; constructor|].
  cbn [pool_add_all]. destruct (pool_add p i) as [p'|] eqn:E; [|reflexivity].
  pose proof (pool_add_len _ _ _ E) as HL. apply IH. rewrite HL. intro HF. apply H. constructor; auto.
  destruct (Nat.lt_ge_cases i (p_len p)) as [|Hge]; [assumption|].
  rewrite add_oob in E by assumption. discriminate.
Qed.

Lemma list_max_lt l n : l <> [] -> list_max l < n <-> Forall (fun k => k < n) l.
Proof. intros H. apply list_max_lt. assumption. Qed.

Lemma from_spec n l : Forall (fun i => i < n) l ->
  exists p, pool_from n l = Some p /\ Inv p /\ p_len p = n /\ forall j, bit (p_data p) j = mem j l.
Proof.
  intros HF. destruct (new_spec n) as (HI & HL & HB). destruct l as [|a l].
  - exists (pool_new n). repeat split; auto; apply HI.
  - unfold pool_from. assert (Hm : list_max (a :: l) < n) by (apply list_max_lt; [discriminate|assumption]).
    destruct (Nat.ltb_spec n (list_max (a :: l) / 64 + 1)); [lia|].
    change (mkPool n 0 (repeat 0%N (n / 64 + 1))) with (pool_new n).
    destruct (add_all_spec (a :: l) (pool_new n) HI HF) as (p & E & HI' & HL' & HB').
    exists p. repeat split; try apply HI'; try congruence. intro j. rewrite HB', HB. apply orb_false_r.
Qed.

Lemma from_oob n l : ~ Forall (fun i => i < n) l -> pool_from n l = None.
Proof.
  intros H. destruct l as [|a l]; [destruct H; constructor|]. unfold pool_from.
  destruct (n <? _); [reflexivity|]. apply add_all_oob. exact H.
Qed.

Lemma resize_spec p n : Inv p ->
  Inv (pool_resize p n) /\ p_len (pool_resize p n) = (if n <? p_len p then p_len p else n) /\
  forall j, bit (p_data (pool_resize p n)) j = bit (p_data p) j.
Proof.
  intros [HL HW HC HN]. unfold pool_resize. destruct (Nat.ltb_spec n (p_len p)) as [Hn|Hn].
  - repeat split; auto.
  - assert (HB : forall j, bit (p_data p ++ repeat 0%N (n / 64 + 1 - length (p_data p))) j = bit (p_data p) j).
    { intro j. unfold bit. destruct (Nat.lt_ge_cases (j/64) (length (p_data p))) as [Hj|Hj].
      - now rewrite app_nth1.
      - rewrite app_nth2, nth_repeat0 by assumption. now rewrite nth_overflow. }
    split; [|split; [reflexivity|exact HB]].
    constructor; cbn [p_len p_n p_data].
    + rewrite app_length, repeat_length, HL. lia.
    + apply Forall_app; split; [assumption|]. apply Forall_forall. intros w Hw. apply repeat_spec in Hw. subst. reflexivity.
    + intros j Hj. rewrite HB. apply HC. lia.
    + rewrite HN. unfold members. rewrite (filter_ext _ _ HB).
      assert (En : seq 0 n = seq 0 (p_len p) ++ seq (0 + p_len p) (n - p_len p))
        by (rewrite <- seq_app; f_equal; lia).
      rewrite En, filter_app, app_length.
      rewrite (filter_none _ (seq (0 + p_len p) (n - p_len p))).
      * cbn [length]. lia.
      * intros x Hx. apply in_seq in Hx. apply HC. lia.
Qed.

Lemma zip_with_keep_length f : forall a b, length (zip_with_keep f a b) = length a.
Proof. induction a as [|x a IH]; intros [|y b]; cbn; auto. Qed.
Lemma zip_with_keep_nth f : forall a b k, length a = length b -> k < length a ->
  nth k (zip_with_keep f a b) 0%N = f (nth k a 0%N) (nth k b 0%N).
Proof.
  induction a as [|x a IH]; intros [|y b] k HL Hk; cbn in *; try lia.
  destruct k; [reflexivity|]. apply IH; lia.
Qed.

Lemma filter_shift {A} (f : nat -> A) (P : A -> bool) k : forall n s,
  length (filter (fun i => P (f i)) (seq (k + s) n)) = length (filter (fun i => P (f (k + i))) (seq s n)).
Proof.
  induction n as [|n IH]; intros s; [reflexivity|]. cbn [seq filter].
  rewrite <- Nat.add_succ_r. destruct (P (f (k+s))); cbn [length]; rewrite IH; reflexivity.
Qed.

Lemma popcount_shift (f g : nat -> bool) n : (forall i, i < n -> f i = g i) ->
  length (filter f (seq 0 n)) = length (filter g (seq 0 n)).
Proof. intros H. f_equal. apply filter_ext_in. intros i Hi. apply in_seq in Hi. apply H. lia. Qed.

Lemma sum_ones_spec : forall d, Forall (fun w => (w < 2 ^ 64)%N) d ->
  sum_ones d = Some (length (members d (64 * length d))).
Proof.
  induction d as [|w d IH]; intros HF; [reflexivity|].
  inversion HF; subst. cbn [sum_ones]. rewrite count_ones_spec, IH by assumption. f_equal.
  unfold members. replace (64 * length (w :: d)) with (64 + 64 * length d) by (cbn [length]; lia).
  rewrite (seq_app 64), filter_app, app_length. apply (f_equal2 Nat.add).
  - unfold popcount. apply popcount_shift. intros i Hi. unfold bit.
    rewrite Nat.div_small, Nat.mod_small by assumption. reflexivity.
  - replace (0 + 64) with (64 + 0) by lia.
    rewrite (filter_shift (fun i => i) (bit (w :: d))). apply f_equal. apply filter_ext.
    intro i. unfold bit.
    replace ((64 + i) / 64) with (S (i / 64)) by lia. replace ((64 + i) mod 64) with (i mod 64) by lia.
    reflexivity.
Qed.

Lemma combine_spec f g p q : Inv p -> Inv q -> p_len p = p_len q ->
  (forall x y n, N.testbit (f x y) n = g (N.testbit x n) (N.testbit y n)) -> g false false = false ->
  exists r, pool_combine f p q = Some r /\ Inv r /\ p_len r = p_len p /\
    forall j, bit (p_data r) j = g (bit (p_data p) j) (bit (p_data q) j).
Proof.
  intros HP HQ HE Hf Hg. destruct HP as [HL HW HC HN], HQ as [HL2 HW2 HC2 HN2].
  unfold pool_combine. destruct (Nat.eqb_spec (p_len p) (p_len q)); [|lia].
  set (d := zip_with_keep f (p_data p) (p_data q)).
  assert (Ld : length d = length (p_data p)) by apply zip_with_keep_length.
  assert (HB : forall j, bit d j = g (bit (p_data p) j) (bit (p_data q) j)).
  { intro j. unfold bit. destruct (Nat.lt_ge_cases (j/64) (length (p_data p))) as [Hj|Hj].
    - unfold d. rewrite zip_with_keep_nth by lia. apply Hf.
    - rewrite !nth_overflow by lia. now rewrite !N.bits_0. }
  assert (HWd : Forall (fun w => (w < 2 ^ 64)%N) d).
  { apply Forall_forall. intros w Hw. apply (In_nth _ _ 0%N) in Hw. destruct Hw as (k & Hk & <-).
    unfold d in *. rewrite zip_with_keep_nth by lia. apply word_lt_bits. intros n Hn. rewrite Hf.
    rewrite Forall_forall in HW, HW2.
    rewrite !bits_word_lt; auto; [apply HW2, nth_In; lia|apply HW, nth_In; lia]. }
  rewrite sum_ones_spec by assumption. eexists; split; [reflexivity|]. cbn [p_len p_n p_data].
  split; [|split; [reflexivity|exact HB]].
  constructor; cbn [p_len p_n p_data]; auto; try lia.
  - intros i Hi. rewrite HB, HC, HC2 by lia. assumption.
  - unfold members. replace (64 * length d) with (p_len p + (64 * length d - p_len p)) by lia.
    rewrite seq_app, filter_app, app_length, (filter_none _ (seq (0 + p_len p) _)); [cbn [length]; lia|].
    intros x Hx. apply in_seq in Hx. rewrite HB, HC, HC2 by lia. assumption.
Qed.

(* ---------------------------------------------------------------- refinement *)
Lemma mem_In i l : mem i l = true <-> In i l.
Proof.
  unfold mem. rewrite existsb_exists. split.
  - intros (x & Hx & E). apply Nat.eqb_eq in E. now subst.
  - intros H. exists i. split; [assumption|apply Nat.eqb_refl].
Qed.
Lemma mem_false i l : mem i l = false <-> ~ In i l.
Proof. rewrite <- mem_In. destruct (mem i l); split; congruence. Qed.

Record Rel (p : pool) (s : aset) : Prop := {
  R_inv : Inv p; R_len : p_len p = a_len s; R_nd : NoDup (a_mem s);
  R_mem : forall i, bit (p_data p) i = mem i (a_mem s) }.

Definition ORel (p : option pool) (s : option aset) : Prop :=
  match p, s with None, None => True | Some p, Some s => Rel p s | _, _ => False end.

Lemma forallb_Forall n l : forallb (fun i => i <? n) l = true <-> Forall (fun i => i < n) l.
Proof. rewrite forallb_forall, Forall_forall. split; intros H x Hx; apply H in Hx; lia. Qed.

Lemma mem_add j l i : mem j (a_add l i) = (j =? i) || mem j l.
Proof.
  unfold a_add. destruct (mem i l) eqn:E; [|reflexivity].
  destruct (Nat.eqb_spec j i) as [->|]; cbn; auto.
Qed.
Lemma mem_remove j l i : mem j (a_remove l i) = if j =? i then false else mem j l.
Proof.
  apply eq_true_iff_eq. rewrite mem_In. unfold a_remove. rewrite filter_In.
  destruct (Nat.eqb_spec j i) as [->|Hj]; cbn; rewrite ?mem_In; intuition congruence.
Qed.
Lemma mem_filter j f l : mem j (filter f l) = mem j l && f j.
Proof. apply eq_true_iff_eq. rewrite andb_true_iff, !mem_In, filter_In. tauto. Qed.
Lemma mem_nodup j l : mem j (nodup Nat.eq_dec l) = mem j l.
Proof. apply eq_true_iff_eq. rewrite !mem_In. apply nodup_In. Qed.
Lemma mem_app j l m : mem j (l ++ m) = mem j l || mem j m.
Proof. apply existsb_app. Qed.
Lemma mem_seq j n : mem j (seq 0 n) = (j <? n).
Proof. apply eq_true_iff_eq. rewrite mem_In, in_seq, Nat.ltb_lt. lia. Qed.

Lemma refinement e : ORel (run_pool e) (run_set e).
Proof.
  induction e as [n|n l|e IH i|e IH i|e IH|e IH n|e IHe f IHf|e IHe f IHf]; cbn [run_pool run_set].
  - destruct (new_spec n) as (HI & HL & HB). constructor; auto. constructor.
  - destruct (forallb (fun i => i <? n) l) eqn:E.
    + apply forallb_Forall in E. destruct (from_spec n l E) as (p & -> & HI & HL & HB).
      constructor; auto; [apply NoDup_nodup|]. intro i. cbn [a_mem]. now rewrite mem_nodup.
    + rewrite from_oob; [exact I|]. rewrite <- forallb_Forall. congruence.
  - destruct (run_pool e) as [p|], (run_set e) as [s|]; cbn [bind ORel] in *; try contradiction; auto.
    destruct IH as [HI HL HN HM]. rewrite <- HL. destruct (Nat.ltb_spec i (p_len p)) as [Hi|Hi].
    + destruct (add_spec p i HI Hi) as (p' & -> & HI' & HL' & HB'). constructor; cbn [p_len p_n p_data a_len a_mem]; auto.
      * unfold a_add. destruct (mem i (a_mem s)) eqn:E; auto. constructor; auto. now apply mem_false.
      * intro j. rewrite HB', HM, mem_add. destruct (j =? i); reflexivity.
    + rewrite add_oob by assumption. exact I.
  - destruct (run_pool e) as [p|], (run_set e) as [s|]; cbn [bind ORel] in *; try contradiction; auto.
    destruct IH as [HI HL HN HM]. rewrite <- HL. destruct (Nat.ltb_spec i (p_len p)) as [Hi|Hi].
    + destruct (remove_spec p i HI Hi) as (p' & -> & HI' & HL' & HB'). constructor; cbn [p_len p_n p_data a_len a_mem]; auto.
      * now apply NoDup_filter.
      * intro j. now rewrite HB', HM, mem_remove.
    + rewrite remove_oob by assumption. exact I.
  - destruct (run_pool e) as [p|], (run_set e) as [s|]; cbn [bind ORel] in *; try contradiction; auto.
    destruct IH as [HI HL HN HM]. unfold pool_fill.
    destruct (add_all_spec (seq 0 (p_len p)) p HI) as (p' & -> & HI' & HL' & HB').
    + apply Forall_forall. intros x Hx. apply in_seq in Hx. lia.
    + constructor; cbn [p_len p_n p_data a_len a_mem]; auto; [congruence|apply seq_NoDup|]. intro j.
      rewrite HB', !mem_seq, <- HL. destruct (Nat.ltb_spec j (p_len p)); [reflexivity|].
      cbn. now apply (I_clear _ HI).
  - destruct (run_pool e) as [p|], (run_set e) as [s|]; cbn [bind ORel] in *; try contradiction; auto.
    destruct IH as [HI HL HN HM]. destruct (resize_spec p n HI) as (HI' & HL' & HB').
    rewrite <- HL. destruct (Nat.ltb_spec n (p_len p)); constructor; cbn [p_len p_n p_data a_len a_mem]; auto; try congruence;
      intro j; rewrite HB'; apply HM.
  - destruct (run_pool e) as [p|], (run_set e) as [s|]; cbn [bind ORel] in *; try contradiction; auto.
    destruct (run_pool f) as [q|], (run_set f) as [t|]; cbn [bind ORel] in *; try contradiction; auto.
    destruct IHe as [HI HL HN HM], IHf as [HI2 HL2 HN2 HM2]. rewrite <- HL, <- HL2.
    destruct (Nat.eqb_spec (p_len p) (p_len q)) as [He|He].
    + unfold pool_union, pool_inter. destruct (combine_spec N.lor orb p q) as (r & -> & HI' & HL' & HB'); auto using N.lor_spec.
      constructor; cbn [p_len p_n p_data a_len a_mem]; auto; [apply NoDup_nodup|]. intro j.
      now rewrite HB', HM, HM2, mem_nodup, mem_app.
    + unfold pool_union, pool_combine. destruct (Nat.eqb_spec (p_len p) (p_len q)); [contradiction|exact I].
  - destruct (run_pool e) as [p|], (run_set e) as [s|]; cbn [bind ORel] in *; try contradiction; auto.
    destruct (run_pool f) as [q|], (run_set f) as [t|]; cbn [bind ORel] in *; try contradiction; auto.
    destruct IHe as [HI HL HN HM], IHf as [HI2 HL2 HN2 HM2]. rewrite <- HL, <- HL2.
    destruct (Nat.eqb_spec (p_len p) (p_len q)) as [He|He].
    + unfold pool_union, pool_inter. destruct (combine_spec N.land andb p q) as (r & -> & HI' & HL' & HB'); auto using N.land_spec.
      constructor; cbn [p_len p_n p_data a_len a_mem]; auto; [now apply NoDup_filter|]. intro j.
      now rewrite HB', HM, HM2, mem_filter.
    + unfold pool_inter, pool_combine. destruct (Nat.eqb_spec (p_len p) (p_len q)); [contradiction|exact I].
Qed.

Lemma mem_lt p s i : Rel p s -> mem i (a_mem s) = true -> i < a_len s.
Proof.
  intros [HI HL HN HM] H. rewrite <- HL. destruct (Nat.lt_ge_cases i (p_len p)); [assumption|].
  rewrite <- HM, (I_clear _ HI) in H by assumption. discriminate.
Qed.

Lemma NoDup_same_length (l m : list nat) : NoDup l -> NoDup m -> (forall x, In x l <-> In x m) -> length l = length m.
Proof.
  intros H1 H2 H. apply Nat.le_antisymm; apply NoDup_incl_length; auto; intros x; apply H.
Qed.

Lemma rel_n p s : Rel p s -> p_n p = length (a_mem s).
Proof.
  intros HR. pose proof HR as [HI HL HN HM]. rewrite (I_n _ HI). apply NoDup_same_length; auto.
  - apply NoDup_filter, seq_NoDup.
  - intro x. unfold members. rewrite filter_In, HM, in_seq, mem_In. split; [tauto|].
    intro Hx. split; [|assumption]. apply mem_In in Hx. apply (mem_lt p s) in Hx; auto. lia.
Qed.

Lemma rel_full p s : Rel p s -> (pool_is_full p = true <-> forall i, i < a_len s -> In i (a_mem s)).
Proof.
  intros HR. pose proof (rel_n _ _ HR) as Hn. pose proof HR as [HI HL HN HM].
  unfold pool_is_full. rewrite Nat.eqb_eq, Hn, HL. split.
  - intros HE i Hi.
    assert (HIn : incl (seq 0 (a_len s)) (a_mem s)).
    { apply NoDup_length_incl; auto; [rewrite seq_length; lia|].
      intros x Hx. apply mem_In in Hx. apply (mem_lt p s) in Hx; auto. apply in_seq; lia. }
    apply HIn, in_seq. lia.
  - intros H. rewrite <- (seq_length (a_len s) 0). apply NoDup_same_length; auto using seq_NoDup.
    intro x. rewrite in_seq. split.
    + intro Hx. apply mem_In in Hx. apply (mem_lt p s) in Hx; auto. lia.
    + intros [_ Hx]. apply H. lia.
Qed.

Theorem pool_refines e :
  match run_pool e, run_set e with
  | None, None => True
  | Some p, Some s =>
      p_len p = a_len s /\ NoDup (a_mem s) /\
      (forall i, pool_contains p i = if i <? a_len s then Some (mem i (a_mem s)) else None) /\
      pool_n_elements p = length (a_mem s) /\
      (pool_is_full p = true <-> forall i, i < a_len s -> In i (a_mem s))
  | _, _ => False
  end.
Proof.
  pose proof (refinement e) as H. destruct (run_pool e) as [p|], (run_set e) as [s|]; auto.
  cbn in H. pose proof H as [HI HL HN HM]. repeat split; auto.
  - intro i. rewrite contains_spec by apply HI. rewrite HL, HM. reflexivity.
  - now apply rel_n.
  - now apply rel_full.
  - now apply rel_full.
Qed.

(* ---------------------------------------------------------------- iteration *)
Lemma iter_next_spec p (HI : Inv p) : forall rem start, start + rem = p_len p ->
  pool_iter_next p start rem = Some (match filter (bit (p_data p)) (seq start rem) with
                                     | [] => None
                                     | i :: _ => Some (i, (S i, p_len p - S i)) end).
Proof.
  induction rem as [|r IH]; intros start HS; [reflexivity|]. cbn [pool_iter_next seq filter].
  rewrite contains_spec by apply HI. destruct (Nat.ltb_spec start (p_len p)); [|lia].
  destruct (bit (p_data p) start).
  - repeat f_equal. lia.
  - apply IH. lia.
Qed.

Lemma filter_head (f : nat -> bool) : forall n s i l, filter f (seq s n) = i :: l ->
  s <= i < s + n /\ l = filter f (seq (S i) (s + n - S i)).
Proof.
  induction n as [|n IH]; intros s i l H; [discriminate|]. cbn [seq filter] in H.
  destruct (f s).
  - injection H as <- <-. split; [lia|]. do 2 f_equal. lia.
  - apply IH in H as [H1 ->]. split; [lia|]. do 2 f_equal. lia.
Qed.

Lemma iter_run_spec p (HI : Inv p) : forall fuel start rem, rem < fuel -> start + rem = p_len p ->
  pool_iter_run fuel p start rem = Some (filter (bit (p_data p)) (seq start rem)).
Proof.
  induction fuel as [|f IH]; intros start rem Hf HS; [lia|]. cbn [pool_iter_run].
  rewrite iter_next_spec by assumption.
  destruct (filter (bit (p_data p)) (seq start rem)) as [|i l] eqn:E; [reflexivity|].
  apply filter_head in E as [Hi ->]. rewrite IH by lia. repeat f_equal. lia.
Qed.

Lemma iter_spec p : Inv p -> pool_iter p = Some (members (p_data p) (p_len p)).
Proof. intros HI. unfold pool_iter. apply iter_run_spec; auto. Qed.

Lemma si_cons' x l : strictly_inc l -> (forall y, In y l -> x < y) -> strictly_inc (x :: l).
Proof. intros H Hl. destruct l as [|y l]; constructor; auto. apply Hl. now left. Qed.
Lemma si_filter_seq (f : nat -> bool) : forall n s, strictly_inc (filter f (seq s n)).
Proof.
  induction n as [|n IH]; intros s; [constructor|]. cbn [seq filter]. destruct (f s); auto.
  apply si_cons'; auto. intros y Hy. apply filter_In in Hy as [Hy _]. apply in_seq in Hy. lia.
Qed.

Theorem iter_theorem e p : run_pool e = Some p ->
  exists l, pool_iter p = Some l /\ strictly_inc l /\ (forall i, In i l <-> pool_contains p i = Some true).
Proof.
  intros E. pose proof (refinement e) as H. rewrite E in H.
  destruct (run_set e) as [s|]; [|contradiction]. destruct H as [HI HL HN HM].
  exists (members (p_data p) (p_len p)). split; [now apply iter_spec|]. split; [apply si_filter_seq|].
  intro i. unfold members. rewrite filter_In, in_seq, contains_spec by apply HI.
  destruct (Nat.ltb_spec i (p_len p)); split; try congruence.
  - intros [_ ->]. reflexivity.
  - intros [= ->]. split; [lia|reflexivity].
  - intros [? _]. lia.
Qed.

(* ---------------------------------------------------------------- subset, equality *)
Lemma zip_all_sub_spec : forall a b, length a = length b ->
  zip_all_sub a b = true <-> forall k n, N.testbit (nth k a 0%N) n = true -> N.testbit (nth k b 0%N) n = true.
Proof.
  induction a as [|x a IH]; intros [|y b] HL; cbn in HL; try lia; cbn [zip_all_sub].
  - split; auto.
  - rewrite andb_true_iff, N.eqb_eq, IH by lia. split.
    + intros [H1 H2] [|k] n; cbn [nth]; [|apply H2]. rewrite <- H1 at 1. rewrite N.land_spec, andb_true_iff. tauto.
    + intros H. split.
      * apply N.bits_inj; intro n. rewrite N.land_spec. specialize (H 0 n). cbn [nth] in H.
        destruct (N.testbit x n); auto.
      * intros k n. apply (H (S k) n).
Qed.

Lemma bit_of d k n : Forall (fun w => (w < 2 ^ 64)%N) d -> (n < 64)%N ->
  N.testbit (nth k d 0%N) n = bit d (64 * k + N.to_nat n).
Proof.
  intros _ Hn. unfold bit. replace ((64 * k + N.to_nat n) / 64) with k by lia.
  replace ((64 * k + N.to_nat n) mod 64) with (N.to_nat n) by lia. now rewrite N2Nat.id.
Qed.
Lemma bit_high d k n : Forall (fun w => (w < 2 ^ 64)%N) d -> (64 <= n)%N -> N.testbit (nth k d 0%N) n = false.
Proof.
  intros HF Hn. destruct (Nat.lt_ge_cases k (length d)) as [Hk|Hk].
  - apply bits_word_lt; auto. rewrite Forall_forall in HF. apply HF, nth_In, Hk.
  - rewrite nth_overflow by assumption. apply N.bits_0.
Qed.

Lemma sub_bits a b : length a = length b -> Forall (fun w => (w < 2 ^ 64)%N) a -> Forall (fun w => (w < 2 ^ 64)%N) b ->
  zip_all_sub a b = true <-> forall i, bit a i = true -> bit b i = true.
Proof.
  intros HL Ha Hb. rewrite zip_all_sub_spec by assumption. split.
  - intros H i. apply H.
  - intros H k n. destruct (N.lt_ge_cases n 64) as [Hn|Hn].
    + rewrite !bit_of by assumption. apply H.
    + rewrite (bit_high a) by assumption. discriminate.
Qed.

Lemma data_eqb_eq : forall a b, data_eqb a b = true <-> a = b.
Proof.
  induction a as [|x a IH]; intros [|y b]; cbn; split; try congruence.
  - rewrite andb_true_iff, N.eqb_eq, IH. intros [-> ->]. reflexivity.
  - intros [= -> ->]. rewrite andb_true_iff, N.eqb_eq, IH. auto.
Qed.

Theorem subset_theorem e f p q : run_pool e = Some p -> run_pool f = Some q ->
  if p_len p =? p_len q then
    exists b, pool_is_subset_of p q = Some b /\
      (b = true <-> forall i, pool_contains p i = Some true -> pool_contains q i = Some true)
  else pool_is_subset_of p q = None.
Proof.
  intros E F. pose proof (refinement e) as H. rewrite E in H. pose proof (refinement f) as G. rewrite F in G.
  destruct (run_set e) as [s|]; [|contradiction]. destruct (run_set f) as [t|]; [|contradiction].
  destruct H as [HI HL HN HM], G as [HI2 HL2 HN2 HM2]. unfold pool_is_subset_of.
  destruct (Nat.eqb_spec (p_len p) (p_len q)) as [He|He]; [|reflexivity].
  eexists; split; [reflexivity|]. destruct HI as [D W C NN], HI2 as [D2 W2 C2 NN2].
  rewrite sub_bits by (auto; lia). split.
  - intros H i. rewrite !contains_spec by assumption. rewrite <- He.
    destruct (i <? p_len p); [|congruence]. intros [= Hb]. now rewrite H.
  - intros H i Hi. specialize (H i). rewrite !contains_spec in H by assumption. rewrite <- He in H.
    destruct (Nat.ltb_spec i (p_len p)) as [Hlt|Hge].
    + rewrite Hi in H. specialize (H eq_refl). congruence.
    + rewrite C in Hi by assumption. discriminate.
Qed.

Theorem eq_theorem e f p q : run_pool e = Some p -> run_pool f = Some q ->
  (pool_eqb p q = true <-> p_len p = p_len q /\ forall i, pool_contains p i = pool_contains q i).
Proof.
  intros E F. pose proof (refinement e) as H. rewrite E in H. pose proof (refinement f) as G. rewrite F in G.
  destruct (run_set e) as [s|]; [|contradiction]. destruct (run_set f) as [t|]; [|contradiction].
  destruct H as [HI HL HN HM], G as [HI2 HL2 HN2 HM2].
  destruct HI as [D W C NN], HI2 as [D2 W2 C2 NN2]. unfold pool_eqb.
  rewrite !andb_true_iff, !Nat.eqb_eq, data_eqb_eq. split.
  - intros [[H1 H2] H3]. split; [assumption|]. intro i. rewrite !contains_spec by assumption. now rewrite H1, H3.
  - intros [H1 H2].
    assert (HB : forall i, bit (p_data p) i = bit (p_data q) i).
    { intro i. specialize (H2 i). rewrite !contains_spec in H2 by assumption.
      destruct (Nat.lt_ge_cases i (p_len p)) as [Hi|Hi].
      - rewrite <- H1 in H2. destruct (Nat.ltb_spec i (p_len p)); [congruence|lia].
      - rewrite C, C2 by lia. reflexivity. }
    assert (HD : p_data p = p_data q).
    { apply nth_ext with (d := 0%N) (d' := 0%N); [lia|]. intros k Hk. apply N.bits_inj; intro n.
      destruct (N.lt_ge_cases n 64) as [Hn|Hn]; [rewrite !bit_of by assumption; apply HB|].
      rewrite !bit_high by assumption. reflexivity. }
    repeat split; auto. rewrite NN, NN2, HD, H1. reflexivity.
Qed.

Theorem from_theorem n l :
  (Forall (fun i => i < n) l ->
     exists p, pool_from n l = Some p /\ p_len p = n /\
       (forall i, i < n -> pool_contains p i = Some (mem i l)) /\
       pool_n_elements p = length (nodup Nat.eq_dec l)) /\
  (~ Forall (fun i => i < n) l -> pool_from n l = None).
Proof.
  split; [|apply from_oob]. intros HF.
  destruct (from_spec n l HF) as (p & E & HI & HL & HB).
  pose proof (pool_refines (EFrom n l)) as H. cbn [run_pool run_set] in H. rewrite E in H.
  apply forallb_Forall in HF. rewrite HF in H. cbn [a_len a_mem] in H.
  destruct H as (H1 & H2 & H3 & H4 & _). exists p. repeat split; auto.
  intros i Hi. rewrite H3, mem_nodup. destruct (Nat.ltb_spec i n); [reflexivity|lia].
Qed.
