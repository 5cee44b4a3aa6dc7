(** Bit-set cells stored in one machine word. *)
From Coq Require Import List Arith ZArith NArith Bool Lia ZifyBool ZifyNat ZifyN Permutation Sorted.
From Verif Require Import UtilModel UtilSpec UtilProofs PidModel LinModel LinSpec LinProofs MatModel SnfModel SimpModel SimpSpec.
Import ListNotations.
Open Scope nat_scope.

Definition tb (w : N) (i : nat) : bool := N.testbit w (N.of_nat i).
Definition bits (w : N) : list nat := filter (tb w) (seq 0 64).
Arguments bits : simpl never.

Lemma wlt_tb w k i : (w < 2 ^ N.of_nat k)%N -> k <= i -> tb w i = false.
Proof.
  intros H Hi. unfold tb. destruct (N.eq_dec w 0) as [->|Hw]; [apply N.bits_0|].
  apply N.bits_above_log2. apply N.log2_lt_pow2 in H; lia.
Qed.
Lemma tb_wlt w k : (forall i, k <= i -> tb w i = false) -> (w < 2 ^ N.of_nat k)%N.
Proof.
  intros H. destruct (N.eq_dec w 0) as [->|Hw]; [apply N.neq_0_lt_0, N.pow_nonzero; lia|].
  apply N.log2_lt_pow2; [lia|]. destruct (N.lt_ge_cases (N.log2 w) (N.of_nat k)) as [|Hge]; [assumption|].
  specialize (H (N.to_nat (N.log2 w))). unfold tb in H. rewrite N2Nat.id, N.bit_log2 in H by assumption. discriminate H. lia.
Qed.
Lemma tb_ext w w' : (forall i, tb w i = tb w' i) -> w = w'.
Proof. intros H. apply N.bits_inj. intros n. specialize (H (N.to_nat n)). unfold tb in H. now rewrite N2Nat.id in H. Qed.
Lemma wlt_mono w a b : (w < 2 ^ N.of_nat a)%N -> a <= b -> (w < 2 ^ N.of_nat b)%N.
Proof. intros H L. apply tb_wlt. intros i Hi. eapply wlt_tb; [exact H|lia]. Qed.
Lemma tb_true_lt w k i : (w < 2 ^ N.of_nat k)%N -> tb w i = true -> i < k.
Proof. intros H E. destruct (Nat.lt_ge_cases i k); [assumption|]. rewrite (wlt_tb w k i) in E by assumption. discriminate. Qed.
Lemma tb_land a b i : tb (N.land a b) i = tb a i && tb b i. Proof. apply N.land_spec. Qed.
Lemma tb_lor a b i : tb (N.lor a b) i = tb a i || tb b i. Proof. apply N.lor_spec. Qed.
Lemma tb_0 i : tb 0 i = false. Proof. apply N.bits_0. Qed.
Lemma tb_mask x i : x < 64 -> tb (mask x) i = (i =? x).
Proof.
  intros Hx. unfold tb. rewrite mask_bits. rewrite Nat.mod_small by assumption.
  destruct (Nat.eqb_spec i x) as [->|NE]; [apply N.eqb_refl|]. apply N.eqb_neq. lia.
Qed.
Definition wclear (w : N) (i : nat) : N := N.land w (N.lnot (mask i) 64).
Lemma tb_wclear w x i : (w < 2 ^ 64)%N -> x < 64 -> tb (wclear w x) i = tb w i && negb (i =? x).
Proof.
  intros Hw Hx. destruct (Nat.lt_ge_cases i 64) as [Hi|Hi].
  - unfold tb, wclear. rewrite lnot_mask by lia. rewrite Nat.mod_small by assumption.
    destruct (Nat.eqb_spec i x) as [->|NE]; [rewrite N.eqb_refl; now rewrite andb_false_r|].
    destruct (N.eqb_spec (N.of_nat i) (N.of_nat x)); [lia|]. now rewrite andb_true_r.
  - assert (E : tb w i = false) by (apply (wlt_tb w 64); [exact Hw|exact Hi]).
    unfold wclear. rewrite tb_land, E. reflexivity.
Qed.

Lemma in_bits w i : (w < 2 ^ 64)%N -> In i (bits w) <-> tb w i = true.
Proof.
  intros Hw. unfold bits. rewrite filter_In, in_seq. split; [tauto|]. intros H. split; [|assumption].
  split; [lia|]. apply (tb_true_lt w 64); assumption.
Qed.
Lemma bits_NoDup w : NoDup (bits w). Proof. apply NoDup_filter, seq_NoDup. Qed.
Lemma popcount_bits w : popcount 64 w = length (bits w). Proof. unfold popcount, bits, tb. reflexivity. Qed.
Lemma bits_0 : bits 0 = []. Proof. reflexivity. Qed.
Lemma bits_nil w : (w < 2 ^ 64)%N -> bits w = [] -> w = 0%N.
Proof.
  intros Hw E. apply tb_ext. intros i. rewrite tb_0. destruct (tb w i) eqn:Ei; [|reflexivity].
  apply (proj2 (in_bits w i Hw)) in Ei. rewrite E in Ei. destruct Ei.
Qed.
Lemma seq_sorted n a : StronglySorted lt (seq a n).
Proof. revert a. induction n; intros a; cbn; constructor; auto. apply Forall_forall. intros x Hx. apply in_seq in Hx. lia. Qed.
Lemma filter_sorted {A} (R : A -> A -> Prop) f l : StronglySorted R l -> StronglySorted R (filter f l).
Proof.
  induction 1 as [|x l H IH F]; cbn; [constructor|]. destruct (f x); [|assumption]. constructor; [assumption|].
  apply Forall_forall. intros y Hy. apply filter_In in Hy. rewrite Forall_forall in F. now apply F.
Qed.
Lemma bits_sorted w : StronglySorted lt (bits w). Proof. apply filter_sorted, seq_sorted. Qed.
(** Two sorted lists of numbers with the same members are equal. *)
Lemma sorted_unique : forall l m : list nat, StronglySorted lt l -> StronglySorted lt m -> (forall i, In i l <-> In i m) -> l = m.
Proof.
  induction l as [|x l IH]; intros [|y m] Hl Hm H; [reflexivity|exfalso; apply (proj2 (H y)); now left|exfalso; apply (proj1 (H x)); now left|].
  inversion Hl as [|? ? Sl Fl]; inversion Hm as [|? ? Sm Fm]; subst. rewrite Forall_forall in Fl, Fm.
  assert (x = y).
  { destruct (proj1 (H x) (or_introl eq_refl)) as [|Hx]; [now symmetry|]. destruct (proj2 (H y) (or_introl eq_refl)) as [|Hy]; [assumption|].
    specialize (Fl y Hy). specialize (Fm x Hx). lia. }
  subst y. f_equal. apply IH; try assumption. intros i. split; intros Hi.
  - destruct (proj1 (H i) (or_intror Hi)) as [<-|]; [|assumption]. specialize (Fl x Hi). lia.
  - destruct (proj2 (H i) (or_intror Hi)) as [<-|]; [|assumption]. specialize (Fm x Hi). lia.
Qed.

(** Containment of words. *)
Definition wsub (x y : N) : Prop := forall i, tb x i = true -> tb y i = true.
Lemma wsub_lor x y : wsub y x <-> N.lor x y = x.
Proof.
  split.
  - intros H. apply tb_ext. intros i. rewrite tb_lor. specialize (H i). destruct (tb x i), (tb y i); auto. discriminate H; reflexivity.
  - intros H i Hi. rewrite <- H, tb_lor, Hi. apply orb_true_r.
Qed.
Lemma wsub_refl x : wsub x x. Proof. intros i H. exact H. Qed.
Lemma wsub_trans x y z : wsub x y -> wsub y z -> wsub x z. Proof. intros A B i H. now apply B, A. Qed.
Lemma wsub_antisym x y : wsub x y -> wsub y x -> x = y.
Proof. intros A B. apply tb_ext. intros i. specialize (A i). specialize (B i). destruct (tb x i), (tb y i); auto; intuition congruence. Qed.
Lemma wsub_wclear w x : (w < 2 ^ 64)%N -> x < 64 -> wsub (wclear w x) w.
Proof. intros Hw Hx i. rewrite tb_wclear by assumption. now intros [H _]%andb_true_iff. Qed.
Lemma wclear_lt w x k : (w < 2 ^ 64)%N -> x < 64 -> (w < 2 ^ N.of_nat k)%N -> (wclear w x < 2 ^ N.of_nat k)%N.
Proof. intros Hw Hx H. apply tb_wlt. intros i Hi. rewrite tb_wclear by assumption. now rewrite (wlt_tb w k i). Qed.
Lemma bits_wclear w x : (w < 2 ^ 64)%N -> x < 64 -> bits (wclear w x) = filter (fun i => negb (i =? x)) (bits w).
Proof.
  intros Hw Hx. unfold bits. generalize (seq 0 64). intros l.
  induction l as [|i l IH]; cbn [filter]; [reflexivity|]. rewrite tb_wclear by assumption.
  destruct (tb w i); cbn [filter andb]; [|exact IH]. destruct (negb (i =? x)); [now f_equal|exact IH].
Qed.
Lemma filter_all {A} (f : A -> bool) l : (forall x, In x l -> f x = true) -> filter f l = l.
Proof. induction l as [|a l IH]; intros H; [reflexivity|]. cbn. rewrite H by now left. f_equal. apply IH. intros; apply H; now right. Qed.
Lemma filter_neq_len x : forall l, NoDup l -> In x l -> length (filter (fun i => negb (i =? x)) l) = length l - 1.
Proof.
  induction l as [|y l IH]; intros Hn Hi; [destruct Hi|]. inversion Hn as [|? ? Hny Hn']; subst. cbn [filter length].
  destruct (Nat.eqb_spec y x) as [->|NE]; cbn [negb].
  - rewrite filter_all; [lia|]. intros i Hii. destruct (Nat.eqb_spec i x); [subst; tauto|reflexivity].
  - destruct Hi as [|Hi]; [contradiction|]. cbn [length]. rewrite IH by assumption. destruct l; [destruct Hi|]. cbn. lia.
Qed.
Lemma wclear_len w x : (w < 2 ^ 64)%N -> tb w x = true -> length (bits (wclear w x)) = length (bits w) - 1.
Proof.
  intros Hw Hx. assert (x < 64) by (apply (tb_true_lt w 64); assumption). rewrite bits_wclear by assumption.
  apply filter_neq_len; [apply bits_NoDup|]. exact (proj2 (in_bits w x Hw) Hx).
Qed.
Lemma wsub_len x y : (x < 2 ^ 64)%N -> (y < 2 ^ 64)%N -> wsub x y -> length (bits x) <= length (bits y).
Proof. intros Hx Hy H. apply NoDup_incl_length; [apply bits_NoDup|]. intros i. rewrite !in_bits by assumption. apply H. Qed.
Lemma wsub_eq_len x y : (x < 2 ^ 64)%N -> (y < 2 ^ 64)%N -> wsub x y -> length (bits y) <= length (bits x) -> x = y.
Proof.
  intros Hx Hy H L. apply wsub_antisym; [exact H|]. intros i Hi. apply (proj1 (in_bits x i Hx)). apply (proj2 (in_bits y i Hy)) in Hi.
  apply (NoDup_length_incl (bits_NoDup x) L); [|exact Hi]. intros j. rewrite !in_bits by assumption. apply H.
Qed.

(** ** Building a cell *)
Lemma has_equal_NoDup : forall l, NoDup l -> has_equal_neighbours l = false.
Proof.
  induction l as [|a [|b t] IH]; intros H; try reflexivity. inversion H as [|? ? Hn H']; subst. cbn [has_equal_neighbours].
  destruct (Nat.eqb_spec a b) as [->|]; [destruct Hn; now left|]. cbn [orb]. apply IH. assumption.
Qed.
Lemma nat_sorted_le l : sorted_by Nat.compare l -> StronglySorted le l.
Proof.
  unfold sorted_by. induction 1 as [|x t H IH F]; constructor; auto. apply Forall_forall. intros y Hy. rewrite Forall_forall in F.
  specialize (F y Hy). cbv beta in F. destruct (Nat.compare_spec x y); lia || (exfalso; now apply F).
Qed.
Lemma not_has_equal_NoDup : forall l, StronglySorted le l -> has_equal_neighbours l = false -> NoDup l.
Proof.
  induction l as [|a l IH]; intros HS H; [constructor|]. inversion HS as [|? ? HS' HF]; subst. destruct l as [|b t]; [constructor; [intros []|constructor]|].
  cbn [has_equal_neighbours] in H. apply orb_false_iff in H. destruct H as [H1 H2]. apply Nat.eqb_neq in H1. constructor; [|now apply IH].
  intros Hin. rewrite Forall_forall in HF. inversion HS' as [|? ? HS2 HF2]; subst. rewrite Forall_forall in HF2.
  destruct Hin as [->|Hin]; [lia|]. pose proof (HF b (or_introl eq_refl)). specialize (HF2 a Hin). lia.
Qed.
Lemma sort_nat_sorted l : StronglySorted le (sort_by Nat.compare l).
Proof.
  apply nat_sorted_le, sort_by_sorted; intros; repeat match goal with |- context [?a ?= ?b] => destruct (Nat.compare_spec a b)
    | H : context [?a ?= ?b] |- _ => destruct (Nat.compare_spec a b) end; try congruence; try lia.
Qed.

(** The words of a cell: one word of vertices, then zeros (a cell of exactly 64 vertices is built with a second, unused, word). *)
Definition pad (k : nat) (w : N) : list N := w :: repeat 0%N k.
Lemma cone_one k w s d x : x < s -> s <= 64 ->
  cone (Cell (pad k w) s d) x = Some (Cell (pad k (N.lor w (mask x))) s (Some (match d with Some d => S d | None => 0 end))).
Proof.
  intros Hx Hs. unfold cone. cbn [c_size]. destruct (Nat.leb_spec s x); [lia|]. cbn [c_v c_size c_dim].
  rewrite Nat.div_small by lia. reflexivity.
Qed.
Lemma cone_all k s : s <= 64 -> forall l w d, Forall (fun x => x < s) l ->
  exists w' d', foldM cone l (Cell (pad k w) s d) = Some (Cell (pad k w') s d') /\ forall i, tb w' i = tb w i || existsb (Nat.eqb i) l.
Proof.
  intros Hs. induction l as [|x l IH]; intros w d HF; cbn [foldM].
  - exists w, d. split; [reflexivity|]. intros i. cbn. now rewrite orb_false_r.
  - inversion HF as [|? ? Hx HF']; subst. rewrite cone_one by assumption. cbn [obind].
    destruct (IH (N.lor w (mask x)) (Some (match d with Some d => S d | None => 0 end)) HF') as (w' & d' & E & H).
    exists w', d'. split; [exact E|]. intros i. rewrite H, tb_lor, tb_mask by lia. cbn [existsb]. now rewrite orb_assoc.
Qed.

(** A cell whose vertices are in the first word: vertices below [c_size <= n <= 64], not empty, with the right dimension. *)
Definition good (n : nat) (c : cell) (w : N) : Prop :=
  (exists k, c_v c = pad k w) /\ w <> 0%N /\ (w < 2 ^ N.of_nat (c_size c))%N /\ c_size c <= n /\ n <= 64 /\ c_dim c = Some (length (bits w) - 1).
Lemma good_lt n c w : good n c w -> (w < 2 ^ N.of_nat n)%N.
Proof. intros (_ & _ & H & L & _). eapply wlt_mono; eassumption. Qed.
Lemma good_lt64 n c w : good n c w -> (w < 2 ^ 64)%N.
Proof. intros H. pose proof (good_lt _ _ _ H). destruct H as (_ & _ & _ & _ & L & _). apply (wlt_mono w n 64); [assumption|lia]. Qed.
Lemma good_pos n c w : good n c w -> 0 < length (bits w).
Proof.
  intros H. pose proof (good_lt64 _ _ _ H) as L. destruct H as (_ & H & _). destruct (bits w) eqn:E; [|cbn; lia].
  apply bits_nil in E; [contradiction|assumption].
Qed.

Lemma sum_ones_zeros k : sum_ones (repeat 0%N k) = Some 0.
Proof. induction k as [|k IH]; cbn [repeat sum_ones]; [reflexivity|]. rewrite count_ones_spec by reflexivity. rewrite IH. reflexivity. Qed.
Lemma cell_dim_one k w : (w < 2 ^ 64)%N -> cell_dim (pad k w) = Some (match length (bits w) with O => None | S d => Some d end).
Proof.
  intros H. unfold cell_dim, pad. cbn [sum_ones]. rewrite count_ones_spec by assumption. rewrite sum_ones_zeros. cbn [obind].
  rewrite Nat.add_0_r, popcount_bits. reflexivity.
Qed.

Lemma existsb_eqb_In i l : existsb (Nat.eqb i) l = true <-> In i l.
Proof. rewrite existsb_exists. split; [intros (x & Hx & E); apply Nat.eqb_eq in E; now subst|intros H; exists i; split; [assumption|apply Nat.eqb_refl]]. Qed.

Lemma cell_new_spec n l : n <= 64 -> l <> [] -> NoDup l -> Forall (fun x => x < n) l ->
  exists c w, cell_new n l = Some c /\ good n c w /\ c_size c = n /\ (forall i, tb w i = true <-> In i l).
Proof.
  intros Hn Hne Hd HF. pose proof (sort_by_perm Nat.compare l) as HP. unfold cell_new.
  assert (HF' : Forall (fun x => x < n) (sort_by Nat.compare l)) by (now rewrite <- HP).
  pose proof (Permutation_NoDup HP Hd) as Hd'.
  destruct (sort_by Nat.compare l) as [|x t] eqn:E; [apply Permutation_sym, Permutation_nil in HP; contradiction|].
  assert (x < n) by (now inversion HF'). destruct (Nat.eqb_spec n 0); [lia|]. destruct (Nat.ltb_spec n x); [lia|].
  rewrite has_equal_NoDup by assumption. cbn [orb]. replace (n / 64 + 1) with (S (n / 64)) by lia. cbn [repeat]. fold (pad (n / 64) 0%N).
  destruct (cone_all (n / 64) n Hn (x :: t) 0%N (Some 0) HF') as (w & d & E1 & Hw). rewrite E1. cbn [obind c_v c_size].
  assert (Hw' : forall i, tb w i = true <-> In i l).
  { intros i. rewrite Hw, tb_0. cbn [orb]. rewrite existsb_eqb_In. split; apply Permutation_in; [now symmetry|assumption]. }
  assert (L : (w < 2 ^ N.of_nat n)%N).
  { apply tb_wlt. intros i Hi. destruct (tb w i) eqn:Ei; [|reflexivity]. apply Hw' in Ei. rewrite Forall_forall in HF. specialize (HF i Ei). lia. }
  assert (L64 : (w < 2 ^ 64)%N) by (apply (wlt_mono w n 64); [assumption|lia]).
  rewrite cell_dim_one by assumption. cbn [obind]. eexists. exists w. split; [reflexivity|].
  assert (NZ : w <> 0%N).
  { intros ->. destruct l as [|y l']; [contradiction|]. specialize (proj2 (Hw' y) (or_introl eq_refl)). rewrite tb_0. discriminate. }
  split; [|split; [reflexivity|exact Hw']]. unfold good. cbn [c_v c_size c_dim]. split; [eexists; reflexivity|]. repeat (split; [first [reflexivity|assumption|lia]|]).
  destruct (length (bits w)) eqn:EL; [|cbn; f_equal; lia]. exfalso. apply NZ, bits_nil; [assumption|]. now destruct (bits w).
Qed.
Lemma cell_new_dup n l : ~ NoDup l -> cell_new n l = None.
Proof.
  intros H. unfold cell_new. destruct (sort_by Nat.compare l) as [|x t] eqn:E; [reflexivity|].
  destruct (has_equal_neighbours (x :: t)) eqn:EN; [now rewrite orb_true_r|]. exfalso. apply H.
  rewrite <- E in EN. apply not_has_equal_NoDup in EN; [|apply sort_nat_sorted].
  eapply Permutation_NoDup; [|exact EN]. symmetry. apply sort_by_perm.
Qed.

(** ** Operations on good cells *)
Lemma zipw_zeros {A} (f : N -> N -> A) : forall j k, zipw f (repeat 0%N j) (repeat 0%N k) = repeat (f 0%N 0%N) (Nat.min j k).
Proof. induction j as [|j IH]; intros [|k]; cbn; try reflexivity. now rewrite IH. Qed.
Lemma forallb_trues k : forallb (fun t => t) (repeat true k) = true. Proof. induction k; cbn; auto. Qed.
Lemma existsb_falses k : existsb (fun t => t) (repeat false k) = false. Proof. induction k; cbn; auto. Qed.
Lemma contains_good n m a b x y : good n a x -> good m b y -> cell_contains a b = true <-> wsub y x.
Proof.
  intros ((j & Ea) & _) ((k & Eb) & _). unfold cell_contains. rewrite Ea, Eb. unfold pad. cbn [zipw forallb].
  rewrite zipw_zeros. change (N.lor 0 0 =? 0)%N with true. rewrite forallb_trues, andb_true_r, N.eqb_eq. symmetry. apply wsub_lor.
Qed.
Lemma eqb_good n m a b x y : good n a x -> good m b y -> cell_eqb a b = (x =? y)%N.
Proof.
  intros ((j & Ea) & _) ((k & Eb) & _). unfold cell_eqb. rewrite Ea, Eb. unfold pad. cbn [zipw forallb].
  rewrite zipw_zeros. change (0 =? 0)%N with true. rewrite forallb_trues. apply andb_true_r.
Qed.
Lemma land_lt x y : (x < 2 ^ 64)%N -> (N.land x y < 2 ^ 64)%N.
Proof. intros H. apply (tb_wlt _ 64). intros i Hi. rewrite tb_land. now rewrite (wlt_tb x 64). Qed.
Lemma lor_lt x y k : (x < 2 ^ N.of_nat k)%N -> (y < 2 ^ N.of_nat k)%N -> (N.lor x y < 2 ^ N.of_nat k)%N.
Proof. intros H1 H2. apply tb_wlt. intros i Hi. rewrite tb_lor. now rewrite (wlt_tb x k), (wlt_tb y k). Qed.
Lemma land_nonzero x y : (x < 2 ^ 64)%N -> N.land x y <> 0%N <-> exists i, tb x i = true /\ tb y i = true.
Proof.
  intros L. pose proof (land_lt x y L) as L'. split.
  - intros H. destruct (bits (N.land x y)) as [|i l] eqn:E; [exfalso; apply H; now apply bits_nil|].
    exists i. pose proof (proj1 (in_bits _ i L')) as Hi. rewrite E in Hi. specialize (Hi (or_introl eq_refl)).
    rewrite tb_land in Hi. now apply andb_true_iff.
  - intros (i & H1 & H2) H. pose proof (tb_land x y i) as E. rewrite H, H1, H2, tb_0 in E. discriminate.
Qed.
Lemma meets_good n m a b x y : good n a x -> good m b y -> cell_meets a b = true <-> exists i, tb x i = true /\ tb y i = true.
Proof.
  intros Ha Hb. pose proof (good_lt64 _ _ _ Ha) as La. destruct Ha as ((j & Ea) & _). destruct Hb as ((k & Eb) & _). unfold cell_meets. rewrite Ea, Eb. unfold pad. cbn [zipw existsb].
  rewrite zipw_zeros. change (negb (N.land 0 0 =? 0)%N) with false. rewrite existsb_falses, orb_false_r, negb_true_iff, N.eqb_neq. now apply land_nonzero.
Qed.

(** ** Faces *)
Lemma find_bit_one k w x : forall fuel idx, idx < 64 -> 65 - idx <= fuel -> find (tb w) (seq idx (64 - idx)) = Some x ->
  find_bit fuel (pad k w) idx = Some x.
Proof.
  unfold pad. induction fuel as [|f IH]; intros idx Hi Hf; [lia|]. cbn [find_bit]. rewrite Nat.div_small by assumption. cbn [nth_error obind].
  rewrite Nat.mod_small by assumption. replace (64 - idx) with (S (63 - idx)) by lia. cbn [seq find].
  rewrite <- N.bit0_odd, N.shiftr_spec', N.add_0_l. fold (tb w idx). destruct (tb w idx); [trivial|].
  destruct (Nat.eq_dec idx 63) as [->|NE].
  - discriminate.
  - intros HX. apply IH; try lia. now replace (64 - S idx) with (63 - idx) by lia.
Qed.
Lemma find_filter_hd {A} (f : A -> bool) l : find f l = hd_error (filter f l).
Proof. induction l as [|x l IH]; cbn; [reflexivity|]. destruct (f x); [reflexivity|exact IH]. Qed.

Lemma face_loop_one p w s d0 d : (w < 2 ^ 64)%N -> forall k idx,
  k = length (filter (tb w) (seq idx (64 - idx))) ->
  face_loop k (Cell (pad p w) s d0) d idx = Some (map (fun x => Cell (pad p (wclear w x)) s (Some d)) (filter (tb w) (seq idx (64 - idx)))).
Proof.
  intros Hw. induction k as [|k IH]; intros idx Hk; cbn [face_loop].
  - destruct (filter _ _); [reflexivity|discriminate].
  - assert (idx < 64). { destruct (Nat.lt_ge_cases idx 64); [assumption|]. replace (64 - idx) with 0 in Hk by lia. discriminate. }
    pose proof (find_filter_hd (tb w) (seq idx (64 - idx))) as EF.
    destruct (filter (tb w) (seq idx (64 - idx))) as [|i l] eqn:E; [discriminate|]. cbn [hd_error] in EF.
    cbn [c_v]. rewrite (find_bit_one p w i) by (try assumption; unfold pad; cbn [length]; lia). cbn [obind].
    assert (Hi : In i (i :: l)) by now left. rewrite <- E in Hi. apply filter_In in Hi. destruct Hi as [Hi1 Hi2]. apply in_seq in Hi1.
    rewrite Nat.div_small by lia. unfold pad at 1. cbn [upd obind c_size].
    assert (E2 : filter (tb w) (seq (S i) (64 - S i)) = l).
    { replace (64 - idx) with ((i - idx) + (64 - i)) in E by lia. rewrite seq_app, filter_app in E.
      replace (idx + (i - idx)) with i in E by lia. replace (64 - i) with (S (64 - S i)) in E by lia. cbn [seq filter] in E. rewrite Hi2 in E.
      destruct (filter (tb w) (seq idx (i - idx))) as [|j l'] eqn:E3.
      - cbn [app] in E. injection E as E. exact E.
      - cbn [app] in E. injection E as <- E. assert (In j (filter (tb w) (seq idx (j - idx)))) as Hj by (rewrite E3; now left).
        apply filter_In in Hj. destruct Hj as [Hj _]. apply in_seq in Hj. lia. }
    rewrite IH by (rewrite E2; cbn in Hk; lia). cbn [obind map]. rewrite E2. reflexivity.
Qed.
Lemma bits_from_0 w : filter (tb w) (seq 0 (64 - 0)) = bits w.
Proof. rewrite Nat.sub_0_r. unfold bits. reflexivity. Qed.
Lemma get_face_good n c w : good n c w -> 2 <= length (bits w) ->
  get_face c = Some (map (fun x => Cell (pad (length (c_v c) - 1) (wclear w x)) (c_size c) (Some (length (bits w) - 2))) (bits w)).
Proof.
  intros H L. pose proof (good_lt64 _ _ _ H) as H64. destruct H as ((k & E1) & _ & _ & _ & _ & E2). unfold get_face. rewrite E2.
  destruct (length (bits w) - 1) as [|m] eqn:E; [lia|]. destruct c as [v s d]. cbn [c_v c_size] in *. subst v. replace (length (pad k w) - 1) with k by (unfold pad; cbn [length]; rewrite repeat_length; lia).
  rewrite (face_loop_one k w s d m H64 (m + 2) 0) by (rewrite bits_from_0; lia). rewrite bits_from_0.
  replace (length (bits w) - 2) with m by lia. reflexivity.
Qed.
Lemma face_good n c w x k : good n c w -> 2 <= length (bits w) -> tb w x = true ->
  good n (Cell (pad k (wclear w x)) (c_size c) (Some (length (bits w) - 2))) (wclear w x).
Proof.
  intros H L Hx. pose proof (good_lt64 _ _ _ H) as H64. destruct H as (E1 & E2 & E3 & E4 & E5 & E6).
  assert (Hx64 : x < 64) by (apply (tb_true_lt w 64); assumption).
  unfold good. cbn [c_v c_size c_dim]. split; [eexists; reflexivity|]. pose proof (wclear_len w x H64 Hx) as EL.
  split; [intros E; rewrite E, bits_0 in EL; cbn in EL; lia|]. split; [now apply wclear_lt|]. repeat (split; [assumption|]). f_equal. lia.
Qed.
