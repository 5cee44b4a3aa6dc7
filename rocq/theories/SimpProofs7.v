(** Counting cells: combinations, binomial coefficients, inclusion-exclusion. *)
From Coq Require Import List Arith ZArith NArith Bool Lia ZifyBool ZifyNat ZifyN Permutation Sorted.
From Verif Require Import UtilModel UtilSpec UtilProofs UtilProofs2 PidModel LinModel LinSpec LinProofs MatModel MatProofs SnfModel SimpModel SimpSpec SimpProofs SimpProofs2 SimpProofs3 SimpProofs4 SimpProofs5.
Import ListNotations.
Open Scope nat_scope.

(** ** Combinations *)
Fixpoint combs {A} (l : list A) (k : nat) : list (list A) :=
  match k with
  | O => [[]]
  | S k' => match l with [] => [] | x :: t => map (cons x) (combs t k') ++ combs t k end
  end.
Fixpoint Cn (n k : nat) : Z := match n, k with _, O => 1%Z | O, S _ => 0%Z | S n', S k' => (Cn n' k' + Cn n' k)%Z end.

Lemma combs_0 {A} (l : list A) : combs l 0 = [[]]. Proof. destruct l; reflexivity. Qed.
Lemma combs_S {A} x (l : list A) k : combs (x :: l) (S k) = map (cons x) (combs l k) ++ combs l (S k). Proof. reflexivity. Qed.
Lemma combs_len {A} (l : list A) : forall k, Z.of_nat (length (combs l k)) = Cn (length l) k.
Proof.
  induction l as [|x l IH]; intros [|k]; try reflexivity. rewrite combs_S, app_length, map_length, Nat2Z.inj_add, !IH. reflexivity.
Qed.
Lemma in_combs {A} (l : list A) : forall k c, In c (combs l k) <-> subseq c l /\ length c = k.
Proof.
  induction l as [|x l IH]; intros [|k] c.
  - cbn. split; [intros [<-|[]]; split; [constructor|reflexivity]|]. intros [H _]. left. inversion H. reflexivity.
  - cbn. split; [intros []|]. intros [H E]. inversion H; subst. discriminate.
  - rewrite combs_0. cbn. split.
    + intros [<-|[]]. split; [|reflexivity]. constructor. clear. induction l; constructor; assumption.
    + intros [_ H]. left. destruct c; [reflexivity|discriminate].
  - rewrite combs_S, in_app_iff, in_map_iff. split.
    + intros [(c' & <- & H)|H]; apply IH in H; destruct H as [H E]; (split; [now constructor|cbn; congruence]).
    + intros [H E]. inversion H as [|? ? ? H'|? ? ? H']; subst.
      * right. apply IH. split; assumption.
      * left. exists a. split; [reflexivity|]. apply IH. split; [assumption|]. cbn in E. congruence.
Qed.
Lemma NoDup_app' {A} (l m : list A) : NoDup l -> NoDup m -> (forall x, In x l -> ~ In x m) -> NoDup (l ++ m).
Proof.
  induction 1 as [|x l Hx Hl IH]; intros Hm Hd; [exact Hm|]. cbn. constructor.
  - rewrite in_app_iff. intros [H|H]; [contradiction|]. apply (Hd x); [now left|exact H].
  - apply IH; [exact Hm|]. intros y Hy. apply Hd. now right.
Qed.
Lemma NoDup_map_inj {A B} (f : A -> B) l : (forall x y, In x l -> In y l -> f x = f y -> x = y) -> NoDup l -> NoDup (map f l).
Proof.
  intros Hf H. induction H as [|x l Hx H IH]; cbn; constructor.
  - intros Hi. apply in_map_iff in Hi. destruct Hi as (y & E & Hy). assert (x = y) by (apply Hf; [now left|now right|now symmetry]). subst. contradiction.
  - apply IH. intros; apply Hf; auto; now right.
Qed.
Lemma combs_NoDup {A} (l : list A) : NoDup l -> forall k, NoDup (combs l k).
Proof.
  induction 1 as [|x l Hx Hl IH]; intros [|k]; try (rewrite combs_0; constructor; [intros []|constructor]); [constructor|].
  rewrite combs_S. apply NoDup_app'; [|apply IH|].
  - apply NoDup_map_inj; [intros a b _ _ E; congruence|apply IH].
  - intros c H1 H2. apply in_map_iff in H1. destruct H1 as (c' & <- & _). apply in_combs in H2. destruct H2 as [H2 _]. apply Hx. eapply subseq_incl; [exact H2|now left].
Qed.
Lemma combs_map {A B} (f : A -> B) (l : list A) : forall k, combs (map f l) k = map (map f) (combs l k).
Proof.
  induction l as [|x l IH]; intros [|k]; try reflexivity. cbn [map]. rewrite !combs_S, map_app, !map_map, !IH. f_equal. rewrite !map_map. reflexivity.
Qed.
Lemma filter_map_comm {A B} (f : A -> B) (p : B -> bool) l : filter p (map f l) = map f (filter (fun x => p (f x)) l).
Proof. induction l as [|x l IH]; cbn; [reflexivity|]. destruct (p (f x)); cbn; now rewrite IH. Qed.
Lemma filter_false {A} (l : list A) : filter (fun _ => false) l = [].
Proof. induction l; cbn; auto. Qed.
Lemma combs_filter {A} (f : A -> bool) (l : list A) : forall k, filter (forallb f) (combs l k) = combs (filter f l) k.
Proof.
  induction l as [|x l IH]; intros [|k]; try reflexivity; [rewrite !combs_0; reflexivity|]. rewrite combs_S, filter_app, filter_map_comm, IH. cbn [filter forallb]. destruct (f x) eqn:E.
  - rewrite combs_S. f_equal. rewrite <- IH. f_equal.
  - cbn [andb]. rewrite filter_false. reflexivity.
Qed.
Lemma combs_long {A} (l : list A) k : length l < k -> combs l k = [].
Proof.
  intros H. destruct (combs l k) as [|c t] eqn:E; [reflexivity|]. exfalso. assert (Hc : In c (combs l k)) by (rewrite E; now left). apply in_combs in Hc. destruct Hc as [Hs Hl].
  assert (length c <= length l) by (clear - Hs; induction Hs; cbn; lia). lia.
Qed.

(** ** Binomial coefficients *)
Fixpoint fall (x y : nat) {struct y} : Z := match y with O => 1%Z | S y' => match x with O => 0%Z | S x' => (Z.of_nat x * fall x' y')%Z end end.
Lemma fall_pascal : forall x y, fall (S x) (S y) = (fall x (S y) + Z.of_nat (S y) * fall x y)%Z.
Proof.
  intros x y. revert x. induction y as [|y IH]; intros x; [destruct x; cbn [fall]; lia|]. destruct x as [|x]; [cbn [fall]; lia|].
  assert (E1 : fall (S (S x)) (S (S y)) = (Z.of_nat (S (S x)) * fall (S x) (S y))%Z) by reflexivity.
  assert (E2 : fall (S x) (S (S y)) = (Z.of_nat (S x) * fall x (S y))%Z) by reflexivity.
  assert (E3 : fall (S x) (S y) = (Z.of_nat (S x) * fall x y)%Z) by reflexivity.
  rewrite E1, E2. specialize (IH x). rewrite E3 in *. replace (fall x (S y)) with (Z.of_nat (S x) * fall x y - Z.of_nat (S y) * fall x y)%Z by lia. rewrite !Nat2Z.inj_succ. unfold Z.succ. ring.
Qed.
Fixpoint zfact (n : nat) : Z := match n with O => 1%Z | S k => (Z.of_nat n * zfact k)%Z end.
Lemma zfact_pos n : (0 < zfact n)%Z. Proof. induction n; [reflexivity|]. cbn [zfact]. lia. Qed.
Lemma fall_Cn : forall x y, fall x y = (zfact y * Cn x y)%Z.
Proof.
  induction x as [|x IH]; intros [|y]; try reflexivity; [cbn; lia|]. rewrite fall_pascal, !IH. cbn [Cn]. cbn [zfact]. lia.
Qed.
Lemma fold_prod_acc l : forall a, fold_left (fun acc x => do p <- acc; ideal (p * x)%Z) l (Some a) = Some (fold_left Z.mul l a).
Proof. induction l as [|x l IH]; intros a; [reflexivity|]. cbn [fold_left obind]. unfold ideal at 2. apply IH. Qed.
Lemma fold_mul_acc l : forall a, fold_left Z.mul l a = (a * fold_left Z.mul l 1)%Z.
Proof. induction l as [|x l IH]; intros a; cbn [fold_left]; [lia|]. rewrite IH, (IH (1 * x)%Z). lia. Qed.
Lemma zrange_prod x y : y <= x -> fold_left Z.mul (zrange (Z.of_nat x - Z.of_nat y + 1) (Z.of_nat x + 1)) 1%Z = fall x y.
Proof.
  revert x. induction y as [|y IH]; intros x H.
  - unfold zrange. replace (Z.to_nat _) with 0 by lia. destruct x; reflexivity.
  - destruct x as [|x]; [lia|]. specialize (IH x ltac:(lia)). cbn [fall]. rewrite <- IH. unfold zrange.
    replace (Z.to_nat (Z.of_nat (S x) + 1 - (Z.of_nat (S x) - Z.of_nat (S y) + 1))) with (S y) by lia.
    replace (Z.to_nat (Z.of_nat x + 1 - (Z.of_nat x - Z.of_nat y + 1))) with y by lia.
    rewrite seq_S, map_app, fold_left_app. cbn [map fold_left plus]. replace (Z.of_nat (S x) - Z.of_nat (S y) + 1 + Z.of_nat y)%Z with (Z.of_nat (S x)) by lia.
    rewrite Z.mul_comm. f_equal. f_equal. apply map_ext. intros k. lia.
Qed.
Lemma fact_range y : fold_left Z.mul (zrange 1 (Z.of_nat y + 1)) 1%Z = zfact y.
Proof.
  induction y as [|y IH]; [reflexivity|]. unfold zrange in *. replace (Z.to_nat (Z.of_nat (S y) + 1 - 1)) with (S y) by lia. replace (Z.to_nat (Z.of_nat y + 1 - 1)) with y in IH by lia.
  rewrite seq_S, map_app, fold_left_app, IH. cbn [map fold_left plus zfact]. lia.
Qed.
Lemma Cn_small : forall x y, x < y -> Cn x y = 0%Z.
Proof. induction x as [|x IH]; intros [|y] H; try lia; [reflexivity|]. cbn [Cn]. rewrite !IH by lia. reflexivity. Qed.
Lemma Cn_0 x : Cn x 0 = 1%Z. Proof. destruct x; reflexivity. Qed.
Lemma binomial_ideal x y : binomial ideal x y = Some (Cn x y).
Proof.
  unfold binomial. destruct (Nat.ltb_spec x y) as [H|H]; [now rewrite Cn_small|]. unfold range_product. rewrite !fold_prod_acc. cbn [obind].
  rewrite zrange_prod by assumption. rewrite fact_range. pose proof (zfact_pos y). replace (zfact y =? 0)%Z with false by lia. f_equal. rewrite fall_Cn, Z.mul_comm. apply Z.div_mul. lia.
Qed.
Lemma Cn_bound : forall x y, (0 <= Cn x y <= 2 ^ Z.of_nat x)%Z.
Proof.
  induction x as [|x IH]; intros y.
  - change (2 ^ Z.of_nat 0)%Z with 1%Z. destruct y; cbn [Cn]; lia.
  - rewrite Nat2Z.inj_succ, Z.pow_succ_r by lia. destruct y as [|y]; cbn [Cn].
    + pose proof (IH 0) as H. rewrite Cn_0 in H. lia.
    + pose proof (IH y). pose proof (IH (S y)). lia.
Qed.
Lemma Cn_bound1 : forall x y, (Cn (S x) y < 2 ^ Z.of_nat (S x))%Z.
Proof.
  induction x as [|x IH]; intros y.
  - destruct y as [|[|y]]; cbn [Cn]; lia.
  - rewrite Nat2Z.inj_succ, Z.pow_succ_r by lia. destruct y as [|y].
    + rewrite Cn_0. pose proof (IH 0) as H. rewrite Cn_0 in H. lia.
    + change (Cn (S (S x)) (S y)) with (Cn (S x) y + Cn (S x) (S y))%Z. pose proof (IH y). pose proof (IH (S y)). lia.
Qed.
(** The alternating sum of a row of Pascal's triangle. *)
Lemma alt_row k : forall N, lsum (fun i => alt i * Cn (S k) i)%Z (seq 0 (S N)) = (alt N * Cn k N)%Z.
Proof.
  induction N as [|N IH]; [cbn; rewrite Cn_0; reflexivity|]. rewrite seq_S, lsum_app, IH. cbn [lsum plus]. rewrite !alt_S. change (Cn (S k) (S N)) with (Cn k N + Cn k (S N))%Z. lia.
Qed.
Lemma alt_row_all k N : k <= N -> lsum (fun i => alt i * Cn k i)%Z (seq 0 (S N)) = if k =? 0 then 1%Z else 0%Z.
Proof.
  intros H. destruct k as [|k].
  - cbn [Nat.eqb]. cbn [seq lsum]. rewrite lsum_zero; [reflexivity|]. intros i Hi. apply in_seq in Hi. rewrite Cn_small by lia. lia.
  - rewrite alt_row. cbn [Nat.eqb]. rewrite Cn_small by lia. lia.
Qed.

Lemma lsum_perm {A} (f : A -> Z) l m : Permutation l m -> lsum f l = lsum f m.
Proof. induction 1; cbn [lsum]; lia. Qed.
Lemma lsum_map {A B} (g : A -> B) (f : B -> Z) l : lsum f (map g l) = lsum (fun x => f (g x)) l.
Proof. induction l as [|x l IH]; cbn [map lsum]; [reflexivity|]. now rewrite IH. Qed.
Lemma lsum_indicator {A} (p : A -> bool) l : lsum (fun x => if p x then 1%Z else 0%Z) l = Z.of_nat (length (filter p l)).
Proof. induction l as [|x l IH]; cbn [lsum filter]; [reflexivity|]. rewrite IH. destruct (p x); cbn [length]; lia. Qed.

(** ** The tuples of maximal cells *)
Lemma strictly_inc_sorted c : strictly_inc c <-> StronglySorted lt c.
Proof.
  split.
  - induction 1 as [|x|x y l H H' IH]; [constructor|constructor; constructor|]. constructor; [exact IH|]. inversion IH as [|? ? H1 H2]; subst. constructor; [exact H|].
    eapply Forall_impl; [|exact H2]. intros z Hz. cbv beta in *. lia.
  - induction 1 as [|x l H IH F]; [constructor|]. destruct l as [|y l]; constructor; [now inversion F|exact IH].
Qed.
Lemma subseq_seq_sorted : forall n a c, subseq c (seq a n) -> StronglySorted lt c /\ forall i, In i c -> a <= i < a + n.
Proof.
  induction n as [|n IH]; intros a c H; cbn [seq] in H; inversion H as [|? ? ? H'|? c' ? H']; subst.
  - split; [constructor|intros i []].
  - destruct (IH (S a) c H') as [A B]. split; [exact A|]. intros i Hi. apply B in Hi. lia.
  - destruct (IH (S a) c' H') as [A B]. split.
    + constructor; [exact A|]. apply Forall_forall. intros i Hi. apply B in Hi. lia.
    + intros i [<-|Hi]; [lia|]. apply B in Hi. lia.
Qed.
Lemma sorted_subseq_seq : forall n a c, StronglySorted lt c -> (forall i, In i c -> a <= i < a + n) -> subseq c (seq a n).
Proof.
  induction n as [|n IH]; intros a c HS HB; cbn [seq].
  - destruct c as [|x c]; [constructor|]. specialize (HB x (or_introl eq_refl)). lia.
  - destruct c as [|x c]; [constructor; apply IH; [constructor|intros i []]|]. destruct (Nat.eq_dec x a) as [->|NE].
    + apply sub_keep. inversion HS as [|? ? HS' HF]; subst. rewrite Forall_forall in HF. apply IH; [exact HS'|]. intros i Hi. specialize (HF i Hi). specialize (HB i (or_intror Hi)). lia.
    + apply sub_skip. apply IH; [exact HS|]. intros i Hi. pose proof (HB i Hi). assert (x <= i); [|pose proof (HB x (or_introl eq_refl)); lia].
      inversion HS as [|? ? HS' HF]; subst. rewrite Forall_forall in HF. destruct Hi as [->|Hi]; [lia|]. specialize (HF i Hi). lia.
Qed.
Lemma combination_combs n k c : combination n k c <-> In c (combs (seq 0 n) k).
Proof.
  rewrite in_combs. unfold combination. rewrite strictly_inc_sorted. split.
  - intros (A & B & C). split; [|exact B]. apply sorted_subseq_seq; [exact A|]. intros i Hi. specialize (C i Hi). lia.
  - intros (A & B). apply subseq_seq_sorted in A. destruct A as [A C]. split; [exact A|]. split; [exact B|]. intros i Hi. apply C in Hi. lia.
Qed.
Lemma data_map {A} (data : list A) d : map (fun i => nth i data d) (seq 0 (length data)) = data.
Proof. symmetry. apply list_eq_map_seq. Qed.
Lemma pick_nth {A} (data : list A) d c : (forall i, In i c -> i < length data) -> UtilSpec.pick data c = map (fun i => nth i data d) c.
Proof.
  induction c as [|x c IH]; intros H; [reflexivity|]. cbn [UtilSpec.pick flat_map map]. rewrite (nth_error_nth' data d) by (apply H; now left). cbn [app]. f_equal. apply IH. intros; apply H; now right.
Qed.
Lemma tuples_perm {A} (data : list A) k : 0 < k -> exists R, Permutation R (combs data k) /\ exists f0, forall fuel, f0 <= fuel -> tuple_iter_collect fuel data k = Some R.
Proof.
  intros Hk. destruct (tuple_theorem data k Hk) as (L & HL & HS & HC). exists (map (UtilSpec.pick data) L). split; [|exact HL].
  assert (HP : Permutation L (combs (seq 0 (length data)) k)).
  { apply NoDup_Permutation; [now apply lex_sorted_NoDup|apply combs_NoDup, seq_NoDup|]. intros c. rewrite HC. apply combination_combs. }
  destruct data as [|d data']; [destruct k; [lia|]|].
  - cbn in HP. apply Permutation_sym, Permutation_nil in HP. rewrite HP. constructor.
  - set (data := d :: data') in *. rewrite (map_ext_in _ (map (fun i => nth i data d))).
    + replace (combs data k) with (combs (map (fun i => nth i data d) (seq 0 (length data))) k) by (now rewrite data_map). rewrite combs_map. now apply Permutation_map.
    + intros c Hc. apply pick_nth. intros i Hi. apply HC in Hc. destruct Hc as (_ & _ & Hc). now apply Hc.
Qed.
