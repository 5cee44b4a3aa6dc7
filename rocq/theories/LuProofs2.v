(** Elimination without pivoting: the successive Schur complements describe [lu], and their pivots are ratios of leading minors. *)
From Coq Require Import List Arith Bool Lia ZifyBool Ring_theory Ring.
From Verif Require Import PidModel MatModel MatSpec MatProofs MatProofs2 SnfModel RankModel LuModel LuSpec LuProofs.
Import ListNotations.
Open Scope nat_scope.

Section LuP.
  Context {T : Type} {OT : Ops T} {FT : FOps T}.
  Hypothesis FO : field_ok (T := T).
  Let RL : ring_theory t0 t1 tadd tmul tsub topp (@eq T) := proj1 FO.
  Add Ring TLu : RL.
  Local Notation "a +! b" := (tadd a b) (at level 50, left associativity).
  Local Notation "a -! b" := (tsub a b) (at level 50, left associativity).
  Local Notation "a *! b" := (tmul a b) (at level 40, left associativity).
  Local Notation "a /! b" := (tdiv a b) (at level 40, left associativity).

  Lemma div_mul a x : x <> t0 -> (a /! x) *! x = a.
  Proof. apply (proj1 (proj2 FO)). Qed.
  Lemma teqb_eq x y : teqb x y = true <-> x = y.
  Proof. apply (proj2 (proj2 (proj2 FO))). Qed.
  Lemma mul_zero x y : x *! y = t0 -> x = t0 \/ y = t0.
  Proof.
    intros H. destruct (teqb x t0) eqn:E; [left; now apply teqb_eq|right].
    assert (x <> t0) as N by (intros C; apply teqb_eq in C; congruence).
    transitivity ((t1 /! x) *! (x *! y)); [|rewrite H; ring].
    transitivity (((t1 /! x) *! x) *! y); [|ring]. rewrite div_mul by exact N. ring.
  Qed.
  Lemma fdiv_some a b : b <> t0 -> fdiv a b = Some (a /! b).
  Proof. intros H. unfold fdiv. destruct (teqb b t0) eqn:E; [apply teqb_eq in E; contradiction|reflexivity]. Qed.
  Lemma fdiv_none a : fdiv a t0 = None.
  Proof. unfold fdiv. now replace (teqb t0 t0) with true by (symmetry; now apply teqb_eq). Qed.
  Lemma eq_dec (x y : T) : x = y \/ x <> y.
  Proof. destruct (teqb x y) eqn:E; [left; now apply teqb_eq|right; intros C; apply teqb_eq in C; congruence]. Qed.

  (** The Schur complements. *)
  Fixpoint schur (A : nat -> nat -> T) (k : nat) : nat -> nat -> T :=
    match k with 0 => A | S k => fun i j => schur A k i j -! (schur A k i k /! schur A k k k) *! schur A k k j end.
  Definition piv (A : nat -> nat -> T) (k : nat) : T := schur A k k k.
  Definition lu_entry (A : nat -> nat -> T) (k i j : nat) : T :=
    if (k <=? i) && (k <=? j) then schur A k i j else if i <=? j then schur A i i j else schur A j i j /! piv A j.

  Lemma lu_step_some n A k : k + 1 < n -> piv A k <> t0 -> lu_step n (mk n n (lu_entry A k)) k = Some (mk n n (lu_entry A (k + 1))).
  Proof.
    intros Hk P. unfold lu_step. rewrite msub_view_mk by lia. cbn [obind]. rewrite mget_in by lia. cbn [obind].
    assert (lu_entry A k k k = piv A k) as -> by (unfold lu_entry; now replace ((k <=? k) && (k <=? k)) with true by lia).
    unfold mdivs. cbn [nr nc mk].
    rewrite (mbuild_some _ _ _ (fun i j => lu_entry A k (k + 1 + i) (k + j) /! piv A k)).
    2: { intros i j Hi Hj. fold (mk (n - (k + 1)) (k + 1 - k) (fun i j => lu_entry A k (k + 1 + i) (k + j))). rewrite mget_in by lia. cbn [obind]. now apply fdiv_some. }
    cbn [obind]. rewrite mwrite_mk by lia. cbn [obind].
    rewrite !msub_view_mk by lia. cbn [obind]. replace (k + 1 - k) with 1 by lia. rewrite mmul_mk. cbn [obind]. unfold msub. rewrite mzip_mk. cbn [obind].
    rewrite mwrite_mk by lia. f_equal. apply mk_ext. intros i j Hi Hj. unfold prod_entry. cbn [sum].
    assert (forall p q, (k <=? p) && (k <=? q) = true -> lu_entry A k p q = schur A k p q) as E by (intros p q G; unfold lu_entry; now rewrite G).
    destruct ((k + 1 <=? i) && (i <? n) && (k + 1 <=? j) && (j <? n)) eqn:C.
    - assert (lu_entry A (k + 1) i j = schur A (k + 1) i j) as -> by (unfold lu_entry; now replace ((k + 1 <=? i) && (k + 1 <=? j)) with true by lia). replace (k + 1 + (i - (k + 1))) with i by lia. replace (k + 1 + (j - (k + 1))) with j by lia.
      replace (k + 0) with k by lia.
      replace ((k + 1 <=? i) && (i <? n) && (k <=? j) && (j <? k + 1)) with false by lia.
      replace ((k + 1 <=? i) && (i <? n) && (k <=? k) && (k <? k + 1)) with true by lia.
      replace ((k + 1 <=? k) && (k <? n) && (k <=? j) && (j <? k + 1)) with false by lia.
      replace (k + 1 + (i - (k + 1))) with i by lia. replace (k + (k - k)) with k by lia. rewrite !E by lia. rewrite Nat.add_1_r. cbn [schur]. unfold piv. ring.
    - destruct ((k + 1 <=? i) && (i <? n) && (k <=? j) && (j <? k + 1)) eqn:C2.
      + replace j with k in * by lia. unfold lu_entry at 2. replace ((k + 1 <=? i) && (k + 1 <=? k)) with false by lia. replace (i <=? k) with false by lia.
        replace (k + 1 + (i - (k + 1))) with i by lia. replace (k + (k - k)) with k by lia. rewrite E by lia. reflexivity.
      + unfold lu_entry. replace ((k + 1 <=? i) && (k + 1 <=? j)) with false by lia.
        destruct ((k <=? i) && (k <=? j)) eqn:C3; [|reflexivity]. replace i with k by lia. replace (k <=? j) with true by lia. reflexivity.
  Qed.
  Lemma lu_step_none n A k : k + 1 < n -> piv A k = t0 -> lu_step n (mk n n (lu_entry A k)) k = None.
  Proof.
    intros Hk P. unfold lu_step. rewrite msub_view_mk by lia. cbn [obind]. rewrite mget_in by lia. cbn [obind].
    assert (lu_entry A k k k = piv A k) as -> by (unfold lu_entry; now replace ((k <=? k) && (k <=? k)) with true by lia).
    unfold mdivs. cbn [nr nc mk]. rewrite P. rewrite (mbuild_none _ _ _ 0 0); [reflexivity|lia|lia|].
    fold (mk (n - (k + 1)) (k + 1 - k) (fun i j => lu_entry A k (k + 1 + i) (k + j))). rewrite mget_in by lia. cbn [obind]. apply fdiv_none.
  Qed.
  Lemma lu_state n A : 0 < n -> mk n n A = mk n n (lu_entry A 0).
  Proof. intros H. apply mk_ext. intros i j _ _. unfold lu_entry. reflexivity. Qed.
  Lemma lu_some n A : 0 < n -> (forall k, k + 1 < n -> piv A k <> t0) -> lu (mk n n A) = Some (mk n n (lu_entry A (n - 1))).
  Proof.
    intros Hn H. unfold lu. cbn [nr nc mk]. rewrite Nat.eqb_refl. replace (n =? 0) with false by lia. unfold rng. fold (mk n n A). replace (n - 1 - 0) with (n - 1) by lia.
    apply (foldM_seq0 _ (fun k => mk n n (lu_entry A k))); [symmetry; now apply lu_state|]. intros k Hk. apply lu_step_some; [lia|apply H; lia].
  Qed.
  Lemma lu_none n A k : k + 1 < n -> piv A k = t0 -> (forall l, l < k -> piv A l <> t0) -> lu (mk n n A) = None.
  Proof.
    intros Hk P H. unfold lu. cbn [nr nc mk]. rewrite Nat.eqb_refl. replace (n =? 0) with false by lia. unfold rng. fold (mk n n A).
    replace (n - 1 - 0) with (k + S (n - 2 - k)) by lia. rewrite seq_app, foldM_app. cbn [Nat.add seq].
    rewrite (foldM_seq0 _ (fun k => mk n n (lu_entry A k)) _ k); [|symmetry; apply lu_state; lia|intros l Hl; apply lu_step_some; [lia|apply H; lia]].
    cbn [obind foldM]. now rewrite lu_step_none by (lia || exact P).
  Qed.

  (** Products of pivots. *)
  Fixpoint product (n : nat) (f : nat -> T) : T := match n with 0 => t1 | S k => product k f *! f k end.
  Lemma product_S n f : product (S n) f = f 0 *! product n (fun i => f (S i)).
  Proof. induction n as [|n IH]; [cbn; ring|]. cbn [product] in *. rewrite IH. ring. Qed.
  Lemma product_ext n f g : (forall i, i < n -> f i = g i) -> product n f = product n g.
  Proof. induction n as [|n IH]; intros H; [reflexivity|]. cbn. now rewrite IH, H by (auto with arith). Qed.
  Lemma fold_product (f : nat -> T) n : fold_left tmul (map f (seq 0 n)) t1 = product n f.
  Proof. induction n as [|n IH]; [reflexivity|]. rewrite seq_S, map_app, fold_left_app, IH. reflexivity. Qed.
  Lemma schur_shift A k i j : schur (fun i j => schur A 1 (S i) (S j)) k i j = schur A (S k) (S i) (S j).
  Proof. revert i j. induction k as [|k IH]; intros i j; [reflexivity|]. cbn [schur]. rewrite !IH. reflexivity. Qed.
  Lemma det_piv n : forall A, (forall k, k < n -> piv A k <> t0) -> determinant (S n) A = product (S n) (piv A).
  Proof.
    induction n as [|n IH]; intros A H.
    - cbn. unfold signed, piv. cbn. ring.
    - rewrite product_S. rewrite <- (det_clear RL (S n) A (fun i => topp (A i 0 /! A 0 0))).
      assert (A 0 0 <> t0) as N by (apply (H 0); lia).
      rewrite (det_first_column RL).
      + cbn [Nat.eqb]. change (piv A 0) with (A 0 0). f_equal.
        rewrite (det_ext (S n) _ (fun i j => schur A 1 (S i) (S j))) by (intros i j _ _; cbn; ring).
        rewrite IH.
        * apply product_ext. intros i Hi. unfold piv. now rewrite schur_shift.
        * intros k Hk. unfold piv. rewrite schur_shift. apply (H (S k)). lia.
      + intros i Hi. destruct (Nat.eqb_spec i 0); [lia|]. transitivity (A i 0 -! (A i 0 /! A 0 0) *! A 0 0); [ring|]. rewrite div_mul by exact N. ring.
  Qed.
  Lemma piv_minor n A : (forall k, 0 < k < n -> determinant k A <> t0) <-> (forall k, k + 1 < n -> piv A k <> t0).
  Proof.
    split.
    - intros H k. induction k as [k IH] using (well_founded_induction lt_wf). intros Hk P. apply (H (S k)); [lia|].
      rewrite det_piv by (intros l Hl; apply IH; lia). cbn [product]. rewrite P. ring.
    - intros H k Hk. destruct k as [|k]; [lia|]. rewrite det_piv by (intros; apply H; lia).
      assert (forall m, m <= S k -> product m (piv A) <> t0) as K; [|apply K; lia].
      induction m as [|m IH]; intros Hm; cbn [product]; [apply (proj1 (proj2 (proj2 FO)))|]. intros E. destruct (mul_zero _ _ E) as [E1|E1]; [apply IH; [lia|exact E1]|apply (H m); [lia|exact E1]].
  Qed.
  Lemma det_step A k : (forall l, l < k -> piv A l <> t0) -> determinant (S k) A = determinant k A *! piv A k.
  Proof.
    intros H. rewrite det_piv by exact H. destruct k as [|k]; [reflexivity|]. rewrite det_piv by (intros; apply H; lia). reflexivity.
  Qed.
  Lemma piv_dec n A : (forall k, k < n -> piv A k <> t0) \/ exists k, k < n /\ piv A k = t0 /\ forall l, l < k -> piv A l <> t0.
  Proof.
    induction n as [|n [IH|(k & Hk & IH)]]; [left; lia| |right; exists k; split; [lia|exact IH]].
    destruct (eq_dec (piv A n) t0) as [E|E]; [right; exists n; auto|left]. intros k Hk. destruct (Nat.eq_dec k n) as [->|]; [exact E|apply IH; lia].
  Qed.

  (** The factors multiply to the matrix. *)
  Lemma telescope A i j m : sum m (fun l => (schur A l i l /! piv A l) *! schur A l l j) = A i j -! schur A m i j.
  Proof. induction m as [|m IH]; cbn [sum schur]; [ring|]. rewrite IH. unfold piv. ring. Qed.
  Lemma sum_split n i (f : nat -> T) : i <= n -> sum n f = sum i f +! sum (n - i) (fun k => f (i + k)).
  Proof.
    intros H. induction n as [|n IH]; [replace i with 0 by lia; cbn; ring|].
    destruct (Nat.eq_dec i (S n)) as [->|]; [rewrite Nat.sub_diag; cbn; ring|]. replace (S n - i) with (S (n - i)) by lia. cbn [sum]. rewrite IH by lia. replace (i + (n - i)) with n by lia. ring.
  Qed.
  Lemma lu_prod n A i j : (forall k, k + 1 < n -> piv A k <> t0) -> i < n -> j < n ->
    prod_entry n (lower_part (lu_entry A (n - 1))) (upper_part (lu_entry A (n - 1))) i j = A i j.
  Proof.
    intros P Hi Hj. unfold prod_entry. set (F := lu_entry A (n - 1)).
    assert (forall a b, b < n -> a <= b -> F a b = schur A a a b) as FU.
    { intros a b Hb H. unfold F, lu_entry. replace (a <=? b) with true by lia. destruct ((n - 1 <=? a) && (n - 1 <=? b)) eqn:E; [now replace a with (n - 1) by lia|reflexivity]. }
    assert (forall a b, a < n -> b < a -> F a b = schur A b a b /! piv A b) as FL.
    { intros a b Hb H. unfold F, lu_entry. replace (a <=? b) with false by lia. now replace ((n - 1 <=? a) && (n - 1 <=? b)) with false by lia. }
    clearbody F. assert (exists m, m = Nat.min i j) as (m & Em) by eauto. rewrite (sum_split n (S m)) by lia. cbn [sum].
    rewrite (sum_ext (O := OT) m _ (fun l => (schur A l i l /! piv A l) *! schur A l l j)).
    2: { intros l Hl. unfold lower_part, upper_part. destruct (Nat.eqb_spec i l), (Nat.ltb_spec l i), (Nat.leb_spec l j); try lia. now rewrite FL, FU by lia. }
    rewrite telescope. rewrite (sum_zero RL (n - S m)).
    2: { intros l Hl. unfold lower_part, upper_part. destruct (Nat.eqb_spec i (S m + l)), (Nat.ltb_spec (S m + l) i), (Nat.leb_spec (S m + l) j); try lia; ring. }
    unfold lower_part, upper_part. destruct (Nat.leb_spec m j); [|lia]. destruct (Nat.eqb_spec i m) as [E|E].
    - rewrite <- E. rewrite FU by lia. ring.
    - assert (m = j /\ j < i) as (Ej & Lj) by lia. clear Em. subst m. destruct (Nat.ltb_spec j i); [|lia]. rewrite FL, FU by lia. fold (piv A j). rewrite div_mul by (apply P; lia). ring.
  Qed.
End LuP.
