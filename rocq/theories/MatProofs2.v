(** Sums, products, ring laws, elementary operations. *)
From Coq Require Import List Arith Bool Lia ZifyBool Ring_theory Ring.
From Verif Require Import PidModel MatModel MatSpec MatProofs.
Import ListNotations.
Open Scope nat_scope.

Section Laws.
  Context {T : Type} {O : Ops T}.
  Hypothesis RL : ring_theory t0 t1 tadd tmul tsub topp (@eq T).
  Add Ring Tring : RL.
  Infix "+!" := tadd (at level 50, left associativity).
  Infix "*!" := tmul (at level 40, left associativity).

  Lemma sum_ext n (f g : nat -> T) : (forall k, k < n -> f k = g k) -> sum n f = sum n g.
  Proof. induction n as [|n IH]; intros H; cbn; [reflexivity|]. rewrite IH by (intros; apply H; lia). now rewrite H by lia. Qed.
  Lemma sum_zero n (f : nat -> T) : (forall k, k < n -> f k = t0) -> sum n f = t0.
  Proof. induction n as [|n IH]; intros H; cbn; [reflexivity|]. rewrite IH by (intros; apply H; lia). rewrite H by lia. ring. Qed.
  Lemma sum_add n (f g : nat -> T) : sum n (fun k => f k +! g k) = sum n f +! sum n g.
  Proof. induction n as [|n IH]; cbn; [ring|]. rewrite IH. ring. Qed.
  Lemma sum_mul_l n c (f : nat -> T) : sum n (fun k => c *! f k) = c *! sum n f.
  Proof. induction n as [|n IH]; cbn; [ring|]. rewrite IH. ring. Qed.
  Lemma sum_mul_r n c (f : nat -> T) : sum n (fun k => f k *! c) = sum n f *! c.
  Proof. induction n as [|n IH]; cbn; [ring|]. rewrite IH. ring. Qed.
  Lemma sum_swap n m (f : nat -> nat -> T) : sum n (fun i => sum m (fun j => f i j)) = sum m (fun j => sum n (fun i => f i j)).
  Proof.
    induction n as [|n IH]; cbn; [symmetry; now apply sum_zero|]. rewrite IH. now rewrite <- sum_add.
  Qed.
  Lemma sum_single n k (f : nat -> T) : k < n -> (forall i, i < n -> i <> k -> f i = t0) -> sum n f = f k.
  Proof.
    intros Hk H. induction n as [|n IH]; [lia|]. cbn. destruct (Nat.eq_dec k n) as [->|Hne].
    - rewrite sum_zero by (intros; apply H; lia). ring.
    - rewrite IH; [|lia|intros; apply H; lia]. rewrite (H n) by lia. ring.
  Qed.
  (** changing two terms without changing their sum *)
  Lemma sum_one n i (f : nat -> T) : i < n -> sum n f = f i +! sum n (fun k => if k =? i then t0 else f k).
  Proof.
    intros Hi. induction n as [|n IH]; [lia|]. cbn. destruct (Nat.eq_dec i n) as [->|Hne].
    - rewrite Nat.eqb_refl. rewrite (sum_ext n (fun k => if k =? n then t0 else f k) f).
      + ring.
      + intros k Hk. now replace (k =? n) with false by lia.
    - rewrite IH by lia. replace (n =? i) with false by lia. ring.
  Qed.
  Lemma sum_two n i k (f g : nat -> T) : i < n -> k < n -> i <> k -> (forall l, l < n -> l <> i -> l <> k -> f l = g l) ->
    f i +! f k = g i +! g k -> sum n f = sum n g.
  Proof.
    intros Hi Hk Hne H E.
    rewrite (sum_one n i f), (sum_one n i g) by assumption.
    rewrite (sum_one n k (fun l => if l =? i then t0 else f l)), (sum_one n k (fun l => if l =? i then t0 else g l)) by assumption.
    replace (k =? i) with false by lia. 
    rewrite (sum_ext n (fun l => if l =? k then t0 else if l =? i then t0 else f l) (fun l => if l =? k then t0 else if l =? i then t0 else g l)).
    - transitivity ((f i +! f k) +! sum n (fun l => if l =? k then t0 else if l =? i then t0 else g l)); [ring|]. rewrite E. ring.
    - intros l Hl. destruct (Nat.eqb_spec l k), (Nat.eqb_spec l i); try reflexivity. now apply H.
  Qed.
  Lemma sum_delta_l n i (f : nat -> T) : i < n -> sum n (fun k => id_entry i k *! f k) = f i.
  Proof.
    intros Hi. rewrite (sum_single n i); [unfold id_entry; rewrite Nat.eqb_refl; ring|exact Hi|].
    intros k _ Hk. unfold id_entry. replace (i =? k) with false by lia. ring.
  Qed.
  Lemma sum_delta_r n j (f : nat -> T) : j < n -> sum n (fun k => f k *! id_entry k j) = f j.
  Proof.
    intros Hi. rewrite (sum_single n j); [unfold id_entry; rewrite Nat.eqb_refl; ring|exact Hi|].
    intros k _ Hk. unfold id_entry. replace (k =? j) with false by lia. ring.
  Qed.

  Lemma prod_assoc p q (f g h : nat -> nat -> T) i j :
    prod_entry q (prod_entry p f g) h i j = prod_entry p f (prod_entry q g h) i j.
  Proof.
    unfold prod_entry.
    rewrite (sum_ext q _ (fun l => sum p (fun l0 => f i l0 *! g l0 l *! h l j))).
    - rewrite sum_swap. apply sum_ext. intros k Hk. rewrite <- sum_mul_l. apply sum_ext. intros l Hl. ring.
    - intros l Hl. now rewrite <- sum_mul_r.
  Qed.
  Lemma prod_id_l n (f : nat -> nat -> T) i j : i < n -> prod_entry n id_entry f i j = f i j.
  Proof. intros Hi. unfold prod_entry. exact (sum_delta_l n i (fun k => f k j) Hi). Qed.
  Lemma prod_id_r n (f : nat -> nat -> T) i j : j < n -> prod_entry n f id_entry i j = f i j.
  Proof. intros Hi. unfold prod_entry. exact (sum_delta_r n j (fun k => f i k) Hi). Qed.
  Lemma prod_ext p (f f' g g' : nat -> nat -> T) i j :
    (forall k, k < p -> f i k = f' i k) -> (forall k, k < p -> g k j = g' k j) -> prod_entry p f g i j = prod_entry p f' g' i j.
  Proof. intros H1 H2. apply sum_ext. intros k Hk. now rewrite H1, H2. Qed.
  Lemma prod_add_r p (f g h : nat -> nat -> T) i j :
    prod_entry p f (fun a b => g a b +! h a b) i j = prod_entry p f g i j +! prod_entry p f h i j.
  Proof. unfold prod_entry. rewrite <- sum_add. apply sum_ext. intros; ring. Qed.
  Lemma prod_add_l p (f g h : nat -> nat -> T) i j :
    prod_entry p (fun a b => g a b +! h a b) f i j = prod_entry p g f i j +! prod_entry p h f i j.
  Proof. unfold prod_entry. rewrite <- sum_add. apply sum_ext. intros; ring. Qed.
  Lemma prod_transpose p (f g : nat -> nat -> T) i j :
    prod_entry p f g i j = prod_entry p (fun a b => g b a) (fun a b => f b a) j i.
  Proof. unfold prod_entry. apply sum_ext. intros; ring. Qed.
End Laws.

Section Arr.
  Context {T : Type} {O : Ops T}.
  Lemma from_array_ok (v : list (list T)) : v <> [] -> hd [] v <> [] -> Forall (fun r => length r = length (hd [] v)) v ->
    from_array v = Some (mk (length v) (length (hd [] v)) (fun i j => nth j (nth i v []) t0)).
  Proof.
    intros H1 H2 HF. destruct v as [|[|a r0] v]; [congruence|cbn in H2; congruence|]. unfold from_array.
    destruct (forallb _ _) eqn:E.
    - exfalso. rewrite forallb_forall in E. specialize (E (a :: r0) ltac:(now left)). rewrite Nat.eqb_refl in E. discriminate.
    - cbn [hd]. apply mbuild_some. intros i j Hi Hj.
      rewrite (nth_error_nth' _ []) by exact Hi. cbn [obind].
      apply nth_error_nth'. cbn [hd] in HF. rewrite Forall_forall in HF.
      rewrite (HF (nth i ((a :: r0) :: v) [])); [exact Hj|]. now apply nth_In.
  Qed.
  Lemma from_array_empty (v : list (list T)) : v = [] \/ hd [] v = [] -> from_array v = None.
  Proof. intros [->|H]; [reflexivity|]. destruct v as [|[|a r] v]; [reflexivity|reflexivity|discriminate]. Qed.
  (** a row shorter than the first is caught (by the index panic) *)
  Lemma from_array_short (v : list (list T)) r : In r v -> length r < length (hd [] v) -> from_array v = None.
  Proof.
    intros Hi Hl. destruct v as [|[|a r0] v]; [reflexivity|reflexivity|]. unfold from_array. destruct (forallb _ _); [reflexivity|].
    apply (In_nth_error) in Hi. destruct Hi as [i Hi]. cbn [hd] in Hl.
    apply (mbuild_none _ _ _ i (length r)).
    - apply nth_error_Some. congruence.
    - exact Hl.
    - rewrite Hi. cbn [obind]. now apply nth_error_None.
  Qed.
  Lemma mscale_assign_mk n m (f : nat -> nat -> T) c : mscale_assign (mk n m f) c = Some (mk n m (fun i j => tmul (f i j) c)).
  Proof.
    unfold mscale_assign. cbn [nr mk]. fold (mk n m f).
    rewrite (foldM_seq0 _ (fun k => mk n m (fun i j => if i <? k then tmul (f i j) c else f i j))).
    - f_equal. apply mk_ext. intros i j Hi Hj. now replace (i <? n) with true by lia.
    - apply mk_ext. intros i j _ _. now replace (i <? 0) with false by lia.
    - intros k Hk. cbn [nc mk].
      rewrite (foldM_seq0 _ (fun l => mk n m (fun i j => if (i <? k) || ((i =? k) && (j <? l)) then tmul (f i j) c else f i j))).
      + f_equal. apply mk_ext. intros i j Hi Hj. replace (j <? m) with true by lia.
        destruct ((i <? k) || _) eqn:E1, (i <? k + 1) eqn:E2; try reflexivity; lia.
      + apply mk_ext. intros i j _ _. replace (j <? 0) with false by lia. now rewrite andb_false_r, orb_false_r.
      + intros l Hl. rewrite mget_in by assumption. cbn [obind]. rewrite mset_mk by assumption. f_equal. apply mk_ext. intros i j Hi Hj.
        replace ((k <? k) || ((k =? k) && (l <? l))) with false by lia.
        destruct ((i =? k) && (j =? l)) eqn:E0.
        * replace ((i <? k) || ((i =? k) && (j <? l + 1))) with true by lia. f_equal. f_equal; lia.
        * destruct ((i <? k) || ((i =? k) && (j <? l))) eqn:E1, ((i <? k) || ((i =? k) && (j <? l + 1))) eqn:E2; try reflexivity; lia.
  Qed.
  Lemma meqb_spec teqb n m (f : nat -> nat -> T) n' m' g : (forall a b, teqb a b = true <-> a = b) ->
    (meqb teqb (mk n m f) (mk n' m' g) = true <-> n = n' /\ m = m' /\ forall i j, i < n -> j < m -> f i j = g i j).
  Proof.
    intros Ht. unfold meqb. cbn [nr nc mk]. fold (mk n m f) (mk n' m' g). rewrite !andb_true_iff, !Nat.eqb_eq, forallb_forall. split.
    - intros [[<- <-] H]. split; [reflexivity|]. split; [reflexivity|]. intros i j Hi Hj.
      specialize (H i ltac:(apply in_seq; lia)). rewrite forallb_forall in H. specialize (H j ltac:(apply in_seq; lia)).
      rewrite !mget_in in H by assumption. now apply Ht.
    - intros (<- & <- & H). split; [auto|]. intros i Hi. apply in_seq in Hi. apply forallb_forall. intros j Hj. apply in_seq in Hj.
      rewrite !mget_in by lia. apply Ht, H; lia.
  Qed.
  Lemma swap_rows_none n m (f : nat -> nat -> T) r1 r2 : 0 < m -> ~ (r1 < n /\ r2 < n) -> swap_rows (mk n m f) r1 r2 = None.
  Proof.
    intros Hm H. unfold swap_rows. cbn [nc mk]. fold (mk n m f). destruct m as [|m]; [lia|]. cbn [seq foldM].
    rewrite !mget_mk. replace (0 <? S m) with true by lia. rewrite !andb_true_r.
    destruct (r1 <? n) eqn:E1; [|reflexivity]. destruct (r2 <? n) eqn:E2; [lia|reflexivity].
  Qed.
  Lemma swap_cols_none n m (f : nat -> nat -> T) r1 r2 : 0 < n -> ~ (r1 < m /\ r2 < m) -> swap_cols (mk n m f) r1 r2 = None.
  Proof.
    intros Hm H. unfold swap_cols. cbn [nr mk]. fold (mk n m f). destruct n as [|n]; [lia|]. cbn [seq foldM].
    rewrite !mget_mk. replace (0 <? S n) with true by lia. cbn [andb].
    destruct (r1 <? m) eqn:E1; [|reflexivity]. destruct (r2 <? m) eqn:E2; [lia|reflexivity].
  Qed.
  Lemma row_operation_none n m (f : nat -> nat -> T) r1 r2 s : 0 < m -> ~ (r1 < n /\ r2 < n) -> row_operation (mk n m f) r1 r2 s = None.
  Proof.
    intros Hm H. unfold row_operation. destruct (le_lt_dec n r2) as [Hr|Hr]; [now rewrite mrow_none|].
    rewrite mrow_mk by assumption. cbn [obind]. rewrite mscale_mk. cbn [obind nc mk]. fold (mk n m f). destruct m as [|m]; [lia|]. cbn [seq foldM].
    rewrite mget_mk. now replace (r1 <? n) with false by lia.
  Qed.
  Lemma col_operation_none n m (f : nat -> nat -> T) r1 r2 s : 0 < n -> ~ (r1 < m /\ r2 < m) -> col_operation (mk n m f) r1 r2 s = None.
  Proof.
    intros Hm H. unfold col_operation. destruct (le_lt_dec m r2) as [Hr|Hr]; [now rewrite mcol_none|].
    rewrite mcol_mk by assumption. cbn [obind]. rewrite mscale_mk. cbn [obind nr mk]. fold (mk n m f). destruct n as [|n]; [lia|]. cbn [seq foldM].
    rewrite mget_mk. replace (r1 <? m) with false by lia. now rewrite andb_false_r.
  Qed.
End Arr.
