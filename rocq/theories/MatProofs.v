(** Matrix operations in closed form. *)
From Coq Require Import List Arith Bool Lia ZifyBool Ring_theory Ring.
From Verif Require Import PidModel MatModel MatSpec.
Import ListNotations.
Open Scope nat_scope.

(** ** Loops *)
Lemma foldM_app {A S} (f : S -> A -> option S) l1 l2 s : foldM f (l1 ++ l2) s = do s' <- foldM f l1 s; foldM f l2 s'.
Proof. revert s; induction l1 as [|x l1 IH]; intros s; cbn; [reflexivity|]. destruct (f s x); cbn; [apply IH|reflexivity]. Qed.
Lemma foldM_seq {S} (f : S -> nat -> option S) (st : nat -> S) a n :
  (forall k, k < n -> f (st k) (a + k) = Some (st (k + 1))) -> foldM f (seq a n) (st 0) = Some (st n).
Proof.
  induction n as [|n IH]; intros H; [reflexivity|]. rewrite seq_S, foldM_app, IH by (intros; apply H; lia). cbn.
  rewrite H by lia. cbn. now rewrite Nat.add_1_r.
Qed.
Lemma foldM_seq0 {S} (f : S -> nat -> option S) (st : nat -> S) s n :
  st 0 = s -> (forall k, k < n -> f (st k) k = Some (st (k + 1))) -> foldM f (seq 0 n) s = Some (st n).
Proof. intros <- H. apply (foldM_seq f st 0 n). intros k Hk. apply H, Hk. Qed.
Lemma omapM_some {A B} (f : A -> option B) g l : (forall x, In x l -> f x = Some (g x)) -> omapM f l = Some (map g l).
Proof.
  induction l as [|x l IH]; intros H; cbn; [reflexivity|]. rewrite H by now left. cbn. rewrite IH; [reflexivity|]. intros; apply H; now right.
Qed.
Lemma omapM_none {A B} (f : A -> option B) l x : In x l -> f x = None -> omapM f l = None.
Proof.
  induction l as [|y l IH]; [intros []|]. intros [->|Hi] H; cbn; [now rewrite H|].
  destruct (f y); cbn; [|reflexivity]. now rewrite IH.
Qed.
Lemma lset_length {A} (l : list A) i x : length (lset l i x) = length l.
Proof. revert i; induction l as [|y l IH]; intros [|i]; cbn; auto. Qed.
Lemma lset_nth {A} (l : list A) i x j d : i < length l -> nth j (lset l i x) d = if j =? i then x else nth j l d.
Proof.
  revert i j; induction l as [|y l IH]; intros i j H; [cbn in H; lia|].
  destruct i as [|i], j as [|j]; cbn [lset nth Nat.eqb]; try reflexivity. apply IH. cbn in H; lia.
Qed.
Lemma map_seq_nth {A} (f : nat -> A) n i d : i < n -> nth i (map f (seq 0 n)) d = f i.
Proof.
  intros H. rewrite (nth_indep _ d (f 0)) by (rewrite map_length, seq_length; exact H).
  rewrite map_nth. now rewrite seq_nth.
Qed.
Lemma map_seq_nth_error {A} (f : nat -> A) n i : i < n -> nth_error (map f (seq 0 n)) i = Some (f i).
Proof.
  intros H. rewrite (nth_error_nth' _ (f 0)) by (rewrite map_length, seq_length; exact H). f_equal. now apply map_seq_nth.
Qed.
Lemma list_eq_map_seq {A} (l : list A) d : l = map (fun i => nth i l d) (seq 0 (length l)).
Proof.
  apply (nth_ext _ _ d d); [now rewrite map_length, seq_length|]. intros i Hi.
  now rewrite map_seq_nth.
Qed.

Section Mat.
  Context {T : Type} {O : Ops T}.

  Definition mk (n m : nat) (f : nat -> nat -> T) : mat T := Mat n m (map (fun i => map (f i) (seq 0 m)) (seq 0 n)).

  Lemma nr_mk n m f : nr (mk n m f) = n. Proof. reflexivity. Qed.
  Lemma nc_mk n m f : nc (mk n m f) = m. Proof. reflexivity. Qed.
  Lemma wf_mk n m f : wf (mk n m f).
  Proof.
    split; cbn; [now rewrite map_length, seq_length|]. apply Forall_forall. intros r Hr. apply in_map_iff in Hr.
    destruct Hr as (i & <- & _). now rewrite map_length, seq_length.
  Qed.
  Lemma ent_mk n m f i j : i < n -> j < m -> ent (mk n m f) i j = f i j.
  Proof. intros Hi Hj. unfold ent. cbn. rewrite map_seq_nth by exact Hi. now rewrite map_seq_nth by exact Hj. Qed.
  Lemma mk_ext n m f g : (forall i j, i < n -> j < m -> f i j = g i j) -> mk n m f = mk n m g.
  Proof.
    intros H. unfold mk. f_equal. apply map_ext_in. intros i Hi. apply in_seq in Hi. apply map_ext_in. intros j Hj. apply in_seq in Hj.
    apply H; lia.
  Qed.
  Lemma mk_inj n m f g : mk n m f = mk n m g -> forall i j, i < n -> j < m -> f i j = g i j.
  Proof. intros E i j Hi Hj. rewrite <- (ent_mk n m f), <- (ent_mk n m g) by assumption. now rewrite E. Qed.
  Lemma wf_eq_mk M : wf M -> M = mk (nr M) (nc M) (ent M).
  Proof.
    intros [H1 H2]. destruct M as [n m r]. cbn [nr nc rws] in *. unfold mk. f_equal. subst n.
    rewrite (list_eq_map_seq r []) at 1. apply map_ext_in. intros i Hi. apply in_seq in Hi.
    assert (Hl : length (nth i r []) = m) by (rewrite Forall_forall in H2; apply H2, nth_In; lia).
    rewrite (list_eq_map_seq (nth i r []) t0) at 1. rewrite Hl. reflexivity.
  Qed.
  Lemma mk_ent n m f M : is_mat n m f M <-> M = mk n m f.
  Proof.
    split.
    - intros (H1 & H2 & H3 & H4 & H5). assert (Hw : wf M) by (split; congruence || (now rewrite H2)).
      rewrite (wf_eq_mk M Hw). rewrite H1, H2. apply mk_ext. intros i j Hi Hj. unfold ent. specialize (H5 i j Hi Hj).
      now apply nth_error_nth.
    - intros ->. repeat split.
      + cbn. now rewrite map_length, seq_length.
      + apply (wf_mk n m f).
      + intros i j Hi Hj. cbn. rewrite map_seq_nth by exact Hi. now apply map_seq_nth_error.
  Qed.
  Lemma mget_mk n m f i j : mget (mk n m f) i j = if (i <? n) && (j <? m) then Some (f i j) else None.
  Proof.
    unfold mget. cbn [nr nc mk rws]. destruct ((i <? n) && (j <? m)) eqn:E; [|reflexivity].
    rewrite map_seq_nth_error by lia. cbn. now apply map_seq_nth_error; lia.
  Qed.
  Lemma mget_in n m f i j : i < n -> j < m -> mget (mk n m f) i j = Some (f i j).
  Proof. intros. rewrite mget_mk. now replace ((i <? n) && (j <? m)) with true by lia. Qed.
  Lemma mset_mk n m f i j x : i < n -> j < m ->
    mset (mk n m f) i j x = Some (mk n m (fun p q => if (p =? i) && (q =? j) then x else f p q)).
  Proof.
    intros Hi Hj. unfold mset. cbn [nr nc mk rws]. replace ((i <? n) && (j <? m)) with true by lia.
    rewrite map_seq_nth_error by lia. cbn [obind]. f_equal. unfold mk. f_equal.
    apply (nth_ext _ _ [] []); [now rewrite lset_length, !map_length|]. intros p Hp.
    rewrite lset_length, map_length, seq_length in Hp. rewrite lset_nth by (now rewrite map_length, seq_length).
    rewrite !map_seq_nth by exact Hp. destruct (Nat.eqb_spec p i) as [->|Hne]; [|reflexivity]. cbn [andb].
    apply (nth_ext _ _ t0 t0); [now rewrite lset_length, !map_length|]. intros q Hq.
    rewrite lset_length, map_length, seq_length in Hq. rewrite lset_nth by (now rewrite map_length, seq_length).
    now rewrite !map_seq_nth by exact Hq.
  Qed.
  Lemma mset_none n m f i j x : ~ (i < n /\ j < m) -> mset (mk n m f) i j x = None.
  Proof. intros H. unfold mset. cbn [nr nc mk]. now replace ((i <? n) && (j <? m)) with false by lia. Qed.
  Lemma mbuild_some n m f g : (forall i j, i < n -> j < m -> f i j = Some (g i j)) -> mbuild n m f = Some (mk n m g).
  Proof.
    intros H. unfold mbuild. rewrite (omapM_some _ (fun i => map (g i) (seq 0 m))); [reflexivity|].
    intros i Hi. apply in_seq in Hi. apply omapM_some. intros j Hj. apply in_seq in Hj. apply H; lia.
  Qed.
  Lemma mbuild_none n m (f : nat -> nat -> option T) i j : i < n -> j < m -> f i j = None -> mbuild n m f = None.
  Proof.
    intros Hi Hj H. unfold mbuild. rewrite (omapM_none _ _ i); [reflexivity|apply in_seq; lia|].
    apply (omapM_none _ _ j); [apply in_seq; lia|exact H].
  Qed.

  Lemma msub_view_mk n m f r0 r1 c0 c1 : r0 <= r1 <= n -> c0 <= c1 <= m ->
    msub_view (mk n m f) r0 r1 c0 c1 = Some (mk (r1 - r0) (c1 - c0) (fun i j => f (r0 + i) (c0 + j))).
  Proof.
    intros Hr Hc. unfold msub_view. cbn [nr nc mk].
    replace ((r0 <=? r1) && (r1 <=? n) && (c0 <=? c1) && (c1 <=? m)) with true by lia.
    apply mbuild_some. intros i j Hi Hj. rewrite mget_in by lia. reflexivity.
  Qed.
  Lemma mrow_mk n m f i : i < n -> mrow (mk n m f) i = Some (mk 1 m (fun _ j => f i j)).
  Proof.
    intros Hi. unfold mrow. cbn [nc mk]. fold (mk n m f). rewrite msub_view_mk by lia. f_equal.
    replace (i + 1 - i) with 1 by lia. rewrite Nat.sub_0_r. apply mk_ext. intros p q Hp Hq. replace p with 0 by lia.
    now rewrite Nat.add_0_r.
  Qed.
  Lemma mcol_mk n m f j : j < m -> mcol (mk n m f) j = Some (mk n 1 (fun i _ => f i j)).
  Proof.
    intros Hi. unfold mcol. cbn [nr mk]. fold (mk n m f). rewrite msub_view_mk by lia. f_equal.
    replace (j + 1 - j) with 1 by lia. rewrite Nat.sub_0_r. apply mk_ext. intros p q Hp Hq. replace q with 0 by lia.
    now rewrite Nat.add_0_r.
  Qed.
  Lemma mrow_none n m f i : n <= i -> mrow (mk n m f) i = None.
  Proof.
    intros Hi. unfold mrow, msub_view. cbn [nr nc mk]. replace (i + 1 <=? n) with false by lia. now rewrite andb_false_r.
  Qed.
  Lemma mcol_none n m f i : m <= i -> mcol (mk n m f) i = None.
  Proof.
    intros Hi. unfold mcol, msub_view. cbn [nr nc mk]. replace (i + 1 <=? m) with false by lia. now rewrite andb_false_r.
  Qed.
  Lemma mtranspose_mk n m f : mtranspose (mk n m f) = Some (mk m n (fun i j => f j i)).
  Proof. unfold mtranspose. cbn [nr nc mk]. fold (mk n m f). apply mbuild_some. intros i j Hi Hj. now rewrite mget_in. Qed.
  Lemma as_matrix_mk n m f : as_matrix (mk n m f) = Some (mk n m f).
  Proof. unfold as_matrix. cbn [nr nc mk]. fold (mk n m f). apply mbuild_some. intros i j Hi Hj. now rewrite mget_in. Qed.
  Lemma mzip_mk op n m f g : mzip op (mk n m f) (mk n m g) = Some (mk n m (fun i j => op (f i j) (g i j))).
  Proof.
    unfold mzip. cbn [nr nc mk]. fold (mk n m f) (mk n m g). rewrite !Nat.eqb_refl. cbn [andb].
    apply mbuild_some. intros i j Hi Hj. now rewrite !mget_in.
  Qed.
  Lemma mzip_none op n m f n' m' g : ~ (n = n' /\ m = m') -> mzip op (mk n m f) (mk n' m' g) = None.
  Proof. intros H. unfold mzip. cbn [nr nc mk]. now replace ((n =? n') && (m =? m')) with false by lia. Qed.
  Lemma mscale_mk n m f c : mscale (mk n m f) c = Some (mk n m (fun i j => tmul (f i j) c)).
  Proof. unfold mscale. cbn [nr nc mk]. fold (mk n m f). apply mbuild_some. intros i j Hi Hj. now rewrite mget_in. Qed.
  Lemma mzero_mk n m : 0 < n -> 0 < m -> mzero n m = Some (mk n m (fun _ _ => t0)).
  Proof. intros Hn Hm. unfold mzero. replace ((0 <? n) && (0 <? m)) with true by lia. now apply mbuild_some. Qed.

  Lemma fold_sum (f : nat -> T) n : fold_left tadd (map f (seq 0 n)) t0 = sum n f.
  Proof. induction n as [|n IH]; [reflexivity|]. rewrite seq_S, map_app, fold_left_app, IH. reflexivity. Qed.
  Lemma mdot_mk k f g : mdot (mk 1 k f) (mk k 1 g) = Some (sum k (fun l => tmul (f 0 l) (g l 0))).
  Proof.
    unfold mdot. cbn [nr nc mk]. fold (mk 1 k f) (mk k 1 g). rewrite !Nat.eqb_refl. cbn [andb].
    rewrite (omapM_some _ (fun l => tmul (f 0 l) (g l 0))).
    - cbn [obind]. now rewrite fold_sum.
    - intros i Hi. apply in_seq in Hi. rewrite !mget_in by lia. reflexivity.
  Qed.
  Lemma mmul_mk n k m f g : mmul (mk n k f) (mk k m g) = Some (mk n m (prod_entry k f g)).
  Proof.
    unfold mmul. cbn [nr nc mk]. fold (mk n k f) (mk k m g). apply mbuild_some. intros i j Hi Hj.
    rewrite mrow_mk, mcol_mk by assumption. cbn [obind]. now rewrite mdot_mk.
  Qed.
  Lemma mmul_none n k f k' m g : 0 < n -> 0 < m -> k <> k' -> mmul (mk n k f) (mk k' m g) = None.
  Proof.
    intros Hn Hm Hk. unfold mmul. cbn [nr nc mk]. fold (mk n k f) (mk k' m g). apply (mbuild_none _ _ _ 0 0); auto.
    rewrite mrow_mk, mcol_mk by assumption. cbn [obind]. unfold mdot. cbn [nr nc mk]. cbn [Nat.eqb andb].
    now replace (k =? k') with false by lia.
  Qed.
  Lemma midentity_mk n : 0 < n -> midentity n = Some (mk n n id_entry).
  Proof.
    intros Hn. unfold midentity. replace (0 <? n) with true by lia. rewrite mzero_mk by assumption. cbn [obind].
    rewrite (foldM_seq0 _ (fun k => mk n n (fun i j => if (i =? j) && (i <? k) then t1 else t0))).
    - f_equal. apply mk_ext. intros i j Hi Hj. unfold id_entry. now replace (i <? n) with true by lia; rewrite andb_true_r.
    - apply mk_ext. intros i j _ _. now replace (i <? 0) with false by lia; rewrite andb_false_r.
    - intros k Hk. rewrite mset_mk by assumption. f_equal. apply mk_ext. intros i j Hi Hj.
      destruct ((i =? k) && (j =? k)) eqn:E1, ((i =? j) && (i <? k)) eqn:E2, ((i =? j) && (i <? k + 1)) eqn:E3; try reflexivity; lia.
  Qed.

  Lemma swap_rows_mk n m f r1 r2 : r1 < n -> r2 < n ->
    swap_rows (mk n m f) r1 r2 = Some (mk n m (fun i j => f (if i =? r1 then r2 else if i =? r2 then r1 else i) j)).
  Proof.
    intros H1 H2. unfold swap_rows. cbn [nc mk]. fold (mk n m f).
    rewrite (foldM_seq0 _ (fun k => mk n m (fun i j => if j <? k then f (if i =? r1 then r2 else if i =? r2 then r1 else i) j else f i j))).
    - f_equal. apply mk_ext. intros i j Hi Hj. now replace (j <? m) with true by lia.
    - apply mk_ext. intros i j _ _. now replace (j <? 0) with false by lia.
    - intros k Hk. rewrite !mget_in by lia. cbn [obind]. replace (k <? k) with false by lia.
      rewrite mset_mk by assumption. cbn [obind]. rewrite mset_mk by assumption. f_equal. apply mk_ext. intros i j Hi Hj.
      destruct (Nat.eqb_spec j k) as [->|Hjk].
      + replace (k <? k) with false by lia. replace (k <? k + 1) with true by lia. rewrite !andb_true_r.
        destruct (Nat.eqb_spec i r2), (Nat.eqb_spec i r1); subst; reflexivity.
      + rewrite !andb_false_r. now replace (j <? k + 1) with (j <? k) by lia.
  Qed.
  Lemma swap_cols_mk n m f r1 r2 : r1 < m -> r2 < m ->
    swap_cols (mk n m f) r1 r2 = Some (mk n m (fun i j => f i (if j =? r1 then r2 else if j =? r2 then r1 else j))).
  Proof.
    intros H1 H2. unfold swap_cols. cbn [nr mk]. fold (mk n m f).
    rewrite (foldM_seq0 _ (fun k => mk n m (fun i j => if i <? k then f i (if j =? r1 then r2 else if j =? r2 then r1 else j) else f i j))).
    - f_equal. apply mk_ext. intros i j Hi Hj. now replace (i <? n) with true by lia.
    - apply mk_ext. intros i j _ _. now replace (i <? 0) with false by lia.
    - intros k Hk. rewrite !mget_in by lia. cbn [obind]. replace (k <? k) with false by lia.
      rewrite mset_mk by assumption. cbn [obind]. rewrite mset_mk by assumption. f_equal. apply mk_ext. intros i j Hi Hj.
      destruct (Nat.eqb_spec i k) as [->|Hjk].
      + replace (k <? k) with false by lia. replace (k <? k + 1) with true by lia. cbn [andb].
        destruct (Nat.eqb_spec j r2), (Nat.eqb_spec j r1); subst; reflexivity.
      + cbn [andb]. now replace (i <? k + 1) with (i <? k) by lia.
  Qed.
  Lemma row_operation_mk n m f r1 r2 s : r1 < n -> r2 < n ->
    row_operation (mk n m f) r1 r2 s = Some (mk n m (fun i j => if i =? r1 then tadd (f r1 j) (tmul (f r2 j) s) else f i j)).
  Proof.
    intros H1 H2. unfold row_operation. rewrite mrow_mk by assumption. cbn [obind]. rewrite mscale_mk. cbn [obind nc mk].
    fold (mk n m f).
    rewrite (foldM_seq0 _ (fun k => mk n m (fun i j => if (i =? r1) && (j <? k) then tadd (f r1 j) (tmul (f r2 j) s) else f i j))).
    - f_equal. apply mk_ext. intros i j Hi Hj. replace (j <? m) with true by lia. now rewrite andb_true_r.
    - apply mk_ext. intros i j _ _. replace (j <? 0) with false by lia. now rewrite andb_false_r.
    - intros k Hk. rewrite !mget_in by lia. cbn [obind]. rewrite Nat.eqb_refl. replace (k <? k) with false by lia. cbn [andb].
      rewrite mset_mk by assumption.
      f_equal. apply mk_ext. intros i j Hi Hj.
      destruct (Nat.eqb_spec i r1) as [->|]; cbn [andb]; [|reflexivity]. destruct (Nat.eqb_spec j k) as [->|].
      + now replace (k <? k + 1) with true by lia.
      + now replace (j <? k + 1) with (j <? k) by lia.
  Qed.
  Lemma col_operation_mk n m f c1 c2 s : c1 < m -> c2 < m ->
    col_operation (mk n m f) c1 c2 s = Some (mk n m (fun i j => if j =? c1 then tadd (f i c1) (tmul (f i c2) s) else f i j)).
  Proof.
    intros H1 H2. unfold col_operation. rewrite mcol_mk by assumption. cbn [obind]. rewrite mscale_mk. cbn [obind nr mk].
    fold (mk n m f).
    rewrite (foldM_seq0 _ (fun k => mk n m (fun i j => if (j =? c1) && (i <? k) then tadd (f i c1) (tmul (f i c2) s) else f i j))).
    - f_equal. apply mk_ext. intros i j Hi Hj. replace (i <? n) with true by lia. now rewrite andb_true_r.
    - apply mk_ext. intros i j _ _. replace (i <? 0) with false by lia. now rewrite andb_false_r.
    - intros k Hk. rewrite !mget_in by lia. cbn [obind]. rewrite Nat.eqb_refl. replace (k <? k) with false by lia. cbn [andb].
      rewrite mset_mk by assumption.
      f_equal. apply mk_ext. intros i j Hi Hj.
      destruct (Nat.eqb_spec j c1) as [->|]; [|rewrite !andb_false_r; reflexivity]. rewrite andb_true_r. cbn [andb]. destruct (Nat.eqb_spec i k) as [->|].
      + now replace (k <? k + 1) with true by lia.
      + now replace (i <? k + 1) with (i <? k) by lia.
  Qed.
  Lemma mwrite_mk n m f r0 r1 c0 c1 g : r0 <= r1 <= n -> c0 <= c1 <= m ->
    mwrite (mk n m f) r0 r1 c0 c1 (mk (r1 - r0) (c1 - c0) g) =
    Some (mk n m (fun i j => if (r0 <=? i) && (i <? r1) && (c0 <=? j) && (j <? c1) then g (i - r0) (j - c0) else f i j)).
  Proof.
    intros Hr Hc. unfold mwrite. cbn [nr nc mk]. fold (mk n m f) (mk (r1 - r0) (c1 - c0) g). rewrite !Nat.eqb_refl.
    replace ((r0 <=? r1) && (r1 <=? n) && (c0 <=? c1) && (c1 <=? m)) with true by lia. cbn [andb].
    rewrite (foldM_seq0 _ (fun k => mk n m (fun i j => if (r0 <=? i) && (i <? r0 + k) && (c0 <=? j) && (j <? c1) then g (i - r0) (j - c0) else f i j))).
    - f_equal. apply mk_ext. intros i j Hi Hj. now replace (r0 + (r1 - r0)) with r1 by lia.
    - apply mk_ext. intros i j _ _. now replace ((r0 <=? i) && (i <? r0 + 0)) with false by lia.
    - intros k Hk.
      rewrite (foldM_seq0 _ (fun l => mk n m (fun i j => if ((r0 <=? i) && (i <? r0 + k) && (c0 <=? j) && (j <? c1)) || ((i =? r0 + k) && (c0 <=? j) && (j <? c0 + l))
                              then g (i - r0) (j - c0) else f i j))).
      + f_equal. apply mk_ext. intros i j Hi Hj. 
        destruct (((r0 <=? i) && (i <? r0 + k) && (c0 <=? j) && (j <? c1)) || _) eqn:E1, ((r0 <=? i) && (i <? r0 + (k + 1)) && (c0 <=? j) && (j <? c1)) eqn:E2; try reflexivity; lia.
      + apply mk_ext. intros i j _ _. replace ((i =? r0 + k) && (c0 <=? j) && (j <? c0 + 0)) with false by lia. now rewrite orb_false_r.
      + intros l Hl. rewrite mget_in by assumption. cbn [obind]. rewrite mset_mk by lia. f_equal. apply mk_ext. intros i j Hi Hj.
        destruct ((i =? r0 + k) && (j =? c0 + l)) eqn:E0.
        * replace (_ || _) with true by lia. f_equal; lia.
        * destruct (_ || _) eqn:E1, (((r0 <=? i) && (i <? r0 + k) && (c0 <=? j) && (j <? c1)) || ((i =? r0 + k) && (c0 <=? j) && (j <? c0 + (l + 1)))) eqn:E2; try reflexivity; lia.
  Qed.
End Mat.
