(** Smith normal form: 2x2 block transforms, the factorisation invariant, and the primitive steps. *)
From Coq Require Import List Arith ZArith Bool Lia ZifyBool ZifyNat Ring_theory Ring InitialRing.
From Verif Require Import PidModel PidProofs MatModel MatSpec MatProofs MatProofs2 SnfModel.
Import ListNotations.
Open Scope nat_scope.
Notation efun := (nat -> nat -> Z).
Definition RZ : ring_theory (t0 (T:=Z)) t1 tadd tmul tsub topp (@eq Z) := InitialRing.Zth.
Notation zprod := (prod_entry (T := Z)).
Notation zid := (id_entry (T := Z)).
Notation zsum := (sum (T := Z)).

(** Rows i, k replaced by a*row i + b*row k, c*row i + d*row k. *)
Definition rblk (i k : nat) (a b c d : Z) (f : efun) : efun := fun p q =>
  if p =? i then (a * f i q + b * f k q)%Z else if p =? k then (c * f i q + d * f k q)%Z else f p q.
(** Columns j, l replaced by a*col j + b*col l, c*col j + d*col l. *)
Definition cblk (j l : nat) (a b c d : Z) (f : efun) : efun := fun p q =>
  if q =? j then (a * f p j + b * f p l)%Z else if q =? l then (c * f p j + d * f p l)%Z else f p q.

(** [a b; c d] and [a' b'; c' d'] are inverse to each other. *)
Definition inv2 (a b c d a' b' c' d' : Z) : Prop :=
  (a*a' + b*c' = 1 /\ a*b' + b*d' = 0 /\ c*a' + d*c' = 0 /\ c*b' + d*d' = 1 /\
   a'*a + b'*c = 1 /\ a'*b + b'*d = 0 /\ c'*a + d'*c = 0 /\ c'*b + d'*d = 1)%Z.

Lemma prod_rblk_l n i k a b c d A B p q : zprod n (rblk i k a b c d A) B p q = rblk i k a b c d (zprod n A B) p q.
Proof.
  unfold rblk, prod_entry. destruct (p =? i); [|destruct (p =? k); [|reflexivity]].
  - rewrite <- !(sum_mul_l RZ), <- (sum_add RZ). apply sum_ext. intros; cbn; ring.
  - rewrite <- !(sum_mul_l RZ), <- (sum_add RZ). apply sum_ext. intros; cbn; ring.
Qed.
Lemma prod_cblk_r n i k a b c d A B p q : zprod n A (cblk i k a b c d B) p q = cblk i k a b c d (zprod n A B) p q.
Proof.
  unfold cblk, prod_entry. destruct (q =? i); [|destruct (q =? k); [|reflexivity]].
  - rewrite <- !(sum_mul_l RZ), <- (sum_add RZ). apply sum_ext. intros; cbn; ring.
  - rewrite <- !(sum_mul_l RZ), <- (sum_add RZ). apply sum_ext. intros; cbn; ring.
Qed.
(** (A F)(E B) = A B *)
Lemma prod_blk_cancel n i k a b c d a' b' c' d' A B p q : i < n -> k < n -> i <> k -> inv2 a b c d a' b' c' d' ->
  zprod n (cblk i k a' c' b' d' A) (rblk i k a b c d B) p q = zprod n A B p q.
Proof.
  intros Hi Hk Hne (H1 & H2 & H3 & H4 & H5 & H6 & H7 & H8). unfold prod_entry. apply (sum_two RZ n i k); auto.
  - intros l _ N1 N2. unfold cblk, rblk. apply Nat.eqb_neq in N1, N2. now rewrite N1, N2.
  - unfold cblk, rblk. rewrite !Nat.eqb_refl. assert (E : (k =? i) = false) by (apply Nat.eqb_neq; lia). rewrite E. cbn.
    set (u := A p i). set (v := A p k). set (x := B i q). set (y := B k q).
    transitivity ((a'*a + b'*c)*(u*x) + (a'*b+b'*d)*(u*y) + (c'*a+d'*c)*(v*x) + (c'*b+d'*d)*(v*y))%Z; [ring|].
    rewrite H5, H6, H7, H8. ring.
Qed.
(** E F = 1 *)
Lemma blk_id i k a b c d a' b' c' d' p q : i <> k -> inv2 a b c d a' b' c' d' ->
  rblk i k a b c d (cblk i k a' c' b' d' zid) p q = zid p q.
Proof.
  intros Hne (H1 & H2 & H3 & H4 & _). unfold rblk, cblk, id_entry. rewrite !Nat.eqb_refl.
  assert (E : (k =? i) = false) by (apply Nat.eqb_neq; lia). assert (E2 : (i =? k) = false) by (apply Nat.eqb_neq; lia). rewrite ?E, ?E2.
  destruct (Nat.eqb_spec q i) as [->|Nq]; [|destruct (Nat.eqb_spec q k) as [->|Nq2]];
  (destruct (Nat.eqb_spec p i) as [->|Np]; [|destruct (Nat.eqb_spec p k) as [->|Np2]]);
  rewrite ?Nat.eqb_refl, ?E, ?E2;
  repeat match goal with |- context [?u =? ?v] => first [replace (u =? v) with false by (symmetry; apply Nat.eqb_neq; lia)
                                                     | destruct (Nat.eqb_spec u v); [subst|] ] end; cbn; try lia.
Qed.

(** The invariant of the whole algorithm: R M C = S, R and Ri inverse, C and Ci inverse. *)
Definition inverse_on (n : nat) (A B : efun) : Prop := forall p q, p < n -> q < n -> zprod n A B p q = zid p q /\ zprod n B A p q = zid p q.
Definition factors (n m : nat) (f0 S R C : efun) : Prop := forall p q, p < n -> q < m -> zprod n R (zprod m f0 C) p q = S p q.

Definition eq_on (n m : nat) (f g : efun) : Prop := forall p q, p < n -> q < m -> f p q = g p q.
Lemma zid_sym p q : zid p q = zid q p.
Proof. unfold id_entry. now rewrite Nat.eqb_sym. Qed.

Lemma inverse_row n i k a b c d a' b' c' d' A B : i < n -> k < n -> i <> k -> inv2 a b c d a' b' c' d' ->
  inverse_on n A B -> inverse_on n (rblk i k a b c d A) (cblk i k a' c' b' d' B).
Proof.
  intros Hi Hk Hne H2 H p q Hp Hq. split.
  - rewrite prod_rblk_l. transitivity (rblk i k a b c d (cblk i k a' c' b' d' zid) p q).
    + unfold rblk. rewrite !prod_cblk_r. unfold cblk. rewrite !(proj1 (H _ _ Hi Hi)), !(proj1 (H _ _ Hk Hk)), !(proj1 (H _ _ Hi Hk)), !(proj1 (H _ _ Hk Hi)),
        !(proj1 (H _ _ Hi Hq)), !(proj1 (H _ _ Hk Hq)), !(proj1 (H _ _ Hp Hq)), !(proj1 (H _ _ Hp Hi)), !(proj1 (H _ _ Hp Hk)). reflexivity.
    + now apply blk_id.
  - rewrite prod_blk_cancel; auto. now apply H.
Qed.
Lemma inverse_on_sym n A B : inverse_on n A B -> inverse_on n B A.
Proof. intros H p q Hp Hq. destruct (H p q Hp Hq). now split. Qed.
Lemma inv2_sym a b c d a' b' c' d' : inv2 a b c d a' b' c' d' -> inv2 a' b' c' d' a b c d.
Proof. unfold inv2. lia. Qed.
Lemma inv2_tr a b c d a' b' c' d' : inv2 a b c d a' b' c' d' -> inv2 a c b d a' c' b' d'.
Proof. unfold inv2. intros (H1&H2&H3&H4&H5&H6&H7&H8). repeat split; lia. Qed.

Lemma factors_row n m i k a b c d f0 S R C : i < n -> k < n -> factors n m f0 S R C ->
  factors n m f0 (rblk i k a b c d S) (rblk i k a b c d R) C.
Proof.
  intros Hi Hk H p q Hp Hq. rewrite prod_rblk_l. unfold rblk. now rewrite (H i q), (H k q), (H p q) by assumption.
Qed.
Lemma factors_col n m j l a b c d f0 S R C : j < m -> l < m -> factors n m f0 S R C ->
  factors n m f0 (cblk j l a b c d S) R (cblk j l a b c d C).
Proof.
  intros Hi Hk H p q Hp Hq.
  transitivity (zprod n R (cblk j l a b c d (zprod m f0 C)) p q).
  - apply prod_ext; [reflexivity|]. intros x Hx. apply prod_cblk_r.
  - rewrite prod_cblk_r. unfold cblk. now rewrite (H p j), (H p l), (H p q) by assumption.
Qed.

(** ** Primitive operations on closed forms *)
Lemma mwrite_mk' n m (f : efun) r0 r1 c0 c1 h w g : r0 <= r1 <= n -> c0 <= c1 <= m -> h = r1 - r0 -> w = c1 - c0 ->
  mwrite (mk n m f) r0 r1 c0 c1 (mk h w g) =
  Some (mk n m (fun i j => if (r0 <=? i) && (i <? r1) && (c0 <=? j) && (j <? c1) then g (i - r0) (j - c0) else f i j)).
Proof. intros Hr Hc -> ->. now apply mwrite_mk. Qed.
Lemma comb_rows_mk n m (f : efun) i k c0 x y : i < n -> k < n -> c0 <= m ->
  comb_rows (mk n m f) i k c0 x y = Some (mk 1 (m - c0) (fun _ q => f i (c0 + q)%nat * x + f k (c0 + q)%nat * y)%Z).
Proof.
  intros Hi Hk Hc. unfold comb_rows. cbn [nc mk]. fold (mk n m f). rewrite !msub_view_mk by lia. cbn [obind].
  replace (i + 1 - i) with 1 by lia. replace (k + 1 - k) with 1 by lia. rewrite !mscale_mk. cbn [obind]. unfold madd. rewrite mzip_mk.
  f_equal. apply mk_ext. intros p q Hp Hq. replace p with 0 by lia. now rewrite !Nat.add_0_r.
Qed.
Lemma block_rows_mk n m (f : efun) i k c0 a b c d : i < n -> k < n -> i <> k -> c0 <= m ->
  (forall q, q < c0 -> f i q = 0%Z /\ f k q = 0%Z) ->
  block_rows (mk n m f) i k c0 a b c d = Some (mk n m (rblk i k a b c d f)).
Proof.
  intros Hi Hk Hne Hc Hz. unfold block_rows. cbn [nc mk]. fold (mk n m f). rewrite !comb_rows_mk by assumption. cbn [obind].
  rewrite mwrite_mk' by lia. cbn [obind].
  rewrite mwrite_mk' by lia. f_equal. apply mk_ext. intros p q Hp Hq. unfold rblk.
  destruct (le_lt_dec c0 q) as [Hq0|Hq0].
  - replace (c0 <=? q) with true by lia. replace (q <? m) with true by lia. rewrite !andb_true_r. replace (c0 + (q - c0)) with q by lia.
    destruct (Nat.eqb_spec p i) as [->|N1].
    + replace ((k <=? i) && (i <? k + 1)) with false by lia. replace ((i <=? i) && (i <? i + 1)) with true by lia. ring.
    + destruct (Nat.eqb_spec p k) as [->|N2].
      * replace ((k <=? k) && (k <? k + 1)) with true by lia. ring.
      * replace ((k <=? p) && (p <? k + 1)) with false by lia. now replace ((i <=? p) && (p <? i + 1)) with false by lia.
  - replace (c0 <=? q) with false by lia. rewrite !andb_false_r. cbn [andb]. destruct (Hz q Hq0) as [E1 E2]. rewrite E1, E2.
    destruct (Nat.eqb_spec p i) as [->|N1]; [rewrite E1; ring|]. destruct (Nat.eqb_spec p k) as [->|N2]; [rewrite E2; ring|reflexivity].
Qed.
Lemma comb_cols_mk n m (f : efun) j l r0 x y : j < m -> l < m -> r0 <= n ->
  comb_cols (mk n m f) j l r0 x y = Some (mk (n - r0) 1 (fun p _ => f (r0 + p)%nat j * x + f (r0 + p)%nat l * y)%Z).
Proof.
  intros Hi Hk Hc. unfold comb_cols. cbn [nr mk]. fold (mk n m f). rewrite !msub_view_mk by lia. cbn [obind].
  replace (j + 1 - j) with 1 by lia. replace (l + 1 - l) with 1 by lia. rewrite !mscale_mk. cbn [obind]. unfold madd. rewrite mzip_mk.
  f_equal. apply mk_ext. intros p q Hp Hq. replace q with 0 by lia. now rewrite !Nat.add_0_r.
Qed.
Lemma block_cols_mk n m (f : efun) j l r0 a b c d : j < m -> l < m -> j <> l -> r0 <= n ->
  (forall p, p < r0 -> f p j = 0%Z /\ f p l = 0%Z) ->
  block_cols (mk n m f) j l r0 a b c d = Some (mk n m (cblk j l a b c d f)).
Proof.
  intros Hi Hk Hne Hc Hz. unfold block_cols. cbn [nr mk]. fold (mk n m f). rewrite !comb_cols_mk by assumption. cbn [obind].
  rewrite mwrite_mk' by lia. cbn [obind].
  rewrite mwrite_mk' by lia. f_equal. apply mk_ext. intros p q Hp Hq. unfold cblk.
  destruct (le_lt_dec r0 p) as [Hq0|Hq0].
  - replace (r0 <=? p) with true by lia. replace (p <? n) with true by lia. cbn [andb]. replace (r0 + (p - r0)) with p by lia.
    destruct (Nat.eqb_spec q j) as [->|N1].
    + replace ((l <=? j) && (j <? l + 1)) with false by lia. replace ((j <=? j) && (j <? j + 1)) with true by lia. ring.
    + destruct (Nat.eqb_spec q l) as [->|N2].
      * replace ((l <=? l) && (l <? l + 1)) with true by lia. ring.
      * replace ((l <=? q) && (q <? l + 1)) with false by lia. now replace ((j <=? q) && (q <? j + 1)) with false by lia.
  - replace (r0 <=? p) with false by lia. cbn [andb]. destruct (Hz p Hq0) as [E1 E2]. rewrite E1, E2.
    destruct (Nat.eqb_spec q j) as [->|N1]; [rewrite E1; ring|]. destruct (Nat.eqb_spec q l) as [->|N2]; [rewrite E2; ring|reflexivity].
Qed.
Lemma swap_rows_blk n m (f : efun) i k : i < n -> k < n -> i <> k -> swap_rows (mk n m f) i k = Some (mk n m (rblk i k 0 1 1 0 f)).
Proof.
  intros Hi Hk Hne. rewrite swap_rows_mk by assumption. f_equal. apply mk_ext. intros p q _ _. unfold rblk.
  destruct (p =? i); [ring|]. destruct (p =? k); [ring|reflexivity].
Qed.
Lemma swap_rows_same n m (f : efun) i : i < n -> swap_rows (mk n m f) i i = Some (mk n m f).
Proof. intros Hi. rewrite swap_rows_mk by assumption. f_equal. apply mk_ext. intros p q _ _. destruct (Nat.eqb_spec p i); now subst. Qed.
Lemma swap_cols_blk n m (f : efun) i k : i < m -> k < m -> i <> k -> swap_cols (mk n m f) i k = Some (mk n m (cblk i k 0 1 1 0 f)).
Proof.
  intros Hi Hk Hne. rewrite swap_cols_mk by assumption. f_equal. apply mk_ext. intros p q _ _. unfold cblk.
  destruct (q =? i); [ring|]. destruct (q =? k); [ring|reflexivity].
Qed.
Lemma swap_cols_same n m (f : efun) i : i < m -> swap_cols (mk n m f) i i = Some (mk n m f).
Proof. intros Hi. rewrite swap_cols_mk by assumption. f_equal. apply mk_ext. intros p q _ _. destruct (Nat.eqb_spec q i); now subst. Qed.
Lemma row_operation_blk n m (f : efun) i k s : i < n -> k < n -> i <> k ->
  row_operation (mk n m f) i k s = Some (mk n m (rblk i k 1 s 0 1 f)).
Proof.
  intros Hi Hk Hne. rewrite row_operation_mk by assumption. f_equal. apply mk_ext. intros p q _ _. unfold rblk. cbn [tadd tmul ops_Z].
  destruct (p =? i); [ring|]. destruct (Nat.eqb_spec p k); [subst; ring|reflexivity].
Qed.
Lemma col_operation_blk n m (f : efun) i k s : i < m -> k < m -> i <> k ->
  col_operation (mk n m f) i k s = Some (mk n m (cblk i k 1 s 0 1 f)).
Proof.
  intros Hi Hk Hne. rewrite col_operation_mk by assumption. f_equal. apply mk_ext. intros p q _ _. unfold cblk. cbn [tadd tmul ops_Z].
  destruct (q =? i); [ring|]. destruct (Nat.eqb_spec q k); [subst; ring|reflexivity].
Qed.
(** the other order of the two indices *)
Lemma rblk_comm i k a b c d f : i <> k -> rblk i k a b c d f = rblk i k a b c d f.
Proof. reflexivity. Qed.
Lemma rblk_flip i k a b c d f p q : i <> k -> rblk k i a b c d f p q = rblk i k d c b a f p q.
Proof. intros H. unfold rblk. destruct (Nat.eqb_spec p k), (Nat.eqb_spec p i); subst; try contradiction; try ring; try reflexivity; lia. Qed.
Lemma cblk_flip i k a b c d f p q : i <> k -> cblk k i a b c d f p q = cblk i k d c b a f p q.
Proof. intros H. unfold cblk. destruct (Nat.eqb_spec q k), (Nat.eqb_spec q i); subst; try contradiction; try ring; try reflexivity; lia. Qed.

Lemma inverse_ext n A B A' B' : (forall p q, A p q = A' p q) -> (forall p q, B p q = B' p q) -> inverse_on n A B -> inverse_on n A' B'.
Proof.
  intros HA HB H p q Hp Hq. destruct (H p q Hp Hq) as [A1 A2]. split; [rewrite <- A1|rewrite <- A2]; apply prod_ext; intros; symmetry; auto.
Qed.
(** ** The state *)
Section State.
  Variables (n m : nat) (f0 : efun).
  Definition rep (S : efun) (st : snf) : Prop := exists R Ri C Ci,
    st = Snf (mk n m S) (mk n n R) (mk n n Ri) (mk m m C) (mk m m Ci) /\
    factors n m f0 S R C /\ inverse_on n R Ri /\ inverse_on m C Ci.
  Lemma rep_ext S S' st : rep S st -> eq_on n m S S' -> rep S' st.
  Proof.
    intros (R & Ri & C & Ci & E & H1 & H2 & H3) He. exists R, Ri, C, Ci. split; [|split; [|split; assumption]].
    - rewrite E. f_equal. now apply mk_ext.
    - intros p q Hp Hq. rewrite H1 by assumption. now apply He.
  Qed.
  Lemma rep_dims S st : rep S st -> nr (sS st) = n /\ nc (sS st) = m.
  Proof. intros (R & Ri & C & Ci & -> & _). now split. Qed.
  Lemma rep_get S st p q : rep S st -> p < n -> q < m -> mget (sS st) p q = Some (S p q).
  Proof. intros (R & Ri & C & Ci & -> & _) Hp Hq. now apply mget_in. Qed.
  Lemma rep_S S st : rep S st -> sS st = mk n m S.
  Proof. intros (R & Ri & C & Ci & -> & _). reflexivity. Qed.

  (** a row block transform applied to all of [self], [r_op], and its inverse to [r_op_inv] *)
  Lemma rep_row S st i k a b c d a' b' c' d' c0 : rep S st -> i < n -> k < n -> i <> k -> inv2 a b c d a' b' c' d' -> c0 <= m ->
    (forall q, q < c0 -> S i q = 0%Z /\ S k q = 0%Z) ->
    exists S' R' Ri', block_rows (sS st) i k c0 a b c d = Some S' /\ block_rows (sR st) i k 0 a b c d = Some R' /\
      block_cols (sRi st) i k 0 a' c' b' d' = Some Ri' /\ rep (rblk i k a b c d S) (Snf S' R' Ri' (sC st) (sCi st)) /\ S' = mk n m (rblk i k a b c d S).
  Proof.
    intros (R & Ri & C & Ci & -> & H1 & H2 & H3) Hi Hk Hne Hv Hc Hz. cbn [sS sR sRi sC sCi].
    rewrite block_rows_mk by assumption. rewrite block_rows_mk by (auto; lia). rewrite block_cols_mk by (auto; lia).
    eexists _, _, _. split; [reflexivity|]. split; [reflexivity|]. split; [reflexivity|]. split; [|reflexivity].
    eexists _, _, _, _. split; [reflexivity|]. split; [now apply factors_row|]. split; [now apply inverse_row|exact H3].
  Qed.
  Lemma rep_col S st j l a b c d a' b' c' d' r0 : rep S st -> j < m -> l < m -> j <> l -> inv2 a b c d a' b' c' d' -> r0 <= n ->
    (forall p, p < r0 -> S p j = 0%Z /\ S p l = 0%Z) ->
    exists S' C' Ci', block_cols (sS st) j l r0 a b c d = Some S' /\ block_cols (sC st) j l 0 a b c d = Some C' /\
      block_rows (sCi st) j l 0 a' c' b' d' = Some Ci' /\ rep (cblk j l a b c d S) (Snf S' (sR st) (sRi st) C' Ci') /\ S' = mk n m (cblk j l a b c d S).
  Proof.
    intros (R & Ri & C & Ci & -> & H1 & H2 & H3) Hi Hk Hne Hv Hc Hz. cbn [sS sR sRi sC sCi].
    rewrite block_cols_mk by assumption. rewrite block_cols_mk by (auto; lia). rewrite block_rows_mk by (auto; lia).
    eexists _, _, _. split; [reflexivity|]. split; [reflexivity|]. split; [reflexivity|]. split; [|reflexivity].
    eexists _, _, _, _. split; [reflexivity|]. split; [now apply factors_col|]. split; [exact H2|].
    apply inverse_on_sym. apply inverse_row; auto.
    - apply inv2_sym in Hv. now apply inv2_tr in Hv.
    - now apply inverse_on_sym.
  Qed.
  Lemma rep_rowop S st i k s : rep S st -> i < n -> k < n -> i <> k ->
    exists S' R' Ri', row_operation (sS st) k i (- s)%Z = Some S' /\ row_operation (sR st) k i (- s)%Z = Some R' /\
      col_operation (sRi st) i k s = Some Ri' /\ rep (rblk k i 1 (- s) 0 1 S) (Snf S' R' Ri' (sC st) (sCi st)).
  Proof.
    intros (R & Ri & C & Ci & -> & H1 & H2 & H3) Hi Hk Hne. cbn [sS sR sRi sC sCi].
    rewrite !row_operation_blk by auto. rewrite col_operation_blk by auto.
    eexists _, _, _. split; [reflexivity|]. split; [reflexivity|]. split; [reflexivity|].
    eexists _, _, _, _. split; [reflexivity|]. split; [now apply factors_row|]. split; [|exact H3].
    assert (Hv : inv2 1 (-s) 0 1 1 s 0 1) by (unfold inv2; repeat split; ring).
    pose proof (inverse_row n k i _ _ _ _ _ _ _ _ R Ri Hk Hi (not_eq_sym Hne) Hv H2) as H.
    refine (inverse_ext _ _ _ _ _ _ _ H); [reflexivity|]. intros p q. now apply cblk_flip; auto.
  Qed.
  Lemma rep_colop S st j l s : rep S st -> j < m -> l < m -> j <> l ->
    exists S' C' Ci', col_operation (sS st) l j (- s)%Z = Some S' /\ col_operation (sC st) l j (- s)%Z = Some C' /\
      row_operation (sCi st) j l s = Some Ci' /\ rep (cblk l j 1 (- s) 0 1 S) (Snf S' (sR st) (sRi st) C' Ci').
  Proof.
    intros (R & Ri & C & Ci & -> & H1 & H2 & H3) Hi Hk Hne. cbn [sS sR sRi sC sCi].
    rewrite !col_operation_blk by auto. rewrite row_operation_blk by auto.
    eexists _, _, _. split; [reflexivity|]. split; [reflexivity|]. split; [reflexivity|].
    eexists _, _, _, _. split; [reflexivity|]. split; [now apply factors_col|]. split; [exact H2|].
    assert (Hv : inv2 1 0 s 1 1 0 (-s) 1) by (unfold inv2; repeat split; ring).
    apply inverse_on_sym in H3. pose proof (inverse_row m l j _ _ _ _ _ _ _ _ Ci C Hk Hi (not_eq_sym Hne) Hv H3) as H.
    apply inverse_on_sym in H. refine (inverse_ext _ _ _ _ _ _ _ H); [reflexivity|]. intros p q. now apply rblk_flip; auto.
  Qed.
  Lemma inv2_swap : inv2 0 1 1 0 0 1 1 0. Proof. unfold inv2. lia. Qed.
  Lemma rep_swap_rows S st i k : rep S st -> i < n -> k < n -> i <> k ->
    exists S' R' Ri', swap_rows (sS st) i k = Some S' /\ swap_rows (sR st) i k = Some R' /\ swap_cols (sRi st) i k = Some Ri' /\
      rep (rblk i k 0 1 1 0 S) (Snf S' R' Ri' (sC st) (sCi st)).
  Proof.
    intros (R & Ri & C & Ci & -> & H1 & H2 & H3) Hi Hk Hne. cbn [sS sR sRi sC sCi].
    rewrite !swap_rows_blk by auto. rewrite swap_cols_blk by auto.
    eexists _, _, _. split; [reflexivity|]. split; [reflexivity|]. split; [reflexivity|].
    eexists _, _, _, _. split; [reflexivity|]. split; [now apply factors_row|]. split; [|exact H3].
    apply inverse_row; auto. apply inv2_swap.
  Qed.
  (** swapping columns of [c_op] and rows of [c_op_inv] *)
  Lemma swap_C C Ci j l : inverse_on m C Ci -> j < m -> l < m -> j <> l ->
    inverse_on m (cblk j l 0 1 1 0 C) (rblk l j 0 1 1 0 Ci).
  Proof.
    intros H Hj Hl Hne. apply inverse_on_sym in H.
    pose proof (inverse_row m l j _ _ _ _ _ _ _ _ Ci C Hl Hj (not_eq_sym Hne) inv2_swap H) as H'. apply inverse_on_sym.
    refine (inverse_ext _ _ _ _ _ _ _ H'); [reflexivity|]. intros p q. now apply cblk_flip; auto.
  Qed.
End State.
