(** Theorems C40 and C41: sparse matrices.  A matrix with no entry at all is a counterexample to both (every iteration,
    comparison and product of it panics); with at least one entry they hold. *)
From Coq Require Import List Arith ZArith Bool Lia ZifyBool Sorted.
From Verif Require Import PidModel MatModel MatSpec MatProofs MatProofs2 MatProps SnfModel SnfProofs2 SparseModel SparseSpec SparseProofs SparseProofs2.
Import ListNotations.
Open Scope nat_scope.

Section Props.
  Context {T : Type} {OT : Ops T}.
  Implicit Types f g : nat -> nat -> option T.
  (** [l] lists exactly the present values of [g] below [N], by strictly increasing index. *)
  Definition lists (N : nat) (g : nat -> option T) (l : list (nat * T)) : Prop :=
    StronglySorted (fun a b => fst a < fst b) l /\ forall k v, In (k, v) l <-> k < N /\ g k = Some v.
  (** At least one entry is present. *)
  Definition inhabited_entries (n m : nat) f : Prop := exists i j, i < n /\ j < m /\ f i j <> None.

  Lemma gl_lists (g : nat -> option T) N : lists N g (gl g 0 N).
  Proof.
    split; [exact (proj1 (gl_facts g N 0))|]. intros k v. unfold gl. rewrite in_flat_map. split.
    - intros (j & Hj & H). apply in_seq in Hj. destruct (g j) eqn:E; [|contradiction]. destruct H as [H|[]]. injection H as -> ->. split; [lia|exact E].
    - intros [Hk E]. exists k. split; [apply in_seq; lia|]. rewrite E. now left.
  Qed.
  Lemma lists_nil (g : nat -> option T) : lists 0 g []. Proof. split; [constructor|]. intros; cbn; lia. Qed.
  Lemma Rep_rows n m f s : Rep n m f s -> forall i, i < n -> exists l, row_iter s i = Some l /\ lists m (f i) l.
  Proof. intros (_ & H & _) i Hi. exists (row_list f m i). split; [rewrite H; now replace (i <? n) with true by lia|apply gl_lists]. Qed.
  Lemma Rep_cols n m f s : Rep n m f s -> forall j, j < m -> exists l, col_iter s j = Some l /\ lists n (fun i => f i j) l.
  Proof. intros (_ & _ & H) j Hj. exists (col_list f n j). split; [rewrite H; now replace (j <? m) with true by lia|exact (gl_lists (fun i => f i j) n)]. Qed.

  (** C40, construction and iteration, for at least one entry. *)
  Theorem C40_iter_partial : forall n m f, inhabited_entries n m f ->
    exists s, sparse_from n m f = Some s /\ s_size s = (n, m) /\
      (forall i, i < n -> exists l, row_iter s i = Some l /\ lists m (f i) l) /\
      (forall j, j < m -> exists l, col_iter s j = Some l /\ lists n (fun i => f i j) l) /\
      (forall i, n <= i -> row_iter s i = Some []) /\ (forall j, m <= j -> col_iter s j = Some []).
  Proof.
    intros n m f H. destruct (proj1 (sparse_from_ok n m f) H) as (s & E & HR). exists s. split; [exact E|]. split; [apply HR|].
    split; [now apply Rep_rows|]. split; [now apply Rep_cols|]. destruct HR as (_ & R1 & R2). split.
    - intros i Hi. rewrite R1. now replace (i <? n) with false by lia.
    - intros j Hj. rewrite R2. now replace (j <? m) with false by lia.
  Qed.
  (** Transposing exchanges rows and columns (whatever the matrix). *)
  Theorem C40_transpose : forall s : sparse T,
    s_size (s_transpose s) = (snd (s_size s), fst (s_size s)) /\
    (forall i, row_iter (s_transpose s) i = col_iter s i) /\ (forall i, col_iter (s_transpose s) i = row_iter s i) /\
    s_transpose (s_transpose s) = s.
  Proof.
    intros s. split; [reflexivity|]. split; [|split].
    - intros i. unfold row_iter, col_iter. cbn [s_rows s_cols s_transposed s_transpose]. now rewrite negb_involutive.
    - intros i. reflexivity.
    - destruct s as [r c [a b] t]. unfold s_transpose. cbn. now rewrite negb_involutive.
  Qed.
  (** Comparison with a dense matrix. *)
  Theorem C40_eq_partial : forall (teqb : T -> T -> bool), (forall x y, teqb x y = true <-> x = y) ->
    forall n m f (M : mat T), inhabited_entries n m f -> wf M ->
    exists s b, sparse_from n m f = Some s /\ s_eq teqb s M = Some b /\
      (b = true <-> n = nr M /\ m = nc M /\ forall i j, i < n -> j < m -> ent M i j = match f i j with Some v => v | None => t0 end).
  Proof.
    intros teqb Ht n m f M H HM. destruct (proj1 (sparse_from_ok n m f) H) as (s & E & HR). exists s.
    destruct (s_eq_ok teqb Ht n m f s (ent M) (nr M) (nc M) HR) as (b & E1 & E2). exists b. split; [exact E|].
    rewrite <- (wf_eq_mk M HM) in E1. auto.
  Qed.
  (** The missing case: without any entry, every row and column iterator panics, and so does the comparison. *)
  Theorem C40_refuted_empty : forall n m f, (forall i j, i < n -> j < m -> f i j = None) ->
    exists s, sparse_from n m f = Some s /\ (forall i, row_iter s i = None) /\ (forall j, col_iter s j = None) /\
      forall teqb M, 0 < n -> nr M = n -> nc M = m -> s_eq teqb s M = None.
  Proof.
    intros n m f H. destruct (proj2 (sparse_from_ok n m f) H) as (s & E & HS & H1 & H2). exists s. split; [exact E|]. split; [exact H1|]. split; [exact H2|].
    intros teqb M Hn E1 E2. unfold s_eq. rewrite HS. cbn [fst snd]. rewrite E1, E2, !Nat.eqb_refl. cbn [negb andb].
    unfold rng. destruct n as [|n]; [lia|]. cbn [Nat.sub seq allM]. rewrite H1. reflexivity.
  Qed.

  (** C41 *)
  Theorem C41_products_partial : ring_laws (T := T) -> forall n k m f g (A B : mat T),
    inhabited_entries n k f -> inhabited_entries k m g ->
    is_mat n k (fun i j => match f i j with Some v => v | None => t0 end) A ->
    is_mat k m (fun i j => match g i j with Some v => v | None => t0 end) B ->
    exists sa sb P, sparse_from n k f = Some sa /\ sparse_from k m g = Some sb /\
      mmul A B = Some P /\ s_mul sa sb = Some P /\ s_mul_dense sa B = Some P /\ dense_mul_s A sb = Some P /\
      is_mat n m (fun i j => sum k (fun l => tmul (ent A i l) (ent B l j))) P.
  Proof.
    intros RL n k m f g A B HA HB EA EB. destruct (proj1 (sparse_from_ok n k f) HA) as (sa & E1 & R1). destruct (proj1 (sparse_from_ok k m g) HB) as (sb & E2 & R2).
    apply mk_ent in EA. apply mk_ent in EB. rewrite EA, EB. exists sa, sb, (mk n m (prod_entry k (dense f) (dense g))).
    assert (0 < n) by (destruct HA as (? & ? & ? & _); lia). assert (0 < m) by (destruct HB as (? & ? & ? & ? & _); lia).
    split; [exact E1|]. split; [exact E2|]. split; [apply mmul_mk|]. split; [now apply s_mul_ok|]. split; [now apply s_mul_dense_ok|]. split; [now apply dense_mul_s_ok|].
    apply mk_ent. apply mk_ext. intros i j Hi Hj. apply sum_ext. intros l Hl. rewrite !ent_mk by assumption. reflexivity.
  Qed.
  (** The sparse matrices need not come from [from] directly: transposes multiply correctly too. *)
  Theorem C41_transposed_partial : ring_laws (T := T) -> forall n k m f g, inhabited_entries n k f -> inhabited_entries k m g ->
    exists sa sb P, sparse_from n k f = Some sa /\ sparse_from k m g = Some sb /\
      s_mul (s_transpose sb) (s_transpose sa) = Some P /\
      is_mat m n (fun i j => sum k (fun l => tmul (match f j l with Some v => v | None => t0 end) (match g l i with Some v => v | None => t0 end))) P.
  Proof.
    intros RL n k m f g HA HB. destruct (proj1 (sparse_from_ok n k f) HA) as (sa & E1 & R1). destruct (proj1 (sparse_from_ok k m g) HB) as (sb & E2 & R2).
    exists sa, sb. eexists. split; [exact E1|]. split; [exact E2|].
    assert (0 < n) by (destruct HA as (? & ? & ? & _); lia). assert (0 < m) by (destruct HB as (? & ? & ? & ? & _); lia).
    split; [apply (s_mul_ok RL m k n (fun i j => g j i) (fun i j => f j i)); auto using Rep_transpose|].
    apply mk_ent. apply mk_ext. intros i j Hi Hj. apply sum_ext. intros l Hl. destruct RL as [_ _ _ _ Hc _ _ _ _]. apply Hc.
  Qed.
  (** Shapes that do not conform are rejected. *)
  Theorem C41_mismatch : forall (a b : sparse T) (A B : mat T),
    (snd (s_size a) <> fst (s_size b) -> s_mul a b = None) /\ (snd (s_size a) <> nr B -> s_mul_dense a B = None) /\
    (nc A <> fst (s_size b) -> dense_mul_s A b = None).
  Proof.
    intros a b A B. split; [|split]; intros H.
    - unfold s_mul. now replace (snd (s_size a) =? fst (s_size b)) with false by lia.
    - unfold s_mul_dense. now replace (snd (s_size a) =? nr B) with false by lia.
    - unfold dense_mul_s. now replace (nc A =? fst (s_size b)) with false by lia.
  Qed.
  (** The missing case: if either factor has no entry, the sparse product panics. *)
  Theorem C41_refuted_empty : forall n k m f g, 0 < n -> 0 < m ->
    ((forall i j, i < n -> j < k -> f i j = None) -> exists sa, sparse_from n k f = Some sa /\
       (forall sb, s_mul sa sb = None \/ snd (s_size sb) = 0) /\ forall B, nc B = m -> s_mul_dense sa B = None) /\
    ((forall i j, i < k -> j < m -> g i j = None) -> exists sb, sparse_from k m g = Some sb /\
       (forall sa, s_mul sa sb = None \/ fst (s_size sa) = 0) /\ forall A, wf A -> nr A = n -> dense_mul_s A sb = None).
  Proof.
    intros n k m f g Hn Hm. split; intros HN.
    - destruct (proj2 (sparse_from_ok n k f) HN) as (s & E & HS & H1 & H2). exists s. split; [exact E|].
      assert (F : forall (M0 : mat T) {st : mat T -> nat -> option (mat T)}, (forall M, st M 0 = None) -> foldM st (seq 0 n) M0 = None).
      { intros M0 st Hst. destruct n; [lia|]. cbn. now rewrite Hst. }
      split.
      + intros sb. destruct (snd (s_size sb)) as [|q] eqn:Eq; [now right|]. left. unfold s_mul. destruct (negb _); [reflexivity|]. rewrite HS. cbn [fst].
        rewrite Eq. destruct (mzero _ _) as [M0|]; [|reflexivity]. cbn [obind]. apply F. intros M. cbn. now rewrite H1.
      + intros B EB. unfold s_mul_dense. destruct (negb _); [reflexivity|]. rewrite HS. cbn [fst]. destruct (mzero _ _) as [M0|]; [|reflexivity]. cbn [obind]. apply F.
        intros M. rewrite EB. destruct m; [lia|]. cbn. now rewrite H1.
    - destruct (proj2 (sparse_from_ok k m g) HN) as (s & E & HS & H1 & H2). exists s. split; [exact E|]. split.
      + intros sa. destruct (fst (s_size sa)) as [|q] eqn:Eq; [now right|]. left. unfold s_mul. destruct (negb _); [reflexivity|]. rewrite HS. cbn [snd].
        rewrite Eq. destruct (mzero _ _) as [M0|]; [|reflexivity]. cbn [obind]. destruct m as [|m]; [lia|]. cbn. destruct (row_iter sa 0); [|reflexivity]. cbn. now rewrite H2.
      + intros A HA EA. unfold dense_mul_s. destruct (negb _); [reflexivity|]. rewrite (wf_eq_mk A HA). rewrite mtranspose_mk. cbn [obind].
        assert (X : s_mul_dense (s_transpose s) (mk (nc A) (nr A) (fun i j => ent A j i)) = None); [|now rewrite X].
        unfold s_mul_dense. destruct (negb _); [reflexivity|]. cbn [nc mk]. unfold s_transpose at 1 3. cbn [s_size fst]. rewrite HS. cbn [snd fst]. destruct (mzero _ _) as [M0|]; [|reflexivity]. cbn [obind].
        destruct m as [|m]; [lia|]. rewrite EA. destruct n as [|n]; [lia|]. cbn [seq foldM]. 
        replace (row_iter (s_transpose s) 0) with (col_iter s 0) by (unfold row_iter, col_iter; cbn [s_rows s_cols s_transposed s_transpose]; now rewrite negb_involutive).
        now rewrite H2.
  Qed.
End Props.

(** Non-vacuity: a 2x3 times 3x2 product over Z (cf. the tests of sparse_matrix_impl.rs). *)
Definition ex_f (i j : nat) : option Z := if (i + 2 * j) mod 3 =? 0 then Some (Z.of_nat (i + j + 1)) else None.
Definition ex_g (i j : nat) : option Z := if i =? j then None else Some (Z.of_nat i - 5)%Z.
Example ex_inh : inhabited_entries 2 3 ex_f /\ inhabited_entries 3 2 ex_g.
Proof. split; [exists 0, 0|exists 1, 0]; repeat split; try lia; discriminate. Qed.
Example ex_mul : (do a <- sparse_from 2 3 ex_f; do b <- sparse_from 3 2 ex_g; s_mul a b) = Some (Mat 2 2 [[0; -5]; [-12; 0]]%Z).
Proof. reflexivity. Qed.
Example ex_cols : (do a <- sparse_from 3 2 ex_g; col_iter a 1) = Some [(0, -5%Z); (2, -3%Z)]. Proof. reflexivity. Qed.
Example ex_eq : (do a <- sparse_from 2 3 ex_f; s_eq Z.eqb a (Mat 2 3 [[1; 0; 0]; [0; 3; 0]]%Z)) = Some true. Proof. reflexivity. Qed.
Example ex_ring : ring_laws (T := Z). Proof. apply ring_laws_Z. Qed.
Print Assumptions C40_iter_partial.
Print Assumptions C40_eq_partial.
Print Assumptions C41_products_partial.
Print Assumptions C41_refuted_empty.
