(** Property C153: least squares and ridge regression by the normal equations (exact arithmetic). *)
From Coq Require Import ZArith Reals Lra Lia List Arith Bool.
From Verif Require Import PidModel MatModel MatSpec MatProofs MatProofs2 NumModel NumProofs RankModel LuModel LuSpec LuProofs LuProofs2 LuProofs3 LuProps DomLuProps.
Import ListNotations.
Open Scope R_scope.

(** The programs a user writes: [(A.transpose() * A).solve(A.transpose() * b)], and the same with [Matrix::identity(n) * c] added to the square
    matrix; alg/src/lin_alg/matrix_impl.rs:674-680 [transpose], 388-399 [Mul], 811-816 [identity], 487-498 [Mul<T>], [Add], 1306-1336 [solve], as
    modelled in MatModel and LuModel.  The entries are exact reals instead of f64. *)
Definition normal_solve (A b : mat R) : option (mat R) := do At <- mtranspose A; do N <- mmul At A; do r <- mmul At b; solve N r.
Definition ridge_solve (A b : mat R) (c : R) : option (mat R) :=
  do At <- mtranspose A; do N <- mmul At A; do I <- midentity (nc A); do D <- mscale I c; do N' <- madd N D; do r <- mmul At b; solve N' r.
(** What is minimised: |A y - b|^2 + c |y|^2. *)
Definition cost (m n : nat) (a : nat -> nat -> R) (b : nat -> R) (c : R) (y : nat -> R) : R :=
  sum m (fun i => (sum n (fun j => a i j * y j) - b i) * (sum n (fun j => a i j * y j) - b i)) + c * sum n (fun j => y j * y j).
Definition injective (m n : nat) (a : nat -> nat -> R) : Prop := forall y : nat -> R, (forall i, (i < m)%nat -> sum n (fun j => a i j * y j) = 0) -> forall j, (j < n)%nat -> y j = 0.

Lemma sq_zero n (f : nat -> R) : sum n (fun j => f j * f j) = 0 -> forall j, (j < n)%nat -> f j = 0.
Proof. intros E j Hj. pose proof (rsum_zero_nonneg n (fun j => f j * f j) (fun k _ => Rle_0_sqr (f k)) E j Hj) as Q. cbn in Q. nra. Qed.
Lemma sq_nonneg n (f : nat -> R) : 0 <= sum n (fun j => f j * f j). Proof. apply rsum_nonneg. intros k _. apply Rle_0_sqr. Qed.
Definition gram (m : nat) (a : nat -> nat -> R) (c : R) (i j : nat) : R := sum m (fun k => a k i * a k j) + (if (i =? j)%nat then c else 0).
(** The square matrix times a vector. *)
Lemma gram_vec m n a c x i : (i < n)%nat -> sum n (fun j => gram m a c i j * x j) = sum m (fun k => a k i * sum n (fun j => a k j * x j)) + c * x i.
Proof.
  intros Hi. rewrite (rsum_ext n _ (fun j => sum m (fun k => a k i * (a k j * x j)) + (if (j =? i)%nat then c * x j else 0))).
  - rewrite rsum_add, rsum_swap. f_equal; [apply rsum_ext; intros k _; now rewrite rsum_mul_l|]. rewrite (rsum_single n i); [now rewrite Nat.eqb_refl|exact Hi|]. intros k _ N. now replace (k =? i)%nat with false by (symmetry; now apply Nat.eqb_neq).
  - intros j _. unfold gram. rewrite (Nat.eqb_sym j i), Rmult_plus_distr_r, <- rsum_mul_r. f_equal; [apply rsum_ext; intros; ring|]. destruct (i =? j)%nat; ring.
Qed.
Lemma pair_swap m n a (u d : nat -> R) : sum n (fun j => d j * sum m (fun k => a k j * u k)) = sum m (fun k => u k * sum n (fun j => a k j * d j)).
Proof.
  rewrite (rsum_ext n _ (fun j => sum m (fun k => u k * (a k j * d j)))) by (intros j _; rewrite <- rsum_mul_l; apply rsum_ext; intros; ring).
  rewrite rsum_swap. apply rsum_ext. intros k _. now rewrite rsum_mul_l.
Qed.
Lemma gram_form m n a c x : sum n (fun i => sum n (fun j => x i * (gram m a c i j * x j))) = sum m (fun k => sum n (fun j => a k j * x j) * sum n (fun j => a k j * x j)) + c * sum n (fun j => x j * x j).
Proof.
  rewrite (rsum_ext n _ (fun i => x i * sum m (fun k => a k i * sum n (fun j => a k j * x j)) + c * (x i * x i))).
  - now rewrite rsum_add, pair_swap, rsum_mul_l.
  - intros i Hi. rewrite rsum_mul_l, gram_vec by exact Hi. ring.
Qed.
Lemma gram_definite m n a c : 0 <= c -> 0 < c \/ injective m n a -> definite n (gram m a c).
Proof.
  intros Hc H x (i & Hi & X). rewrite gram_form. set (P := sum m _). set (Q := sum n _). assert (P0 : 0 <= P) by apply sq_nonneg. assert (Q0 : 0 <= Q) by apply sq_nonneg.
  destruct H as [H|H].
  - assert (Q <> 0) by (intros Z; apply X; exact (sq_zero n x Z i Hi)). assert (0 < c * Q) by (apply Rmult_lt_0_compat; lra). lra.
  - assert (P <> 0) by (intros Z; apply X; apply H; [|exact Hi]; exact (sq_zero m (fun k => sum n (fun j => a k j * x j)) Z)). assert (0 <= c * Q) by (apply Rmult_le_pos; lra). lra.
Qed.
(** The cost around a solution of the normal equations. *)
Lemma cost_around m n a b c x y : (forall i, (i < n)%nat -> sum n (fun j => gram m a c i j * x j) = sum m (fun k => a k i * b k)) ->
  cost m n a b c y = cost m n a b c x + (sum m (fun k => sum n (fun j => a k j * (y j - x j)) * sum n (fun j => a k j * (y j - x j))) + c * sum n (fun j => (y j - x j) * (y j - x j))).
Proof.
  intros H. unfold cost. set (d := fun j => y j - x j). set (r := fun k => sum n (fun j => a k j * x j) - b k). set (e := fun k => sum n (fun j => a k j * d j)).
  assert (EY : forall k, sum n (fun j => a k j * y j) - b k = r k + e k).
  { intros k. unfold r, e. rewrite (rsum_ext n (fun j => a k j * y j) (fun j => a k j * x j + a k j * d j)) by (intros; unfold d; ring). rewrite rsum_add. ring. }
  rewrite (rsum_ext m _ (fun k => r k * r k + (2 * (r k * e k) + e k * e k))) by (intros k _; rewrite EY; ring). rewrite !rsum_add, rsum_mul_l.
  rewrite (rsum_ext n (fun j => y j * y j) (fun j => x j * x j + (2 * (d j * x j) + d j * d j))) by (intros; unfold d; ring). rewrite !rsum_add, rsum_mul_l.
  assert (X0 : sum m (fun k => r k * e k) + c * sum n (fun j => d j * x j) = 0).
  { unfold e. rewrite <- (pair_swap m n a r d), <- rsum_mul_l, <- rsum_add. apply rsum_zero. intros j Hj. specialize (H j Hj). rewrite gram_vec in H by exact Hj.
    assert (sum m (fun k => a k j * r k) = sum m (fun k => a k j * sum n (fun l => a k l * x l)) - sum m (fun k => a k j * b k)) as -> by (rewrite <- rsum_sub; apply rsum_ext; intros; unfold r; ring). rewrite <- H. ring. }
  change (sum m (fun k => (sum n (fun j => a k j * x j) - b k) * (sum n (fun j => a k j * x j) - b k))) with (sum m (fun k => r k * r k)).
  change (sum m (fun k => sum n (fun j => a k j * (y j - x j)) * sum n (fun j => a k j * (y j - x j)))) with (sum m (fun k => e k * e k)).
  change (sum n (fun j => (y j - x j) * (y j - x j))) with (sum n (fun j => d j * d j)).
  apply Rminus_diag_uniq. match goal with |- ?g = 0 => replace g with (2 * (sum m (fun k => r k * e k) + c * sum n (fun j => d j * x j))) by ring end. rewrite X0. ring.
Qed.
Lemma cost_ext m n a a' b b' c y : (forall i j, (i < m)%nat -> (j < n)%nat -> a i j = a' i j) -> (forall i, (i < m)%nat -> b i = b' i) -> cost m n a b c y = cost m n a' b' c y.
Proof. intros Ha Hb. unfold cost. f_equal. apply rsum_ext. intros i Hi. rewrite Hb by exact Hi. rewrite (rsum_ext n (fun j => a i j * y j) (fun j => a' i j * y j)) by (intros j Hj; now rewrite Ha). reflexivity. Qed.
(** A solution of the normal equations is the only minimiser. *)
Lemma cost_min m n a b c x : 0 <= c -> 0 < c \/ injective m n a -> (forall i, (i < n)%nat -> sum n (fun j => gram m a c i j * x j) = sum m (fun k => a k i * b k)) ->
  forall y, cost m n a b c x <= cost m n a b c y /\ (cost m n a b c y = cost m n a b c x -> forall j, (j < n)%nat -> y j = x j).
Proof.
  intros Hc H HX y. rewrite (cost_around m n a b c x y HX). rewrite <- gram_form with (x := fun j => y j - x j). set (G := sum n (fun i => sum n (fun j => (y i - x i) * (gram m a c i j * (y j - x j))))).
  assert (K : (exists i, (i < n)%nat /\ y i - x i <> 0) -> 0 < G) by (intros E; exact (gram_definite m n a c Hc H (fun j => y j - x j) E)). split.
  - assert (0 <= G); [|lra]. unfold G. rewrite (gram_form m n a c (fun j => y j - x j)). assert (0 <= c * sum n (fun j => (y j - x j) * (y j - x j))) by (apply Rmult_le_pos; [exact Hc|apply (sq_nonneg n (fun j => y j - x j))]).
    pose proof (sq_nonneg m (fun k => sum n (fun j => a k j * (y j - x j)))). lra.
  - intros E j Hj. destruct (Req_dec (y j - x j) 0) as [Z|Z]; [lra|]. specialize (K (ex_intro _ j (conj Hj Z))). lra.
Qed.
Lemma solve_gram m n a b c : (0 < n)%nat -> 0 <= c -> 0 < c \/ injective m n a ->
  exists X, solve (mk n n (gram m a c)) (mk n 1 (prod_entry m (fun i j => a j i) b)) = Some X /\ wf X /\ nr X = n /\ nc X = 1%nat /\
    forall i, (i < n)%nat -> sum n (fun j => gram m a c i j * ent X j 0) = sum m (fun k => a k i * b k 0%nat).
Proof.
  intros Hn Hc H. assert (D : definite n (ent (mk n n (gram m a c)))).
  { intros x Hx. rewrite (rsum_ext n _ (fun i => sum n (fun j => x i * (gram m a c i j * x j)))) by (intros i Hi; apply rsum_ext; intros j Hj; now rewrite ent_mk). now apply gram_definite. }
  destruct (C152_definite (mk n n (gram m a c)) n (wf_mk _ _ _) eq_refl eq_refl Hn D) as (_ & _ & _ & S). destruct (S (mk n 1 (prod_entry m (fun i j => a j i) b)) (wf_mk _ _ _) eq_refl ltac:(cbn; lia)) as (X & E & WX & RX & CX & EQ).
  exists X. split; [exact E|]. split; [exact WX|]. split; [exact RX|]. split; [exact CX|]. intros i Hi. specialize (EQ i Hi). rewrite ent_mk in EQ by lia.
  rewrite (rsum_ext n _ (fun j => gram m a c i j * ent X j 0)) in EQ by (intros j Hj; now rewrite ent_mk). exact EQ.
Qed.
(** C153.  On every matrix whose columns are independent, the normal equations give the one vector that minimises |A y - b|. *)
Theorem C153_least_squares : forall (A b : mat R), wf A -> wf b -> (0 < nc A)%nat -> nr b = nr A -> nc b = 1%nat ->
  (forall y : nat -> R, (forall i, (i < nr A)%nat -> sum (nc A) (fun j => ent A i j * y j) = 0) -> forall j, (j < nc A)%nat -> y j = 0) ->
  exists X, normal_solve A b = Some X /\ wf X /\ nr X = nc A /\ nc X = 1%nat /\
    forall y : nat -> R, let x := fun j => ent X j 0 in let residual v := sum (nr A) (fun i => (sum (nc A) (fun j => ent A i j * v j) - ent b i 0) ^ 2) in
      residual x <= residual y /\ (residual y = residual x -> forall j, (j < nc A)%nat -> y j = x j).
Proof.
  intros A b WA Wb Hn Rb Cb H. replace (normal_solve A b) with (normal_solve (mk (nr A) (nc A) (ent A)) (mk (nr b) (nc b) (ent b))) by (now rewrite <- (wf_eq_mk A WA), <- (wf_eq_mk b Wb)). rewrite Rb, Cb. unfold normal_solve. rewrite mtranspose_mk. cbn [obind]. rewrite !mmul_mk. cbn [obind].
  destruct (solve_gram (nr A) (nc A) (ent A) (ent b) 0 Hn (Rle_refl 0) (or_intror H)) as (X & E & WX & RX & CX & EQ).
  exists X. split; [rewrite <- E; f_equal; apply mk_ext; intros i j _ _; unfold gram, prod_entry; change (tadd (T := R)) with Rplus; replace (if (i =? j)%nat then 0 else 0) with 0 by (destruct (i =? j)%nat; reflexivity); rewrite Rplus_0_r; reflexivity|].
  split; [exact WX|]. split; [exact RX|]. split; [exact CX|]. intros y. set (x := fun j => ent X j 0). set (residual := fun v : nat -> R => sum (nr A) (fun i => (sum (nc A) (fun j => ent A i j * v j) - ent b i 0) ^ 2)). change (residual x <= residual y /\ (residual y = residual x -> forall j, (j < nc A)%nat -> y j = x j)).
  assert (RC : forall v, residual v = cost (nr A) (nc A) (ent A) (fun i => ent b i 0) 0 v) by (intros v; unfold residual, cost; rewrite Rmult_0_l, Rplus_0_r; apply rsum_ext; intros; ring). rewrite !RC.
  exact (cost_min (nr A) (nc A) (ent A) (fun i => ent b i 0) 0 x (Rle_refl 0) (or_intror H) EQ y).
Qed.
Print Assumptions C153_least_squares.
(** With [c > 0] added on the diagonal they do so on every matrix, for |A y - b|^2 + c |y|^2. *)
Theorem C153_ridge : forall (A b : mat R) c, wf A -> wf b -> (0 < nc A)%nat -> nr b = nr A -> nc b = 1%nat -> 0 < c ->
  exists X, ridge_solve A b c = Some X /\ wf X /\ nr X = nc A /\ nc X = 1%nat /\
    forall y : nat -> R, let x := fun j => ent X j 0 in
      let cost v := sum (nr A) (fun i => (sum (nc A) (fun j => ent A i j * v j) - ent b i 0) ^ 2) + c * sum (nc A) (fun j => v j ^ 2) in
      cost x <= cost y /\ (cost y = cost x -> forall j, (j < nc A)%nat -> y j = x j).
Proof.
  intros A b c WA Wb Hn Rb Cb Hc. replace (ridge_solve A b c) with (ridge_solve (mk (nr A) (nc A) (ent A)) (mk (nr b) (nc b) (ent b)) c) by (now rewrite <- (wf_eq_mk A WA), <- (wf_eq_mk b Wb)). rewrite Rb, Cb. unfold ridge_solve. rewrite mtranspose_mk. cbn [obind]. rewrite mmul_mk. cbn [obind nc mk].
  rewrite midentity_mk by exact Hn. cbn [obind]. rewrite mscale_mk. cbn [obind]. unfold madd. rewrite mzip_mk. cbn [obind]. rewrite mmul_mk. cbn [obind].
  destruct (solve_gram (nr A) (nc A) (ent A) (ent b) c Hn ltac:(lra) (or_introl Hc)) as (X & E & WX & RX & CX & EQ).
  exists X. split; [rewrite <- E; f_equal; apply mk_ext; intros i j _ _; unfold gram, prod_entry, id_entry; cbn [tadd tmul t0 t1 ops_R]; f_equal; destruct (i =? j)%nat; ring|].
  split; [exact WX|]. split; [exact RX|]. split; [exact CX|]. intros y. set (x := fun j => ent X j 0). set (cst := fun v : nat -> R => sum (nr A) (fun i => (sum (nc A) (fun j => ent A i j * v j) - ent b i 0) ^ 2) + c * sum (nc A) (fun j => v j ^ 2)). change (cst x <= cst y /\ (cst y = cst x -> forall j, (j < nc A)%nat -> y j = x j)).
  assert (RC : forall v, cst v = cost (nr A) (nc A) (ent A) (fun i => ent b i 0) c v) by (intros v; unfold cst, cost; f_equal; [apply rsum_ext; intros; ring|f_equal; apply rsum_ext; intros; ring]). rewrite !RC.
  exact (cost_min (nr A) (nc A) (ent A) (fun i => ent b i 0) c x ltac:(lra) (or_introl Hc) EQ y).
Qed.
Print Assumptions C153_ridge.
(** Without independent columns the plain equations may divide by zero, although a minimiser exists: here [(1 1)] and 0. *)
Theorem C153_dependent_refuted : exists A b : mat R, wf A /\ wf b /\ nr A = 1%nat /\ nc A = 2%nat /\ nr b = 1%nat /\ nc b = 1%nat /\ normal_solve A b = None.
Proof.
  exists (mk 1 2 (fun _ _ => 1)), (mk 1 1 (fun _ _ => 0)). split; [apply wf_mk|]. split; [apply wf_mk|]. split; [reflexivity|]. split; [reflexivity|]. split; [reflexivity|]. split; [reflexivity|].
  unfold normal_solve. rewrite mtranspose_mk. cbn [obind]. rewrite !mmul_mk. cbn [obind]. set (N := mk 2 2 _). set (r := mk 2 1 _). destruct (solve N r) as [X|] eqn:E; [|reflexivity]. exfalso.
  destruct (C75_solve field_ok_R N r 2 (wf_mk _ _ _) (wf_mk _ _ _) eq_refl eq_refl eq_refl ltac:(lia) ltac:(cbn; lia)) as (I & _).
  apply (proj1 I (ex_intro _ _ E) 2%nat); [lia|]. unfold N. rewrite (det_ext 2 _ (fun _ _ => 1)) by (intros; rewrite ent_mk by assumption; unfold prod_entry; cbn; ring). cbn. unfold signed. unfold minor. cbn. ring.
Qed.
Print Assumptions C153_dependent_refuted.
(** The hypotheses are met: fitting a line through any points, two of which have different abscissas. *)
Example C153_nontrivial : forall (m : nat) (t : nat -> R) p q, (p < m)%nat -> (q < m)%nat -> t p <> t q -> injective m 2 (fun i j => if (j =? 0)%nat then 1 else t i).
Proof.
  intros m t p q Hp Hq N y H. pose proof (H p Hp) as Ep. pose proof (H q Hq) as Eq. cbn in Ep, Eq. assert (Z : (t p - t q) * y 1%nat = 0) by lra. apply Rmult_integral in Z. destruct Z as [Z|Z]; [lra|]. rewrite Z in Ep.
  intros j Hj. destruct j as [|[|j]]; [lra|exact Z|lia].
Qed.
