(** Inverse iteration. *)
From Coq Require Import List Arith Bool Lia ZifyBool Reals Lra.
From Verif Require Import PidModel MatModel MatSpec MatProofs MatProofs2 SnfModel RankModel LuModel LuSpec LuProofs2 LuProofs3 NumModel NumSpec NumProofs HouseProofs HessProofs FrancisModel FrancisProofs EigProofs WilkModel RandModel RandProofs InvIterModel InvIterSpec.
Import ListNotations.
Open Scope R_scope.

Lemma norm2_nonneg n x : 0 <= norm2 n x. Proof. apply sqrt_pos. Qed.
Lemma norm2_sq n x : norm2 n x * norm2 n x = inner n x x.
Proof. apply sqrt_sqrt. apply rsum_nonneg. intros; cbn; nra. Qed.
Lemma inner_ext n x y x' y' : (forall i, (i < n)%nat -> x i = x' i) -> (forall i, (i < n)%nat -> y i = y' i) -> inner n x y = inner n x' y'.
Proof. intros H K. apply rsum_ext. intros i Hi. now rewrite H, K. Qed.
Lemma norm2_ext n x y : (forall i, (i < n)%nat -> x i = y i) -> norm2 n x = norm2 n y.
Proof. intros H. unfold norm2. f_equal. now apply inner_ext. Qed.
Lemma inner_comm n x y : inner n x y = inner n y x. Proof. apply rsum_ext. intros; cbn; ring. Qed.
Lemma inner_scale_l n c x y : inner n (fun i => c * x i) y = c * inner n x y.
Proof. unfold inner. rewrite <- rsum_mul_l. apply rsum_ext. intros; cbn; ring. Qed.
Lemma inner_scale_r n c x y : inner n x (fun i => c * y i) = c * inner n x y. Proof. rewrite inner_comm, inner_scale_l, inner_comm. reflexivity. Qed.
Lemma inner_sub_l n x z y : inner n (fun i => x i - z i) y = inner n x y - inner n z y.
Proof. unfold inner. rewrite <- rsum_sub. apply rsum_ext. intros; cbn; ring. Qed.
Lemma inner_nonneg n x : 0 <= inner n x x. Proof. apply rsum_nonneg. intros; cbn; nra. Qed.
Lemma cauchy n x y : inner n x y <= norm2 n x * norm2 n y.
Proof.
  set (a := norm2 n x). set (b := norm2 n y). pose proof (norm2_nonneg n x) as A. pose proof (norm2_nonneg n y) as B. fold a in A. fold b in B.
  destruct (Req_dec a 0) as [Z|Z].
  - assert (inner n x y = 0) as ->; [|rewrite Z; lra]. apply rsum_zero. intros i Hi. rewrite (proj1 (norm2_zero n x) Z i Hi). cbn. ring.
  - destruct (Req_dec b 0) as [Y|Y].
    + assert (inner n x y = 0) as ->; [|rewrite Y; lra]. apply rsum_zero. intros i Hi. rewrite (proj1 (norm2_zero n y) Y i Hi). cbn. ring.
    + pose proof (inner_nonneg n (fun i => b * x i - a * y i)) as P. rewrite inner_sub_l, !inner_scale_l in P. rewrite (inner_comm n x), (inner_comm n y (fun i => b * x i - a * y i)), !inner_sub_l, !inner_scale_l, <- !norm2_sq in P. fold a b in P. rewrite (inner_comm n y x) in P.
      set (t := inner n x y) in *. assert (0 < a * b) by (apply Rmult_lt_0_compat; lra). nra.
Qed.
Lemma inner_adjoint n A x y : inner n (apply_mat n A x) y = inner n x (apply_mat n (transposed A) y).
Proof.
  unfold inner, apply_mat, transposed. rewrite (rsum_ext n _ (fun i => sum n (fun j => A i j * x j * y i))) by (intros; rewrite rsum_mul_r; reflexivity).
  rewrite (rsum_ext n (fun i => x i * _) (fun j => sum n (fun i => A i j * x j * y i))); [apply rsum_swap|]. intros j Hj. rewrite <- rsum_mul_l. apply rsum_ext. intros; cbn; ring.
Qed.
Lemma minus_apply n A l x i : (i < n)%nat -> apply_mat n (minus A l) x i = apply_mat n A x i - l * x i.
Proof.
  intros Hi. unfold apply_mat, minus. rewrite (rsum_ext n _ (fun j => A i j * x j - l * (id_entry i j * x j))) by (intros; cbn; ring). rewrite rsum_sub, rsum_mul_l, rsum_id_l by exact Hi. reflexivity.
Qed.

(** * The shifted matrix *)
Lemma shift_mk n a l : shift_diagonal n (mk n n a) l = Some (mk n n (minus a l)).
Proof.
  unfold shift_diagonal, rng. rewrite Nat.sub_0_r.
  rewrite (foldM_seq0 _ (fun k => mk n n (fun i j => if (i =? j)%nat && (i <? k)%nat then a i j - l else a i j))).
  - f_equal. apply mk_ext. intros i j Hi Hj. unfold minus, id_entry. destruct (Nat.eqb_spec i j) as [->|]; cbn [andb t0 t1 ops_R]; [replace (j <? n)%nat with true by lia|]; ring.
  - apply mk_ext. intros i j Hi Hj. now rewrite andb_comm.
  - intros k Hk. rewrite mget_in by lia. cbn [obind]. rewrite mset_mk by lia. f_equal. apply mk_ext. intros i j Hi Hj.
    destruct ((i =? k) && (j =? k))%nat eqn:E.
    + replace i with k by lia. replace j with k by lia. rewrite Nat.eqb_refl. replace (k <? k)%nat with false by lia. replace (k <? k + 1)%nat with true by lia. reflexivity.
    + replace ((i =? j)%nat && (i <? k + 1)%nat) with ((i =? j)%nat && (i <? k)%nat) by lia. reflexivity.
Qed.
Lemma regular_piv n a l : regular n a l <-> forall k, (k < n)%nat -> piv (minus a l) k <> 0.
Proof.
  pose proof (piv_minor field_ok_R (S n) (minus a l)) as Q. split.
  - intros H k Hk. apply Q; [|lia]. intros j Hj. apply H. lia.
  - intros H k Hk. apply Q; [|lia]. intros j Hj. apply H. lia.
Qed.
Lemma regular_dec n a l : regular n a l \/ exists k, (k < n)%nat /\ piv (minus a l) k = 0 /\ forall j, (j < k)%nat -> piv (minus a l) j <> 0.
Proof. destruct (piv_dec field_ok_R n (minus a l)) as [H|H]; [left; now apply regular_piv|right; exact H]. Qed.
Lemma regular_inj n a l x : (0 < n)%nat -> regular n a l -> (forall i, (i < n)%nat -> apply_mat n (minus a l) x i = 0) -> forall i, (i < n)%nat -> x i = 0.
Proof.
  intros Hn H Z. pose proof (proj1 (regular_piv n a l) H) as H'. clear H. rename H' into H. destruct (solve_ok field_ok_R n 1 (minus a l) (fun _ _ => 0) Hn ltac:(lia) H) as (z & _ & U & _). intros i Hi.
  rewrite (proj1 (U x)) by assumption. symmetry. refine (proj1 (U (fun _ => 0)) _ i Hi). intros j Hj. apply rsum_zero. intros; cbn; ring.
Qed.
Lemma regular_eigen n a l : (0 < n)%nat -> regular n a l -> ~ eigenvalue n a l.
Proof.
  intros Hn H (x & (i & Hi & X) & E). apply X. apply (regular_inj n a l x Hn H); [|exact Hi]. intros j Hj. rewrite minus_apply, E by exact Hj. ring.
Qed.

(** * One step *)
Definition put (e : nat -> nat -> R) (k : nat) (x : nat -> R) (r c : nat) : R := if (c =? k)%nat then x r else e r c.
Lemma step_ok n m a l e k y : (0 < n)%nat -> (k < m)%nat -> regular n a l -> (exists i, (i < n)%nat /\ y i <> 0) ->
  exists x c, inverse_step (mk n n (minus a l)) (mk n m (put e k y)) k = Some (mk n m (put e k x)) /\ norm2 n x = 1 /\ 0 < c /\ forall i, (i < n)%nat -> apply_mat n (minus a l) x i = c * y i.
Proof.
  intros Hn Hk H (i0 & Hi0 & Y). pose proof (proj1 (regular_piv n a l) H) as H'. clear H. rename H' into H. destruct (solve_ok field_ok_R n 1 (minus a l) (fun i _ => y i) Hn ltac:(lia) H) as (z & E & U & _).
  set (w := fun i => z i 0%nat). assert (forall i, (i < n)%nat -> apply_mat n (minus a l) w i = y i) as W by (apply (proj2 (U w)); reflexivity).
  assert (norm2 n w <> 0) as N.
  { intros Z. apply Y. rewrite <- W by exact Hi0. apply rsum_zero. intros j Hj. rewrite (proj1 (norm2_zero n w) Z j Hj). cbn. ring. }
  exists (dir n w), (/ norm2 n w). split; [|split; [|split]].
  - unfold inverse_step. rewrite mcol_mk by exact Hk. cbn [obind].
    replace (mk n 1 (fun i _ => put e k y i k)) with (mk n 1 (fun i (_ : nat) => y i)) by (apply mk_ext; intros; unfold put; now rewrite Nat.eqb_refl).
    rewrite E. cbn [obind]. rewrite two_norm_mk. cbn [obind]. change (column z 0) with w. rewrite mdivs_mk by exact N. cbn [obind]. rewrite wcol_mk by exact Hk. f_equal. apply mk_ext.
    intros r c Hr Hc. unfold put. destruct (c =? k)%nat; reflexivity.
  - now apply dir_unit.
  - apply Rinv_0_lt_compat. pose proof (norm2_nonneg n w). lra.
  - intros i Hi. rewrite <- W by exact Hi. unfold apply_mat. rewrite <- rsum_mul_l. apply rsum_ext. intros j Hj. unfold dir. cbn. field. exact N.
Qed.
Lemma step_none n m a l e k : (0 < n)%nat -> (k < m)%nat -> ~ regular n a l -> inverse_step (mk n n (minus a l)) (mk n m e) k = None.
Proof.
  intros Hn Hk H. destruct (regular_dec n a l) as [|(j & Hj & Z & P)]; [contradiction|]. unfold inverse_step. rewrite mcol_mk by exact Hk. cbn [obind].
  rewrite (solve_none field_ok_R n 1 (minus a l) (fun i _ => e i k) j Hn ltac:(lia) Hj Z P). reflexivity.
Qed.
Lemma start_pos n : (0 < n)%nat -> 0 < 1 / sqrt (INR n).
Proof. intros H. apply Rdiv_lt_0_compat; [lra|]. apply sqrt_lt_R0. apply lt_0_INR. exact H. Qed.
Lemma classic_nz n x : (exists i, (i < n)%nat /\ x i <> 0) \/ forall i, (i < n)%nat -> x i = 0.
Proof.
  induction n as [|n [(i & Hi & X)|IH]]; [right; lia|left; exists i; split; [lia|exact X]|]. destruct (Req_dec (x n) 0) as [Z|Z]; [|left; exists n; split; [lia|exact Z]].
  right. intros i Hi. destruct (Nat.eq_dec i n) as [->|]; [exact Z|apply IH; lia].
Qed.
Lemma put_same n m e k y : (forall r, (r < n)%nat -> e r k = y r) -> mk n m e = mk n m (put e k y).
Proof. intros H. apply mk_ext. intros r c Hr Hc. unfold put. destruct (Nat.eqb_spec c k) as [->|]; [now apply H|reflexivity]. Qed.
Lemma put_put n m e k x y : mk n m (put (put e k y) k x) = mk n m (put e k x).
Proof. apply mk_ext. intros r c Hr Hc. unfold put. destruct (c =? k)%nat; reflexivity. Qed.
Lemma iteration_ok n m a v e i k l : (0 < n)%nat -> (k < m)%nat -> mget v i 0 = Some l -> (forall r, (r < n)%nat -> e r k = 1 / sqrt (INR n)) -> regular n a l ->
  exists x, inverse_iteration n (mk n n a) v (mk n m e) i k = Some (mk n m (put e k x)) /\ twice_solved n a l x.
Proof.
  intros Hn Hk V E H. unfold inverse_iteration. rewrite V. cbn [obind]. rewrite shift_mk. cbn [obind]. pose proof (start_pos n Hn) as S0.
  rewrite (put_same n m e k (fun _ => 1 / sqrt (INR n))) by (intros; now apply E).
  destruct (step_ok n m a l e k (fun _ => 1 / sqrt (INR n)) Hn Hk H) as (x1 & c1 & E1 & N1 & C1 & A1); [exists 0%nat; split; [exact Hn|lra]|]. rewrite E1. cbn [obind].
  destruct (step_ok n m a l e k x1 Hn Hk H) as (x2 & c2 & E2 & N2 & C2 & A2).
  { destruct (Req_dec (x1 0%nat) 0) as [Z|Z]; [|exists 0%nat; now split]. destruct (classic_nz n x1) as [X|X]; [exact X|]. apply norm2_zero in X. lra. }
  exists x2. split; [exact E2|]. split; [exact N2|]. exists (c2 * (c1 * (1 / sqrt (INR n)))). split; [apply Rmult_lt_0_compat; [assumption|apply Rmult_lt_0_compat; assumption]|].
  intros j Hj. rewrite (apply_ext n _ (minus a l) _ (fun r => c2 * x1 r)) by (reflexivity || assumption). rewrite apply_scale, A1 by exact Hj. reflexivity.
Qed.
Lemma iteration_none n m a v e i k l : (0 < n)%nat -> (k < m)%nat -> mget v i 0 = Some l -> ~ regular n a l -> inverse_iteration n (mk n n a) v (mk n m e) i k = None.
Proof. intros Hn Hk V H. unfold inverse_iteration. rewrite V. cbn [obind]. rewrite shift_mk. cbn [obind]. now rewrite step_none. Qed.

(** * The loop *)
Lemma start_mk n k : start_vectors n k = Some (mk n k (fun _ _ => 1 / sqrt (INR n))).
Proof. unfold start_vectors. now apply mbuild_some. Qed.
Lemma loop_ok n m a v k : (0 < n)%nat -> (k <= m)%nat -> (forall i, (i < k)%nat -> exists l, mget v i 0 = Some l /\ regular n a l) ->
  exists e, foldM (fun E i => inverse_iteration n (mk n n a) v E i i) (seq 0 k) (mk n m (fun _ _ => 1 / sqrt (INR n))) = Some (mk n m e) /\
    (forall r c, (k <= c)%nat -> e r c = 1 / sqrt (INR n)) /\ forall i l, (i < k)%nat -> mget v i 0 = Some l -> twice_solved n a l (column e i).
Proof.
  intros Hn. induction k as [|k IH]; intros Hk H.
  - eexists. split; [reflexivity|]. split; [reflexivity|]. intros i l Hi. lia.
  - destruct IH as (e & E & O & T); [lia|intros i Hi; apply H; lia|]. rewrite seq_S, foldM_app, E. cbn [obind Nat.add foldM]. destruct (H k ltac:(lia)) as (l & V & G).
    destruct (iteration_ok n m a v e k k l Hn ltac:(lia) V ltac:(intros; apply O; lia) G) as (x & -> & X). cbn [obind]. exists (put e k x). split; [reflexivity|]. split.
    + intros r c Hc. unfold put. replace (c =? k)%nat with false by lia. apply O. lia.
    + intros i l' Hi V'. destruct (Nat.eq_dec i k) as [->|Ne].
      * rewrite V in V'. injection V' as <-. destruct X as (N & rho & P & Q). split; [rewrite <- N; apply norm2_ext; intros r Hr; unfold column, put; now rewrite Nat.eqb_refl|].
        exists rho. split; [exact P|]. intros r Hr. rewrite <- (Q r Hr). apply apply_ext; [reflexivity|]. intros j Hj. apply apply_ext; [reflexivity|]. intros j' Hj'. unfold column, put. now rewrite Nat.eqb_refl.
      * destruct (T i l' ltac:(lia) V') as (N & rho & P & Q). assert (forall r, column (put e k x) i r = column e i r) as C by (intros r; unfold column, put; now replace (i =? k)%nat with false by lia).
        split; [rewrite <- N; apply norm2_ext; intros; apply C|]. exists rho. split; [exact P|]. intros r Hr. rewrite <- (Q r Hr). apply apply_ext; [reflexivity|]. intros j Hj. apply apply_ext; [reflexivity|]. intros j' Hj'. apply C.
Qed.
Lemma loop_none n m a v k i : (0 < n)%nat -> (k <= m)%nat -> (i < k)%nat -> (forall l, mget v i 0 = Some l -> ~ regular n a l) ->
  foldM (fun E i => inverse_iteration n (mk n n a) v E i i) (seq 0 k) (mk n m (fun _ _ => 1 / sqrt (INR n))) = None.
Proof.
  intros Hn Hk Hi H.
  assert (forall l s, (forall y, In y l -> (y < m)%nat) -> (exists e, s = mk n m e) -> In i l -> foldM (fun E i => inverse_iteration n (mk n n a) v E i i) l s = None) as G.
  { induction l as [|y l IH]; intros s B (e & ->) Hin; [contradiction|]. cbn [foldM].
    destruct (mget v y 0) as [ly|] eqn:Vy; [|unfold inverse_iteration; rewrite Vy; reflexivity].
    destruct Hin as [->|Hin]; [rewrite (iteration_none n m a v e i i ly Hn ltac:(lia) Vy (H ly Vy)); reflexivity|].
    destruct (inverse_iteration n (mk n n a) v (mk n m e) y y) as [E'|] eqn:E; [|reflexivity]. cbn [obind]. apply IH; [intros z Hz; apply B; now right| |exact Hin].
    revert E. unfold inverse_iteration. rewrite Vy. cbn [obind]. rewrite shift_mk. cbn [obind].
    assert (forall e E', inverse_step (mk n n (minus a ly)) (mk n m e) y = Some E' -> exists e', E' = mk n m e') as ST.
    { intros e1 E1. assert (y < m)%nat as Hy by (apply B; now left). destruct (regular_dec n a ly) as [R|(j & Hj & Z & P)].
      - pose proof (proj1 (regular_piv n a ly) R) as R'. unfold inverse_step. rewrite mcol_mk by exact Hy. cbn [obind].
        destruct (solve_ok field_ok_R n 1 (minus a ly) (fun i _ => e1 i y) Hn ltac:(lia) R') as (z & -> & _ & _). cbn [obind]. rewrite two_norm_mk. cbn [obind].
        destruct (Req_dec (norm2 n (column z 0)) 0) as [N|N]; [rewrite N, mdivs_none by lia; discriminate|]. rewrite mdivs_mk by exact N. cbn [obind]. rewrite wcol_mk by exact Hy. intros [= <-]. eexists. reflexivity.
      - unfold inverse_step. rewrite mcol_mk by exact Hy. cbn [obind]. rewrite (solve_none field_ok_R n 1 (minus a ly) (fun i _ => e1 i y) j Hn ltac:(lia) Hj Z P). discriminate. }
    destruct (inverse_step (mk n n (minus a ly)) (mk n m e) y) as [E1|] eqn:S1; [|discriminate]. cbn [obind]. destruct (ST _ _ S1) as (e1 & ->). intros E2. exact (ST _ _ E2). }
  apply G; [intros y Hy; apply in_seq in Hy; lia|eexists; reflexivity|apply in_seq; lia].
Qed.

(** * What the vectors are worth *)
Lemma start_norm n : (0 < n)%nat -> norm2 n (fun _ => 1 / sqrt (INR n)) = 1.
Proof.
  intros Hn. assert (0 < INR n) as P by (apply lt_0_INR; exact Hn). unfold norm2, inner. transitivity (sqrt 1); [f_equal|apply sqrt_1].
  assert (forall k c, sum k (fun _ => c) = INR k * c) as K.
  { induction k as [|k IH]; intros c; [cbn; ring|]. cbn [sum]. rewrite IH, S_INR. cbn. ring. }
  rewrite K. assert (sqrt (INR n) * sqrt (INR n) = INR n) as Q by (apply sqrt_sqrt; lra). assert (sqrt (INR n) <> 0) by (intros Z; rewrite Z in Q; lra).
  set (q := sqrt (INR n)) in *. rewrite <- Q. field. assumption.
Qed.
Lemma minus_sym n A l : (forall i j, (i < n)%nat -> (j < n)%nat -> A i j = A j i) -> forall i j, (i < n)%nat -> (j < n)%nat -> minus A l i j = minus A l j i.
Proof. intros H i j Hi Hj. unfold minus. rewrite H by assumption. now rewrite id_sym. Qed.
Lemma adjoint_sym n B x y : (forall i j, (i < n)%nat -> (j < n)%nat -> B i j = B j i) -> inner n (apply_mat n B x) y = inner n x (apply_mat n B y).
Proof. intros H. rewrite inner_adjoint. apply inner_ext; [reflexivity|]. intros i Hi. apply apply_ext; [|reflexivity]. intros j Hj. unfold transposed. now apply H. Qed.
Lemma twice_residual n A l x : (0 < n)%nat -> (forall i j, (i < n)%nat -> (j < n)%nat -> A i j = A j i) -> twice_solved n A l x ->
  norm2 n (apply_mat n (minus A l) x) <= norm2 n (apply_mat n (minus A l) (fun _ => 1 / sqrt (INR n))).
Proof.
  intros Hn S0 (N & rho & P & Q). pose proof (minus_sym n A l S0) as SB. set (B := minus A l) in *. set (e := fun _ : nat => 1 / sqrt (INR n)). set (w := apply_mat n B x).
  pose proof (start_pos n Hn) as SP. pose proof (start_norm n Hn) as SN. fold e in SN. set (t := rho / (1 / sqrt (INR n))). assert (0 < t) as TP by (apply Rdiv_lt_0_compat; assumption).
  assert (forall i, (i < n)%nat -> apply_mat n B w i = t * e i) as BW by (intros i Hi; unfold w; rewrite Q by exact Hi; unfold t, e; field; intros Z; unfold Rdiv in SP; rewrite Z, Rinv_0 in SP; lra).
  assert (norm2 n w * norm2 n w <= t) as L1.
  { rewrite norm2_sq. unfold w at 2. rewrite <- (adjoint_sym n B w x SB). rewrite (inner_ext n _ _ (fun i => t * e i) x) by (assumption || reflexivity). rewrite inner_scale_l. pose proof (cauchy n e x) as C. rewrite SN, N in C. nra. }
  assert (t <= norm2 n w * norm2 n (apply_mat n B e)) as L2.
  { replace t with (inner n (apply_mat n B w) e); [rewrite adjoint_sym by exact SB; apply cauchy|]. rewrite (inner_ext n _ e (fun i => t * e i) e) by (assumption || reflexivity). rewrite inner_scale_l, <- norm2_sq, SN. ring. }
  pose proof (norm2_nonneg n w). pose proof (norm2_nonneg n (apply_mat n B e)). destruct (Req_dec (norm2 n w) 0) as [Z|Z]; [lra|]. apply (Rmult_le_reg_l (norm2 n w)); lra.
Qed.
Lemma eigen_inj n a l x : ~ eigenvalue n a l -> (forall i, (i < n)%nat -> apply_mat n (minus a l) x i = 0) -> forall i, (i < n)%nat -> x i = 0.
Proof.
  intros H Z. destruct (classic_nz n x) as [NZ|K]; [|exact K]. exfalso. apply H. exists x. split; [exact NZ|]. intros i Hi. specialize (Z i Hi). rewrite minus_apply in Z by exact Hi. lra.
Qed.
Lemma twice_constant n A l x c : (0 < n)%nat -> ~ eigenvalue n A l -> twice_solved n A l x -> (forall i, (i < n)%nat -> sum n (fun j => A i j) = c) -> forall i, (i < n)%nat -> x i = 1 / sqrt (INR n).
Proof.
  intros Hn G (N & rho & P & Q) RS. assert (forall i, (i < n)%nat -> apply_mat n A (fun _ => 1) i = c) as A1 by (intros i Hi; rewrite <- (RS i Hi); apply rsum_ext; intros; cbn; ring).
  assert (c - l <> 0) as CL. { intros Z. apply G. exists (fun _ => 1). split; [exists 0%nat; split; [exact Hn|lra]|]. intros i Hi. rewrite A1 by exact Hi. lra. }
  set (B := minus A l) in *. set (s := rho / ((c - l) * (c - l))). assert (0 < s) as SPos by (apply Rdiv_lt_0_compat; [exact P|nra]).
  assert (forall k i, (i < n)%nat -> apply_mat n B (fun _ => k) i = (c - l) * k) as BK.
  { intros k i Hi. unfold B. rewrite minus_apply by exact Hi. rewrite (apply_ext n A A (fun _ => k) (fun _ => k * 1)) by (intros; ring). rewrite apply_scale, A1 by exact Hi. ring. }
  assert (forall y z i, apply_mat n B (fun j => y j - z j) i = apply_mat n B y i - apply_mat n B z i) as BS.
  { intros y z i. unfold apply_mat. rewrite <- rsum_sub. apply rsum_ext. intros; cbn; ring. }
  assert (forall i, (i < n)%nat -> x i = s) as X.
  { assert (forall i, (i < n)%nat -> apply_mat n B (fun j => x j - s) i = 0) as Z1.
    { apply (eigen_inj n A l _ G). fold B. intros i Hi. rewrite (apply_ext n B B _ (fun j => apply_mat n B x j - apply_mat n B (fun _ => s) j)) by (intros; (reflexivity || apply BS)). rewrite BS, Q by exact Hi.
      rewrite (apply_ext n B B _ (fun _ => (c - l) * s)) by (intros; (reflexivity || now apply BK)). rewrite BK by exact Hi. unfold s. field. exact CL. }
    intros i Hi. pose proof (eigen_inj n A l _ G Z1 i Hi) as D. cbn beta in D. lra. }
  intros i Hi. rewrite X by exact Hi. assert (norm2 n (fun _ => s) = 1) as NS by (rewrite <- N; apply norm2_ext; intros; symmetry; now apply X).
  pose proof (start_norm n Hn) as NE. pose proof (start_pos n Hn) as EP. set (e := 1 / sqrt (INR n)) in *.
  assert (s * s = e * e) as SE.
  { assert (inner n (fun _ => s) (fun _ => s) = inner n (fun _ => e) (fun _ => e)) as I by (rewrite <- !norm2_sq, NS, NE; reflexivity). unfold inner in I.
    rewrite (rsum_ext n (fun _ => s * s) (fun _ => (s * s) * 1)), (rsum_ext n (fun _ => e * e) (fun _ => (e * e) * 1)) in I by (intros; ring). rewrite !rsum_mul_l in I.
    assert (sum n (fun _ => 1) <> 0) as NZ. { intros Z. assert (norm2 n (fun _ => s) = 0) as C; [|lra]. unfold norm2, inner. rewrite (rsum_ext n (fun _ => s * s) (fun _ => (s * s) * 1)) by (intros; ring). rewrite rsum_mul_l, Z, Rmult_0_r. apply sqrt_0. }
    now apply Rmult_eq_reg_r in I. }
  nra.
Qed.
Lemma twice_misses n A l x y mu : (0 < n)%nat -> (forall i j, (i < n)%nat -> (j < n)%nat -> A i j = A j i) -> ~ eigenvalue n A l -> twice_solved n A l x ->
  (forall i, (i < n)%nat -> apply_mat n A y i = mu * y i) -> sum n y = 0 -> inner n x y = 0.
Proof.
  intros Hn S0 G (N & rho & P & Q) EY SY. destruct (classic_nz n y) as [NZ|Z]; [|apply rsum_zero; intros i Hi; rewrite Z by exact Hi; cbn; ring].
  assert (mu - l <> 0) as ML. { intros Z. apply G. exists y. split; [exact NZ|]. intros i Hi. rewrite EY by exact Hi. f_equal. lra. }
  pose proof (minus_sym n A l S0) as SB. set (B := minus A l) in *.
  assert (forall i, (i < n)%nat -> apply_mat n B y i = (mu - l) * y i) as BY by (intros i Hi; unfold B; rewrite minus_apply, EY by exact Hi; ring).
  assert (inner n (apply_mat n B (apply_mat n B x)) y = (mu - l) * (mu - l) * inner n x y) as E1.
  { rewrite adjoint_sym by exact SB. rewrite (inner_ext n _ _ (apply_mat n B x) (fun i => (mu - l) * y i)) by (reflexivity || assumption). rewrite inner_scale_r, adjoint_sym by exact SB.
    rewrite (inner_ext n x _ x (fun i => (mu - l) * y i)) by (reflexivity || assumption). rewrite inner_scale_r. ring. }
  rewrite (inner_ext n _ y (fun i => rho * 1) y) in E1 by (intros; (reflexivity || (rewrite Rmult_1_r; now apply Q))). rewrite inner_scale_l in E1.
  assert (inner n (fun _ => 1) y = 0) as O by (rewrite <- SY; apply rsum_ext; intros; cbn; ring). rewrite O in E1.
  apply (Rmult_eq_reg_l ((mu - l) * (mu - l))); [lra|nra].
Qed.
