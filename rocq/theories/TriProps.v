(** C86, C87: tridiagonalisation of symmetric matrices and extraction of the accumulated reflections, over the real numbers. *)
From Coq Require Import List Arith Bool Lia ZifyBool Reals Lra.
From Verif Require Import PidModel MatModel MatSpec MatProofs MatProofs2 SnfModel RankModel LuModel LuSpec LuProofs2 LuProofs3 NumModel NumSpec NumProofs HouseProofs HessProofs FrancisModel FrancisSpec FrancisProofs TriModel TriSpec TriProofs SpectrumProps.
Import ListNotations.
Open Scope R_scope.

Lemma core_tri n g : (2 <= n)%nat -> same n n (core (n - 2) g) (tridiagonal g).
Proof.
  intros Hn a b Ha Hb. unfold core, tridiagonal. destruct ((a <=? b + 1) && (b <=? a + 1))%nat eqn:E; [now rewrite Bool.orb_true_r|]. replace ((n - 2 <=? a) && (n - 2 <=? b))%nat with false by lia. reflexivity.
Qed.
Lemma tail_nonzero n op (g : nat -> nat -> R) (xs : nat -> nat -> R) j a : (j + 2 <= a < n)%nat ->
  g a j = (if op : bool then hv_v (n - (j + 1)) (xs j) (a - (j + 1)) else xs j (a - (j + 1))%nat) -> g a j <> 0 -> tail_sq (n - (j + 1)) (xs j) <> 0.
Proof.
  intros Ha E N T. apply N. rewrite E. pose proof (tail_zero _ _ T (a - (j + 1))%nat ltac:(lia)) as Z. destruct op; [|exact Z]. unfold hv_v. destruct (Req_EM_T (tail_sq (n - (j + 1)) (xs j)) 0); [|contradiction]. now replace (a - (j + 1) =? 0)%nat with false by lia.
Qed.
Lemma tail_good n x : tail_sq n x <> 0 -> ~ bad_vec n x.
Proof. intros N (_ & B). apply N. now apply tail_sq_zero. Qed.
Lemma tri_run n op f : (2 <= n)%nat -> symmetric n f -> exists g xs, householder_tridiagonalization (mk n n f) op = Some (mk n n g) /\ symmetric n (tridiagonal g) /\
  (forall j a, (j + 2 < n)%nat -> (j + 2 <= a < n)%nat -> g a j = if op then hv_v (n - (j + 1)) (xs j) (a - (j + 1)) else xs j (a - (j + 1))%nat) /\
  (forall j, (j + 2 < n)%nat -> g (j + 1)%nat j = norm2 (n - (j + 1)) (xs j)) /\
  ((forall j, (j + 2 < n)%nat -> ~ bad_vec (n - (j + 1)) (xs j)) -> orthogonal n (tri_prod n xs (n - 2)) /\ congruent n f (tri_prod n xs (n - 2)) (tridiagonal g)).
Proof.
  intros Hn Y. destruct (tri_fold n op f (n - 2) ltac:(lia) Y) as (g & xs & E & Z & ST & NM & C). exists g, xs. split; [|split; [|split; [|split]]].
  - unfold householder_tridiagonalization, usub. rewrite nr_mk. replace (2 <=? n)%nat with true by lia. cbn [obind]. unfold rng. rewrite Nat.sub_0_r. exact E.
  - intros a b Ha Hb. rewrite <- !(core_tri n g Hn) by assumption. now apply Z.
  - intros j a Hj Ha. apply ST; lia.
  - intros j Hj. apply NM; lia.
  - intros G. assert (forall j, (j < n - 2)%nat -> ~ bad_vec (n - (j + 1)) (xs j)) as G' by (intros j Hj; apply G; lia). split; [apply tri_prod_orth; [lia|exact G']|].
    eapply congr_ext; [| |apply C, G']; [intros a b Ha Hb; reflexivity|now apply core_tri].
Qed.
(** C86.  On a symmetric matrix of order at least 2 [householder_tridiagonalization] does not panic; the diagonal and its neighbours in the result are symmetric, with the entries beside the
    diagonal, but the last, not negative.  The rest of the result is storage.  If every column stores something below its subdiagonal entry, the tridiagonal part is orthogonally similar to the input. *)
Theorem C86_tridiagonalization_partial : forall M n op, wf M -> nr M = n -> nc M = n -> (2 <= n)%nat -> symmetric n (ent M) ->
  exists R, householder_tridiagonalization M op = Some R /\ wf R /\ nr R = n /\ nc R = n /\ symmetric n (tridiagonal (ent R)) /\ (forall j, (j + 2 < n)%nat -> 0 <= ent R (j + 1) j) /\
    (full_tails n (ent R) -> orth_similar n (ent M) (tridiagonal (ent R))).
Proof.
  intros M n op W RM CM Hn Y. destruct (tri_run n op (ent M) Hn Y) as (g & xs & E & Z & ST & NM & C). exists (mk n n g). rewrite (wf_eq_mk M W), RM, CM at 1. split; [exact E|]. split; [apply wf_mk|]. split; [reflexivity|]. split; [reflexivity|].
  assert (same n n (tridiagonal g) (tridiagonal (ent (mk n n g)))) as ET by (intros a b Ha Hb; unfold tridiagonal; now rewrite ent_mk by assumption). split; [|split].
  - intros a b Ha Hb. rewrite <- !ET by assumption. now apply Z.
  - intros j Hj. rewrite ent_mk by lia. rewrite NM by exact Hj. apply sqrt_pos.
  - intros F. exists (tri_prod n xs (n - 2)). destruct C as (O & C).
    + intros j Hj. destruct (F j Hj) as (a & Ha & N). rewrite ent_mk in N by lia. apply tail_good. exact (tail_nonzero n op g xs j a Ha (ST j a Hj Ha) N).
    + split; [exact O|]. eapply congr_ext; [| |exact C]; [intros a b Ha Hb; reflexivity|exact ET].
Qed.
(** In that case trace and eigenvalues are kept. *)
Theorem C86_spectrum : forall M n op R, wf M -> nr M = n -> nc M = n -> symmetric n (ent M) -> householder_tridiagonalization M op = Some R -> full_tails n (ent R) ->
  trace n (ent R) = trace n (ent M) /\ forall x, eigenvalue n (ent M) x <-> eigenvalue n (tridiagonal (ent R)) x.
Proof.
  intros M n op R W RM CM Y E F. assert (2 <= n)%nat as Hn by (unfold householder_tridiagonalization, usub in E; rewrite RM in E; destruct (Nat.leb_spec 2 n); [assumption|discriminate]).
  destruct (C86_tridiagonalization_partial M n op W RM CM Hn Y) as (R' & E' & _ & _ & _ & _ & _ & T). rewrite E in E'. injection E' as <-. specialize (T F). split; [|intros x; now apply eigen_similar].
  rewrite <- (trace_similar n _ _ T). unfold trace. apply rsum_ext. intros i Hi. unfold tridiagonal. now replace ((i <=? i + 1) && (i <=? i + 1))%nat with true by lia.
Qed.
(** A symmetric tridiagonal matrix whose entries beside the diagonal, but the last, are not negative is left alone. *)
Lemma tri_next_fixed n i op f : (i + 2 < n)%nat -> symmetric n f -> same n n f (tridiagonal f) -> 0 <= f (i + 1)%nat i -> same n n (tri_next n i op f) f.
Proof.
  intros Hi Y T P r c Hr Hc. set (d := (n - (i + 1))%nat). set (x := tri_x i f).
  assert (forall k, (0 < k < d)%nat -> x k = 0) as X by (intros k Hk; unfold x, tri_x; rewrite T by lia; unfold tridiagonal; now replace ((i + 1 + k <=? i + 1) && (i <=? i + 1 + k + 1))%nat with false by lia).
  pose proof (tail_sq_zero d x X) as TS. assert (hv_b d x = 0) as B.
  { unfold hv_b. destruct (Req_EM_T (tail_sq d x) 0); [|contradiction]. destruct (Rle_dec 0 (x 0%nat)) as [|N]; [reflexivity|]. exfalso. apply N. unfold x, tri_x. now rewrite Nat.add_0_r. }
  assert (norm2 d x = f (i + 1)%nat i) as NM.
  { unfold norm2. rewrite inner_tail by lia. rewrite TS, Rplus_0_r. unfold x, tri_x. rewrite Nat.add_0_r. now apply sqrt_square. }
  unfold tri_next. fold d x. destruct (op && (c =? i) && (i + 2 <=? r))%nat eqn:E1.
  - assert (c = i /\ i + 2 <= r)%nat as (-> & L) by (destruct op; cbn [andb] in E1; [lia|discriminate]). unfold hv_v. destruct (Req_EM_T (tail_sq d x) 0); [|contradiction]. replace (r - (i + 1) =? 0)%nat with false by lia.
    unfold x, tri_x. f_equal. lia.
  - destruct ((r =? i + 1) && (c =? i) || (r =? i) && (c =? i + 1))%nat eqn:E2.
    + rewrite NM. destruct (Nat.eq_dec r (i + 1)) as [->|N]; [replace c with i by lia; reflexivity|]. replace r with i by lia. replace c with (i + 1)%nat by lia. apply Y; lia.
    + destruct ((i + 1 <=? r) && (i + 1 <=? c))%nat eqn:E3; [|reflexivity]. unfold rank2. assert (forall k, tri_w n i f k = 0) as WZ.
      { intros k. unfold tri_w. assert (forall l, tri_p n i f l = 0) as PZ by (intros l; unfold tri_p; fold d x; rewrite B; ring). rewrite PZ. fold d x. rewrite B. unfold Rdiv. ring. }
      rewrite !WZ. destruct (Nat.le_ge_cases r c) as [L|L]; [replace (Nat.min r c) with r by lia; replace (Nat.max r c) with c by lia; ring|]. replace (Nat.min r c) with c by lia. replace (Nat.max r c) with r by lia. rewrite (Y c r) by assumption. ring.
Qed.
Theorem C86_fixed : forall M n op, wf M -> nr M = n -> nc M = n -> (2 <= n)%nat -> symmetric n (ent M) -> same n n (ent M) (tridiagonal (ent M)) -> (forall j, (j + 2 < n)%nat -> 0 <= ent M (j + 1) j) ->
  householder_tridiagonalization M op = Some M.
Proof.
  intros M n op W RM CM Hn Y T P. pose proof (wf_eq_mk M W) as EM. rewrite RM, CM in EM. unfold householder_tridiagonalization, usub. rewrite RM. replace (2 <=? n)%nat with true by lia. cbn [obind]. unfold rng. rewrite Nat.sub_0_r.
  rewrite (foldM_seq0 _ (fun _ => M) M (n - 2)); [reflexivity|reflexivity|]. intros i Hi. rewrite EM at 1. rewrite tri_step_mk by lia. f_equal. rewrite EM at 2. apply mk_ext. intros a b Ha Hb. apply tri_next_fixed; [lia|exact Y|exact T|apply P; lia|exact Ha|exact Hb].
Qed.
(** The full claim. *)
Definition C86_claim : Prop := forall M n op, wf M -> nr M = n -> nc M = n -> (2 <= n)%nat -> symmetric n (ent M) ->
  exists R, householder_tridiagonalization M op = Some R /\ orth_similar n (ent M) (tridiagonal (ent R)).
(** The Laplacian of a path with loops, 2 on the diagonal and -1 beside it: its trace 6 becomes 22. *)
Definition path_laplacian : nat -> nat -> R := fun i j => if (i =? j)%nat then 2 else if ((i =? j + 1) || (j =? i + 1))%nat then -1 else 0.
Theorem C86_refuted : ~ C86_claim.
Proof.
  intros H. assert (symmetric 3 path_laplacian) as Y by (intros i j Hi Hj; unfold path_laplacian; rewrite (Nat.eqb_sym j i), (Bool.orb_comm (j =? i + 1)%nat); reflexivity).
  destruct (H (mk 3 3 path_laplacian) 3%nat false (wf_mk _ _ _) eq_refl eq_refl ltac:(lia)) as (R & E & TS).
  { intros i j Hi Hj. rewrite !ent_mk by assumption. now apply Y. }
  apply trace_similar in TS. unfold householder_tridiagonalization, usub, rng in E. rewrite nr_mk in E. change (2 <=? 3)%nat with true in E. cbn [obind] in E. change (seq 0 (3 - 2 - 0)) with [0%nat] in E. cbn [foldM] in E.
  rewrite tri_step_mk in E by lia. cbn [obind] in E. injection E as <-. unfold trace in TS. cbn [sum] in TS. rewrite !ent_mk in TS by lia.
  set (x := tri_x 0 path_laplacian). assert (bad_vec 2 x) as BV by (split; [unfold x, tri_x, path_laplacian; cbn; lra|intros i Hi; assert (i = 1)%nat as -> by lia; reflexivity]).
  destruct (hv_bad 2 x ltac:(lia) BV) as (B & V). pose proof (V 0%nat ltac:(lia)) as V0. pose proof (V 1%nat ltac:(lia)) as V1. unfold id_entry in V0, V1. cbn [Nat.eqb] in V0, V1.
  unfold tridiagonal in TS. cbn [Nat.leb Nat.add andb] in TS. rewrite !ent_mk in TS by lia. unfold tri_next in TS. cbn [Nat.leb Nat.add Nat.eqb andb orb Nat.sub] in TS. fold x in TS. unfold rank2 in TS. cbn [Nat.min Nat.max Nat.sub Nat.add] in TS.
  change (3 - 1)%nat with 2%nat in TS. unfold tri_w, tri_p, inner in TS. cbn [Nat.add] in TS. change (3 - 1)%nat with 2%nat in TS. fold x in TS. cbn [sum] in TS. rewrite V0, V1, B in TS. unfold path_laplacian in TS. cbn in TS. lra.
Qed.
Theorem C86_panics : forall M op, (nr M < 2)%nat -> householder_tridiagonalization M op = None.
Proof. intros M op H. unfold householder_tridiagonalization, usub. now destruct (Nat.leb_spec 2 (nr M)); [lia|]. Qed.
(** The hypotheses are met: a 3 x 3 matrix with the first column (0, 3, 4). *)
Definition tri_ex : nat -> nat -> R := fun i j => match i, j with 0, 1 | 1, 0 => 3%R | 0, 2 | 2, 0 => 4%R | _, _ => 0%R end%nat.
Example C86_nonvacuous : symmetric 3 tri_ex /\ forall op, exists R, householder_tridiagonalization (mk 3 3 tri_ex) op = Some R /\ full_tails 3 (ent R) /\ ent R 1 0 = 5.
Proof.
  assert (symmetric 3 tri_ex) as Y by (intros i j Hi Hj; destruct i as [|[|[|i]]], j as [|[|[|j]]]; reflexivity || lia). split; [exact Y|]. intros op.
  unfold householder_tridiagonalization, usub, rng. rewrite nr_mk. change (2 <=? 3)%nat with true. cbn [obind]. change (seq 0 (3 - 2 - 0)) with [0%nat]. cbn [foldM]. rewrite tri_step_mk by lia. cbn [obind].
  eexists. split; [reflexivity|]. set (x := tri_x 0 tri_ex). split.
  - intros j Hj. assert (j = 0)%nat as -> by lia. exists 2%nat. split; [lia|]. rewrite ent_mk by lia. unfold tri_next. rewrite Nat.eqb_refl. destruct op.
    + cbn [andb Nat.leb Nat.add]. change (3 - 1)%nat with 2%nat. change (2 - 1)%nat with 1%nat. fold x. destruct (hv_last_nonzero 2 x 1 ltac:(lia)) as (_ & _ & N & _); [unfold x, tri_x, tri_ex; cbn; lra|exact N].
    + cbn [andb]. replace ((2 =? 0 + 1) && true || (2 =? 0) && (0 =? 0 + 1))%nat with false by lia. replace ((0 + 1 <=? 2) && (0 + 1 <=? 0))%nat with false by lia. unfold tri_ex. lra.
  - rewrite ent_mk by lia. unfold tri_next. replace (op && (0 =? 0) && (0 + 2 <=? 1))%nat with false by (destruct op; reflexivity). cbn [Nat.eqb Nat.add andb orb]. change (3 - 1)%nat with 2%nat. fold x.
    unfold norm2, inner. cbn [sum]. replace (x 0%nat) with 3 by reflexivity. replace (x 1%nat) with 4 by reflexivity. replace (tadd (tadd t0 (3 * 3)) (4 * 4)) with (5 * 5) by (cbn; ring). apply sqrt_square. lra.
Qed.

(** C87.  [extract_householder_vecs] returns an orthogonal matrix of one order more, on every square matrix that is not empty. *)
Theorem C87_orthogonal : forall M m, wf M -> nr M = m -> nc M = m -> (0 < m)%nat -> exists Q, extract_householder_vecs M = Some Q /\ wf Q /\ nr Q = (m + 1)%nat /\ nc Q = (m + 1)%nat /\ orthogonal (m + 1) (ent Q).
Proof.
  intros M m W RM CM Hm. pose proof (wf_eq_mk M W) as EM. rewrite RM, CM in EM. exists (mk (S m) (S m) (ex m (ent M))). unfold extract_householder_vecs. rewrite RM. rewrite EM at 1. rewrite extract_mk by lia. rewrite Nat.add_1_r.
  split; [reflexivity|]. split; [apply wf_mk|]. split; [reflexivity|]. split; [reflexivity|]. intros i j Hi Hj. destruct (ex_orth m (ent M) i j Hi Hj) as (A & B).
  split; [rewrite <- A|rewrite <- B]; apply rprod_ext; intros l Hl; unfold transposed; now rewrite ent_mk by assumption.
Qed.
Lemma border_lift Q a b : lift 1 Q a b = bordered Q a b.
Proof. destruct a as [|a], b as [|b]; unfold lift, bordered, id_entry; cbn [Nat.leb Nat.eqb andb]; try reflexivity. now rewrite !Nat.sub_succ, !Nat.sub_0_r. Qed.
(** Tridiagonalise a symmetric matrix [A] with storage; if every column stores something, the extracted matrix [Q], bordered by 1, satisfies [(1 + Q) A (1 + Q)^t = T] for the tridiagonal part [T] of the result. *)
Theorem C87_accumulates_partial : forall A n R B, wf A -> nr A = n -> nc A = n -> symmetric n (ent A) -> householder_tridiagonalization A true = Some R -> msub_view R 2 n 0 (n - 2) = Some B -> full_tails n (ent R) -> (3 <= n)%nat ->
  exists Q, extract_householder_vecs B = Some Q /\ orthogonal n (bordered (ent Q)) /\ congruent n (ent A) (transposed (bordered (ent Q))) (tridiagonal (ent R)).
Proof.
  intros A n R B W RA CA Y ER EB F Hn. destruct (tri_run n true (ent A) ltac:(lia) Y) as (g & xs & E & _ & ST & _ & C). pose proof (wf_eq_mk A W) as EA. rewrite RA, CA in EA. rewrite EA, E in ER. injection ER as <-. rewrite msub_view_mk in EB by lia. injection EB as <-.
  rewrite Nat.sub_0_r. unfold extract_householder_vecs. rewrite nr_mk. rewrite extract_mk by lia. eexists. split; [reflexivity|]. replace (S (n - 2)) with (n - 1)%nat by lia. set (V := fun i j : nat => g (2 + i)%nat (0 + j)%nat).
  assert (forall j, (j + 2 < n)%nat -> tail_sq (n - (j + 1)) (xs j) <> 0) as TL.
  { intros j Hj. destruct (F j Hj) as (a & Ha & N). rewrite ent_mk in N by lia. exact (tail_nonzero n true g xs j a Ha (ST j a Hj Ha) N). }
  destruct C as (O & C); [intros j Hj; apply tail_good, TL, Hj|].
  assert (same n n (bordered (ent (mk (n - 1) (n - 1) (ex (n - 2) V)))) (transposed (tri_prod n xs (n - 2)))) as EQ.
  { intros a b Ha Hb. pose proof (ex_from n xs g ST TL (n - 2) 0%nat ltac:(lia) a b Ha Hb) as K. unfold transposed in *. rewrite <- tri_from_prod by assumption. rewrite <- K. rewrite border_lift. destruct a as [|a], b as [|b]; try reflexivity. cbn [bordered]. rewrite ent_mk by lia.
    apply ex_ext. intros; unfold V; f_equal; lia. }
  assert (forall P Q, same n n P (transposed Q) -> orthogonal n Q -> orthogonal n P) as OT.
  { intros P Q EPQ OQ i j Hi Hj. destruct (OQ i j Hi Hj) as (X1 & X2). split; [rewrite <- X2|rewrite <- X1]; apply rprod_ext; intros l Hl; unfold transposed; rewrite EPQ by assumption; reflexivity. }
  split; [exact (OT _ _ EQ O)|]. intros i j Hi Hj. unfold tridiagonal at 1. rewrite ent_mk by assumption. fold (tridiagonal g i j). rewrite C by assumption. apply rprod_ext; [intros l Hl; unfold transposed; now rewrite EQ by assumption|]. intros l Hl. apply rprod_ext; [reflexivity|]. intros k Hk. unfold transposed. now rewrite EQ by assumption.
Qed.
(** The full claim. *)
Definition C87_claim : Prop := forall A n R B, wf A -> nr A = n -> nc A = n -> symmetric n (ent A) -> householder_tridiagonalization A true = Some R -> msub_view R 2 n 0 (n - 2) = Some B -> (3 <= n)%nat ->
  orth_similar n (ent A) (tridiagonal (ent R)) -> exists Q, extract_householder_vecs B = Some Q /\ congruent n (ent A) (transposed (bordered (ent Q))) (tridiagonal (ent R)).
(** On a matrix that is tridiagonal already nothing is done, but the matrix extracted is not the identity. *)
Definition tri_done : nat -> nat -> R := fun i j => if ((i =? j + 1) || (j =? i + 1))%nat then 1 else 0.
Theorem C87_refuted : ~ C87_claim.
Proof.
  intros H. assert (symmetric 3 tri_done) as Y by (intros i j Hi Hj; unfold tri_done; now rewrite (Bool.orb_comm (j =? i + 1)%nat)).
  assert (householder_tridiagonalization (mk 3 3 tri_done) true = Some (mk 3 3 tri_done)) as E.
  { apply (C86_fixed _ 3%nat); [apply wf_mk|reflexivity|reflexivity|lia|intros i j Hi Hj; rewrite !ent_mk by assumption; now apply Y| |].
    - intros i j Hi Hj. unfold tridiagonal. rewrite ent_mk by assumption. unfold tri_done. destruct ((i <=? j + 1) && (j <=? i + 1))%nat eqn:E; [reflexivity|]. now replace ((i =? j + 1) || (j =? i + 1))%nat with false by lia.
    - intros j Hj. rewrite ent_mk by lia. assert (j = 0)%nat as -> by lia. unfold tri_done. cbn. lra. }
  assert (same 3 3 (tridiagonal (ent (mk 3 3 tri_done))) (ent (mk 3 3 tri_done))) as ET.
  { intros i j Hi Hj. unfold tridiagonal. rewrite ent_mk by assumption. unfold tri_done. destruct ((i <=? j + 1) && (j <=? i + 1))%nat eqn:E'; [reflexivity|]. now replace ((i =? j + 1) || (j =? i + 1))%nat with false by lia. }
  destruct (H (mk 3 3 tri_done) 3%nat (mk 3 3 tri_done) (mk 1 1 (fun i j => tri_done (2 + i) (0 + j))) (wf_mk _ _ _) eq_refl eq_refl) as (Q & EQ & C).
  - intros i j Hi Hj. rewrite !ent_mk by assumption. now apply Y.
  - exact E.
  - now rewrite msub_view_mk by lia.
  - lia.
  - exists id_entry. split; [apply orth_id|]. eapply congr_ext; [| |apply congr_id]; intros i j Hi Hj; [reflexivity|symmetry; now apply ET].
  - unfold extract_householder_vecs in EQ. rewrite nr_mk in EQ. rewrite extract_mk in EQ by lia. apply (f_equal (fun o => match o with Some m => m | None => Q end)) in EQ. symmetry in EQ. cbn beta iota in EQ.
    set (W := fun i j : nat => tri_done (2 + i) (0 + j)) in EQ. assert (stored_b 1 W = 2) as S2 by (unfold stored_b; rewrite stored_inner; unfold inner, column; cbn [sum]; unfold W, tri_done; cbn; field).
    assert (ent Q 0 0 = -1) as Q00 by (rewrite EQ, ent_mk, (ex_entry 0 W 0 0), S2 by lia; cbn; lra).
    assert (ent Q 0 1 = 0) as Q01 by (rewrite EQ, ent_mk, (ex_entry 0 W 0 1), S2 by lia; unfold W, tri_done; cbn; lra).
    specialize (C 0%nat 1%nat ltac:(lia) ltac:(lia)). rewrite ET, ent_mk in C by lia.
    unfold prod_entry in C. cbn [sum] in C. unfold transposed, bordered in C. rewrite !ent_mk in C by lia. rewrite Q00, Q01 in C. unfold tri_done in C. cbn in C. lra.
Qed.
Theorem C87_panics : forall M, wf M -> nr M <> nc M \/ nr M = 0%nat -> extract_householder_vecs M = None.
Proof.
  intros M W H. unfold extract_householder_vecs. cbn [extract_vecs]. destruct (Nat.eqb_spec (nr M) (nc M)) as [E|E]; [|reflexivity]. destruct H as [H|H]; [contradiction|]. pose proof (wf_eq_mk M W) as EM. rewrite <- E, H in EM. rewrite EM. reflexivity.
Qed.
(** The hypotheses of [C87_accumulates_partial] are met. *)
Example C87_nonvacuous : exists R B, householder_tridiagonalization (mk 3 3 tri_ex) true = Some R /\ msub_view R 2 3 0 (3 - 2) = Some B /\ full_tails 3 (ent R).
Proof.
  destruct C86_nonvacuous as (Y & K). destruct (K true) as (R & E & F & _). destruct (C86_tridiagonalization_partial (mk 3 3 tri_ex) 3 true (wf_mk _ _ _) eq_refl eq_refl ltac:(lia)) as (R' & E' & W & NR & NC & _); [intros i j Hi Hj; rewrite !ent_mk by assumption; now apply Y|].
  rewrite E in E'. injection E' as <-. pose proof (wf_eq_mk R W) as ER. rewrite NR, NC in ER. exists R, (mk 1 1 (fun i j => ent R (2 + i) (0 + j))%nat). split; [exact E|]. split; [|exact F]. rewrite ER at 1. apply msub_view_mk; lia.
Qed.
Print Assumptions C86_tridiagonalization_partial.
Print Assumptions C86_spectrum.
Print Assumptions C86_fixed.
Print Assumptions C86_refuted.
Print Assumptions C86_panics.
Print Assumptions C87_orthogonal.
Print Assumptions C87_accumulates_partial.
Print Assumptions C87_refuted.
Print Assumptions C87_panics.
