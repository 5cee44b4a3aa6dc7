(** C91, C92: random matrices. *)
From Coq Require Import List Arith Bool Lia ZifyBool Reals Lra.
From Verif Require Import PidModel MatModel MatSpec MatProofs MatProofs2 SnfModel RankModel LuModel LuSpec LuProofs2 LuProofs3 NumModel NumSpec NumProofs HouseProofs HessProofs FrancisModel FrancisProofs EigProofs SymQrSpec SymQrProofs3 RandModel RandProofs.
Import ListNotations.
Open Scope R_scope.

(** Whatever numbers are drawn from [0, 1) - not all zero for a column - the matrix is orthogonal, and its first column is the first draw, normalised. *)
Theorem C91_random_orthogonal : forall (draw : nat -> nat -> R) (n : nat), (0 < n)%nat ->
  (forall i k, 0 <= draw i k) -> (forall i, (i < n)%nat -> exists k, (k < n - i)%nat /\ draw i k <> 0) ->
  exists Q, random_orthogonal draw n = Some Q /\ wf Q /\ nr Q = n /\ nc Q = n /\ orthogonal n (ent Q) /\
    forall i, (i < n)%nat -> ent Q i 0 = draw 0%nat i / norm2 n (draw 0%nat) /\ 0 <= ent Q i 0.
Proof.
  intros draw n Hn P E.
  assert (forall i, (i < n)%nat -> norm2 (n - i) (draw i) <> 0) as NZ.
  { intros i Hi H. destruct (E i Hi) as (k & Hk & X). apply X. revert k Hk X. intros k Hk _. revert k Hk. now apply norm2_zero. }
  assert (forall i, (i < n)%nat -> 0 < norm2 (n - i) (draw i)) as NP.
  { intros i Hi. specialize (NZ i Hi). pose proof (sqrt_pos (inner (n - i) (draw i) (draw i))) as Q. unfold norm2 in *. lra. }
  set (f := filled draw n n).
  assert (forall i, (i < n)%nat -> forall k, (k < n - i)%nat -> f (i + k)%nat i = dir (n - i) (draw i) k) as FV.
  { intros i Hi k Hk. unfold f, filled. replace ((i <? n) && (i <=? i + k))%nat with true by lia. f_equal. lia. }
  assert (forall i k, (i < n)%nat -> 0 <= dir (n - i) (draw i) k) as DP.
  { intros i k Hi. unfold dir, Rdiv. apply Rmult_le_pos; [apply P|]. left. apply Rinv_0_lt_compat, NP, Hi. }
  destruct (ro_loop f n (n - 1) f) as (h & EH & (K & _ & O)).
  - lia.
  - intros r c Hc. unfold f, filled. replace ((c <? n) && (c <=? r))%nat with false by lia. reflexivity.
  - intros i Hi. split.
    + intros (a & _). rewrite FV in a by lia. pose proof (DP i 0%nat ltac:(lia)). lra.
    + rewrite <- (dir_unit (n - i) (draw i)) by (apply NZ; lia). unfold norm2, inner. f_equal. apply rsum_ext. intros k Hk. rewrite FV by lia. reflexivity.
  - split; [reflexivity|]. split.
    + intros r c Hr Hc. unfold f, filled. replace ((c <? n) && (c <=? r))%nat with false by lia. reflexivity.
    + replace (n - (n - 1))%nat with 1%nat by lia. apply (orth_ext 1 id_entry); [|apply orth_id]. intros i j Hi Hj. assert (i = 0%nat) as -> by lia. assert (j = 0%nat) as -> by lia.
      rewrite Nat.add_0_r. pose proof (FV (n - 1)%nat ltac:(lia) 0%nat ltac:(lia)) as V. rewrite Nat.add_0_r in V. rewrite V.
      pose proof (dir_unit (n - (n - 1)) (draw (n - 1)%nat) (NZ (n - 1)%nat ltac:(lia))) as U. replace (n - (n - 1))%nat with 1%nat in * by lia.
      pose proof (DP (n - 1)%nat 0%nat ltac:(lia)) as D. replace (n - (n - 1))%nat with 1%nat in D by lia. unfold norm2, inner in U. cbn [sum] in U. change (t0 (T := R)) with 0 in U. cbn [tadd ops_R] in U. rewrite Rplus_0_l in U.
      rewrite sqrt_square in U by exact D. rewrite U. reflexivity.
  - exists (mk n n h). split; [|split; [apply wf_mk|split; [reflexivity|split; [reflexivity|split]]]].
    + unfold random_orthogonal. rewrite mzero_mk by lia. cbn [obind]. unfold rng. rewrite Nat.sub_0_r. change (t0 (T := R)) with 0. rewrite fill_mk by (lia || assumption). cbn [obind].
      unfold usub. replace (1 <=? n)%nat with true by lia. cbn [obind]. rewrite Nat.sub_0_r. exact EH.
    + apply (orth_ext n h); [|rewrite Nat.sub_0_r in O; exact O]. intros i j Hi Hj. now rewrite ent_mk.
    + intros i Hi. rewrite ent_mk by lia. rewrite K by lia. pose proof (FV 0%nat Hn i ltac:(lia)) as V. rewrite Nat.add_0_l, Nat.sub_0_r in V. rewrite V. split; [reflexivity|]. pose proof (DP 0%nat i Hn) as D. rewrite Nat.sub_0_r in D. exact D.
Qed.
(** It fails exactly when the order is zero or all the numbers drawn for a column are zero. *)
Theorem C91_panics : forall draw n, n = 0%nat \/ (exists i, (i < n)%nat /\ forall k, (k < n - i)%nat -> draw i k = 0) -> random_orthogonal draw n = None.
Proof.
  intros draw n [->|(i & Hi & H)]; [reflexivity|]. unfold random_orthogonal. rewrite mzero_mk by lia. cbn [obind]. unfold rng. rewrite Nat.sub_0_r. change (t0 (T := R)) with 0.
  rewrite (fill_none draw n i Hi); [reflexivity|]. now apply norm2_zero.
Qed.
(** Not every orthogonal matrix can be drawn: the first column has no negative entry, so the negative of the identity never comes out. *)
Theorem C91_not_all_refuted : orthogonal 1 (fun i j => - id_entry i j) /\
  forall draw Q, (forall i k, 0 <= draw i k) -> random_orthogonal draw 1 = Some Q -> ent Q 0 0 <> -1.
Proof.
  split.
  - intros i j Hi Hj. assert (i = 0%nat) as -> by lia. assert (j = 0%nat) as -> by lia. unfold prod_entry, transposed. cbn. split; ring.
  - intros draw Q P H. destruct (Req_dec (draw 0%nat 0%nat) 0) as [Z|Z].
    + rewrite C91_panics in H; [discriminate|]. right. exists 0%nat. split; [lia|]. intros k Hk. now assert (k = 0%nat) as -> by lia.
    + destruct (C91_random_orthogonal draw 1 ltac:(lia) P) as (Q' & E & _ & _ & _ & _ & F).
      * intros i Hi. exists 0%nat. split; [lia|]. now assert (i = 0%nat) as -> by lia.
      * rewrite H in E. injection E as <-. destruct (F 0%nat ltac:(lia)) as [_ G]. lra.
Qed.
(** A random unit vector has length one and the direction of the numbers drawn. *)
Theorem C91_unit_vec : forall (d : nat -> R) (n : nat), (exists k, (k < n)%nat /\ d k <> 0) ->
  exists v, random_unit_vec d n = Some v /\ wf v /\ nr v = n /\ nc v = 1%nat /\ norm2 n (column (ent v) 0) = 1 /\ exists c, 0 < c /\ forall i, (i < n)%nat -> d i = c * ent v i 0.
Proof.
  intros d n (k & Hk & X). assert (norm2 n d <> 0) as N by (intros H; apply X; revert k Hk X; intros k Hk _; revert k Hk; now apply norm2_zero).
  exists (mk n 1 (fun k _ => dir n d k)). split; [now apply direction_mk|]. split; [apply wf_mk|]. split; [reflexivity|]. split; [reflexivity|]. split.
  - rewrite <- (dir_unit n d N). unfold norm2, inner, column. f_equal. apply rsum_ext. intros i Hi. now rewrite ent_mk by lia.
  - exists (norm2 n d). split; [pose proof (sqrt_pos (inner n d d)) as Q; unfold norm2 in *; lra|]. intros i Hi. rewrite ent_mk by lia. unfold dir. field. exact N.
Qed.
Theorem C91_unit_vec_panics : forall d n, (0 < n)%nat -> (forall k, (k < n)%nat -> d k = 0) -> random_unit_vec d n = None.
Proof. intros d n Hn H. apply direction_none; [exact Hn|]. now apply norm2_zero. Qed.
Example C91_nonvacuous : exists Q, random_orthogonal (fun i k => INR (i + k) / 8) 3 = Some Q /\ orthogonal 3 (ent Q) /\ ent Q 0 0 = 0 /\ 0 < ent Q 2 0.
Proof.
  destruct (C91_random_orthogonal (fun i k => INR (i + k) / 8) 3 ltac:(lia)) as (Q & E & _ & _ & _ & O & F).
  - intros i k. unfold Rdiv. apply Rmult_le_pos; [apply pos_INR|lra].
  - intros i Hi. exists (if i =? 0 then 1 else 0)%nat. split; [destruct (Nat.eqb_spec i 0); lia|]. assert (0 < INR (i + (if (i =? 0)%nat then 1 else 0))) by (apply lt_0_INR; destruct (Nat.eqb_spec i 0); lia). lra.
  - exists Q. split; [exact E|]. split; [exact O|]. split.
    + rewrite (proj1 (F 0%nat ltac:(lia))). cbn. unfold Rdiv. ring.
    + rewrite (proj1 (F 2%nat ltac:(lia))). apply Rdiv_lt_0_compat; [cbn; lra|]. pose proof (sqrt_pos (inner 3 (fun k => INR (0 + k) / 8) (fun k => INR (0 + k) / 8))) as S0. unfold norm2.
      destruct S0 as [S0|S0]; [exact S0|]. exfalso. symmetry in S0. apply (proj1 (norm2_zero 3 (fun k => INR (0 + k) / 8))) with (k := 1%nat) in S0; [|lia]. cbn in S0. lra.
Qed.

(** * Symmetric matrices *)
Lemma foldM_stop {A S} (f : S -> A -> option S) (I : S -> Prop) x l s : (forall s, I s -> f s x = None) -> (forall s y s', I s -> f s y = Some s' -> I s') -> In x l -> I s -> foldM f l s = None.
Proof.
  intros H1 H2 Hin. revert s. induction l as [|y l IH]; intros s Hs; [contradiction|]. cbn [foldM]. destruct Hin as [->|Hin]; [now rewrite H1|].
  destruct (f s y) as [s'|] eqn:E; [|reflexivity]. cbn [obind]. apply IH; [exact Hin|]. now apply (H2 s y).
Qed.
Open Scope nat_scope.
(** The lemmas on matrices ask for operations; they are not used. *)
Local Instance ops_any {T} : Ops (option T) := {| t0 := None; t1 := None; tadd := fun a _ => a; tmul := fun a _ => a; tsub := fun a _ => a; topp := fun a => a |}.
(** The cells written when [(i, j)] is next. *)
Definition cells {T} (m i j : nat) (g : nat -> nat -> T) (h : nat -> nat -> option T) (p q : nat) : option T :=
  let a := Nat.min p q in let b := Nat.max p q in if (b <? m) && ((a <? i) || (a =? i) && (b <? j)) then Some (g a b) else h p q.
Lemma uninit_mk T n m : uninit T n m = mk n m (fun _ _ => None).
Proof.
  unfold uninit, mk. f_equal. assert (forall (A : Type) (x : A) k a, map (fun _ => x) (seq a k) = repeat x k) as R.
  { intros A x k. induction k as [|k IH]; intros a; [reflexivity|]. cbn. now rewrite IH. }
  rewrite <- R with (a := 0). apply map_ext. intros i. symmetry. apply R.
Qed.
Lemma sym_mk {T} (draw : nat -> nat -> T) n m : m <= n ->
  random_symmetric draw n m = Some (mk n m (cells m n m draw (fun _ _ => None))).
Proof.
  intros H. unfold random_symmetric. rewrite uninit_mk. unfold rng at 2. rewrite Nat.sub_0_r.
  rewrite (foldM_seq0 _ (fun k => mk n m (cells m k k draw (fun _ _ => None)))).
  - f_equal. apply mk_ext. intros p q Hp Hq. unfold cells. replace ((Nat.max p q <? m) && ((Nat.min p q <? n) || (Nat.min p q =? n) && (Nat.max p q <? n))) with ((Nat.max p q <? m) && ((Nat.min p q <? n) || (Nat.min p q =? n) && (Nat.max p q <? m))) by lia. reflexivity.
  - apply mk_ext. intros p q Hp Hq. unfold cells. replace ((Nat.max p q <? m) && ((Nat.min p q <? 0) || (Nat.min p q =? 0) && (Nat.max p q <? 0))) with false by lia. reflexivity.
  - intros i Hi. unfold rng. replace (mk n m (cells m i i draw (fun _ _ => None))) with (mk n m (cells m i (i + 0) draw (fun _ _ => None))) by (now rewrite Nat.add_0_r).
    rewrite (foldM_seq _ (fun l => mk n m (cells m i (i + l) draw (fun _ _ => None))) i (m - i)).
    + f_equal. apply mk_ext. intros p q Hp Hq. unfold cells. replace ((Nat.max p q <? m) && ((Nat.min p q <? i + 1) || (Nat.min p q =? i + 1) && (Nat.max p q <? i + 1))) with ((Nat.max p q <? m) && ((Nat.min p q <? i) || (Nat.min p q =? i) && (Nat.max p q <? i + (m - i)))) by lia. reflexivity.
    + intros l Hl. rewrite mset_mk by lia. cbn [obind]. unfold read. rewrite mget_in by lia. cbn [obind]. rewrite !Nat.eqb_refl. cbn [andb obind]. rewrite mset_mk by lia. f_equal. apply mk_ext. intros p q Hp Hq. unfold cells.
      destruct ((p =? i + l) && (q =? i)) eqn:E1.
      { replace (Nat.min p q) with i by lia. replace (Nat.max p q) with (i + l) by lia. replace ((i + l <? m) && ((i <? i) || (i =? i) && (i + l <? i + (l + 1)))) with true by lia. reflexivity. }
      destruct ((p =? i) && (q =? i + l)) eqn:E2.
      { replace (Nat.min p q) with i by lia. replace (Nat.max p q) with (i + l) by lia. replace ((i + l <? m) && ((i <? i) || (i =? i) && (i + l <? i + (l + 1)))) with true by lia. reflexivity. }
      replace ((Nat.max p q <? m) && ((Nat.min p q <? i) || (Nat.min p q =? i) && (Nat.max p q <? i + (l + 1)))) with ((Nat.max p q <? m) && ((Nat.min p q <? i) || (Nat.min p q =? i) && (Nat.max p q <? i + l))) by lia. reflexivity.
Qed.
Theorem C92_symmetric : forall (T : Type) (draw : nat -> nat -> T) (n m : nat), m <= n ->
  exists M, random_symmetric draw n m = Some M /\ nr M = n /\ nc M = m /\
    forall i j, i < n -> j < m -> mget M i j = Some (if i <? m then Some (if i <=? j then draw i j else draw j i) else None).
Proof.
  intros T draw n m H. eexists. split; [now apply sym_mk|]. split; [reflexivity|]. split; [reflexivity|]. intros i j Hi Hj. rewrite mget_in by assumption. f_equal. unfold cells.
  destruct (Nat.ltb_spec i m).
  - replace ((Nat.max i j <? m) && ((Nat.min i j <? n) || (Nat.min i j =? n) && (Nat.max i j <? m))) with true by lia. destruct (Nat.leb_spec i j); do 2 f_equal; lia.
  - replace ((Nat.max i j <? m) && ((Nat.min i j <? n) || (Nat.min i j =? n) && (Nat.max i j <? m))) with false by lia. reflexivity.
Qed.
Lemma mset_size {T} (M M' : mat T) i j x : mset M i j x = Some M' -> nr M' = nr M /\ nc M' = nc M.
Proof. unfold mset. destruct ((i <? nr M) && (j <? nc M)); [|discriminate]. destruct (nth_error (rws M) i); [|discriminate]. cbn [obind]. now intros [= <-]. Qed.
Theorem C92_wide_panics : forall (T : Type) (draw : nat -> nat -> T) (n m : nat), 0 < n < m -> random_symmetric draw n m = None.
Proof.
  intros T draw n m H. unfold random_symmetric. replace n with (S (n - 1)) at 1 by lia. unfold rng at 2. cbn [Nat.sub seq foldM]. unfold rng at 1.
  rewrite (foldM_stop _ (fun M => nr M = n) n); [reflexivity| | | |].
  - intros M HM. destruct (mset M 0 n (Some (draw 0 n))) as [M'|] eqn:E; [|reflexivity]. cbn [obind]. destruct (read M' 0 n); [|reflexivity]. cbn [obind]. apply mset_size in E. unfold mset. replace (n <? nr M') with false by lia. reflexivity.
  - intros M y M2 HM E. destruct (mset M 0 y (Some (draw 0 y))) as [M'|] eqn:E1; [|discriminate]. cbn [obind] in E. destruct (read M' 0 y); [|discriminate]. cbn [obind] in E. apply mset_size in E, E1. lia.
  - apply in_seq. lia.
  - reflexivity.
Qed.
Theorem C92_sparse : forall (draw : nat -> nat -> R) (a : nat -> nat -> nat) (n m : nat), m <= n ->
  exists M, random_sparse_symmetric draw a n m = Some M /\ nr M = n /\ nc M = m /\
    forall i j, i < n -> j < m -> mget M i j =
      Some (if i <? m then Some (let (p, q) := if i <=? j then (i, j) else (j, i) in if a p q mod 4 =? 0 then draw p q else 0%R) else None).
Proof.
  intros draw a n m H. unfold random_sparse_symmetric. rewrite sym_mk by exact H. cbn [obind].
  set (h := cells m n m draw (fun _ _ => None)). set (g := fun p q => if a p q mod 4 =? 0 then draw p q else 0%R).
  eexists. split; [|split; [|split]].
  - unfold rng at 2. rewrite Nat.sub_0_r. apply (foldM_seq0 _ (fun k => mk n m (cells m k k g h))).
    + apply mk_ext. intros p q Hp Hq. unfold cells at 1. replace ((Nat.max p q <? m) && ((Nat.min p q <? 0) || (Nat.min p q =? 0) && (Nat.max p q <? 0))) with false by lia. reflexivity.
    + intros i Hi. unfold rng. replace (mk n m (cells m i i g h)) with (mk n m (cells m i (i + 0) g h)) by (now rewrite Nat.add_0_r).
      rewrite (foldM_seq _ (fun l => mk n m (cells m i (i + l) g h)) i (m - i)).
      * f_equal. apply mk_ext. intros p q Hp Hq. unfold cells at 1 2. replace ((Nat.max p q <? m) && ((Nat.min p q <? i + 1) || (Nat.min p q =? i + 1) && (Nat.max p q <? i + 1))) with ((Nat.max p q <? m) && ((Nat.min p q <? i) || (Nat.min p q =? i) && (Nat.max p q <? i + (m - i)))) by lia. reflexivity.
      * intros l Hl. assert (forall p q, Nat.min p q = i -> Nat.max p q = i + l -> h p q = Some (draw i (i + l))) as HH.
        { intros p q A B. unfold h, cells. rewrite A, B. replace ((i + l <? m) && ((i <? n) || (i =? n) && (i + l <? m))) with true by lia. reflexivity. }
        destruct (a i (i + l) mod 4 =? 0) eqn:EA; cbn [negb].
        -- f_equal. apply mk_ext. intros p q Hp Hq. unfold cells at 1 2. destruct ((Nat.min p q =? i) && (Nat.max p q =? i + l)) eqn:E1.
           ++ apply andb_true_iff in E1. destruct E1 as [E1 E2]. apply Nat.eqb_eq in E1, E2. rewrite HH by assumption. rewrite E1, E2.
              replace ((i + l <? m) && ((i <? i) || (i =? i) && (i + l <? i + (l + 1)))) with true by lia. replace ((i + l <? m) && ((i <? i) || (i =? i) && (i + l <? i + l))) with false by lia. unfold g. now rewrite EA.
           ++ replace ((Nat.max p q <? m) && ((Nat.min p q <? i) || (Nat.min p q =? i) && (Nat.max p q <? i + (l + 1)))) with ((Nat.max p q <? m) && ((Nat.min p q <? i) || (Nat.min p q =? i) && (Nat.max p q <? i + l))) by lia. reflexivity.
        -- rewrite mset_mk by lia. cbn [obind]. rewrite mset_mk by lia. f_equal. apply mk_ext. intros p q Hp Hq. unfold cells at 1 2.
           destruct ((p =? i + l) && (q =? i)) eqn:E1.
           { replace (Nat.min p q) with i by lia. replace (Nat.max p q) with (i + l) by lia. replace ((i + l <? m) && ((i <? i) || (i =? i) && (i + l <? i + (l + 1)))) with true by lia. unfold g. now rewrite EA. }
           destruct ((p =? i) && (q =? i + l)) eqn:E2.
           { replace (Nat.min p q) with i by lia. replace (Nat.max p q) with (i + l) by lia. replace ((i + l <? m) && ((i <? i) || (i =? i) && (i + l <? i + (l + 1)))) with true by lia. unfold g. now rewrite EA. }
           replace ((Nat.max p q <? m) && ((Nat.min p q <? i) || (Nat.min p q =? i) && (Nat.max p q <? i + (l + 1)))) with ((Nat.max p q <? m) && ((Nat.min p q <? i) || (Nat.min p q =? i) && (Nat.max p q <? i + l))) by lia. reflexivity.
  - reflexivity.
  - reflexivity.
  - intros i j Hi Hj. rewrite mget_in by assumption. f_equal. unfold h, cells. destruct (Nat.ltb_spec i m).
    + replace ((Nat.max i j <? m) && ((Nat.min i j <? n) || (Nat.min i j =? n) && (Nat.max i j <? n))) with true by lia. f_equal. unfold g.
      destruct (Nat.leb_spec i j); [replace (Nat.min i j) with i by lia; replace (Nat.max i j) with j by lia|replace (Nat.min i j) with j by lia; replace (Nat.max i j) with i by lia]; reflexivity.
    + replace ((Nat.max i j <? m) && ((Nat.min i j <? n) || (Nat.min i j =? n) && (Nat.max i j <? n))) with false by lia. replace ((Nat.max i j <? m) && ((Nat.min i j <? n) || (Nat.min i j =? n) && (Nat.max i j <? m))) with false by lia. reflexivity.
Qed.
(** The claim that the result is a matrix - every cell initialised - is false when there are more rows than columns. *)
Theorem C92_tall_refuted : forall (T : Type) (draw : nat -> nat -> T), exists M, random_symmetric draw 2 1 = Some M /\ mget M 1 0 = Some None.
Proof. intros T draw. destruct (C92_symmetric T draw 2 1 ltac:(lia)) as (M & E & _ & _ & V). exists M. split; [exact E|]. rewrite V by lia. reflexivity. Qed.
Example C92_nonvacuous : exists M, random_sparse_symmetric (fun i j => INR (i + 2 * j)) (fun i j => i + j) 3 3 = Some M /\ mget M 2 2 = Some (Some (INR 6)) /\ mget M 2 1 = Some (Some 0%R).
Proof. destruct (C92_sparse (fun i j => INR (i + 2 * j)) (fun i j => i + j) 3 3 ltac:(lia)) as (M & E & _ & _ & V). exists M. split; [exact E|]. rewrite !V by lia. now split. Qed.
Print Assumptions C91_random_orthogonal.
Print Assumptions C91_panics.
Print Assumptions C91_not_all_refuted.
Print Assumptions C91_unit_vec.
Print Assumptions C91_unit_vec_panics.
Print Assumptions C92_symmetric.
Print Assumptions C92_wide_panics.
Print Assumptions C92_sparse.
Print Assumptions C92_tall_refuted.
