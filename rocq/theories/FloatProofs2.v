(** [lu] and [solve] step by step, without any law of the coefficients. *)
From Coq Require Import List Arith Bool Lia.
From Verif Require Import PidModel MatModel MatSpec MatProofs SnfModel RankModel LuModel.
Import ListNotations.
Open Scope nat_scope.
Section Raw.
  Context {T : Type} {OT : Ops T} {FT : FOps T}.
  Local Notation "x *! y" := (tmul x y) (at level 40, left associativity).
  Local Notation "x +! y" := (tadd x y) (at level 50, left associativity).
  Local Notation "x -! y" := (tsub x y) (at level 50, left associativity).
  Local Notation "x /! y" := (tdiv x y) (at level 40, left associativity).
  Lemma sum_ext n (f g : nat -> T) : (forall i, i < n -> f i = g i) -> sum n f = sum n g.
  Proof. induction n as [|n IH]; intros H; [reflexivity|]. cbn [sum]. rewrite IH by (intros; apply H; lia). now rewrite H by lia. Qed.
  Fixpoint sch (A : nat -> nat -> T) (k : nat) : nat -> nat -> T :=
    match k with 0 => A | S k => fun i j => sch A k i j -! (t0 +! (sch A k i k /! sch A k k k) *! sch A k k j) end.
  Definition pv (A : nat -> nat -> T) (k : nat) : T := sch A k k k.
  Definition lue (A : nat -> nat -> T) (k i j : nat) : T :=
    if (k <=? i) && (k <=? j) then sch A k i j else if i <=? j then sch A i i j else sch A j i j /! pv A j.
  Lemma step_some n A k : k + 1 < n -> teqb (pv A k) t0 = false -> lu_step n (mk n n (lue A k)) k = Some (mk n n (lue A (k + 1))).
  Proof.
    intros Hk P. unfold lu_step. rewrite msub_view_mk by lia. cbn [obind]. rewrite mget_in by lia. cbn [obind].
    assert (lue A k k k = pv A k) as -> by (unfold lue; now replace ((k <=? k) && (k <=? k)) with true by lia).
    unfold mdivs. cbn [nr nc mk].
    rewrite (mbuild_some _ _ _ (fun i j => lue A k (k + 1 + i) (k + j) /! pv A k)).
    2: { intros i j Hi Hj. fold (mk (n - (k + 1)) (k + 1 - k) (fun i j => lue A k (k + 1 + i) (k + j))). rewrite mget_in by lia. cbn [obind]. unfold fdiv. now rewrite P. }
    cbn [obind]. rewrite mwrite_mk by lia. cbn [obind].
    rewrite !msub_view_mk by lia. cbn [obind]. replace (k + 1 - k) with 1 by lia. rewrite mmul_mk. cbn [obind]. unfold msub. rewrite mzip_mk. cbn [obind].
    rewrite mwrite_mk by lia. f_equal. apply mk_ext. intros i j Hi Hj. unfold prod_entry. cbn [sum].
    assert (forall p q, (k <=? p) && (k <=? q) = true -> lue A k p q = sch A k p q) as E by (intros p q G; unfold lue; now rewrite G).
    destruct ((k + 1 <=? i) && (i <? n) && (k + 1 <=? j) && (j <? n)) eqn:C.
    - assert (lue A (k + 1) i j = sch A (k + 1) i j) as -> by (unfold lue; now replace ((k + 1 <=? i) && (k + 1 <=? j)) with true by lia). replace (k + 1 + (i - (k + 1))) with i by lia. replace (k + 1 + (j - (k + 1))) with j by lia.
      replace (k + 0) with k by lia.
      replace ((k + 1 <=? i) && (i <? n) && (k <=? j) && (j <? k + 1)) with false by lia.
      replace ((k + 1 <=? i) && (i <? n) && (k <=? k) && (k <? k + 1)) with true by lia.
      replace ((k + 1 <=? k) && (k <? n) && (k <=? j) && (j <? k + 1)) with false by lia.
      replace (k + 1 + (i - (k + 1))) with i by lia. replace (k + (k - k)) with k by lia. rewrite !E by lia. rewrite Nat.add_1_r. cbn [sch]. unfold pv. reflexivity.
    - destruct ((k + 1 <=? i) && (i <? n) && (k <=? j) && (j <? k + 1)) eqn:C2.
      + replace j with k in * by lia. unfold lue at 2. replace ((k + 1 <=? i) && (k + 1 <=? k)) with false by lia. replace (i <=? k) with false by lia.
        replace (k + 1 + (i - (k + 1))) with i by lia. replace (k + (k - k)) with k by lia. rewrite E by lia. reflexivity.
      + unfold lue. replace ((k + 1 <=? i) && (k + 1 <=? j)) with false by lia.
        destruct ((k <=? i) && (k <=? j)) eqn:C3; [|reflexivity]. replace i with k by lia. replace (k <=? j) with true by lia. reflexivity.
  Qed.
  Lemma step_none n A k : k + 1 < n -> teqb (pv A k) t0 = true -> lu_step n (mk n n (lue A k)) k = None.
  Proof.
    intros Hk P. unfold lu_step. rewrite msub_view_mk by lia. cbn [obind]. rewrite mget_in by lia. cbn [obind].
    assert (lue A k k k = pv A k) as -> by (unfold lue; now replace ((k <=? k) && (k <=? k)) with true by lia).
    unfold mdivs. cbn [nr nc mk]. rewrite (mbuild_none _ _ _ 0 0); [reflexivity|lia|lia|].
    fold (mk (n - (k + 1)) (k + 1 - k) (fun i j => lue A k (k + 1 + i) (k + j))). rewrite mget_in by lia. cbn [obind]. unfold fdiv. now rewrite P.
  Qed.
  Lemma lu_raw n A L : lu (mk n n A) = Some L -> 0 < n /\ L = mk n n (lue A (n - 1)) /\ forall k, k + 1 < n -> teqb (pv A k) t0 = false.
  Proof.
    unfold lu. cbn [nr nc mk]. rewrite Nat.eqb_refl. destruct (n =? 0) eqn:N; [discriminate|]. apply Nat.eqb_neq in N. unfold rng. fold (mk n n A). replace (n - 1 - 0) with (n - 1) by lia. intros E.
    assert (G : forall m, m <= n - 1 -> foldM (lu_step n) (seq 0 m) (mk n n A) <> None -> foldM (lu_step n) (seq 0 m) (mk n n A) = Some (mk n n (lue A m)) /\ forall k, k < m -> teqb (pv A k) t0 = false).
    { induction m as [|m IH]; intros Hm Hne; [split; [reflexivity|lia]|]. rewrite seq_S, foldM_app in *. cbn [Nat.add] in *. destruct IH as [IH IP]; [lia|intros K; rewrite K in Hne; now apply Hne|]. rewrite IH in *. cbn [obind foldM] in *.
      destruct (teqb (pv A m) t0) eqn:P; [rewrite step_none in Hne by (lia || exact P); now contradiction Hne|]. rewrite step_some by (lia || exact P). cbn [obind]. rewrite Nat.add_1_r. split; [reflexivity|].
      intros k Hk. destruct (Nat.eq_dec k m) as [->|]; [exact P|apply IP; lia]. }
    destruct (G (n - 1)) as [G1 G2]; [lia|now rewrite E|]. rewrite E in G1. injection G1 as ->. split; [lia|]. split; [reflexivity|]. intros k Hk. apply G2. lia.
  Qed.
  (** Forward substitution: entry [i] of the result. *)
  Lemma forward_raw n m (F b : nat -> nat -> T) : 0 < m -> exists y, (forall i, i < n -> y i = b i 0 -! sum i (fun l => F i l *! y l) \/ i = 0 /\ y i = b 0 0) /\
    foldM (forward_step (mk n n F)) (rng 1 n) (mk n m b) = Some (mk n m (fun i j => if j =? 0 then y i else b i j)).
  Proof.
    intros Hm. destruct n as [|n]; [exists (fun _ => t0); split; [lia|reflexivity]|].
    assert (G : forall t, t <= n -> exists y, (forall i, i <= t -> y i = b i 0 -! sum i (fun l => F i l *! y l) \/ i = 0 /\ y i = b 0 0) /\
      foldM (forward_step (mk (S n) (S n) F)) (seq 1 t) (mk (S n) m b) = Some (mk (S n) m (fun i j => if (i <=? t) && (j =? 0) then y i else b i j))).
    { induction t as [|t IH]; intros Ht.
      - exists (fun _ => b 0 0). split; [intros i Hi; right; split; [lia|reflexivity]|]. cbn [seq foldM]. f_equal. apply mk_ext. intros i j _ _. destruct i as [|i], j as [|j]; reflexivity.
      - destruct (IH ltac:(lia)) as (y & Hy & E). rewrite seq_S, foldM_app, E. cbn [obind foldM Nat.add].
        set (v := b (S t) 0 -! sum (S t) (fun l => F (S t) l *! y l)). exists (fun i => if i =? S t then v else y i). split.
        + intros i Hi. destruct (i =? S t) eqn:Q.
          * apply Nat.eqb_eq in Q. subst i. left. unfold v. f_equal. apply sum_ext. intros l Hl. now replace (l =? S t) with false by lia.
          * apply Nat.eqb_neq in Q. destruct (Hy i ltac:(lia)) as [H|H]; [left|now right]. rewrite H at 1. f_equal. apply sum_ext. intros l Hl. now replace (l =? S t) with false by lia.
        + unfold forward_step. rewrite mget_in by lia. cbn [obind]. rewrite msub_view_mk by lia. cbn [obind]. rewrite msub_view_mk by lia. cbn [obind].
          replace (S t + 1 - S t) with 1 by lia. replace (S t - 0) with (S t) by lia. replace (1 - 0) with 1 by lia. rewrite mdot_mk. cbn [obind]. rewrite mset_mk by lia. cbn [obind]. f_equal. apply mk_ext. intros i j Hi Hj.
          destruct ((i =? S t) && (j =? 0)) eqn:Q.
          * replace ((i <=? S t) && (j =? 0)) with true by lia. replace (i =? S t) with true by lia. unfold v. replace ((S t <=? t) && (0 =? 0)) with false by lia. f_equal. apply sum_ext. intros l Hl. rewrite Nat.add_0_r, !Nat.add_0_l. now replace ((l <=? t) && (0 =? 0)) with true by lia.
          * destruct (j =? 0) eqn:J; [|now rewrite !andb_false_r]. rewrite !andb_true_r in *. rewrite Q. replace (i <=? S t) with (i <=? t) by lia. reflexivity. }
    destruct (G n ltac:(lia)) as (y & Hy & E). exists y. split; [intros i Hi; apply Hy; lia|]. unfold rng. replace (S n - 1) with n by lia. rewrite E. f_equal. apply mk_ext. intros i j Hi Hj. replace (i <=? n) with true by lia. reflexivity.
  Qed.
  (** Backward substitution. *)
  Definition back_eq (n : nat) (F : nat -> nat -> T) (y x : nat -> T) (i : nat) : Prop :=
    fdiv (if i + 1 =? n then y i else y i -! sum (n - (i + 1)) (fun l => F i (i + 1 + l) *! x (i + 1 + l))) (F i i) = Some (x i).
  Lemma rev_seq1 k : rev (seq 0 (S k)) = k :: rev (seq 0 k).
  Proof. now rewrite seq_S, rev_app_distr. Qed.
  Lemma back_step n m (F b : nat -> nat -> T) k B : 0 < m -> k + 1 < n -> backward_step n (mk n n F) (mk n m b) k = Some B ->
    exists v, fdiv (b k 0 -! sum (n - (k + 1)) (fun l => F k (k + 1 + l) *! b (k + 1 + l) 0)) (F k k) = Some v /\ B = mk n m (fun i j => if (i =? k) && (j =? 0) then v else b i j).
  Proof.
    intros Hm Hk. unfold backward_step. rewrite mget_in by lia. cbn [obind]. rewrite !msub_view_mk by lia. cbn [obind].
    replace (k + 1 - k) with 1 by lia. replace (1 - 0) with 1 by lia. rewrite mdot_mk. cbn [obind]. rewrite mset_mk by lia. cbn [obind]. rewrite mget_in by lia. cbn [obind]. rewrite mget_in by lia. cbn [obind]. rewrite !Nat.eqb_refl. cbn [andb].
    rewrite Nat.add_0_r. destruct (fdiv _ (F k k)) as [v|] eqn:D; [|discriminate]. cbn [obind]. rewrite mset_mk by lia. intros E. injection E as <-. exists v. split; [reflexivity|].
    apply mk_ext. intros i j _ _. destruct ((i =? k) && (j =? 0)) eqn:Q; reflexivity.
  Qed.
  Lemma back_raw n m (F : nat -> nat -> T) k : 0 < m -> k + 1 <= n -> forall (b : nat -> nat -> T) X, foldM (backward_step n (mk n n F)) (rev (seq 0 k)) (mk n m b) = Some X ->
    exists x, (forall i, k <= i -> x i = b i 0) /\ (forall i, i < k -> fdiv (b i 0 -! sum (n - (i + 1)) (fun l => F i (i + 1 + l) *! x (i + 1 + l))) (F i i) = Some (x i)) /\ X = mk n m (fun i j => if j =? 0 then x i else b i j).
  Proof.
    intros Hm. induction k as [|k IH]; intros Hk b X E.
    - exists (fun i => b i 0). split; [reflexivity|]. split; [lia|]. cbn in E. injection E as <-. apply mk_ext. intros i j _ _. destruct j; reflexivity.
    - rewrite rev_seq1 in E. cbn [foldM] in E. destruct (backward_step n (mk n n F) (mk n m b) k) as [B|] eqn:ES; [|discriminate]. cbn [obind] in E.
      destruct (back_step n m F b k B Hm ltac:(lia) ES) as (v & D & ->). destruct (IH ltac:(lia) _ X E) as (x & H1 & H2 & ->). exists x.
      assert (Hge : forall i, S k <= i -> x i = b i 0) by (intros i Hi; rewrite H1 by lia; now replace ((i =? k) && (0 =? 0)) with false by lia).
      split; [exact Hge|]. split.
      + intros i Hi. destruct (Nat.eq_dec i k) as [->|].
        * rewrite H1 by lia. replace ((k =? k) && (0 =? 0)) with true by lia. rewrite <- D. f_equal. f_equal. apply sum_ext. intros l Hl. now rewrite Hge by lia.
        * specialize (H2 i ltac:(lia)). now replace ((i =? k) && (0 =? 0)) with false in H2 by lia.
      + apply mk_ext. intros i j _ _. destruct (j =? 0); [reflexivity|]. now rewrite andb_false_r.
  Qed.
  Lemma solve_raw n m (A b : nat -> nat -> T) X : 0 < m -> solve (mk n n A) (mk n m b) = Some X ->
    let F := lue A (n - 1) in 0 < n /\ lu (mk n n A) = Some (mk n n F) /\ exists y x,
      (forall i, i < n -> y i = b i 0 -! sum i (fun l => F i l *! y l) \/ i = 0 /\ y i = b 0 0) /\ (forall i, i < n -> back_eq n F y x i) /\ X = mk n m (fun i j => if j =? 0 then x i else b i j).
  Proof.
    intros Hm. unfold solve. cbn [nr nc mk]. rewrite !Nat.eqb_refl. cbn [andb]. fold (mk n n A) (mk n m b). destruct (lu (mk n n A)) as [L|] eqn:EL; [|discriminate]. cbn [obind].
    destruct (lu_raw n A L EL) as (Hn & -> & _). cbn zeta. set (F := lue A (n - 1)). intros E. split; [exact Hn|]. split; [reflexivity|].
    destruct (forward_raw n m F b Hm) as (y & Hy & EF). rewrite EF in E. cbn [obind] in E. rewrite mget_in in E by lia. cbn [obind] in E. rewrite mget_in in E by lia. cbn [obind] in E. rewrite Nat.eqb_refl in E.
    destruct (fdiv (y (n - 1)) (F (n - 1) (n - 1))) as [z|] eqn:D; [|discriminate]. cbn [obind] in E. rewrite mset_mk in E by lia. cbn [obind] in E. unfold rng in E. replace (n - 1 - 0) with (n - 1) in E by lia.
    destruct (back_raw n m F (n - 1) Hm ltac:(lia) _ X E) as (x & H1 & H2 & ->). cbn beta in *. exists y, x. split; [exact Hy|]. split.
    - intros i Hi. unfold back_eq. destruct (i + 1 =? n) eqn:Q.
      + apply Nat.eqb_eq in Q. replace (n - 1) with i in * by lia. rewrite D. f_equal. rewrite H1 by lia. now rewrite !Nat.eqb_refl.
      + apply Nat.eqb_neq in Q. specialize (H2 i ltac:(lia)). replace ((i =? n - 1) && (0 =? 0)) with false in H2 by lia. exact H2.
    - apply mk_ext. intros i j _ _. destruct (j =? 0) eqn:J; [reflexivity|]. now rewrite andb_false_r.
  Qed.
End Raw.
