(** Forward and backward substitution. *)
From Coq Require Import List Arith Bool Lia ZifyBool Ring_theory Ring.
From Verif Require Import PidModel MatModel MatSpec MatProofs MatProofs2 SnfModel RankModel LuModel LuSpec LuProofs LuProofs2.
Import ListNotations.
Open Scope nat_scope.

Section Subst.
  Context {T : Type} {OT : Ops T} {FT : FOps T}.
  Hypothesis FO : field_ok (T := T).
  Let RL : ring_theory t0 t1 tadd tmul tsub topp (@eq T) := proj1 FO.
  Add Ring TSub : RL.
  Local Notation "a +! b" := (tadd a b) (at level 50, left associativity).
  Local Notation "a -! b" := (tsub a b) (at level 50, left associativity).
  Local Notation "a *! b" := (tmul a b) (at level 40, left associativity).
  Local Notation "a /! b" := (tdiv a b) (at level 40, left associativity).

  Lemma forward_ok n m (F b : nat -> nat -> T) t : 0 < m -> t < n ->
    exists y, foldM (forward_step (mk n n F)) (seq 1 t) (mk n m b) = Some (mk n m y) /\
      (forall i, i <= t -> y i 0 +! sum i (fun l => F i l *! y l 0) = b i 0) /\
      (forall i, t < i -> y i 0 = b i 0) /\ (forall i j, 0 < j -> y i j = b i j).
  Proof.
    intros Hm. induction t as [|t IH]; intros Ht.
    - exists b. split; [reflexivity|]. split; [|split; reflexivity]. intros i Hi. replace i with 0 by lia. cbn. ring.
    - destruct IH as (y & E & H1 & H2 & H3); [lia|]. rewrite seq_S, foldM_app, E. cbn [obind foldM Nat.add].
      unfold forward_step. rewrite mget_in by lia. cbn [obind]. rewrite !msub_view_mk by lia. cbn [obind].
      replace (S t + 1 - S t) with 1 by lia. rewrite !Nat.sub_0_r. rewrite mdot_mk. cbn [obind]. rewrite mset_mk by lia. cbn [obind].
      eexists. split; [reflexivity|]. split; [|split].
      + intros i Hi. cbn beta. rewrite (sum_ext (O := OT) i _ (fun l => F i l *! y l 0)).
        2: { intros l Hl. replace ((l =? S t) && (0 =? 0)) with false by lia. reflexivity. }
        destruct (Nat.eq_dec i (S t)) as [->|N].
        * rewrite Nat.eqb_refl. cbn [andb Nat.eqb]. rewrite (sum_ext (O := OT) (S t) (fun l => F (S t + 0) (0 + l) *! y (0 + l) (0 + 0)) (fun l => F (S t) l *! y l 0)).
          2: { intros l Hl. now rewrite Nat.add_0_r. }
          rewrite H2 by lia. ring.
        * replace ((i =? S t) && (0 =? 0)) with false by lia. apply H1. lia.
      + intros i Hi. replace ((i =? S t) && (0 =? 0)) with false by lia. apply H2. lia.
      + intros i j Hj. replace ((i =? S t) && (j =? 0)) with false by lia. now apply H3.
  Qed.

  Lemma rev_seq0 k : rev (seq 0 (S k)) = k :: rev (seq 0 k).
  Proof. rewrite seq_S, rev_app_distr. reflexivity. Qed.
  (** [x] is solved from row [k] on. *)
  Definition solved (n m : nat) (F y x : nat -> nat -> T) (k : nat) : Prop :=
    (forall i, k <= i < n -> F i i *! x i 0 +! sum (n - (i + 1)) (fun l => F i (i + 1 + l) *! x (i + 1 + l) 0) = y i 0) /\
    (forall i, i < k -> x i 0 = y i 0) /\ (forall i j, 0 < j -> x i j = y i j).
  Lemma backward_one n m (F y x : nat -> nat -> T) k : 0 < m -> k + 1 < n -> F k k <> t0 -> solved n m F y x (k + 1) ->
    exists x', backward_step n (mk n n F) (mk n m x) k = Some (mk n m x') /\ solved n m F y x' k.
  Proof.
    intros Hm Hk P (H1 & H2 & H3). unfold backward_step. rewrite mget_in by lia. cbn [obind]. rewrite !msub_view_mk by lia. cbn [obind].
    replace (k + 1 - k) with 1 by lia. rewrite mdot_mk. cbn [obind]. rewrite mset_mk by lia. cbn [obind]. rewrite mget_in by lia. cbn [obind]. rewrite mget_in by lia. cbn [obind].
    rewrite (fdiv_some FO) by exact P. cbn [obind]. rewrite mset_mk by lia. rewrite !Nat.eqb_refl. cbn [andb].
    eexists. split; [reflexivity|]. split; [|split].
    - intros i Hi. cbn beta. rewrite (sum_ext (O := OT) (n - (i + 1)) _ (fun l => F i (i + 1 + l) *! x (i + 1 + l) 0)).
      2: { intros l Hl. now replace (i + 1 + l =? k) with false by lia. }
      destruct (Nat.eq_dec i k) as [->|N].
      + rewrite Nat.eqb_refl. cbn [andb Nat.eqb]. rewrite (sum_ext (O := OT) (n - (k + 1)) (fun l => F (k + 0) (k + 1 + l) *! x (k + 1 + l) (0 + 0)) (fun l => F k (k + 1 + l) *! x (k + 1 + l) 0)).
        2: { intros l Hl. now rewrite Nat.add_0_r. }
        set (s := sum _ _). transitivity ((x k 0 -! s) /! F k k *! F k k +! s); [ring|]. rewrite (div_mul FO) by exact P. rewrite H2 by lia. ring.
      + replace (i =? k) with false by lia. cbn [andb]. apply H1. lia.
    - intros i Hi. replace (i =? k) with false by lia. cbn [andb]. apply H2. lia.
    - intros i j Hj. replace (j =? 0) with false by lia. rewrite !andb_false_r. now apply H3.
  Qed.
  Lemma backward_ok n m (F y x : nat -> nat -> T) k : 0 < m -> k < n -> (forall i, i < k -> F i i <> t0) -> solved n m F y x k ->
    exists x', foldM (backward_step n (mk n n F)) (rev (seq 0 k)) (mk n m x) = Some (mk n m x') /\ solved n m F y x' 0.
  Proof.
    intros Hm. revert x. induction k as [|k IH]; intros x Hk P H; [exists x; split; [reflexivity|exact H]|].
    rewrite rev_seq0. cbn [foldM]. destruct (backward_one n m F y x k Hm) as (x' & -> & H'); [lia|apply P; lia|now rewrite Nat.add_1_r|].
    cbn [obind]. apply IH; [lia|intros; apply P; lia|exact H'].
  Qed.

  (** Triangular systems. *)
  Lemma lower_row n F i (y : nat -> T) : i < n -> sum n (fun l => lower_part F i l *! y l) = y i +! sum i (fun l => F i l *! y l).
  Proof.
    intros Hi. rewrite (sum_split FO n i) by lia. replace (n - i) with (1 + (n - i - 1)) by lia. rewrite (sum_split FO (1 + (n - i - 1)) 1) by lia.
    rewrite (sum_zero RL (1 + (n - i - 1) - 1)).
    2: { intros l Hl. unfold lower_part. destruct (Nat.eqb_spec i (i + (1 + l))), (Nat.ltb_spec (i + (1 + l)) i); try lia. ring. }
    rewrite (sum_ext (O := OT) i _ (fun l => F i l *! y l)).
    2: { intros l Hl. unfold lower_part. destruct (Nat.eqb_spec i l), (Nat.ltb_spec l i); try lia. reflexivity. }
    cbn [sum]. rewrite Nat.add_0_r. unfold lower_part. rewrite Nat.eqb_refl. ring.
  Qed.
  Lemma upper_row n F i (x : nat -> T) : i < n -> sum n (fun l => upper_part F i l *! x l) = F i i *! x i +! sum (n - (i + 1)) (fun l => F i (i + 1 + l) *! x (i + 1 + l)).
  Proof.
    intros Hi. rewrite (sum_split FO n (S i)) by lia. cbn [sum]. rewrite (sum_zero RL i).
    2: { intros l Hl. unfold upper_part. destruct (Nat.leb_spec i l); try lia. ring. }
    replace (n - S i) with (n - (i + 1)) by lia. rewrite (sum_ext (O := OT) (n - (i + 1)) _ (fun l => F i (i + 1 + l) *! x (i + 1 + l))).
    2: { intros l Hl. replace (S i + l) with (i + 1 + l) by lia. unfold upper_part. destruct (Nat.leb_spec i (i + 1 + l)); try lia. reflexivity. }
    unfold upper_part at 1. replace (i <=? i) with true by lia. ring.
  Qed.
  Lemma lower_zero n F (v : nat -> T) : (forall i, i < n -> sum n (fun l => lower_part F i l *! v l) = t0) -> forall i, i < n -> v i = t0.
  Proof.
    intros H i. induction i as [i IH] using (well_founded_induction lt_wf). intros Hi. specialize (H i Hi). rewrite lower_row in H by exact Hi.
    rewrite (sum_zero RL i) in H; [|intros l Hl; rewrite IH by lia; ring]. rewrite <- H. ring.
  Qed.
  Lemma upper_zero n F (v : nat -> T) : (forall i, i < n -> F i i <> t0) -> (forall i, i < n -> sum n (fun l => upper_part F i l *! v l) = t0) -> forall i, i < n -> v i = t0.
  Proof.
    intros P H i. remember (n - i) as d eqn:Ed. revert i Ed. induction d as [d IH] using (well_founded_induction lt_wf). intros i Ed Hi.
    specialize (H i Hi). rewrite upper_row in H by exact Hi.
    rewrite (sum_zero RL (n - (i + 1))) in H; [|intros l Hl; rewrite (IH (n - (i + 1 + l))) by lia; ring].
    destruct (mul_zero FO (F i i) (v i)) as [E|E]; [rewrite <- H; ring|now apply P in E|exact E].
  Qed.
  Lemma sum_sub n (f g : nat -> T) : sum n (fun k => f k -! g k) = sum n f -! sum n g.
  Proof. induction n as [|n IH]; cbn [sum]; [ring|]. rewrite IH. ring. Qed.
  Lemma prod_vec n (f g : nat -> nat -> T) (v : nat -> T) i : sum n (fun j => prod_entry n f g i j *! v j) = sum n (fun l => f i l *! sum n (fun j => g l j *! v j)).
  Proof.
    unfold prod_entry. rewrite (sum_ext (O := OT) n _ (fun j => sum n (fun l => (f i l *! g l j) *! v j))) by (intros; now rewrite (sum_mul_r RL)).
    rewrite (sum_swap RL). apply (sum_ext (O := OT)). intros l _. rewrite <- (sum_mul_l RL). apply (sum_ext (O := OT)). intros. ring.
  Qed.
  Lemma solve_ok n m (A b : nat -> nat -> T) : 0 < n -> 0 < m -> (forall k, k < n -> piv A k <> t0) ->
    exists x, solve (mk n n A) (mk n m b) = Some (mk n m x) /\
      (forall z, (forall i, i < n -> sum n (fun l => A i l *! z l) = b i 0) <-> forall i, i < n -> z i = x i 0) /\
      forall i j, 0 < j -> x i j = b i j.
  Proof.
    intros Hn Hm P. unfold solve. cbn [nr nc mk]. rewrite !Nat.eqb_refl. cbn [andb]. fold (mk n n A) (mk n m b).
    rewrite (lu_some FO) by (exact Hn || (intros; apply P; lia)). cbn [obind]. set (F := lu_entry A (n - 1)).
    assert (forall i, i < n -> F i i = piv A i) as D.
    { intros i Hi. unfold F, lu_entry, piv. replace (i <=? i) with true by lia. destruct ((n - 1 <=? i) && (n - 1 <=? i)) eqn:E; [|reflexivity]. now replace i with (n - 1) by lia. }
    assert (forall i j, i < n -> j < n -> prod_entry n (lower_part F) (upper_part F) i j = A i j) as LUA by (intros; apply (lu_prod FO); [intros; apply P; lia|assumption|assumption]).
    clearbody F. unfold rng.
    destruct (forward_ok n m F b (n - 1) Hm) as (y & E & Y1 & _ & Y3); [lia|]. rewrite E. cbn [obind]. rewrite !mget_in by lia. cbn [obind].
    rewrite (fdiv_some FO) by (rewrite D by lia; apply P; lia). cbn [obind]. rewrite mset_mk by lia. cbn [obind]. rewrite Nat.sub_0_r.
    edestruct (backward_ok n m F y) as (x & E2 & X1 & _ & X3); [exact Hm| | | |rewrite E2].
    { shelve. } { intros i Hi. rewrite D; [apply P|]; shelve. } { shelve. }
    Unshelve. all: try lia.
    2: { split; [|split].
      - intros i Hi. replace i with (n - 1) by lia. rewrite Nat.eqb_refl. cbn [andb Nat.eqb]. replace (n - (n - 1 + 1)) with 0 by lia. cbn [sum].
        transitivity (y (n - 1) 0 /! F (n - 1) (n - 1) *! F (n - 1) (n - 1)); [ring|]. apply (div_mul FO). rewrite D by lia. apply P. lia.
      - intros i Hi. now replace ((i =? n - 1) && (0 =? 0)) with false by lia.
      - intros i j Hj. now replace ((i =? n - 1) && (j =? 0)) with false by lia. }
    exists x. split; [reflexivity|]. split; [|intros i j Hj; rewrite X3 by exact Hj; now apply Y3].
    assert (forall z i, i < n -> sum n (fun l => A i l *! z l) = sum n (fun l => lower_part F i l *! sum n (fun j => upper_part F l j *! z j))) as R.
    { intros z i Hi. rewrite <- prod_vec. apply (sum_ext (O := OT)). intros l Hl. now rewrite LUA by assumption. }
    assert (forall i, i < n -> sum n (fun j => upper_part F i j *! x j 0) = y i 0) as U by (intros i Hi; rewrite (upper_row n F i (fun j => x j 0)) by exact Hi; apply X1; lia).
    assert (forall i, i < n -> sum n (fun l => A i l *! x l 0) = b i 0) as S.
    { intros i Hi. rewrite (R (fun l => x l 0)) by exact Hi. rewrite (sum_ext (O := OT) n _ (fun l => lower_part F i l *! y l 0)) by (intros l Hl; now rewrite U by exact Hl).
      rewrite (lower_row n F i (fun l => y l 0)) by exact Hi. apply Y1. lia. }
    intros z. split.
    - intros Hz. assert (forall i, i < n -> z i -! x i 0 = t0) as K.
      + apply (upper_zero n F); [intros i Hi; rewrite D by exact Hi; now apply P|]. apply (lower_zero n F). intros i Hi.
        rewrite <- R by exact Hi. rewrite (sum_ext (O := OT) n _ (fun l => A i l *! z l -! A i l *! x l 0)) by (intros; ring). rewrite sum_sub, Hz, S by exact Hi. ring.
      + intros i Hi. transitivity ((z i -! x i 0) +! x i 0); [ring|]. rewrite K by exact Hi. ring.
    - intros Hz i Hi. rewrite <- S by exact Hi. apply (sum_ext (O := OT)). intros l Hl. now rewrite Hz.
  Qed.
  Lemma solve_none n m (A b : nat -> nat -> T) k : 0 < n -> 0 < m -> k < n -> piv A k = t0 -> (forall l, l < k -> piv A l <> t0) -> solve (mk n n A) (mk n m b) = None.
  Proof.
    intros Hn Hm Hk Z P. unfold solve. cbn [nr nc mk]. rewrite !Nat.eqb_refl. cbn [andb]. fold (mk n n A) (mk n m b).
    destruct (Nat.eq_dec k (n - 1)) as [->|N]; [|now rewrite (lu_none FO n A k) by (lia || assumption)].
    rewrite (lu_some FO) by (exact Hn || (intros; apply P; lia)). cbn [obind]. unfold rng.
    destruct (forward_ok n m (lu_entry A (n - 1)) b (n - 1) Hm) as (y & E & _); [lia|]. rewrite E. cbn [obind]. rewrite !mget_in by lia. cbn [obind].
    assert (lu_entry A (n - 1) (n - 1) (n - 1) = t0) as -> by (unfold lu_entry; replace ((n - 1 <=? n - 1) && (n - 1 <=? n - 1)) with true by lia; exact Z).
    now rewrite (fdiv_none FO).
  Qed.
End Subst.
