(** Property C154: elimination keeps the band and the envelope of a matrix, and does nothing to a triangular one (every field, exact arithmetic). *)
From Coq Require Import List Arith ZArith Bool Lia ZifyBool Ring_theory Ring.
From Verif Require Import PidModel MatModel MatSpec MatProofs MatProofs2 SnfModel RankModel LuModel LuSpec LuProofs LuProofs2 LuProofs3 LuProps.
Import ListNotations.
Open Scope nat_scope.

Section BandT.
  Context {T : Type} {OT : Ops T} {FT : FOps T}.
  Hypothesis FO : field_ok (T := T).
  Let RL : ring_theory t0 t1 tadd tmul tsub topp (@eq T) := proj1 FO.
  Add Ring TBd : RL.
  Local Notation "a -! b" := (tsub a b) (at level 50, left associativity).
  Local Notation "a *! b" := (tmul a b) (at level 40, left associativity).
  Local Notation "a /! b" := (tdiv a b) (at level 40, left associativity).

  Lemma zero_div x : x <> t0 -> t0 /! x = t0.
  Proof. intros N. pose proof (div_mul FO t0 x N) as E. apply (mul_zero FO) in E. destruct E as [E|E]; [exact E|contradiction]. Qed.
  Lemma sub_zero_l a b : a -! t0 *! b = a. Proof. ring. Qed.
  Lemma sub_zero_r a b : a -! b *! t0 = a. Proof. ring. Qed.
  (** The first [s i] entries of row [i] are zero. *)
  Lemma schur_row A i s m : (forall j, j < s -> A i j = t0) -> (forall k, k < m -> piv A k <> t0) -> forall k j, k <= j -> k <= m -> j < s -> schur A k i j = t0.
  Proof.
    intros Z P. induction k as [|k IH]; intros j K M J; [now apply Z|]. cbn [schur]. rewrite (IH j), (IH k) by lia. change (schur A k k k) with (piv A k). rewrite zero_div by (apply P; lia). apply sub_zero_l.
  Qed.
  Lemma schur_col A j t : (forall i, i < t -> A i j = t0) -> forall k i, k <= i -> i < t -> schur A k i j = t0.
  Proof. intros Z. induction k as [|k IH]; intros i K I; [now apply Z|]. cbn [schur]. rewrite (IH i), (IH k) by lia. apply sub_zero_r. Qed.
  (** The stored factors. *)
  Lemma lu_entries M n F : wf M -> nr M = n -> nc M = n -> 0 < n -> lu M = Some F -> (forall k, k + 1 < n -> piv (ent M) k <> t0) /\
    forall i j, i < n -> j < n -> ent F i j = if i <=? j then schur (ent M) i i j else schur (ent M) j i j /! piv (ent M) j.
  Proof.
    intros W R C Hn E. rewrite (wf_eq_mk M W), R, C in E. set (A := ent M) in *. clearbody A.
    destruct (piv_dec FO (n - 1) A) as [P|(k & Hk & P & Q)]; [|rewrite (lu_none FO n A k) in E; [discriminate|lia|exact P|exact Q]]. split; [intros k Hk; apply P; lia|].
    rewrite (lu_some FO) in E by (exact Hn || (intros; apply P; lia)). injection E as <-. intros i j Hi Hj. rewrite ent_mk by assumption. unfold lu_entry.
    destruct ((n - 1 <=? i) && (n - 1 <=? j)) eqn:EE; [|reflexivity]. replace i with (n - 1) by lia. replace j with (n - 1) by lia. now rewrite Nat.leb_refl.
  Qed.
  (** C154.  Leading zeros of a row, and of a column, are still zero in the factors that [lu] stores: no fill-in outside the envelope. *)
  Theorem C154_envelope : forall (M F : mat T) n, wf M -> nr M = n -> nc M = n -> 0 < n -> lu M = Some F -> forall s,
    (forall i, i < n -> (forall j, j < n -> j < s -> ent M i j = t0) -> forall j, j < n -> j < s -> ent F i j = t0) /\
    (forall j, j < n -> (forall i, i < n -> i < s -> ent M i j = t0) -> forall i, i < n -> i < s -> ent F i j = t0).
  Proof.
    intros M F n W R C Hn E s. destruct (lu_entries M n F W R C Hn E) as (P & EF). split.
    - intros i Hi Z j Hj Js. rewrite EF by assumption. assert (K : forall k, k <= j -> k <= n - 1 -> schur (ent M) k i j = t0).
      { intros k K1 K2. apply (schur_row (ent M) i (Nat.min s n) (n - 1)); [intros l Hl; apply Z; lia|intros l Hl; apply P; lia|exact K1|exact K2|lia]. }
      destruct (i <=? j) eqn:IJ; [apply K; lia|]. rewrite K by lia. apply zero_div, P. lia.
    - intros j Hj Z i Hi Is. rewrite EF by assumption. assert (K : forall k, k <= i -> schur (ent M) k i j = t0).
      { intros k K1. apply (schur_col (ent M) j (Nat.min s n)); [intros l Hl; apply Z; lia|exact K1|lia]. }
      destruct (i <=? j) eqn:IJ; [apply K; lia|]. rewrite K by lia. apply zero_div, P. lia.
  Qed.
  (** So a matrix with [p] diagonals below the main one and [q] above has factors with [p] and [q]. *)
  Theorem C154_band : forall (M F : mat T) n p q, wf M -> nr M = n -> nc M = n -> 0 < n -> lu M = Some F ->
    (forall i j, i < n -> j < n -> j + p < i \/ i + q < j -> ent M i j = t0) -> forall i j, i < n -> j < n -> j + p < i \/ i + q < j -> ent F i j = t0.
  Proof.
    intros M F n p q W R C Hn E Z i j Hi Hj [B|B].
    - apply (proj1 (C154_envelope M F n W R C Hn E (i - p)) i Hi); [|exact Hj|lia]. intros l Hl L. apply Z; [exact Hi|exact Hl|lia].
    - apply (proj2 (C154_envelope M F n W R C Hn E (j - q)) j Hj); [|exact Hi|lia]. intros l Hl L. apply Z; [exact Hl|exact Hj|lia].
  Qed.

  Lemma schur_upper n A : (forall i j, j < i < n -> A i j = t0) -> forall k, (forall l, l < k -> A l l <> t0) -> forall i j, k <= i < n -> schur A k i j = A i j.
  Proof.
    intros Z. induction k as [|k IH]; intros P i j Hi; [reflexivity|]. cbn [schur]. rewrite !IH by (lia || (intros; apply P; lia)). rewrite (Z i k) by lia. rewrite zero_div by (apply P; lia). apply sub_zero_l.
  Qed.
  Lemma schur_lower n A : (forall i j, i < j < n -> A i j = t0) -> forall k i j, k <= j < n -> schur A k i j = A i j.
  Proof. intros Z. induction k as [|k IH]; intros i j Hj; [reflexivity|]. cbn [schur]. rewrite (IH i j), (IH k j) by lia. rewrite (Z k j) by lia. apply sub_zero_r. Qed.
  Lemma triangular_piv n A : (forall i j, j < i < n -> A i j = t0) \/ (forall i j, i < j < n -> A i j = t0) -> forall k, k < n -> (forall l, l < k -> A l l <> t0) -> piv A k = A k k.
  Proof. intros [Z|Z] k Hk P; unfold piv; [apply (schur_upper n A Z k P); lia|apply (schur_lower n A Z); lia]. Qed.
  Lemma triangular_iff n A : (forall i j, j < i < n -> A i j = t0) \/ (forall i j, i < j < n -> A i j = t0) -> forall m, m <= n -> (forall k, k < m -> piv A k <> t0) <-> (forall k, k < m -> A k k <> t0).
  Proof.
    intros Z. induction m as [|m IH]; intros Hm; [split; intros; lia|]. specialize (IH ltac:(lia)). split; intros H k Hk.
    - assert (Q : forall l, l < m -> A l l <> t0) by (apply IH; intros; apply H; lia). rewrite <- (triangular_piv n A Z k) by (lia || (intros; apply Q; lia)). now apply H.
    - rewrite (triangular_piv n A Z k) by (lia || (intros; apply H; lia)). now apply H.
  Qed.
  (** The product of the diagonal. *)
  Fixpoint diagonal_product (n : nat) (A : nat -> nat -> T) : T := match n with 0 => t1 | S k => diagonal_product k A *! A k k end.
  (** On a triangular matrix [lu] and [det] stay finite exactly when no diagonal entry but perhaps the last is zero, [solve] when none is; the
      determinant is the product of the diagonal; an upper triangular matrix comes back from [lu] unchanged, a lower triangular one with the
      entries below the diagonal divided by the diagonal entry of their column. *)
  Theorem C154_triangular : forall (M : mat T) n, wf M -> nr M = n -> nc M = n -> 0 < n ->
    (forall i j, j < i < n -> ent M i j = t0) \/ (forall i j, i < j < n -> ent M i j = t0) ->
    ((exists F, lu M = Some F) <-> forall k, k + 1 < n -> ent M k k <> t0) /\
    (forall d, det M = Some d <-> (forall k, k + 1 < n -> ent M k k <> t0) /\ d = diagonal_product n (ent M)) /\
    (forall B, wf B -> nr B = n -> 0 < nc B -> (exists X, solve M B = Some X) <-> forall k, k < n -> ent M k k <> t0) /\
    forall F, lu M = Some F -> forall i j, i < n -> j < n ->
      ent F i j = if j <? i then ent M i j /! ent M j j else ent M i j.
  Proof.
    intros M n W R C Hn Z. destruct (C73_lu FO M n W R C Hn) as (L1 & L2).
    assert (I1 : (exists F, lu M = Some F) <-> forall k, k + 1 < n -> ent M k k <> t0).
    { rewrite L1, (piv_minor FO n (ent M)). pose proof (triangular_iff n (ent M) Z (n - 1) ltac:(lia)) as Q. split; intros H k Hk; [apply (proj1 Q); [|lia]|apply (proj2 Q); [|lia]]; intros l Hl; apply H; lia. }
    assert (EN : forall F, lu M = Some F -> forall i j, i < n -> j < n -> ent F i j = if j <? i then ent M i j /! ent M j j else ent M i j).
    { intros F E i j Hi Hj. destruct (lu_entries M n F W R C Hn E) as (P & EF). rewrite EF by assumption. assert (D : forall k, k < n - 1 -> ent M k k <> t0) by (apply (triangular_iff n (ent M) Z); [lia|]; intros; apply P; lia).
      assert (SC : schur (ent M) (Nat.min i j) i j = ent M i j).
      { destruct Z as [Z|Z]; [apply (schur_upper n (ent M) Z); [intros; apply D; lia|lia]|apply (schur_lower n (ent M) Z); lia]. }
      destruct (i <=? j) eqn:IJ; [replace (j <? i) with false by lia; now replace (Nat.min i j) with i in SC by lia|]. replace (j <? i) with true by lia. replace (Nat.min i j) with j in SC by lia. rewrite SC.
      rewrite (triangular_piv n (ent M) Z j Hj) by (intros; apply D; lia). reflexivity. }
    split; [exact I1|]. split; [|split; [|exact EN]].
    - destruct (C74_det_partial FO M n W R C Hn) as (D1 & D2). rewrite <- L1, I1 in D2.
      assert (DP : (forall k, k + 1 < n -> ent M k k <> t0) -> determinant n (ent M) = diagonal_product n (ent M)).
      { intros H. apply I1 in H. destruct H as (F & E). destruct (L2 F E) as (_ & _ & _ & _ & S73). assert (G : forall k, k <= n -> determinant k (ent M) = diagonal_product k (ent M)); [|apply G; lia].
        induction k as [|k IH]; intros Hk; [reflexivity|]. rewrite <- Nat.add_1_r at 1. rewrite S73 by lia. rewrite (EN F E k k) by lia. rewrite Nat.ltb_irrefl, IH by lia. reflexivity. }
      intros d. split.
      + intros E. assert (H : forall k, k + 1 < n -> ent M k k <> t0) by (apply D2; now exists d). split; [exact H|]. rewrite <- (DP H). destruct D1 as [D1|D1]; congruence.
      + intros (H & ->). rewrite <- (DP H). destruct D1 as [D1|D1]; [exact D1|]. destruct (proj2 D2 H) as (d & Hd). congruence.
    - intros B WB RB CB. destruct (C75_solve FO M B n W WB R C RB Hn CB) as (S1 & _). rewrite S1. rewrite <- (triangular_iff n (ent M) Z n (le_n n)). pose proof (piv_minor FO (S n) (ent M)) as Q. split; intros H k Hk.
      + apply (proj1 Q); [|lia]. intros l Hl. apply H. lia.
      + apply (proj2 Q); [|lia]. intros l Hl. apply H. lia.
  Qed.
End BandT.
Print Assumptions C154_envelope. Print Assumptions C154_band. Print Assumptions C154_triangular.
(** The hypotheses are met: a tridiagonal matrix of rationals, whose factors are bidiagonal. *)
#[local] Existing Instance ops_Qc.
#[local] Existing Instance fops_Qc.
Definition exB : mat QArith.Qcanon.Qc := Mat 4 4 [[qz 2%Z; qz 1%Z; qz 0%Z; qz 0%Z]; [qz 2%Z; qz 3%Z; qz 1%Z; qz 0%Z]; [qz 0%Z; qz 4%Z; qz 5%Z; qz 1%Z]; [qz 0%Z; qz 0%Z; qz 3%Z; qz 7%Z]].
Example C154_nontrivial : wf exB /\ (forall i j, i < 4 -> j < 4 -> j + 1 < i \/ i + 1 < j -> ent exB i j = t0) /\
  vals (lu exB) = vals (Some (Mat 4 4 [[qz 2%Z; qz 1%Z; qz 0%Z; qz 0%Z]; [qz 1%Z; qz 2%Z; qz 1%Z; qz 0%Z]; [qz 0%Z; qz 2%Z; qz 3%Z; qz 1%Z]; [qz 0%Z; qz 0%Z; qz 1%Z; qz 6%Z]])).
Proof.
  split; [|split].
  - split; [reflexivity|]. repeat constructor.
  - intros i j Hi Hj H. do 4 (destruct i as [|i]; [do 4 (destruct j as [|j]; [first [exfalso; lia|reflexivity]|]); exfalso; lia|]). exfalso; lia.
  - vm_compute. reflexivity.
Qed.
