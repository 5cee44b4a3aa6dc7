(** Property C158: Cramer's rule for [solve], and the uniqueness of the factors of [lu] (every field, exact arithmetic). *)
From Coq Require Import List Arith ZArith Bool Lia ZifyBool Ring_theory Ring.
From Verif Require Import PidModel MatModel MatSpec MatProofs MatProofs2 SnfModel RankModel LuModel LuSpec LuProofs LuProofs2 LuProofs3 LuProps BandLuProps DetMulProps.
Import ListNotations.
Open Scope nat_scope.

Section CramerT.
  Context {T : Type} {OT : Ops T} {FT : FOps T}.
  Hypothesis FO : field_ok (T := T).
  Let RL : ring_theory t0 t1 tadd tmul tsub topp (@eq T) := proj1 FO.
  Add Ring TCr : RL.
  Local Notation "a +! b" := (tadd a b) (at level 50, left associativity).
  Local Notation "a -! b" := (tsub a b) (at level 50, left associativity).
  Local Notation "a *! b" := (tmul a b) (at level 40, left associativity).
  Local Notation "a /! b" := (tdiv a b) (at level 40, left associativity).

  (** The matrix [A] with column [k] replaced by [b]. *)
  Definition with_column (A : nat -> nat -> T) (k : nat) (b : nat -> T) : nat -> nat -> T := fun i j => if j =? k then b i else A i j.
  Lemma product_one n (f : nat -> T) : (forall i, i < n -> f i = t1) -> product n f = t1.
  Proof. intros H. induction n as [|n IH]; [reflexivity|]. cbn [product]. rewrite IH, H by (lia || (intros; apply H; lia)). ring. Qed.
  Lemma product_at n k (x : T) : k < n -> product n (fun i => if i =? k then x else t1) = x.
  Proof.
    intros Hk. induction n as [|n IH]; [lia|]. cbn [product]. destruct (Nat.eq_dec k n) as [->|N].
    - rewrite product_one by (intros i Hi; now replace (i =? n) with false by lia). rewrite Nat.eqb_refl. ring.
    - rewrite IH by lia. replace (n =? k) with false by lia. ring.
  Qed.
  Lemma id_det n : determinant n (id_entry (T := T)) = t1.
  Proof.
    induction n as [|n IH]; [reflexivity|]. rewrite (det_first_column RL) by (intros i Hi; unfold id_entry; now replace (i =? 0) with false by lia).
    rewrite (det_ext n _ id_entry) by reflexivity. rewrite IH. unfold id_entry. cbn [Nat.eqb]. ring.
  Qed.
  Lemma upper_det n U : (forall i l, l < i < n -> U i l = t0) -> determinant n U = product n (fun k => U k k).
  Proof. intros Z. rewrite (det_ext n U (prod_entry n U id_entry)) by (intros; symmetry; now apply (prod_id_r RL)). rewrite (upper_mul FO) by exact Z. rewrite id_det. ring. Qed.
  (** The identity with one column replaced. *)
  Lemma column_det n k x : k < n -> determinant n (with_column id_entry k x) = x k.
  Proof.
    intros Hk. destruct (eq_dec FO (x k) t0) as [Z|N].
    - rewrite Z. rewrite (det_ext n _ (put k (fun _ => t0) (with_column id_entry k x))); [apply (zero_row FO); exact Hk|]. intros i j _ _. unfold put, with_column, id_entry. destruct (Nat.eqb_spec i k) as [->|]; [|reflexivity].
      destruct (Nat.eqb_spec j k) as [->|]; [exact Z|]. now replace (k =? j) with false by lia.
    - set (L := fun i j => if i =? j then t1 else if (j =? k) && (k <? i) then x i /! x k else t0). set (U := fun i j => if j =? k then if i <=? k then x i else t0 else if i =? j then t1 else t0).
      rewrite (det_ext n _ (prod_entry n L U)).
      + rewrite (lower_mul FO); [|intros i _; unfold L; now rewrite Nat.eqb_refl|intros i l Hl; unfold L; replace (i =? l) with false by lia; now replace ((l =? k) && (k <? i)) with false by lia].
        rewrite upper_det; [|intros i l Hl; unfold U; replace (i =? l) with false by lia; destruct (l =? k) eqn:E; [now replace (i <=? k) with false by lia|reflexivity]].
        rewrite (product_ext n _ (fun i => if i =? k then x k else t1)); [now apply product_at|]. intros i _. unfold U. destruct (Nat.eqb_spec i k) as [->|]; [now rewrite Nat.leb_refl|now rewrite Nat.eqb_refl].
      + intros i j Hi Hj. unfold prod_entry. destruct (Nat.le_gt_cases i k) as [IK|IK].
        * rewrite (sum_single RL n i); [|exact Hi|intros l Hl NL; unfold L; replace (i =? l) with false by lia; replace ((l =? k) && (k <? i)) with false by lia; ring]. unfold L, U, with_column, id_entry. rewrite Nat.eqb_refl. replace (i <=? k) with true by lia. destruct (j =? k); ring.
        * transitivity (sum n (fun l => if l =? i then with_column id_entry k x i j else t0)).
          { symmetry. rewrite (sum_single RL n i); [now rewrite Nat.eqb_refl|exact Hi|]. intros l Hl NL. now replace (l =? i) with false by lia. }
          symmetry. apply (sum_two RL n i k); [exact Hi|exact Hk|lia| |].
          -- intros l Hl N1 N2. replace (l =? i) with false by lia. unfold L. replace (i =? l) with false by lia. replace ((l =? k) && (k <? i)) with false by lia. ring.
          -- rewrite Nat.eqb_refl. replace (k =? i) with false by lia. unfold L, U, with_column, id_entry. rewrite !Nat.eqb_refl. replace (i =? k) with false by lia. replace (k <? i) with true by lia. replace (i <=? k) with false by lia. rewrite Nat.leb_refl.
             cbn [andb]. destruct (Nat.eqb_spec j k) as [->|NJ]; [rewrite (div_mul FO) by exact N; ring|]. replace (k =? j) with false by lia. ring.
  Qed.
  (** C158.  Cramer's rule: each entry of the first column [solve] returns, times the determinant of the matrix, is the determinant of the matrix
      with the right-hand side in the place of that column; so it is the quotient of two values of [det] when they are finite. *)
  Theorem C158_cramer : forall A B X n, wf A -> wf B -> nr A = n -> nc A = n -> nr B = n -> 0 < n -> 0 < nc B -> solve A B = Some X ->
    (exists d, det A = Some d /\ d = determinant n (ent A) /\ d <> t0) /\
    forall k, k < n -> ent X k 0 *! determinant n (ent A) = determinant n (fun i j => if j =? k then ent B i 0 else ent A i j).
  Proof.
    intros A B X n WA WB RA CA RB Hn HB E. destruct (C75_solve FO A B n WA WB RA CA RB Hn HB) as (I & S75). pose proof (proj1 I (ex_intro _ X E)) as MN. destruct (S75 X E) as (_ & _ & _ & SX & _). pose proof (proj2 (SX (fun l => ent X l 0)) (fun i _ => eq_refl)) as EQ. cbn beta in EQ.
    destruct (proj2 (proj1 (C73_lu FO A n WA RA CA Hn))) as (F & EF); [intros k Hk; apply MN; lia|]. split.
    - destruct (C74_det_partial FO A n WA RA CA Hn) as (D1 & D2). exists (determinant n (ent A)). split; [|split; [reflexivity|apply MN; lia]]. destruct D1 as [D1|D1]; [exact D1|]. destruct (proj2 D2) as (d & Hd); [intros k Hk; apply MN; lia|congruence].
    - intros k Hk. rewrite (Rmul_comm RL). rewrite <- (column_det n k (fun l => ent X l 0) Hk). rewrite <- (lu_mul FO A n F (with_column id_entry k (fun l => ent X l 0)) WA RA CA Hn EF). apply det_ext. intros i j Hi Hj. unfold prod_entry, with_column.
      destruct (j =? k); [now apply EQ|]. exact (prod_id_r RL n (ent A) i j Hj).
  Qed.

  Lemma sum_first n (f : nat -> T) : sum (S n) f = f 0 +! sum n (fun k => f (S k)).
  Proof. induction n as [|n IH]; [cbn; ring|]. change (sum (S (S n)) f) with (sum (S n) f +! f (S n)). rewrite IH. cbn [sum]. ring. Qed.
  Lemma schur_factors n A L U : (forall i, i < n -> L i i = t1) -> (forall i l, i < l < n -> L i l = t0) -> (forall i l, l < i < n -> U i l = t0) -> (forall i j, i < n -> j < n -> sum n (fun l => L i l *! U l j) = A i j) ->
    forall k, k <= n -> (forall l, l < k -> U l l <> t0) -> forall i j, i < n -> j < n -> schur A k i j = sum (n - k) (fun l => L i (k + l) *! U (k + l) j).
  Proof.
    intros D LZ UZ P. induction k as [|k IH]; intros Hk N i j Hi Hj; [rewrite Nat.sub_0_r; symmetry; now apply P|]. cbn [schur]. assert (IH' := IH ltac:(lia) ltac:(intros; apply N; lia)). rewrite !IH' by lia.
    replace (n - k) with (S (n - S k)) by lia. rewrite !sum_first. rewrite !Nat.add_0_r.
    rewrite (sum_zero RL (n - S k) (fun l => L i (k + S l) *! U (k + S l) k)) by (intros l Hl; rewrite (UZ (k + S l) k) by lia; ring).
    rewrite (sum_zero RL (n - S k) (fun l => L k (k + S l) *! U (k + S l) k)) by (intros l Hl; rewrite (UZ (k + S l) k) by lia; ring).
    rewrite (sum_zero RL (n - S k) (fun l => L k (k + S l) *! U (k + S l) j)) by (intros l Hl; rewrite (LZ k (k + S l)) by lia; ring).
    rewrite (sum_ext (n - S k) (fun l => L i (S k + l) *! U (S k + l) j) (fun l => L i (k + S l) *! U (k + S l) j)) by (intros l Hl; now replace (S k + l) with (k + S l) by lia).
    rewrite (D k) by lia. assert (Q : (L i k *! U k k +! t0) /! (t1 *! U k k +! t0) = L i k).
    { assert (NK : U k k <> t0) by (apply N; lia). replace (t1 *! U k k +! t0) with (U k k) by ring. replace (L i k *! U k k +! t0) with (L i k *! U k k) by ring. set (q := _ /! _). pose proof (div_mul FO (L i k *! U k k) (U k k) NK) as E. fold q in E.
      assert (Z : (q -! L i k) *! U k k = t0) by (replace ((q -! L i k) *! U k k) with (q *! U k k -! L i k *! U k k) by ring; rewrite E; ring). apply (mul_zero FO) in Z. destruct Z as [Z|Z]; [|contradiction]. replace q with ((q -! L i k) +! L i k) by ring. rewrite Z. ring. }
    rewrite Q. ring.
  Qed.
  (** The factors are unique: whatever unit lower triangular and upper triangular matrices multiply to the matrix, if only the last diagonal entry
      of the second may be zero, [lu] returns them; and if [lu] returns at all, they have that form. *)
  Theorem C158_unique : forall M n (L U : nat -> nat -> T), wf M -> nr M = n -> nc M = n -> 0 < n ->
    (forall i, i < n -> L i i = t1) -> (forall i l, i < l < n -> L i l = t0) -> (forall i l, l < i < n -> U i l = t0) -> (forall i j, i < n -> j < n -> sum n (fun l => L i l *! U l j) = ent M i j) ->
    ((exists F, lu M = Some F) <-> forall k, k + 1 < n -> U k k <> t0) /\
    forall F, lu M = Some F -> forall i j, i < n -> j < n -> ent F i j = if j <? i then L i j else U i j.
  Proof.
    intros M n L U W R C Hn D LZ UZ P. pose proof (schur_factors n (ent M) L U D LZ UZ P) as SF.
    assert (CL : forall k i, k < n -> i < n -> (forall l, l < k -> U l l <> t0) -> schur (ent M) k i k = L i k *! U k k).
    { intros k i Hk Hi N. rewrite SF by (lia || assumption). replace (n - k) with (S (n - S k)) by lia. rewrite sum_first, Nat.add_0_r. rewrite (sum_zero RL) by (intros l Hl; rewrite (UZ (k + S l) k) by lia; ring). ring. }
    assert (RW : forall k j, k < n -> j < n -> (forall l, l < k -> U l l <> t0) -> schur (ent M) k k j = U k j).
    { intros k j Hk Hj N. rewrite SF by (lia || assumption). replace (n - k) with (S (n - S k)) by lia. rewrite sum_first, Nat.add_0_r. rewrite (sum_zero RL) by (intros l Hl; rewrite (LZ k (k + S l)) by lia; ring). rewrite D by exact Hk. ring. }
    assert (PU : forall m, m < n -> (forall k, k < m -> piv (ent M) k <> t0) <-> (forall k, k < m -> U k k <> t0)).
    { induction m as [|m IH]; intros Hm; [split; intros; lia|]. specialize (IH ltac:(lia)). split; intros H k Hk.
      - assert (Q : forall l, l < m -> U l l <> t0) by (apply IH; intros; apply H; lia). rewrite <- (RW k k) by (lia || (intros; apply Q; lia)). now apply H.
      - unfold piv. rewrite RW by (lia || (intros; apply H; lia)). now apply H. }
    split.
    - rewrite (proj1 (C73_lu FO M n W R C Hn)), (piv_minor FO n (ent M)). pose proof (PU (n - 1) ltac:(lia)) as Q. split; intros H k Hk; [apply (proj1 Q); [|lia]|apply (proj2 Q); [|lia]]; intros l Hl; apply H; lia.
    - intros F E i j Hi Hj. destruct (lu_entries FO M n F W R C Hn E) as (PV & EF). assert (N : forall l, l < n - 1 -> U l l <> t0) by (apply PU; [lia|]; intros; apply PV; lia). rewrite EF by assumption. destruct (i <=? j) eqn:IJ.
      + replace (j <? i) with false by lia. apply RW; [exact Hi|exact Hj|]. intros; apply N; lia.
      + replace (j <? i) with true by lia. rewrite CL by (lia || (intros; apply N; lia)). unfold piv. rewrite RW by (lia || (intros; apply N; lia)). set (q := _ /! _). assert (NK : U j j <> t0) by (apply N; lia).
        pose proof (div_mul FO (L i j *! U j j) (U j j) NK) as E2. fold q in E2. assert (Z : (q -! L i j) *! U j j = t0) by (replace ((q -! L i j) *! U j j) with (q *! U j j -! L i j *! U j j) by ring; rewrite E2; ring).
        apply (mul_zero FO) in Z. destruct Z as [Z|Z]; [|contradiction]. replace q with ((q -! L i j) +! L i j) by ring. rewrite Z. ring.
  Qed.
End CramerT.
Print Assumptions C158_cramer. Print Assumptions C158_unique.
#[local] Existing Instance ops_Qc.
#[local] Existing Instance fops_Qc.
(** A concrete case: [solve] returns on this system, and the rule gives its first entry, 1. *)
Example C158_nontrivial : wf exA /\ (exists X, solve exA (Mat 3 1 [[qz 5]; [qz (-2)]; [qz 9]]) = Some X /\ QArith.Qcanon.this (ent X 0 0) = QArith.Qcanon.this (qz 1)) /\
  QArith.Qcanon.this (determinant 3 (fun i j => if j =? 0 then ent (Mat 3 1 [[qz 5]; [qz (-2)]; [qz 9]]) i 0 else ent exA i j)) = QArith.Qcanon.this (qz (-16)).
Proof.
  split; [split; [reflexivity|repeat constructor]|]. split; [eexists; split; [reflexivity|vm_compute; reflexivity]|]. vm_compute. reflexivity.
Qed.
