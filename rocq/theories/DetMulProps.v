(** Property C157: [det] of a product, of exchanged rows and after a row operation (every field, exact arithmetic). *)
From Coq Require Import List Arith ZArith Bool Lia ZifyBool Ring_theory Ring.
From Verif Require Import PidModel MatModel MatSpec MatProofs MatProofs2 SnfModel RankModel LuModel LuSpec LuProofs LuProofs2 LuProofs3 LuProps BandLuProps.
Import ListNotations.
Open Scope nat_scope.

Section MulT.
  Context {T : Type} {OT : Ops T} {FT : FOps T}.
  Hypothesis FO : field_ok (T := T).
  Let RL : ring_theory t0 t1 tadd tmul tsub topp (@eq T) := proj1 FO.
  Add Ring TMu : RL.
  Local Notation "a +! b" := (tadd a b) (at level 50, left associativity).
  Local Notation "a *! b" := (tmul a b) (at level 40, left associativity).

  Lemma equal_rows n d : forall A p q, q = S p + d -> q < n -> (forall j, j < n -> A p j = A q j) -> determinant n A = t0.
  Proof.
    induction d as [|d IH]; intros A p q E Hq H; [apply (det_adjacent RL n A p); [lia|]; intros j Hj; rewrite H by exact Hj; f_equal; lia|].
    assert (K : topp (determinant n A) = t0).
    { rewrite <- (det_swap RL n A (q - 1)) by lia. apply (IH _ p (q - 1)); [lia|lia|]. intros j Hj. unfold put. replace (p =? q - 1) with false by lia. replace (p =? S (q - 1)) with false by lia. rewrite Nat.eqb_refl. replace (S (q - 1)) with q by lia. now apply H. }
    replace (determinant n A) with (topp (topp (determinant n A))) by ring. rewrite K. ring.
  Qed.
  Lemma two_rows n A p q : p < n -> q < n -> p <> q -> (forall j, j < n -> A p j = A q j) -> determinant n A = t0.
  Proof.
    intros Hp Hq N H. destruct (Nat.lt_ge_cases p q); [apply (equal_rows n (q - S p) A p q); [lia|exact Hq|exact H]|apply (equal_rows n (p - S q) A q p); [lia|exact Hp|]]. intros j Hj. symmetry. now apply H.
  Qed.
  Lemma zero_row n A q : q < n -> determinant n (put q (fun _ => t0) A) = t0.
  Proof.
    intros Hq. pose proof (det_row_linear RL n A q (fun _ => t0) (fun _ => t0) (topp t1) Hq) as E. rewrite (det_ext n _ (put q (fun _ => t0) A)) in E.
    - rewrite E. ring.
    - intros i j _ _. unfold put. destruct (i =? q); [ring|reflexivity].
  Qed.
  Lemma add_row n A p q s : p < n -> q < n -> p <> q -> determinant n (put p (fun j => A p j +! s *! A q j) A) = determinant n A.
  Proof.
    intros Hp Hq N. rewrite (det_row_linear RL n A p (A p) (A q) s Hp). rewrite (det_ext n (put p (A p) A) A) by (intros; apply put_self). rewrite (two_rows n (put p (A q) A) p q Hp Hq N); [ring|].
    intros j _. unfold put. rewrite Nat.eqb_refl. now replace (q =? p) with false by lia.
  Qed.
  Lemma swap_any n A p q : p < n -> q < n -> p <> q -> determinant n (fun i j => A (if i =? p then q else if i =? q then p else i) j) = topp (determinant n A).
  Proof.
    intros Hp Hq N. set (B := put p (fun j => A p j +! t1 *! A q j) A). set (C := put q (fun j => B q j +! topp t1 *! B p j) B). set (D := put p (fun j => C p j +! t1 *! C q j) C).
    assert (ED : determinant n D = determinant n A) by (unfold D, C, B; rewrite !add_row by congruence; reflexivity).
    rewrite (det_ext n _ (put q (fun j => t0 +! topp t1 *! D q j) D)).
    - rewrite (det_row_linear RL n D q (fun _ => t0) (D q) (topp t1) Hq), zero_row by exact Hq. rewrite (det_ext n (put q (D q) D) D) by (intros; apply put_self). rewrite ED. ring.
    - intros i j _ _. unfold D, C, B, put. destruct (Nat.eqb_spec i p) as [->|NP].
      + replace (p =? q) with false by lia. rewrite !Nat.eqb_refl. replace (q =? p) with false by lia. ring.
      + destruct (Nat.eqb_spec i q) as [->|NQ]; [|reflexivity]. replace (q =? p) with false by lia. rewrite !Nat.eqb_refl. replace (p =? q) with false by lia. ring.
  Qed.
  (** A row replaced by a multiple of itself plus multiples of others. *)
  Lemma row_comb n A q a (c : nat -> T) : q < n -> c q = t0 -> forall m, m <= n -> determinant n (put q (fun j => a *! A q j +! sum m (fun l => c l *! A l j)) A) = a *! determinant n A.
  Proof.
    intros Hq Cq. induction m as [|m IH]; intros Hm.
    - rewrite (det_ext n _ (put q (fun j => t0 +! a *! A q j) A)) by (intros i j _ _; unfold put; destruct (i =? q); [cbn [sum]; ring|reflexivity]).
      rewrite (det_row_linear RL n A q (fun _ => t0) (A q) a Hq), zero_row by exact Hq. rewrite (det_ext n (put q (A q) A) A) by (intros; apply put_self). ring.
    - rewrite (det_ext n _ (put q (fun j => (a *! A q j +! sum m (fun l => c l *! A l j)) +! c m *! A m j) A)) by (intros i j _ _; unfold put; destruct (i =? q); [cbn [sum]; ring|reflexivity]).
      rewrite (det_row_linear RL n A q (fun j => a *! A q j +! sum m (fun l => c l *! A l j)) (A m) (c m) Hq), IH by lia. destruct (Nat.eq_dec m q) as [->|N]; [rewrite Cq; ring|].
      rewrite (two_rows n (put q (A m) A) m q); [ring|lia|exact Hq|exact N|]. intros j _. unfold put. replace (m =? q) with false by lia. now rewrite Nat.eqb_refl.
  Qed.
  Lemma sum_pick n k (x : T) (f : nat -> T) : k < n -> sum n (fun l => (if l =? k then x else t0) +! f l) = x +! sum n f.
  Proof.
    intros Hk. rewrite (sum_add RL). f_equal. rewrite (sum_single RL n k) by (first [exact Hk|intros i _ N; now replace (i =? k) with false by lia]). now rewrite Nat.eqb_refl.
  Qed.
  (** Multiplication on the left by a triangular matrix, row by row. *)
  Lemma lower_mul n L X : (forall i, i < n -> L i i = t1) -> (forall i l, i < l < n -> L i l = t0) -> determinant n (prod_entry n L X) = determinant n X.
  Proof.
    intros D Z. set (N := fun k i j => if i <? k then X i j else prod_entry n L X i j).
    assert (S1 : forall k, k < n -> determinant n (N k) = determinant n (N (S k))).
    { intros k Hk. set (c := fun l => if l <? k then L k l else t0). rewrite (det_ext n (N k) (put k (fun j => t1 *! N (S k) k j +! sum n (fun l => c l *! N (S k) l j)) (N (S k)))).
      - rewrite row_comb; [ring|exact Hk|unfold c; now rewrite Nat.ltb_irrefl|lia].
      - intros i j Hi Hj. unfold put. destruct (Nat.eqb_spec i k) as [->|NE].
        + unfold N at 1. rewrite Nat.ltb_irrefl. unfold prod_entry. replace (t1 *! N (S k) k j) with (X k j) by (unfold N; replace (k <? S k) with true by lia; ring). rewrite <- (sum_pick n k) by exact Hk. apply sum_ext. intros l Hl.
          unfold c, N. destruct (Nat.eqb_spec l k) as [->|NL]; [rewrite D, Nat.ltb_irrefl by exact Hk; ring|]. destruct (l <? k) eqn:LK; [replace (l <? S k) with true by lia; ring|rewrite Z by lia; ring].
        + unfold N. destruct (i <? k) eqn:IK; [now replace (i <? S k) with true by lia|now replace (i <? S k) with false by lia]. }
    assert (S2 : forall k, k <= n -> determinant n (N 0) = determinant n (N k)) by (induction k as [|k IH]; intros Hk; [reflexivity|rewrite IH by lia; apply S1; lia]).
    rewrite (det_ext n X (N n)) by (intros i j Hi Hj; unfold N; now replace (i <? n) with true by lia). rewrite <- (S2 n (le_n n)). apply det_ext. reflexivity.
  Qed.
  Lemma upper_mul n U X : (forall i l, l < i < n -> U i l = t0) -> determinant n (prod_entry n U X) = product n (fun k => U k k) *! determinant n X.
  Proof.
    intros Z. set (N := fun k i j => if i <? k then prod_entry n U X i j else X i j).
    assert (S1 : forall k, k < n -> determinant n (N (S k)) = U k k *! determinant n (N k)).
    { intros k Hk. set (c := fun l => if k <? l then U k l else t0). rewrite (det_ext n (N (S k)) (put k (fun j => U k k *! N k k j +! sum n (fun l => c l *! N k l j)) (N k))).
      - apply row_comb; [exact Hk|unfold c; now rewrite Nat.ltb_irrefl|lia].
      - intros i j Hi Hj. unfold put. destruct (Nat.eqb_spec i k) as [->|NE].
        + unfold N at 1. replace (k <? S k) with true by lia. unfold prod_entry. replace (N k k j) with (X k j) by (unfold N; now rewrite Nat.ltb_irrefl). rewrite <- (sum_pick n k) by exact Hk. apply sum_ext. intros l Hl.
          unfold c, N. destruct (Nat.eqb_spec l k) as [->|NL]; [rewrite Nat.ltb_irrefl; ring|]. destruct (k <? l) eqn:LK; [replace (l <? k) with false by lia; ring|rewrite Z by lia; ring].
        + unfold N. destruct (i <? k) eqn:IK; [now replace (i <? S k) with true by lia|now replace (i <? S k) with false by lia]. }
    assert (S2 : forall k, k <= n -> determinant n (N k) = product k (fun k => U k k) *! determinant n X).
    { induction k as [|k IH]; intros Hk; [cbn [product]; rewrite (det_ext n (N 0) X) by reflexivity; ring|]. rewrite S1, IH by lia. cbn [product]. ring. }
    rewrite <- (S2 n (le_n n)). apply det_ext. intros i j Hi Hj. unfold N. now replace (i <? n) with true by lia.
  Qed.
  Lemma lu_mul M n F X : wf M -> nr M = n -> nc M = n -> 0 < n -> lu M = Some F -> determinant n (prod_entry n (ent M) X) = determinant n (ent M) *! determinant n X.
  Proof.
    intros W R C Hn E. destruct (C73_lu FO M n W R C Hn) as (_ & S73). destruct (S73 F E) as (_ & _ & _ & PR & DS). set (L := lower_part (ent F)) in *. set (U := upper_part (ent F)) in *.
    assert (LD : forall i, i < n -> L i i = t1) by (intros i _; unfold L, lower_part; now rewrite Nat.eqb_refl). assert (LZ : forall i l, i < l < n -> L i l = t0) by (intros i l Hl; unfold L, lower_part; replace (i =? l) with false by lia; now replace (l <? i) with false by lia).
    assert (UZ : forall i l, l < i < n -> U i l = t0) by (intros i l Hl; unfold U, upper_part; now replace (i <=? l) with false by lia).
    assert (DM : determinant n (ent M) = product n (fun k => U k k)).
    { rewrite (det_ext n (ent M) (prod_entry n L U)) by (intros; symmetry; now apply PR). rewrite lower_mul by assumption. rewrite (det_ext n U (prod_entry n U id_entry)) by (intros; symmetry; now apply (prod_id_r RL)). rewrite upper_mul by exact UZ.
      assert (ID : determinant n (id_entry (T := T)) = t1); [|rewrite ID; ring]. rewrite <- (lower_mul n id_entry id_entry); [|intros i _; unfold id_entry; now rewrite Nat.eqb_refl|intros i l Hl; unfold id_entry; now replace (i =? l) with false by lia].
      clear -FO RL. induction n as [|n IH]; [reflexivity|]. rewrite (det_ext _ _ id_entry) by (intros; now apply (prod_id_l RL)). rewrite (det_first_column RL) by (intros i Hi; unfold id_entry; now replace (i =? 0) with false by lia).
      rewrite (det_ext n _ (prod_entry n id_entry id_entry)) by (intros i j Hi Hj; rewrite (prod_id_l RL) by exact Hi; reflexivity). rewrite IH. unfold id_entry. cbn [Nat.eqb]. ring. }
    rewrite DM. rewrite <- upper_mul by exact UZ. rewrite <- (lower_mul n L (prod_entry n U X)) by assumption. apply det_ext. intros i j Hi Hj. rewrite <- (prod_assoc RL). unfold prod_entry at 1 2. apply sum_ext. intros l Hl. now rewrite PR.
  Qed.
  (** C157.  When [det] is finite on two matrices and on their product, it is multiplicative; when that of the second is not finite, its determinant
      stands in the equation. *)
  Theorem C157_product : forall (A B : mat T) n, wf A -> wf B -> nr A = n -> nc A = n -> nr B = n -> nc B = n -> 0 < n ->
    exists C, mmul A B = Some C /\
      (forall a b c, det A = Some a -> det B = Some b -> det C = Some c -> c = a *! b) /\
      (forall a c, det A = Some a -> det C = Some c -> c = a *! determinant n (ent B)).
  Proof.
    intros A B n WA WB RA CA RB CB Hn. exists (mk n n (prod_entry n (ent A) (ent B))).
    assert (EC : mmul A B = Some (mk n n (prod_entry n (ent A) (ent B)))) by (rewrite (wf_eq_mk A WA), (wf_eq_mk B WB) at 1; rewrite RA, CA, RB, CB; apply mmul_mk).
    assert (DV : forall M d, wf M -> nr M = n -> nc M = n -> det M = Some d -> d = determinant n (ent M)) by (intros M d W R C E; destruct (proj1 (C74_det_partial FO M n W R C Hn)); congruence).
    assert (K : forall a c, det A = Some a -> det (mk n n (prod_entry n (ent A) (ent B))) = Some c -> c = a *! determinant n (ent B)).
    { intros a c Ha Hc. rewrite (DV A a WA RA CA Ha). rewrite (DV _ c (wf_mk _ _ _) eq_refl eq_refl Hc). rewrite (det_ext n _ (prod_entry n (ent A) (ent B))) by (intros; now rewrite ent_mk).
      unfold det in Ha. rewrite RA, CA, Nat.eqb_refl in Ha. destruct (lu A) as [F|] eqn:EF; [|discriminate]. exact (lu_mul A n F (ent B) WA RA CA Hn EF). }
    split; [exact EC|]. split; [|exact K]. intros a b c Ha Hb Hc. rewrite (DV B b WB RB CB Hb). now apply K.
  Qed.
  (** When it is finite before and after, adding a multiple of a row to another keeps [det] and exchanging two rows changes its sign. *)
  Theorem C157_rows : forall (A : mat T) n r1 r2 s, wf A -> nr A = n -> nc A = n -> 0 < n -> r1 < n -> r2 < n -> r1 <> r2 ->
    (exists A', row_operation A r1 r2 s = Some A' /\ forall a a', det A = Some a -> det A' = Some a' -> a' = a) /\
    (exists A', swap_rows A r1 r2 = Some A' /\ forall a a', det A = Some a -> det A' = Some a' -> a' = topp a).
  Proof.
    intros A n r1 r2 s W R C Hn H1 H2 N. pose proof (wf_eq_mk A W) as EM. rewrite R, C in EM. clear W R C. set (f := ent A) in *. clearbody f. subst A.
    assert (DV : forall g d, det (mk n n g) = Some d -> d = determinant n g).
    { intros g d E. rewrite <- (det_ext n (ent (mk n n g)) g) by (intros; now apply ent_mk). destruct (proj1 (C74_det_partial FO (mk n n g) n (wf_mk _ _ _) eq_refl eq_refl Hn)); congruence. }
    split.
    - eexists. split; [apply row_operation_mk; assumption|]. intros a a' Ha Ha'. rewrite (DV _ _ Ha), (DV _ _ Ha'). rewrite <- (add_row n f r1 r2 s H1 H2 N). apply det_ext. intros i j _ _. unfold put. destruct (Nat.eqb_spec i r1) as [->|]; [ring|reflexivity].
    - eexists. split; [apply swap_rows_mk; assumption|]. intros a a' Ha Ha'. rewrite (DV _ _ Ha), (DV _ _ Ha'). now apply swap_any.
  Qed.
End MulT.
Print Assumptions C157_product. Print Assumptions C157_rows.
#[local] Existing Instance ops_Qc.
#[local] Existing Instance fops_Qc.
(** Without finiteness the law fails: both factors have a finite [det], the product has not. *)
Theorem C157_finite_refuted : exists A B C : mat QArith.Qcanon.Qc, wf A /\ wf B /\ nr A = 2 /\ nc A = 2 /\ nr B = 2 /\ nc B = 2 /\ mmul A B = Some C /\ (exists a, det A = Some a) /\ (exists b, det B = Some b) /\ det C = None.
Proof.
  exists (Mat 2 2 [[qz 1; qz 1]; [qz 1; qz 2]]), (Mat 2 2 [[qz 1; qz 1]; [qz (-1); qz 1]]). eexists. split; [split; [reflexivity|repeat constructor]|]. split; [split; [reflexivity|repeat constructor]|]. do 4 (split; [reflexivity|]). split; [reflexivity|].
  split; [eexists; reflexivity|]. split; [eexists; reflexivity|]. vm_compute. reflexivity.
Qed.
Print Assumptions C157_finite_refuted.
(** A case where all three are finite. *)
Example C157_nontrivial : exists C, mmul exA exA = Some C /\ option_map QArith.Qcanon.this (det exA) = Some (QArith.Qcanon.this (qz (-16))) /\ option_map QArith.Qcanon.this (det C) = Some (QArith.Qcanon.this (qz 256)).
Proof. eexists. split; [reflexivity|]. split; vm_compute; reflexivity. Qed.
