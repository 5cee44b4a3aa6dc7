(** Properties C13-C16 of Rational. *)
From Coq Require Import ZArith QArith List Bool.
From Verif Require Import PidModel RationalModel RationalSpec RationalProofs.
Import ListNotations.
Open Scope Z_scope.

(** C13 (canonical results), for every program that never negates zero with unary minus. *)
Theorem C13_canonical_partial : forall e r, neg_safe e -> run nonneg e = Some r -> canonical r.
Proof.
  intros e r S E. pose proof (run_denotes e S) as D. unfold denotes in D. destruct (evalQ e).
  - destruct D as (r' & E' & C & _). congruence.
  - congruence.
Qed.
Print Assumptions C13_canonical_partial.
(** ... and == on canonical values is equality of rational numbers. *)
Theorem C13_eq_is_numeric_equality : forall r s, canonical r -> canonical s -> (req r s = true <-> (toQ r == toQ s)%Q).
Proof.
  intros r s Cr Cs. rewrite req_iff. split; [intros ->; reflexivity|]. now apply canonical_unique.
Qed.
Print Assumptions C13_eq_is_numeric_equality.
(** On machine integers: a run that does not overflow gives the same value. *)
Theorem C13_C14_u64_sound : forall e r, run u64 e = Some r -> run nonneg e = Some r.
Proof. intros e r. apply ole_run. Qed.
Print Assumptions C13_C14_u64_sound.
(** Unary minus of zero is a second zero, different from the first. *)
Theorem C13_two_zeros_refuted : exists e f r s, run u64 e = Some r /\ run u64 f = Some s /\
  evalQ e = Some (-0)%Q /\ evalQ f = Some 0%Q /\ req r s = false /\ ~ canonical r.
Proof.
  exists (RNeg (RNew 0 1)), (RNew 0 1), (mkR 0 1 false), (mkR 0 1 true). repeat split.
  intros (_ & _ & _ & H). discriminate (H eq_refl).
Qed.
Print Assumptions C13_two_zeros_refuted.

(** C14: for every program that never negates zero, the result is the rational number it denotes, in canonical
    form, and it panics exactly when a denominator or divisor is zero. *)
Theorem C14_arithmetic_partial : forall e, neg_safe e -> denotes (run nonneg e) (evalQ e).
Proof. exact run_denotes. Qed.
Print Assumptions C14_arithmetic_partial.
(** [from], [zero] and [one] denote the integer, 0 and 1. *)
Theorem C14_constants : (forall n, denotes (rfrom nonneg n) (Some (inject_Z n))) /\ (forall n r, rfrom u64 n = Some r -> canonical r /\ (toQ r == inject_Z n)%Q) /\
  rnew u64 0 1 = Some rzero /\ canonical rzero /\ (toQ rzero == 0)%Q /\ rnew u64 1 1 = Some rone /\ canonical rone /\ (toQ rone == 1)%Q.
Proof.
  assert (A : forall n, denotes (rfrom nonneg n) (Some (inject_Z n))).
  { intros n. destruct (run_denotes (RNew n 1) I) as (r & E & C & V). exists r. split; [exact E|]. split; [exact C|]. rewrite V. change (inject_Z 1) with 1%Q. field. }
  split; [exact A|]. split. { intros n r E. destruct (A n) as (r' & E' & C & V). assert (Q : rfrom nonneg n = Some r) by exact (ole_run (RNew n 1) r E). rewrite Q in E'. injection E' as ->. split; assumption. }
  repeat split; try reflexivity; try discriminate; try (cbn; intros H; discriminate H).
Qed.
Print Assumptions C14_constants.
(** Without the guard: 0 + (-0) panics, and 1 / (-0) does not panic but yields a zero denominator. *)
Theorem C14_negated_zero_refuted :
  (exists e q, evalQ e = Some q /\ run u64 e = None) /\
  (exists e r, evalQ e = None /\ run u64 e = Some r /\ den r = 0).
Proof.
  split.
  - exists (RAdd (RNew 0 1) (RNeg (RNew 0 1))), (0 + -0)%Q. split; vm_compute; reflexivity.
  - exists (RDiv (RNew 1 1) (RNeg (RNew 0 1))), (mkR 1 0 false). repeat split; vm_compute; reflexivity.
Qed.
Print Assumptions C14_negated_zero_refuted.
Example C14_nontrivial : exists e r, neg_safe e /\ run u64 e = Some r /\ r = mkR 7 12 true.
Proof.
  exists (RSub (RMul (RNew (-3) 2) (RAdd (RNew (-3) 2) (RNew 2 3))) (RNeg (RNeg (RNew 2 3)))), (mkR 7 12 true).
  split; [|split; vm_compute; reflexivity]. cbn. repeat split; intros q H; injection H as <-; vm_compute; discriminate.
Qed.

(** C15: the order is that of Q except that two zeros cannot be compared (division by gcd(0,0) = 0). *)
Theorem C15_order_partial : forall r s, canonical r -> canonical s -> (num r <> 0 \/ num s <> 0) ->
  rcmp nonneg r s = Some (Qcompare (toQ r) (toQ s)).
Proof. exact rcmp_Q. Qed.
Print Assumptions C15_order_partial.
Theorem C15_compare_zeros_refuted : forall r s, num r = 0 -> num s = 0 -> rcmp nonneg r s = None.
Proof. exact rcmp_zero. Qed.
Print Assumptions C15_compare_zeros_refuted.
Theorem C15_u64_sound : forall r s c, rcmp u64 r s = Some c -> rcmp nonneg r s = Some c.
Proof. intros r s c. apply ole_cmp. Qed.
Print Assumptions C15_u64_sound.
Example C15_nontrivial : canonical (mkR 5 6 false) /\ rcmp u64 (mkR 5 6 false) (mkR 3 4 false) = Some Lt.
Proof. repeat split; vm_compute; congruence. Qed.

(** C16: sums are right; every product is zero. *)
Theorem C16_sum_partial : forall l, Forall canonical l -> denotes (rsum nonneg l) (Some (qsum (map toQ l))).
Proof. exact rsum_Q. Qed.
Print Assumptions C16_sum_partial.
Theorem C16_sum_u64_sound : forall l r, rsum u64 l = Some r -> rsum nonneg l = Some r.
Proof. intros l r. apply ole_sum. Qed.
Print Assumptions C16_sum_u64_sound.
Theorem C16_product_is_zero : forall l, Forall canonical l -> rproduct nonneg l = Some rzero.
Proof. exact rproduct_zero. Qed.
Print Assumptions C16_product_is_zero.
Theorem C16_product_refuted : exists l r, Forall canonical l /\ rproduct u64 l = Some r /\ ~ (toQ r == qprod (map toQ l))%Q.
Proof.
  exists [mkR 1 1 true; mkR 2 3 true], rzero. repeat split.
  - repeat constructor; cbn; discriminate.
  - vm_compute. discriminate.
Qed.
Print Assumptions C16_product_refuted.
