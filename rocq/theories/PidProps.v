(** Property theorems C08-C12 (alg/src/commutative.rs, integers). *)
From Coq Require Import ZArith List Bool Znumtheory.
From Verif Require Import PidModel PidProofs.
Import ListNotations.
Open Scope Z_scope.

(** C08 *)
Theorem C08_euclid_div : forall n d, d <> 0 ->
  exists q r, euclid_div ideal n d = Some (q, r) /\ n = q * d + r /\ 0 <= r < Z.abs d.
Proof. exact euclid_div_theorem. Qed.
Print Assumptions C08_euclid_div.

(** In w-bit arithmetic the only failing pair (besides d = 0) is MIN / -1. *)
Theorem C08_euclid_div_width : forall w n d, 1 <= w -> d <> 0 ->
  - 2 ^ (w-1) <= n < 2 ^ (w-1) -> - 2 ^ (w-1) <= d < 2 ^ (w-1) ->
  (n = - 2 ^ (w-1) /\ d = -1 -> euclid_div (width w) n d = None) /\
  (~ (n = - 2 ^ (w-1) /\ d = -1) -> euclid_div (width w) n d = euclid_div ideal n d).
Proof. exact euclid_div_width. Qed.
Print Assumptions C08_euclid_div_width.

Theorem C08_zero_divisor_panics : forall chk n, euclid_div chk n 0 = None.
Proof. reflexivity. Qed.

Example C08_nontrivial : euclid_div ideal (-7) (-3) = Some (3, 2) /\ euclid_div (width 8) (-128) 127 = Some (-2, 126).
Proof. split; reflexivity. Qed.

(** C09 *)
Theorem C09_divides : forall d n, d <> 0 ->
  exists b, divides ideal d n = Some b /\ (b = true <-> exists k, n = k * d).
Proof. exact divides_theorem. Qed.
Print Assumptions C09_divides.
Theorem C09_zero_panics : forall n, divides ideal 0 n = None.
Proof. exact divides_zero. Qed.
Example C09_nontrivial : divides ideal (-4) 12 = Some true /\ divides ideal 27 3 = Some false.
Proof. split; reflexivity. Qed.

(** C10: stated with divisibility only: [g] is a non-negative common divisor, and a combination of a, b
    (hence every common divisor divides it). *)
Theorem C10_bezout : forall a b, exists g x y, bezout_identity ideal a b = Some (g, x, y) /\
  gcd ideal a b = Some g /\ 0 <= g /\ (g | a) /\ (g | b) /\ a * x + b * y = g /\
  (forall d, (d | a) -> (d | b) -> (d | g)).
Proof.
  intros a b. destruct (bezout_theorem a b) as (x & y & E & H). exists (Z.gcd a b), x, y.
  repeat split; auto using Z.gcd_nonneg, Z.gcd_divide_l, Z.gcd_divide_r, Z.gcd_greatest.
  exact (gcd_theorem a b).
Qed.
Print Assumptions C10_bezout.
Example C10_nontrivial : bezout_identity ideal (-3) 125 = Some (1, 83, 2) /\ bezout_identity ideal 14 6 = Some (2, 1, -2).
Proof. split; vm_compute; reflexivity. Qed.

(** C11, gcd: no overflow on any pair of non-minimal w-bit inputs. *)
Theorem C11_gcd_no_overflow : forall w a b, 2 <= w -> Z.abs a < 2 ^ (w-1) -> Z.abs b < 2 ^ (w-1) ->
  gcd (width w) a b = Some (Z.gcd a b).
Proof. exact gcd_width. Qed.
Print Assumptions C11_gcd_no_overflow.

(** C11, bezout_identity: no overflow for non-negative inputs, nor for inputs below a quarter of the range.
    The full claim (all non-minimal inputs) is false, see [C11_bezout_overflow_refuted]. *)
Theorem C11_bezout_nonneg_partial : forall w a b, 2 <= w -> 0 <= a < 2 ^ (w-1) -> 0 <= b < 2 ^ (w-1) ->
  bezout_identity (width w) a b = bezout_identity ideal a b.
Proof. exact bezout_width_nonneg. Qed.
Print Assumptions C11_bezout_nonneg_partial.
Theorem C11_bezout_half_range_partial : forall w a b, 2 <= w -> Z.abs a < 2 ^ (w-2) -> Z.abs b < 2 ^ (w-2) ->
  bezout_identity (width w) a b = bezout_identity ideal a b.
Proof. exact bezout_width_half. Qed.
Print Assumptions C11_bezout_half_range_partial.
(** bezout_identity(2, -(2^63-1)) on i64 multiplies 2^62 by 2 before subtracting: overflow panic. *)
Theorem C11_bezout_overflow_refuted :
  exists a b, Z.abs a < 2 ^ 63 /\ Z.abs b < 2 ^ 63 /\ bezout_identity (width 64) a b = None.
Proof. exists 2, (- (2 ^ 63 - 1)). repeat split; vm_compute; reflexivity. Qed.
Print Assumptions C11_bezout_overflow_refuted.
(** also well inside the range: i8, (-3, 125) *)
Example C11_i8_overflow : bezout_identity (width 8) (-3) 125 = None.
Proof. vm_compute. reflexivity. Qed.
Example C11_nontrivial : bezout_identity (width 8) (-21) 62 = Some (1, 3, 1) \/ bezout_identity (width 8) (-21) 62 <> None.
Proof. right. vm_compute. discriminate. Qed.

(** C12: the full claim is false: every integer other than 0 and 1 is reported prime. *)
Theorem C12_is_prime_partial : forall n, is_prime n = negb ((n =? 0) || (n =? 1)).
Proof. exact is_prime_always. Qed.
Print Assumptions C12_is_prime_partial.
(** What does hold: every prime is reported prime. *)
Theorem C12_primes_accepted_partial : forall n, prime n -> is_prime n = true.
Proof.
  intros n Hn. rewrite is_prime_always. apply prime_ge_2 in Hn.
  destruct (Z.eqb_spec n 0); [subst; exfalso; now apply Hn|].
  destruct (Z.eqb_spec n 1); [subst; exfalso; now apply Hn|]. reflexivity.
Qed.
Print Assumptions C12_primes_accepted_partial.
Theorem C12_is_prime_refuted : exists n, 0 < n /\ is_prime n = true /\ ~ prime n.
Proof.
  exists 4. split; [reflexivity|]. split; [reflexivity|]. intro H. destruct H as [_ H].
  assert (R : rel_prime 2 4) by (apply H; split; [discriminate|reflexivity]).
  apply Zis_gcd_gcd in R; [|discriminate]. vm_compute in R. discriminate R.
Qed.
Print Assumptions C12_is_prime_refuted.
Theorem C12_n_prime_factors_partial : forall fuel n,
  n_prime_factors fuel n = Some (if (n =? 0) || (n =? 1) then 0%nat else 1%nat).
Proof. exact n_prime_factors_always. Qed.
Print Assumptions C12_n_prime_factors_partial.
Print Assumptions C08_zero_divisor_panics.
Print Assumptions C09_zero_panics.
