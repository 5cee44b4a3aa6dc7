(** Model of the integer part of alg/src/commutative.rs (PID for isize/i8/../i128, gcd, bezout).
    Arithmetic goes through [chk]: [chk z = Some z] when the result is representable and [None] for an
    overflow panic.  [ideal] never overflows (unbounded integers); [width w] is the w-bit signed type. *)
From Coq Require Import ZArith List Bool.
Import ListNotations.
Open Scope Z_scope.

Definition obind {A B} (x : option A) (f : A -> option B) : option B :=
  match x with None => None | Some a => f a end.
Notation "'do' x <- e ; f" := (obind e (fun x => f)) (at level 200, x name, e at level 100, f at level 200).

(** Overflow policies (debug-mode Rust panics on overflow). *)
Definition ideal (z : Z) : option Z := Some z.
Definition width (w : Z) (z : Z) : option Z :=
  if (- 2 ^ (w - 1) <=? z) && (z <=? 2 ^ (w - 1) - 1) then Some z else None.

Section Pid.
  Variable chk : Z -> option Z.

  (** alg/src/commutative.rs:146-159 [euclid_div]: truncating [/] and [%] (both panic on d = 0 and on
      MIN / -1), then the remainder is made non-negative. *)
  Definition euclid_div (n d : Z) : option (Z * Z) :=
    if d =? 0 then None else
    do q <- chk (Z.quot n d);
    let r := Z.rem n d in
    if r <? 0 then
      if 0 <? d then do r' <- chk (r + d); do q' <- chk (q - 1); Some (q', r')
      else do r' <- chk (r - d); do q' <- chk (q + 1); Some (q', r')
    else Some (q, r).

  (** alg/src/commutative.rs:161-168 [simplify]. *)
  Definition simplify (n : Z) : option (Z * Z) :=
    let sign := if n <? 0 then -1 else 1 in
    do m <- chk (sign * n); Some (sign, m).

  (** alg/src/commutative.rs:120-122 [divides]. *)
  Definition divides (d n : Z) : option bool :=
    do qr <- euclid_div n d; Some (snd qr =? 0).

  (** alg/src/commutative.rs:191-195 [gcd]; recursion on fuel ([None] when exhausted). *)
  Fixpoint gcd_rec (fuel : nat) (a b : Z) : option Z :=
    match fuel with
    | O => None
    | S f => if a =? 0 then do s <- simplify b; Some (snd s)
             else do qr <- euclid_div b a; gcd_rec f (snd qr) a
    end.

  (** Enough recursion depth for Euclid's algorithm started at [a] (proved sufficient). *)
  Definition euclid_fuel (a : Z) : nat := Z.to_nat (2 * Z.log2 (Z.abs a) + 6).

  Definition gcd (a b : Z) : option Z := gcd_rec (euclid_fuel a) a b.

  (** alg/src/commutative.rs:201-208 [bezout_identity_rec]. *)
  Fixpoint bezout_rec (fuel : nat) (a b x1 x2 y1 y2 : Z) : option (Z * Z * Z) :=
    match fuel with
    | O => None
    | S f =>
        if a =? 0 then
          do s <- simplify b;
          do xq <- euclid_div x2 (fst s);
          do yq <- euclid_div y2 (fst s);
          Some (snd s, fst xq, fst yq)
        else
          do qr <- euclid_div b a;
          do px <- chk (x1 * fst qr);
          do x' <- chk (x2 - px);
          do py <- chk (y1 * fst qr);
          do y' <- chk (y2 - py);
          bezout_rec f (snd qr) a x' x1 y' y1
    end.

  (** alg/src/commutative.rs:197-199 [bezout_identity]. *)
  Definition bezout_identity (a b : Z) : option (Z * Z * Z) := bezout_rec (euclid_fuel a) a b 1 0 0 1.
End Pid.

(** The integer range [lo..hi] (empty if [hi <= lo]). *)
Definition zrange (lo hi : Z) : list Z := map (fun k => lo + Z.of_nat k) (seq 0 (Z.to_nat (hi - lo))).

(** alg/src/commutative.rs:128-131 [is_prime] (note: tests [self/x != 0], not [self % x]). *)
Definition is_prime (n : Z) : bool :=
  if (n =? 0) || (n =? 1) then false
  else forallb (fun x => negb (Z.quot n x =? 0)) (zrange 2 n).

(** alg/src/commutative.rs:138-141: inner loop [while num/x==0 { count += 1; num /= x }]; division by zero
    or an unbounded loop is [None]. *)
Fixpoint npf_inner (fuel : nat) (x num : Z) (count : nat) : option nat :=
  match fuel with
  | O => None
  | S f => if x =? 0 then None
           else if Z.quot num x =? 0 then npf_inner f x (Z.quot num x) (S count) else Some count
  end.
(** alg/src/commutative.rs:133-144 [n_prime_factors]. *)
Definition n_prime_factors (fuel : nat) (n : Z) : option nat :=
  if is_prime n then Some 1%nat
  else fold_left (fun acc x => match acc with None => None | Some c => npf_inner fuel x n c end)
         (filter (fun x => Z.quot n x =? 0) (filter is_prime (zrange 0 n))) (Some 0%nat).
