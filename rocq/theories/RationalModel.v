(** Model of alg/src/commutative/rational_impl.rs (struct Rational, commutative.rs:62-67).
    Numerator and denominator (u64) are kept in [Z]; every u64 result goes through [chk] ([None] = overflow
    or underflow panic): [nonneg] is the unbounded unsigned type, [u64] the machine type.
    [num::integer::gcd] (an external crate) is taken to be the mathematical gcd, with gcd(0,0) = 0. *)
From Coq Require Import ZArith List Bool.
From Verif Require Import PidModel.
Import ListNotations.
Open Scope Z_scope.

Definition nonneg (z : Z) : option Z := if 0 <=? z then Some z else None.
Definition u64 (z : Z) : option Z := if (0 <=? z) && (z <? 2 ^ 64) then Some z else None.

(** commutative.rs:62-67. *)
Record rational := mkR { num : Z; den : Z; sign : bool }.

(** commutative.rs:62 derived [PartialEq]: fieldwise. *)
Definition req (r s : rational) : bool :=
  (num r =? num s) && (den r =? den s) && Bool.eqb (sign r) (sign s).

Section R.
  Variable chk : Z -> option Z.

  (** u64 division: panics on zero divisor. *)
  Definition udiv (a b : Z) : option Z := if b =? 0 then None else Some (a / b).

  (** rational_impl.rs:39-51 [optimize]. *)
  Definition optimize (r : rational) : option rational :=
    if num r =? 0 then Some (mkR 0 1 true)
    else
      let g := Z.gcd (num r) (den r) in
      do n <- udiv (num r) g;
      do d <- udiv (den r) g;
      Some (mkR n d (sign r)).

  (** rational_impl.rs:22-33 [new] ([n.abs() as u64]: the absolute value is checked like a u64; for i64
      arguments other than MIN it always fits). *)
  Definition rnew (n d : Z) : option rational :=
    if d =? 0 then None else
    do an <- chk (Z.abs n);
    do ad <- chk (Z.abs d);
    optimize (mkR an ad (Bool.eqb (0 <=? n) (0 <=? d))).

  (** rational_impl.rs:35-37 [from]. *)
  Definition rfrom (n : Z) : option rational := rnew n 1.

  (** rational_impl.rs:53-56 [abs]. *)
  Definition rabs (r : rational) : rational := mkR (num r) (den r) true.

  (** rational_impl.rs:187-197 [zero], [one]. *)
  Definition rzero : rational := mkR 0 1 true.
  Definition rone : rational := mkR 1 1 true.

  (** rational_impl.rs:67-83 [cmp]. *)
  Definition rcmp (r s : rational) : option comparison :=
    let gn := Z.gcd (num r) (num s) in
    let gd := Z.gcd (den r) (den s) in
    do n1 <- udiv (num r) gn;
    do d2 <- udiv (den s) gd;
    do a <- chk (n1 * d2);
    do n2 <- udiv (num s) gn;
    do d1 <- udiv (den r) gd;
    do b <- chk (n2 * d1);
    Some (if sign r && sign s then a ?= b
          else if negb (sign r) && negb (sign s) then b ?= a
          else if sign r && negb (sign s) then Gt
          else Lt).

  (** rational_impl.rs:100-125 [add]. *)
  Definition radd (r s : rational) : option rational :=
    let g := Z.gcd (den r) (den s) in
    do ns <-
      (if Bool.eqb (sign r) (sign s) then
         do e2 <- udiv (den s) g; do p <- chk (num r * e2);
         do e1 <- udiv (den r) g; do q <- chk (e1 * num s);
         do n <- chk (p + q); Some (n, sign r)
       else
         do c <- rcmp (rabs r) (rabs s);
         match c with
         | Lt =>
           do e1 <- udiv (den r) g; do p <- chk (e1 * num s);
           do e2 <- udiv (den s) g; do q <- chk (num r * e2);
           do n <- chk (p - q); Some (n, sign s)
         | _ =>
           do e2 <- udiv (den s) g; do p <- chk (num r * e2);
           do e1 <- udiv (den r) g; do q <- chk (e1 * num s);
           do n <- chk (p - q); Some (n, sign r)
         end);
    do e2 <- udiv (den s) g;
    do d <- chk (den r * e2);
    optimize (mkR (fst ns) d (snd ns)).

  (** rational_impl.rs:135-147 [mul]. *)
  Definition rmul (r s : rational) : option rational :=
    do n <- chk (num r * num s);
    do d <- chk (den r * den s);
    optimize (mkR n d (Bool.eqb (sign r) (sign s))).

  (** rational_impl.rs:179-185 [neg]. *)
  Definition rneg (r : rational) : rational := mkR (num r) (den r) (negb (sign r)).

  (** rational_impl.rs:127-133 [sub]. *)
  Definition rsub (r s : rational) : option rational :=
    do t <- rmul s (rneg rone); radd r t.

  (** rational_impl.rs:149-162 [div]. *)
  Definition rdiv (r s : rational) : option rational :=
    if req s rzero then None else
    do n <- chk (num r * den s);
    do d <- chk (den r * num s);
    optimize (mkR n d (Bool.eqb (sign r) (sign s))).

  (** rational_impl.rs:206-210 [Sum]. *)
  Definition rsum (l : list rational) : option rational :=
    fold_left (fun acc a => do x <- acc; radd x a) l (Some rzero).

  (** rational_impl.rs:212-216 [Product] (note: starts from zero). *)
  Definition rproduct (l : list rational) : option rational :=
    fold_left (fun acc a => do x <- acc; rmul x a) l (Some rzero).
End R.
