(** Specification vocabulary for Rational: Coq's rational numbers. *)
From Coq Require Import ZArith QArith Qabs List Bool.
From Verif Require Import PidModel RationalModel.
Import ListNotations.
Open Scope Z_scope.

(** The rational number denoted (for positive denominators). *)
Definition toQ (r : rational) : Q := Qmake (if sign r then num r else - num r) (Z.to_pos (den r)).

(** Lowest terms, positive denominator, unique zero. *)
Definition canonical (r : rational) : Prop :=
  0 <= num r /\ 0 < den r /\ Z.gcd (num r) (den r) = 1 /\ (num r = 0 -> sign r = true).

(** Programs over Rational. *)
Inductive rexp :=
| RNew (n d : Z)
| RAdd (e f : rexp) | RSub (e f : rexp) | RMul (e f : rexp) | RDiv (e f : rexp) | RNeg (e : rexp) | RAbs (e : rexp).

Fixpoint run (chk : Z -> option Z) (e : rexp) : option rational :=
  match e with
  | RNew n d => rnew chk n d
  | RAdd e f => do x <- run chk e; do y <- run chk f; radd chk x y
  | RSub e f => do x <- run chk e; do y <- run chk f; rsub chk x y
  | RMul e f => do x <- run chk e; do y <- run chk f; rmul chk x y
  | RDiv e f => do x <- run chk e; do y <- run chk f; rdiv chk x y
  | RNeg e => do x <- run chk e; Some (rneg x)
  | RAbs e => do x <- run chk e; Some (rabs x)
  end.

(** The same program over Q; a zero denominator or divisor is an error. *)
Fixpoint evalQ (e : rexp) : option Q :=
  match e with
  | RNew n d => if d =? 0 then None else Some (inject_Z n / inject_Z d)%Q
  | RAdd e f => do x <- evalQ e; do y <- evalQ f; Some (x + y)%Q
  | RSub e f => do x <- evalQ e; do y <- evalQ f; Some (x - y)%Q
  | RMul e f => do x <- evalQ e; do y <- evalQ f; Some (x * y)%Q
  | RDiv e f => do x <- evalQ e; do y <- evalQ f; if Qeq_bool y 0 then None else Some (x / y)%Q
  | RNeg e => do x <- evalQ e; Some (- x)%Q
  | RAbs e => do x <- evalQ e; Some (Qabs x)
  end.

(** No unary minus is applied to a subterm of value zero. *)
Fixpoint neg_safe (e : rexp) : Prop :=
  match e with
  | RNew _ _ => True
  | RAdd e f | RSub e f | RMul e f | RDiv e f => neg_safe e /\ neg_safe f
  | RAbs e => neg_safe e
  | RNeg e => neg_safe e /\ (forall q, evalQ e = Some q -> ~ (q == 0)%Q)
  end.

(** The result [o] of a run is exactly what the rational-number result [q] demands: a panic for an error,
    else a canonical Rational of that value. *)
Definition denotes (o : option rational) (q : option Q) : Prop :=
  match q with None => o = None | Some q => exists r, o = Some r /\ canonical r /\ (toQ r == q)%Q end.

Fixpoint qsum (l : list Q) : Q := match l with [] => 0%Q | x :: l => (x + qsum l)%Q end.
Fixpoint qprod (l : list Q) : Q := match l with [] => 1%Q | x :: l => (x * qprod l)%Q end.
