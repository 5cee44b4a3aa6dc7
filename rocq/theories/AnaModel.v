(** Model of analysis/src/lib.rs: [AtomicSmoothFn], its operations, [eval] and [partial_derivative].
    Simplifications: [f64] is the real numbers of Coq's standard library (no rounding, infinity or NaN), with decidable equality and
    comparison; where the real-valued function is not defined (a negative power of zero, a broken power of a negative number) or the
    program panics (a coordinate that the point does not have), [eval] is [None]; exponents ([i32]) are unbounded integers; the order in
    which a sum or a product of reals is taken is not represented.  [Vec::sort_by] is the insertion sort of LinModel.  Fuel that runs out
    is [None] too (it never does: see AnaProofs).  [Display] is in AnaShowModel; the [PID] methods without content are not modelled. *)
From Coq Require Import List Arith ZArith Bool Reals.
From Verif Require Import PidModel LinModel.
Import ListNotations.

(** analysis/src/lib.rs:221-245 [AtomicSmoothFn]. *)
Inductive afn :=
| AZero
| AOne
| AProj (c : nat)
| ARealPow (f : afn) (a : R)
| ASin (f : afn)
| ACos (f : afn)
| ASum (v : list (R * afn))
| AProd (v : list (Z * afn)).

(** [f64::partial_cmp]. *)
Definition Rcmp (a b : R) : comparison :=
  match total_order_T a b with inleft (left _) => Lt | inleft (right _) => Eq | inright _ => Gt end.
Definition Reqb (a b : R) : bool := if Req_EM_T a b then true else false.
Definition Rltb (a b : R) : bool := if Rlt_dec a b then true else false.

(** The position of a variant. *)
Definition tag (f : afn) : nat :=
  match f with AZero => 0 | AOne => 1 | AProj _ => 2 | ARealPow _ _ => 3 | ASin _ => 4 | ACos _ => 5 | ASum _ => 6 | AProd _ => 7 end.
(** Lexicographic comparison of two vectors of pairs (coefficient, function). *)
Section Lex.
  Context {K : Type}.
  Variable kcmp : K -> K -> comparison.
  Variable cmp : afn -> afn -> comparison.
  Fixpoint vec_cmp (v w : list (K * afn)) : comparison :=
    match v, w with
    | [], [] => Eq
    | [], _ => Lt
    | _, [] => Gt
    | (a, f) :: v', (b, g) :: w' =>
        match kcmp a b with Eq => match cmp f g with Eq => vec_cmp v' w' | c => c end | c => c end
    end.
End Lex.
(** analysis/src/lib.rs:220 [#[derive(PartialEq, PartialOrd)]] (and alg/src/lin_alg.rs:171 for [Vector]); [==] is [a_cmp] giving [Eq]. *)
Fixpoint a_cmp (f g : afn) : comparison :=
  match f, g with
  | AProj m, AProj n => m ?= n
  | ARealPow f a, ARealPow g b => match a_cmp f g with Eq => Rcmp a b | c => c end
  | ASin f, ASin g => a_cmp f g
  | ACos f, ACos g => a_cmp f g
  | ASum v, ASum w => vec_cmp Rcmp a_cmp v w
  | AProd v, AProd w => vec_cmp Z.compare a_cmp v w
  | _, _ => tag f ?= tag g
  end%nat.
Definition a_eqb (f g : afn) : bool := match a_cmp f g with Eq => true | _ => false end.

(** alg/src/lin_alg.rs:360-396 [Vector::sum] for any coefficients (LinModel has the same for integers). *)
Section GVec.
  Context {K : Type}.
  Variable kadd : K -> K -> K.
  Variable kzero : K -> bool.
  Notation vec := (list (K * afn)).
  Notation cur := ((K * afn) * list (K * afn))%type.
  Definition g_take (v : vec) : list cur := match v with [] => [] | x :: t => [(x, t)] end.
  Definition g_cmp (a b : cur) : comparison := a_cmp (snd (fst a)) (snd (fst b)).
  Fixpoint g_leading (b : afn) (l : list cur) : nat :=
    match l with c :: t => if a_eqb (snd (fst c)) b then S (g_leading b t) else O | [] => O end.
  Fixpoint g_loop (fuel : nat) (l : list cur) : option vec :=
    match fuel with
    | O => None
    | S k =>
        match l with
        | [] => Some []
        | ((coeff0, basis), _) :: _ =>
            let n := g_leading basis l in
            let lead := firstn n l in
            let rest := skipn n l in
            let coeff := fold_left (fun c x => kadd c (fst (fst x))) (tl lead) coeff0 in
            let next_iters := sort_by g_cmp (flat_map (fun c => g_take (snd c)) lead) in
            do iters <- merge_collect g_cmp rest next_iters;
            do out <- g_loop k iters;
            Some (if kzero coeff then out else (coeff, basis) :: out)
        end
    end.
  Definition g_sum (vs : list vec) : option vec :=
    g_loop (S (length (concat vs))) (sort_by g_cmp (flat_map g_take vs)).
End GVec.
Definition r_sum : list (list (R * afn)) -> option (list (R * afn)) := g_sum Rplus (fun c => Reqb c 0).
Definition z_sum : list (list (Z * afn)) -> option (list (Z * afn)) := g_sum Z.add (fun c => (c =? 0)%Z).
(** alg/src/lin_alg.rs:248-272 [Neg], [Mul<Coeff>], [Div<Coeff>] of vectors, 205-209 [From<Basis>]. *)
Definition r_scale (c : R) (v : list (R * afn)) : list (R * afn) := map (fun p => (fst p * c, snd p)%R) v.
Definition r_vmul (v : list (R * afn)) (c : R) : list (R * afn) := if Reqb c 0 then [] else r_scale c v.
Definition r_neg (v : list (R * afn)) : list (R * afn) := r_scale (- (1)) v.
Definition r_vdiv (v : list (R * afn)) (c : R) : list (R * afn) := map (fun p => (fst p / c, snd p)%R) v.
Definition z_vmul (v : list (Z * afn)) (c : Z) : list (Z * afn) := if (c =? 0)%Z then [] else map (fun p => (fst p * c, snd p)%Z) v.
Definition r_from (f : afn) : list (R * afn) := [(1%R, f)].
Definition z_from (f : afn) : list (Z * afn) := [(1%Z, f)].

(** analysis/src/lib.rs:183-197 [Mul<f64>]. *)
Definition a_smul (f : afn) (c : R) : afn :=
  if a_eqb f AZero || Reqb c 0 then AZero
  else if Reqb c 1 then f
  else match f with ASum v => ASum (r_scale c v) | _ => ASum (r_vmul (r_from f) c) end.
(** analysis/src/lib.rs:201-217 [Div<f64>]. *)
Definition a_sdiv (f : afn) (c : R) : option afn :=
  if Reqb c 0 then None
  else if a_eqb f AZero then Some f
  else if Reqb c 1 then Some f
  else Some (match f with ASum v => ASum (r_vdiv v c) | _ => ASum (r_vdiv (r_from f) c) end).
(** analysis/src/lib.rs:34-40 and 319-323: the vector of a summand. *)
Definition summand (f : afn) : list (R * afn) := match f with ASum v => v | _ => r_from f end.
(** analysis/src/lib.rs:30-56 [Sum::sum]. *)
Definition a_sum (l : list afn) : option afn :=
  do out <- r_sum (map summand (filter (fun s => negb (a_eqb s AZero)) l));
  Some (match out with
        | [(coeff, basis)] => a_smul basis coeff
        | [] => AZero
        | _ => ASum out
        end).
(** analysis/src/lib.rs:17-22 [Add]. *)
Definition a_add (f g : afn) : option afn := a_sum [f; g].
(** analysis/src/lib.rs:58-74 [Sub]. *)
Definition a_sub (f g : afn) : option afn :=
  do out <- match f, g with
            | ASum v, ASum w => r_sum [v; r_neg w]
            | ASum v, _ => r_sum [v; r_neg (r_from g)]
            | _, ASum w => r_sum [r_neg w; r_from f]
            | _, _ => r_sum [r_from f; r_neg (r_from g)]
            end;
  Some (ASum out).
(** analysis/src/lib.rs:82-92 [Neg]. *)
Definition a_neg (f : afn) : afn := ASum (match f with ASum v => r_neg v | _ => r_neg (r_from f) end).
(** analysis/src/lib.rs:355-368 [powi]. *)
Definition a_powi (f : afn) (e : Z) : afn :=
  if (e =? 1)%Z then f else if (e =? 0)%Z then AOne
  else match f with AProd v => AProd (z_vmul v e) | _ => AProd (z_vmul (z_from f) e) end.
(** analysis/src/lib.rs:133-139: the vector of a factor. *)
Definition factor_vec (f : afn) : list (Z * afn) := match f with AProd v => v | _ => z_from f end.
(** analysis/src/lib.rs:129-159 [Product::product]. *)
Definition a_prod (l : list afn) : option afn :=
  do out <- z_sum (map factor_vec (filter (fun s => negb (a_eqb s AOne)) l));
  Some (if existsb (fun p => a_eqb (snd p) AZero) out then AZero
        else match out with
             | [(coeff, basis)] => a_powi basis coeff
             | [] => AOne
             | _ => AProd out
             end).
(** analysis/src/lib.rs:95-121 [Mul]; the outer recursion is on the left factor, the inner one on the right. *)
Fixpoint a_mul (f : afn) : afn -> option afn :=
  fix mul_r (g : afn) : option afn :=
    if a_eqb f AZero || a_eqb g AZero then Some AZero
    else if a_eqb f AOne then Some g
    else if a_eqb g AOne then Some f
    else match f with
         | ASum [(coeff, basis)] => do h <- a_mul basis g; Some (a_smul h coeff)
         | ASum _ => a_prod [f; g]
         | _ => match g with
                | ASum [(coeff, basis)] => do h <- mul_r basis; Some (a_smul h coeff)
                | _ => a_prod [f; g]
                end
         end.
(** analysis/src/lib.rs:162-167 [Div]. *)
Definition a_div (f g : afn) : option afn := a_mul f (a_powi g (-1)).
(** analysis/src/lib.rs:283-285 [euclid_div]. *)
Definition a_euclid_div (f d : afn) : option (afn * afn) := do q <- a_div f d; Some (q, AZero).
(** analysis/src/lib.rs:370-384 [powf], [sin], [cos]. *)
Definition a_powf (f : afn) (a : R) : afn := if Reqb a 1 then f else ARealPow f a.
Definition a_sin (f : afn) : afn := ASin f.
Definition a_cos (f : afn) : afn := ACos f.

(** [f64::powi]. *)
Definition powi (v : R) (e : Z) : option R := if Reqb v 0 && (e <? 0)%Z then None else Some (powerRZ v e).
(** [f64::powf]. *)
Definition is_int (a : R) : bool := Reqb a (IZR (Int_part a)).
Definition powf (v a : R) : option R :=
  if is_int a then powi v (Int_part a)
  else if Reqb v 0 then (if Rltb 0 a then Some 0%R else None)
  else if Rltb 0 v then Some (Rpower v a) else None.
(** analysis/src/lib.rs:247-263 [eval]; the point is the list of the entries of the column. *)
Fixpoint eval (x : list R) (f : afn) : option R :=
  match f with
  | AZero => Some 0%R
  | AOne => Some 1%R
  | AProj c => nth_error x c
  | ARealPow f a => do v <- eval x f; powf v a
  | ASin f => do v <- eval x f; Some (sin v)
  | ACos f => do v <- eval x f; Some (cos v)
  | ASum v => fold_right (fun p s => do y <- eval x (snd p); do r <- s; Some (fst p * y + r)%R) (Some 0%R) v
  | AProd v => fold_right (fun p s => do y <- eval x (snd p); do z <- powi y (fst p); do r <- s; Some (z * r)%R) (Some 1%R) v
  end.

(** [omapM] in a form the nested recursion below accepts. *)
Section OMap.
  Context {A B : Type}.
  Variable f : A -> option B.
  Fixpoint omap (l : list A) : option (list B) :=
    match l with [] => Some [] | x :: t => do y <- f x; do r <- omap t; Some (y :: r) end.
End OMap.
(** analysis/src/lib.rs:329-340: the [i]-th term of the derivative of a product, [df] being the derivative of its factor. *)
Definition product_term (v : list (Z * afn)) (i : nat) (df : afn) : option afn :=
  match nth_error v i with
  | None => None
  | Some (e, f) =>
      let clone := firstn i v ++ skipn (S i) v in
      if a_eqb df AZero then Some AZero
      else match clone with
           | [(coeff, basis)] =>
               if (e =? 1)%Z && a_eqb df AOne then Some (a_powi basis coeff)
               else do p <- a_mul (AProd clone) (a_powi f (e - 1)); a_mul (a_smul p (IZR e)) df
           | _ => do p <- a_mul (AProd clone) (a_powi f (e - 1)); a_mul (a_smul p (IZR e)) df
           end
  end.
(** analysis/src/lib.rs:304-345 [partial_derivative]. *)
Fixpoint pderiv (n : nat) (f : afn) : option afn :=
  match f with
  | AZero => Some AZero
  | AOne => Some AZero
  | AProj m => Some (if n =? m then AOne else AZero)%nat
  | ASin f => do d <- pderiv n f; a_mul (ACos f) d
  | ACos f => do d <- pderiv n f; a_mul (a_neg (ASin f)) d
  | ARealPow f a => do d <- pderiv n f; do p <- a_mul (ARealPow f (a - 1)) d; Some (a_smul p a)
  | ASum v =>
      do ds <- omap (fun p => do d <- pderiv n (snd p); Some (fst p, d)) v;
      do out <- r_sum (map (fun p => r_vmul (summand (snd p)) (fst p))
                         (filter (fun p => negb (a_eqb (snd p) AZero)) ds));
      a_add (ASum out) AZero
  | AProd v =>
      do dfs <- omap (fun p => pderiv n (snd p)) v;
      do ts <- omap (fun k => product_term v (fst k) (snd k)) (combine (seq 0 (length v)) dfs);
      a_sum (filter (fun t => negb (a_eqb t AZero)) ts)
  end.
(** analysis/src/lib.rs:347-354 [jacobian]: the row of the partial derivatives ([Matrix::zero(1, 0)] panics). *)
Definition a_jacobian (f : afn) (dim : nat) : option (list afn) :=
  if (0 <? dim)%nat then omap (fun i => pderiv i f) (seq 0 dim) else None.
