(** Model of alg/src/lin_alg/const_matrix_impl.rs: [ConstVector<T, N>] and [ConstMatrix<T, N_ROW, N_COL>].
    The const sizes are type parameters in Rust; here an array is a list and the theorems assume the length.
    Simplifications: coefficient arithmetic is exact; [two_norm] (f64 only) is in [NormFloatModel]. *)
From Coq Require Import List Arith Bool.
From Verif Require Import PidModel MatModel.
Import ListNotations.
Open Scope nat_scope.

Section Const.
  Context {T : Type} {OT : Ops T}.
  (** alg/src/lin_alg.rs:36-40 *)
  Definition cvec := list T.
  Definition cmat := list (list T).

  (** [xs.iter_mut().zip(ys).for_each(|(x, y)| *x = f( *x, y))]: what is left of [ys] is returned, entries of [xs] without a
      partner are unchanged. *)
  Fixpoint zip_mut (f : T -> T -> T) (xs ys : list T) : list T * list T :=
    match xs, ys with
    | x :: xs', y :: ys' => let (r, rest) := zip_mut f xs' ys' in (f x y :: r, rest)
    | _, _ => (xs, ys)
    end.
  (** [m.iter_mut().map(|r| r.iter_mut()).flatten().zip(ys)...]: rows one after the other, one stream [ys]. *)
  Fixpoint zip_flat_mut (f : T -> T -> T) (m : cmat) (ys : list T) : cmat :=
    match m with
    | [] => []
    | r :: m' => let (r', rest) := zip_mut f r ys in r' :: zip_flat_mut f m' rest
    end.

  (** const_matrix_impl.rs:47-53, 101-107 [+], [+=]; :56-62, 110-116 [-], [-=]. *)
  Definition cv_add (a b : cvec) : cvec := fst (zip_mut tadd a b).
  Definition cv_sub (a b : cvec) : cvec := fst (zip_mut tsub a b).
  (** :65-71, 118-123 [* scalar]; :82-88, 125-130 [/ scalar] (same loop with the field division); :134-141 [neg]. *)
  Definition cv_mul (a : cvec) (c : T) : cvec := map (fun x => tmul x c) a.
  Definition cv_div (tdiv : T -> T -> T) (a : cvec) (c : T) : cvec := map (fun x => tdiv x c) a.
  Definition cv_neg (a : cvec) : cvec := map topp a.
  (** :144-163 [+=], [-=] on matrices; [rhs.into_iter().map(into_iter).flatten()]. *)
  Definition cm_add (a b : cmat) : cmat := zip_flat_mut tadd a (concat b).
  Definition cm_sub (a b : cmat) : cmat := zip_flat_mut tsub a (concat b).
  (** :73-79, 165-172; :91-97, 174-181; :185-194. *)
  Definition cm_mul (a : cmat) (c : T) : cmat := map (map (fun x => tmul x c)) a.
  Definition cm_div (tdiv : T -> T -> T) (a : cmat) (c : T) : cmat := map (map (fun x => tdiv x c)) a.
  Definition cm_neg (a : cmat) : cmat := map (map topp) a.
  (** :206-208 [zero], :210-212 [dot] ([Sum] folds from zero). *)
  Definition cv_zero (n : nat) : cvec := repeat t0 n.
  Definition cv_dot (a b : cvec) : T := fold_left tadd (map (fun p => tmul (fst p) (snd p)) (combine a b)) t0.
  (** :222-224 [zero], :228-234 [identity]; indexing out of bounds panics. *)
  Definition cm_zero (n m : nat) : cmat := repeat (repeat t0 m) n.
  Definition cm_set (a : cmat) (i j : nat) (x : T) : option cmat :=
    do r <- nth_error a i; if j <? length r then Some (lset a i (lset r j x)) else None.
  Definition cm_identity (n : nat) : option cmat := foldM (fun m i => cm_set m i i t1) (seq 0 n) (cm_zero n n).
  (** :237-247 [From<[ConstVector; N_COL]>]. *)
  Definition cm_from_columns (n m : nat) (value : list cvec) : option cmat :=
    foldM (fun M j => foldM (fun M i => do v <- nth_error value j; do x <- nth_error v i; cm_set M i j x) (seq 0 n) M)
      (seq 0 m) (cm_zero n m).
End Const.
