(** Model of geom/src/lib.rs: [Triangle::circum_circle_contains] and [delaunay_triangulation].
    The arithmetic of [f64] is a parameter [Num]: the theorems about indices hold whatever it computes (rounding, NaN and infinity
    included), the geometrical ones take the instance [Rnum], the real numbers of Coq's standard library, where nothing is rounded.
    [ConstVector<f64, 2>] is a pair, [ConstMatrix<f64, 2, 2>] a pair of rows, [[usize; 3]] a triple.  A panic is [None].
    Simplifications: [usize] does not overflow in [points.len() + 2]. *)
From Coq Require Import List Arith Bool Reals.
From Verif Require Import UtilModel PidModel LinModel.
Import ListNotations.
Open Scope nat_scope.

(** [f64]: [ncmp] is [partial_cmp] ([None] when a NaN is compared), [nltb] is [<], [nof] is [as f64]. *)
Record Num := mkNum {
  nT : Type;
  n0 : nT; nof : nat -> nT;
  nadd : nT -> nT -> nT; nsub : nT -> nT -> nT; nmul : nT -> nT -> nT; ndiv : nT -> nT -> nT;
  nneg : nT -> nT; nsqrt : nT -> nT;
  nltb : nT -> nT -> bool; ncmp : nT -> nT -> option comparison }.

(** Three indices, the type [[usize; 3]], and its derived [==]. *)
Definition tri := (nat * nat * nat)%type.
Definition tri_eqb (t u : tri) : bool :=
  let '(a, b, c) := t in let '(x, y, z) := u in (a =? x) && (b =? y) && (c =? z).
Definition tri_list (t : tri) : list nat := let '(a, b, c) := t in [a; b; c].
(** [<[usize; 3]>::sort]. *)
Definition tri_sort (a b c : nat) : option tri :=
  match sort_by Nat.compare [a; b; c] with [x; y; z] => Some (x, y, z) | _ => None end.
Fixpoint list_eqb (l m : list nat) : bool :=
  match l, m with [], [] => true | x :: l', y :: m' => (x =? y) && list_eqb l' m' | _, _ => false end.
(** util/src/lib.rs:443-451: [t.tuple_iter(2)] of an array of three elements; four calls of [next]. *)
Definition tri_edges (t : tri) : option (list (list nat)) := tuple_iter_collect 4 (tri_list t) 2.

(** A loop that can panic. *)
Fixpoint ofold {A B} (f : A -> B -> option A) (l : list B) (a : A) : option A :=
  match l with [] => Some a | x :: l' => do a' <- f a x; ofold f l' a' end.

Section Geom.
  Variable N : Num.
  Notation T := (nT N).
  Definition vec := (T * T)%type.
  (** alg/src/lin_alg/const_matrix_impl.rs:47-53, 56-62, 65-71, 82-88 and 205-208: operators of [ConstVector<f64, 2>]. *)
  Definition v_add (u v : vec) : vec := (nadd N (fst u) (fst v), nadd N (snd u) (snd v)).
  Definition v_sub (u v : vec) : vec := (nsub N (fst u) (fst v), nsub N (snd u) (snd v)).
  Definition v_mul (u : vec) (c : T) : vec := (nmul N (fst u) c, nmul N (snd u) c).
  Definition v_div (u : vec) (c : T) : vec := (ndiv N (fst u) c, ndiv N (snd u) c).
  Definition v_zero : vec := (n0 N, n0 N).
  (** const_matrix_impl.rs:215-219 [two_norm]: the sum of the squares starts from zero. *)
  Definition two_norm (u : vec) : T :=
    nsqrt N (nadd N (nadd N (n0 N) (nmul N (fst u) (fst u))) (nmul N (snd u) (snd u))).
  (** A matrix, given by its rows. *)
  Definition mat22 := (vec * vec)%type.
  (** const_matrix_impl.rs:237-247 [From<[ConstVector; N_COL]>]: the vectors are the columns. *)
  Definition from_columns (u v : vec) : mat22 := ((fst u, fst v), (snd u, snd v)).

  (** geom/src/lib.rs:25-30 [orthogonal]. *)
  Definition orthogonal (m : vec) : vec := (nneg N (snd m), fst m).
  (** geom/src/lib.rs:31-37 [inverse]; [From<[[T; N_COL]; N_ROW]>] takes rows, [/] divides each entry. *)
  Definition inverse (m : mat22) : mat22 :=
    let m00 := fst (fst m) in let m01 := snd (fst m) in let m10 := fst (snd m) in let m11 := snd (snd m) in
    let det := nsub N (nmul N m00 m11) (nmul N m10 m01) in
    (v_div (m11, nneg N m01) det, v_div (nneg N m10, m00) det).
  (** geom/src/lib.rs:11-15 [Sphere::contains]. *)
  Definition sphere_contains (radius : T) (center : vec) (p : vec) : bool := nltb N (two_norm (v_sub p center)) radius.
  (** geom/src/lib.rs:18-21 [Triangle]. *)
  Definition triangle := (vec * vec * vec)%type.
  (** geom/src/lib.rs:24-51 [circum_circle_contains]. *)
  Definition circum_circle_contains (t : triangle) (p : vec) : bool :=
    let '(d0, d1, d2) := t in
    let two := nof N 2 in
    let a := v_add d0 (v_div (v_sub d1 d0) two) in
    let b := orthogonal (v_sub d1 d0) in
    let c := v_add d0 (v_div (v_sub d2 d0) two) in
    let d := orthogonal (v_sub d2 d0) in
    let m := from_columns b (v_mul d (nneg N (nof N 1))) in
    let m_inv := inverse m in
    let t := nadd N (nmul N (fst (fst m_inv)) (fst (v_sub c a))) (nmul N (snd (fst m_inv)) (snd (v_sub c a))) in
    let center := v_add a (v_mul b t) in
    let radius := two_norm (v_sub d0 center) in
    sphere_contains radius center p.

  (** [Iterator::max_by(|p, q| p.partial_cmp(q).unwrap())]: the later of two equal elements is kept, [None] for a panic. *)
  Definition max_step (m x : T) : option T :=
    do c <- ncmp N m x; Some (match c with Gt => m | _ => x end).
  Definition max_by (l : list T) : option T :=
    match l with [] => None | x :: l' => ofold max_step l' x end.

  (** geom/src/lib.rs:59-72 [original_points]; the [unwrap] of [max_by] panics when there are no points. *)
  Definition original_points (points : list vec) : option (vec * vec * vec) :=
    let center := v_div (fold_left v_add points v_zero) (nof N (length points)) in
    do mx <- max_by (map (fun p => two_norm (v_sub p center)) points);
    let r := nadd N mx (nof N 1) in
    let p1 := v_add center (n0 N, nmul N (nof N 2) r) in
    let p2 := v_add center (nmul N (nsqrt N (nof N 3)) r, nneg N r) in
    let p3 := v_add center (nmul N (nneg N (nsqrt N (nof N 3))) r, nneg N r) in
    Some (p1, p2, p3).

  Section Run.
    Variable points : list vec.
    Variable orig : vec * vec * vec.
    (** geom/src/lib.rs:74-80 [index]; [original_points[i - n]] panics beyond the three vertices. *)
    Definition index (i : nat) : option vec :=
      if i <? length points then nth_error points i
      else let '(p1, p2, p3) := orig in nth_error [p1; p2; p3] (i - length points).
    (** geom/src/lib.rs:86-92: the triangles whose circumscribed circle contains point [i]. *)
    Definition bad_test (i : nat) (t : tri) : option bool :=
      let '(t0, t1, t2) := t in
      do a <- index t0; do b <- index t1; do c <- index t2;
      do p <- nth_error points i; Some (circum_circle_contains (a, b, c) p).
    Definition bad_triangles (i : nat) (triangulation : list tri) : option (list tri) :=
      ofold (fun bad t => do b <- bad_test i t; Some (if b then bad ++ [t] else bad)) triangulation [].
    (** geom/src/lib.rs:96-103: the edge is in no other bad triangle. *)
    Definition edge_is_free (bad : list tri) (triangle : tri) (edge : list nat) : option bool :=
      do es <- ofold (fun acc t => do es <- tri_edges t; Some (acc ++ es))
                 (filter (fun t => negb (tri_eqb t triangle)) bad) [];
      Some (forallb (fun e => negb (list_eqb e edge)) es).
    (** geom/src/lib.rs:94-107 [polygon]. *)
    Definition polygon (bad : list tri) : option (list (nat * nat)) :=
      ofold (fun poly triangle =>
               do es <- tri_edges triangle;
               ofold (fun poly edge =>
                        do free <- edge_is_free bad triangle edge;
                        if free then match edge with x :: y :: _ => Some (poly ++ [(x, y)]) | _ => None end
                        else Some poly) es poly) bad [].
    (** geom/src/lib.rs:85-115: insertion of point [i]. *)
    Definition insert_point (triangulation : list tri) (i : nat) : option (list tri) :=
      do bad <- bad_triangles i triangulation;
      do poly <- polygon bad;
      let kept := filter (fun x => negb (existsb (tri_eqb x) bad)) triangulation in
      ofold (fun acc e => do t <- tri_sort (fst e) (snd e) i; Some (acc ++ [t])) poly kept.
    (** geom/src/lib.rs:82-116: all insertions, from the single triangle of the three auxiliary vertices. *)
    Definition full_triangulation : option (list tri) :=
      let n := length points in ofold insert_point (seq 0 n) [(n, n + 1, n + 2)].
    (** geom/src/lib.rs:118: triangles without auxiliary vertices. *)
    Definition inner (t : tri) : bool := forallb (fun i => i <? length points) (tri_list t).
    (** geom/src/lib.rs:120-124: the [assert!] and the points of a triangle. *)
    Definition out_triangle (t : tri) : option triangle :=
      let '(t0, t1, t2) := t in
      if negb (t0 =? t1) && negb (t0 =? t2) && negb (t1 =? t2) then
        do a <- nth_error points t0; do b <- nth_error points t1; do c <- nth_error points t2; Some (a, b, c)
      else None.
  End Run.

  (** geom/src/lib.rs:58-127 [delaunay_triangulation]. *)
  Definition delaunay_triangulation (points : list vec) : option (list triangle * list tri) :=
    do orig <- original_points points;
    do full <- full_triangulation points orig;
    let triangulation := filter (inner points) full in
    do out <- ofold (fun acc t => do x <- out_triangle points t; Some (acc ++ [x])) triangulation [];
    Some (out, triangulation).
End Geom.

(** The real numbers in place of [f64]; [partial_cmp] always succeeds. *)
Definition Rnum : Num := mkNum R 0%R INR Rplus Rminus Rmult Rdiv Ropp sqrt
  (fun a b => if Rlt_dec a b then true else false)
  (fun a b => Some (match total_order_T a b with inleft (left _) => Lt | inleft (right _) => Eq | inright _ => Gt end)).
