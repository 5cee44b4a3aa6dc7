(** Model of topo_spaces/src/lib.rs: [HomologyWithFieldCoefficients::homology] and [IntegralHomology::new], and of the change of
    basis [Matrix<i64> * Vec<Basis>] (alg/src/lin_alg/matrix_impl.rs:1120-1133).
    Simplifications: integer arithmetic is exact ([ideal]); the complex is given by what [boundary_map()] returns, a list of
    (matrix, basis) pairs; the descriptions as strings (lib.rs:144-168, 176-184) are not modelled. *)
From Coq Require Import List Arith ZArith Bool.
From Verif Require Import PidModel LinModel MatModel SnfModel RankModel.
Import ListNotations.
Open Scope nat_scope.

Section Field.
  Context {T : Type} {OT : Ops T} {FT : FOps T}.
  (** usize subtraction *)
  Definition subM (a b : nat) : option nat := if b <=? a then Some (a - b) else None.
  (** topo_spaces/src/lib.rs:18-22: [kernel] and the remaining [im_and_ker] *)
  Fixpoint field_loop (kernel : nat) (l : list (nat * nat)) : option (list nat * nat) :=
    match l with
    | [] => Some ([], kernel)
    | (im, ker) :: t => do h <- subM kernel im; do r <- field_loop ker t; Some (h :: fst r, snd r)
    end.
  (** topo_spaces/src/lib.rs:5-26 [homology] *)
  Definition field_homology (ds : list (mat T)) : option (list nat) :=
    match ds with
    | [] => Some []
    | _ =>
        do ik <- omapM (fun d => do im <- rank_as_linear_map d; do ker <- subM (nc d) im; Some (im, ker)) ds;
        match ik with
        | [] => None
        | (_, ker0) :: t => do r <- field_loop ker0 t; Some (fst r ++ [snd r])
        end
    end.
End Field.

Section Integral.
  Context {B : Type}.
  Variable cmp : B -> B -> comparison.
  Notation vec := (list (Z * B)).

  (** alg/src/lin_alg/matrix_impl.rs:1120-1133 [Matrix<i64> * Vec<Basis>] *)
  Definition change_basis (M : mat Z) (bs : list B) : option (list vec) :=
    if nc M =? length bs then
      omapM (fun i => do l <- omapM (fun j => do c <- mget M i j; do b <- nth_error bs j; b_scale ideal c b) (seq 0 (nc M));
                      vsum ideal cmp l) (seq 0 (nr M))
    else None.

  (** The three variables updated by the closure (lib.rs:48-50). *)
  Record hst := { h_rank : nat; h_divs : list (Z * nat); h_row : mat Z }.

  (** topo_spaces/src/lib.rs:83-90: the inner [while]; [i] is the index of the boundary. *)
  Fixpoint divisor_at (ds : list (Z * nat)) (i : nat) : option Z :=
    match ds with
    | [] => None
    | (d, m) :: t => if m <=? i then divisor_at t (i - m) else Some d
    end.
  (** topo_spaces/src/lib.rs:96-107: run-length encoding of the divisors. *)
  Definition push_divisor (ds : list (Z * nat)) (d : Z) : list (Z * nat) :=
    match rev ds with
    | (e, m) :: r => if (e =? d)%Z then rev ((e, m + 1) :: r) else ds ++ [(d, 1)]
    | [] => [(d, 1)]
    end.
  (** topo_spaces/src/lib.rs:61-65 [rank_of_lower_map] *)
  Definition rank_of_diag (D : mat Z) : option nat :=
    let shorter := Nat.min (nr D) (nc D) in
    do o <- findM (fun i => equalsM D i i 0%Z) (rng 0 shorter);
    Some (match o with Some i => i | None => shorter end).

  (** topo_spaces/src/lib.rs:54-114: the closure. *)
  Definition hom_step (st : hst) (bm : mat Z * list B) : option ((module_ * list vec * list vec) * hst) :=
    do snf5 <- smith_normal_form (fst bm);
    let '(r_op_inv, _, D, c_op, _) := snf5 in
    do rank_lower <- rank_of_diag D;
    let dim := nc D in
    do f1 <- subM dim rank_lower; do fr <- subM f1 (h_rank st);
    let hom := module_new fr (h_divs st) in
    do ct <- mtranspose c_op; do cyc <- change_basis ct (snd bm);
    let cycles := skipn rank_lower cyc in
    do rt <- mtranspose (h_row st); do bnd <- change_basis rt (snd bm);
    do boundaries <- omapM (fun ix => do d <- divisor_at (h_divs st) (fst ix); vmul ideal (snd ix) d)
                       (combine (seq 0 (h_rank st)) (firstn (h_rank st) bnd));
    do ds <- omapM (fun i => mget D i i) (seq 0 rank_lower);
    Some ((hom, cycles, boundaries), {| h_rank := rank_lower; h_divs := fold_left push_divisor ds []; h_row := r_op_inv |}).

  (** [boundary_maps.into_iter().rev().map(..).collect()] then [output.reverse()]: the list is given highest degree first. *)
  Fixpoint hom_run (st : hst) (l : list (mat Z * list B)) : option (list (module_ * list vec * list vec)) :=
    match l with
    | [] => Some []
    | bm :: t => do r <- hom_step st bm; do o <- hom_run (snd r) t; Some (o ++ [fst r])
    end.
  (** topo_spaces/src/lib.rs:121-130: drop the zero modules at the end. *)
  Fixpoint drop_zero (rl : list (module_ * list vec * list vec)) : list (module_ * list vec * list vec) :=
    match rl with
    | x :: t => if module_is_zero (fst (fst x)) then drop_zero t else rl
    | [] => []
    end.
  (** topo_spaces/src/lib.rs:44-142 [IntegralHomology::new]; the result is ([homology], [cycles], [boundaries]) zipped. *)
  Definition integral_homology (bms : list (mat Z * list B)) (max_dim : option nat) : option (list (module_ * list vec * list vec)) :=
    match rev bms with
    | [] => None
    | lastm :: _ =>
        do I <- midentity (nc (fst lastm));
        do out <- hom_run {| h_rank := 0; h_divs := []; h_row := I |} (rev bms);
        let cut := match max_dim with None => out | Some d => firstn (d + 1) out end in
        Some (rev (drop_zero (rev cut)))
    end.
End Integral.
