(** Model of alg/src/lin_alg.rs: formal sums ([Vector]), the [Merge] iterator and [Module].
    Simplifications: the coefficient ring is the integers, with every arithmetic result passing through [chk]
    (see PidModel: [ideal] or a machine width); the basis is any type with a total comparison ([partial_cmp]
    never returns [None]); [Vec::sort_by] is a stable insertion sort (a stable sort has only one possible result).
    [Display], [Div] (needs a field) and [iter_mut] are not modelled. *)
From Coq Require Import List ZArith Bool.
From Verif Require Import PidModel.
Import ListNotations.

(** [slice::sort_by]: stable. *)
Section Sort.
  Context {T : Type}.
  Variable f : T -> T -> comparison.
  Fixpoint insert_by (x : T) (l : list T) : list T :=
    match l with
    | [] => [x]
    | y :: t => match f x y with Gt => y :: insert_by x t | _ => x :: l end
    end.
  Definition sort_by (l : list T) : list T := fold_right insert_by [] l.
End Sort.

Section MergeIter.
  Context {T : Type}.
  Variable f : T -> T -> comparison.

  (** alg/src/lin_alg.rs:288-298 [struct Merge] (the iterators are what remains in them). *)
  Record merge_st := { m_curr : option T; m_i : list T; m_j : list T }.

  (** alg/src/lin_alg.rs:307-327 [Merge::next]. *)
  Definition merge_next (s : merge_st) : option T * merge_st :=
    match m_curr s with
    | None => (None, {| m_curr := None; m_i := m_i s; m_j := m_j s |})
    | Some curr =>
        match m_i s with
        | next :: i' =>
            match f curr next with
            | Lt => (Some curr, {| m_curr := Some next; m_i := i'; m_j := m_j s |})
            | _ => (Some next, {| m_curr := Some curr; m_i := i'; m_j := m_j s |})
            end
        | [] =>
            match m_j s with
            | next :: j' => (Some curr, {| m_curr := Some next; m_i := []; m_j := j' |})
            | [] => (Some curr, {| m_curr := None; m_i := []; m_j := [] |})
            end
        end
    end.

  (** alg/src/lin_alg.rs:330-344 [merge_by]. *)
  Definition merge_by (i j : list T) : merge_st :=
    match j with
    | next :: j' => {| m_curr := Some next; m_i := i; m_j := j' |}
    | [] => match i with
            | [] => {| m_curr := None; m_i := []; m_j := [] |}
            | x :: i' => {| m_curr := Some x; m_i := i'; m_j := [] |}
            end
    end.

  (** [Iterator::collect]: call [next] until it returns [None]. *)
  Fixpoint collect (fuel : nat) (s : merge_st) : option (list T) :=
    match fuel with
    | O => None
    | S k => match merge_next s with
             | (None, _) => Some []
             | (Some x, s') => do r <- collect k s'; Some (x :: r)
             end
    end.

  (** [merge_by(i, j, f).collect()]; the number of calls needed is the number of items plus one. *)
  Definition merge_collect (i j : list T) : option (list T) :=
    collect (S (length i + length j)) (merge_by i j).
End MergeIter.

Section Vec.
  Context {B : Type}.
  Variable chk : Z -> option Z.
  Variable cmp : B -> B -> comparison.

  (** alg/src/lin_alg.rs:172-175. *)
  Definition vector := list (Z * B).

  Definition beqb (x y : B) : bool := match cmp x y with Eq => true | _ => false end.

  (** alg/src/lin_alg.rs:178-180, 182-184. *)
  Definition vzero : vector := [].
  Definition vlen (v : vector) : nat := length v.
  (** alg/src/lin_alg.rs:186-188 ([Vec::remove]: panics out of range). *)
  Definition vremove (v : vector) (i : nat) : option ((Z * B) * vector) :=
    match nth_error v i with
    | None => None
    | Some x => Some (x, firstn i v ++ skipn (S i) v)
    end.
  (** alg/src/lin_alg.rs:191-203, 211-216 [From<[Basis; N]>], [From<Vec<Basis>>], [FromIterator]. *)
  Definition vfrom_vec (bs : list B) : vector := map (fun b => (1%Z, b)) (sort_by cmp bs).
  (** alg/src/lin_alg.rs:205-209 [From<Basis>]. *)
  Definition vfrom (b : B) : vector := [(1%Z, b)].

  (** An element of [iters]: the item already taken and the rest of that iterator. *)
  Definition cursor := ((Z * B) * list (Z * B))%type.
  Definition cur_cmp (a b : cursor) : comparison := cmp (snd (fst a)) (snd (fst b)).

  Definition take_cursor (v : vector) : list cursor :=
    match v with [] => [] | x :: t => [(x, t)] end.

  (** alg/src/lin_alg.rs:372 [take_while(..).count()]. *)
  Fixpoint leading (b : B) (l : list cursor) : nat :=
    match l with
    | c :: t => if beqb (snd (fst c)) b then S (leading b t) else O
    | [] => O
    end.

  (** alg/src/lin_alg.rs:378-385: [coeff += c] over the other leading cursors. *)
  Fixpoint sum_coeffs (c : Z) (l : list cursor) : option Z :=
    match l with
    | [] => Some c
    | x :: t => do c' <- chk (c + fst (fst x))%Z; sum_coeffs c' t
    end.

  (** alg/src/lin_alg.rs:371-393: one iteration of the [while] loop; [l] is not empty. *)
  Fixpoint sum_loop (fuel : nat) (l : list cursor) : option vector :=
    match fuel with
    | O => None
    | S k =>
        match l with
        | [] => Some []
        | ((coeff0, basis), _) :: _ =>
            let n := leading basis l in
            let lead := firstn n l in
            let rest := skipn n l in
            do coeff <- sum_coeffs coeff0 (tl lead);
            let next_iters := sort_by cur_cmp (flat_map (fun c => take_cursor (snd c)) lead) in
            do iters <- merge_collect cur_cmp rest next_iters;
            do out <- sum_loop k iters;
            Some (if (coeff =? 0)%Z then out else (coeff, basis) :: out)
        end
    end.

  (** alg/src/lin_alg.rs:360-396 [Sum::sum]. *)
  Definition vsum (vs : list vector) : option vector :=
    sum_loop (S (length (concat vs))) (sort_by cur_cmp (flat_map take_cursor vs)).

  (** alg/src/lin_alg.rs:234-239. *)
  Definition vadd (v w : vector) : option vector := vsum [v; w].

  Fixpoint scale (c : Z) (v : vector) : option vector :=
    match v with
    | [] => Some []
    | (s, b) :: t => do s' <- chk (s * c)%Z; do t' <- scale c t; Some ((s', b) :: t')
    end.
  (** alg/src/lin_alg.rs:248-254. *)
  Definition vneg (v : vector) : option vector := scale (-1) v.
  (** alg/src/lin_alg.rs:241-246. *)
  Definition vsub (v w : vector) : option vector := do w' <- vneg w; vadd v w'.
  (** alg/src/lin_alg.rs:256-263. *)
  Definition vmul (v : vector) (c : Z) : option vector := if (c =? 0)%Z then Some vzero else scale c v.
  (** alg/src/lin_alg.rs:274-286. *)
  Definition vadd_basis (v : vector) (b : B) : option vector := vadd v (vfrom b).
  Definition vsub_basis (v : vector) (b : B) : option vector := vsub v (vfrom b).
  (** alg/src/lin_alg.rs:401-406 [Index<&Basis>]: panics ([None]) when absent. *)
  Definition vindex (v : vector) (b : B) : option Z :=
    option_map fst (find (fun x => beqb (snd x) b) v).

  (** alg/src/lin_alg.rs:439-483 [formal_sum_impl!]. *)
  Definition b_add (a b : B) : option vector := vadd (vfrom a) (vfrom b).
  Definition b_add_vec (a : B) (v : vector) : option vector := vadd (vfrom a) v.
  Definition b_sub (a b : B) : option vector := vsub (vfrom a) (vfrom b).
  Definition b_sub_vec (a : B) (v : vector) : option vector := vsub (vfrom a) v.
  Definition b_scale (c : Z) (b : B) : option vector := vmul (vfrom b) c.
  Definition b_neg (b : B) : option vector := vneg (vfrom b).
End Vec.

(** alg/src/lin_alg.rs:71-74. *)
Record module_ := { free_rank : nat; elementary_divisors : list (Z * nat) }.
(** alg/src/lin_alg.rs:78-85 [Module::new]. *)
Definition module_new (r : nat) (ds : list (Z * nat)) : module_ :=
  {| free_rank := r; elementary_divisors := filter (fun d => negb (fst d =? 1)%Z) ds |}.
(** alg/src/lin_alg.rs:87-92. *)
Definition module_trivial : module_ := {| free_rank := 0; elementary_divisors := [] |}.
Fixpoint divs_eqb (a b : list (Z * nat)) : bool :=
  match a, b with
  | [], [] => true
  | (d, m) :: a', (e, n) :: b' => (d =? e)%Z && Nat.eqb m n && divs_eqb a' b'
  | _, _ => false
  end.
(** alg/src/lin_alg.rs:94-96. *)
Definition is_isomorphic_to (a b : module_) : bool :=
  Nat.eqb (free_rank a) (free_rank b) && divs_eqb (elementary_divisors a) (elementary_divisors b).
(** alg/src/lin_alg.rs:98-101. *)
Definition module_is_zero (a : module_) : bool :=
  Nat.eqb (free_rank a) 0 && match elementary_divisors a with [] => true | _ => false end.
