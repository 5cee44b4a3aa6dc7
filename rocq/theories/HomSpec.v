(** Specification vocabulary for homology: chains are integer lists. *)
From Coq Require Import List Arith ZArith.
From Verif Require Import PidModel LinModel MatModel MatSpec LinSpec RankSpec.
Import ListNotations.
Open Scope Z_scope.

(** Entry [i] of the matrix-vector product. *)
Definition apply_at (M : mat Z) (x : list Z) (i : nat) : Z := sum (nc M) (fun j => ent M i j * nth j x 0).
(** [x] is in the kernel / image of [M]. *)
Definition in_kernel (M : mat Z) (x : list Z) : Prop := length x = nc M /\ forall i, (i < nr M)%nat -> apply_at M x i = 0.
Definition in_image (M : mat Z) (x : list Z) : Prop :=
  length x = nr M /\ exists y, length y = nc M /\ forall i, (i < nr M)%nat -> nth i x 0 = apply_at M y i.

(** The quotient of the group [Cyc] of integer vectors by [Bnd] is the group [Z/m1 x .. x Z/mk] ([Z/0 = Z]): there is a
    surjective homomorphism from [Cyc] whose kernel is [Bnd]. *)
Definition quotient_is (Cyc Bnd : list Z -> Prop) (ms : list Z) : Prop :=
  exists phi : list Z -> list Z,
    (forall x, Cyc x -> gelt ms (phi x)) /\
    (forall x y, Cyc x -> Cyc y -> geq ms (phi (gadd x y)) (gadd (phi x) (phi y))) /\
    (forall x, Cyc x -> (geq ms (phi x) (map (fun _ => 0) ms) <-> Bnd x)) /\
    (forall g, gelt ms g -> exists x, Cyc x /\ geq ms (phi x) g).

(** A chain complex of nonzero free groups: matrices [d_0, d_1, ..] with [d_k * d_(k+1) = 0]. *)
Definition conforming (ds : list (mat Z)) : Prop :=
  (forall k d, nth_error ds k = Some d -> wf d /\ (0 < nr d)%nat /\ (0 < nc d)%nat) /\
  (forall k d e, nth_error ds k = Some d -> nth_error ds (k + 1) = Some e -> nc d = nr e /\
     forall i j, (i < nr d)%nat -> (j < nc e)%nat -> prod_entry (nc d) (ent d) (ent e) i j = 0).
(** The boundaries of degree [k]: the image of [d_(k+1)], or zero in the top degree. *)
Definition boundaries_of (ds : list (mat Z)) (k : nat) (x : list Z) : Prop :=
  match nth_error ds (k + 1) with
  | Some e => in_image e x
  | None => exists d, nth_error ds k = Some d /\ x = repeat 0 (nc d)
  end.
Definition rank_of (ds : list (mat Z)) (k r : nat) : Prop :=
  match nth_error ds k with Some d => is_rank (nr d) (nc d) (ent d) r | None => r = 0%nat end.

(** The integer coordinates of a formal sum with respect to a list of cells. *)
Definition coords {B} (cmp : B -> B -> comparison) (bs : list B) (v : list (Z * B)) : list Z := map (coeff cmp v) bs.
(** [x] is the combination of the vectors [vs] with coefficients [c]. *)
Definition combination (n : nat) (c : list Z) (vs : list (list Z)) (x : list Z) : Prop :=
  length x = n /\ forall j, (j < n)%nat -> nth j x 0 = sum (length vs) (fun i => nth i c 0 * nth j (nth i vs []) 0).
(** [vs] is a Z-basis of the group [P] of integer vectors of length [n]. *)
Definition basis_of (n : nat) (vs : list (list Z)) (P : list Z -> Prop) : Prop :=
  (forall x, P x <-> exists c, length c = length vs /\ combination n c vs x) /\
  (forall c, length c = length vs -> combination n c vs (repeat 0 n) -> c = repeat 0 (length vs)).

(** A chain complex of finite-dimensional vector spaces over a field. *)
Definition field_complex {T} {OT : Ops T} (ds : list (mat T)) : Prop :=
  (forall k d, nth_error ds k = Some d -> wf d) /\
  (forall k d e, nth_error ds k = Some d -> nth_error ds (k + 1) = Some e -> nc d = nr e /\
     forall i j, (i < nr d)%nat -> (j < nc e)%nat -> prod_entry (nc d) (ent d) (ent e) i j = t0).
Definition field_rank_of {T} {OT : Ops T} (ds : list (mat T)) (k r : nat) : Prop :=
  match nth_error ds k with Some d => is_rank (nr d) (nc d) (ent d) r | None => r = 0%nat end.
