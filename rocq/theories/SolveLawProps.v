(** Property C159: [solve] undoes multiplication by the matrix and is linear in the right-hand side (every field, exact arithmetic). *)
From Coq Require Import List Arith ZArith Bool Lia ZifyBool Ring_theory Ring.
From Verif Require Import PidModel MatModel MatSpec MatProofs MatProofs2 SnfModel RankModel LuModel LuSpec LuProofs LuProofs2 LuProofs3 LuProps.
Import ListNotations.
Open Scope nat_scope.

Section SolveT.
  Context {T : Type} {OT : Ops T} {FT : FOps T}.
  Hypothesis FO : field_ok (T := T).
  Let RL : ring_theory t0 t1 tadd tmul tsub topp (@eq T) := proj1 FO.
  Add Ring TSo : RL.

  (** A right-hand side that is the matrix times a column is solved by that column. *)
  Lemma solve_col A B (x : nat -> T) n : wf A -> wf B -> nr A = n -> nc A = n -> nr B = n -> nc B = 1 -> 0 < n -> (forall k, 0 < k <= n -> determinant k (ent A) <> t0) ->
    (forall i, i < n -> sum n (fun l => tmul (ent A i l) (x l)) = ent B i 0) -> solve A B = Some (mk n 1 (fun i _ => x i)).
  Proof.
    intros WA WB RA CA RB CB Hn P E. destruct (C75_solve FO A B n WA WB RA CA RB Hn ltac:(lia)) as (I & S75). destruct (proj2 I P) as (X & EX). destruct (S75 X EX) as (WX & RX & CX & U & _). rewrite EX. f_equal.
    rewrite (wf_eq_mk X WX), RX, CX, CB. apply mk_ext. intros i j Hi Hj. replace j with 0 by lia. symmetry. now apply (proj1 (U x) E).
  Qed.
  (** C159.  Multiplying a column by the matrix and solving gives the column back; solving and multiplying gives the right-hand side back. *)
  Theorem C159_inverse : forall A (x : mat T) n, wf A -> wf x -> nr A = n -> nc A = n -> nr x = n -> nc x = 1 -> 0 < n -> (forall k, 0 < k <= n -> determinant k (ent A) <> t0) ->
    (do b <- mmul A x; solve A b) = Some x /\ (do y <- solve A x; mmul A y) = Some x.
  Proof.
    intros A x n WA Wx RA CA Rx Cx Hn P. assert (EM : forall y, wf y -> nr y = n -> nc y = 1 -> mmul A y = Some (mk n 1 (prod_entry n (ent A) (ent y)))).
    { intros y Wy Ry Cy. rewrite (wf_eq_mk A WA) at 1. rewrite (wf_eq_mk y Wy) at 1. rewrite RA, CA, Ry, Cy. apply mmul_mk. }
    assert (COL : forall y, wf y -> nr y = n -> nc y = 1 -> y = mk n 1 (fun i _ => ent y i 0)).
    { intros y Wy Ry Cy. rewrite (wf_eq_mk y Wy) at 1. rewrite Ry, Cy. apply mk_ext. intros i j _ Hj. now replace j with 0 by lia. }
    split.
    - rewrite EM by assumption. cbn [obind]. rewrite (COL x Wx Rx Cx) at 2. apply (solve_col A _ (fun i => ent x i 0)); try assumption; try reflexivity; [apply wf_mk|]. intros i Hi. rewrite ent_mk by lia. reflexivity.
    - destruct (C75_solve FO A x n WA Wx RA CA Rx Hn ltac:(lia)) as (I & S75). destruct (proj2 I P) as (y & Ey). destruct (S75 y Ey) as (Wy & Ry & Cy & U & _). rewrite Ey. cbn [obind]. rewrite EM by (assumption || congruence). rewrite (COL x Wx Rx Cx) at 1. f_equal.
      apply mk_ext. intros i j Hi Hj. replace j with 0 by lia. exact (proj2 (U (fun l => ent y l 0)) (fun i _ => eq_refl) i Hi).
  Qed.
  Lemma add_cols n b b' : wf b -> wf b' -> nr b = n -> nc b = 1 -> nr b' = n -> nc b' = 1 -> madd b b' = Some (mk n 1 (fun i j => tadd (ent b i j) (ent b' i j))).
  Proof.
    intros W W' R C R' C'. pose proof (wf_eq_mk b W) as E. pose proof (wf_eq_mk b' W') as E'. rewrite R, C in E. rewrite R', C' in E'. transitivity (madd (mk n 1 (ent b)) (mk n 1 (ent b'))); [now rewrite <- E, <- E'|apply mzip_mk].
  Qed.
  Lemma scale_col n b c : wf b -> nr b = n -> nc b = 1 -> mscale b c = Some (mk n 1 (fun i j => tmul (ent b i j) c)).
  Proof. intros W R C. pose proof (wf_eq_mk b W) as E. rewrite R, C in E. transitivity (mscale (mk n 1 (ent b)) c); [now rewrite <- E|apply mscale_mk]. Qed.
  (** On columns [solve] is linear: sums and multiples of right-hand sides have the sums and multiples of the solutions. *)
  Theorem C159_linear : forall A (b b' x x' : mat T) n c, wf A -> wf b -> wf b' -> nr A = n -> nc A = n -> nr b = n -> nc b = 1 -> nr b' = n -> nc b' = 1 -> 0 < n ->
    solve A b = Some x -> solve A b' = Some x' ->
    (do s <- madd b b'; solve A s) = madd x x' /\ (do s <- mscale b c; solve A s) = mscale x c.
  Proof.
    intros A b b' x x' n c WA Wb Wb' RA CA Rb Cb Rb' Cb' Hn E E'. destruct (C75_solve FO A b n WA Wb RA CA Rb Hn ltac:(lia)) as (I & S75). destruct (C75_solve FO A b' n WA Wb' RA CA Rb' Hn ltac:(lia)) as (_ & S75').
    pose proof (proj1 I (ex_intro _ x E)) as P. destruct (S75 x E) as (Wx & Rx & Cx & U & _). destruct (S75' x' E') as (Wx' & Rx' & Cx' & U' & _).
    pose proof (proj2 (U (fun l => ent x l 0)) (fun i _ => eq_refl)) as Q. pose proof (proj2 (U' (fun l => ent x' l 0)) (fun i _ => eq_refl)) as Q'. cbn beta in Q, Q'.
    split.
    - rewrite (add_cols n b b'), (add_cols n x x') by (assumption || congruence). cbn [obind].
      rewrite (solve_col A _ (fun i => tadd (ent x i 0) (ent x' i 0)) n); try assumption; try reflexivity; [apply wf_mk|].
      intros i Hi. rewrite ent_mk by lia. rewrite <- Q, <- Q' by exact Hi. rewrite <- (sum_add RL). apply sum_ext. intros; ring.
    - rewrite (scale_col n b), (scale_col n x) by (assumption || congruence). cbn [obind].
      rewrite (solve_col A _ (fun i => tmul (ent x i 0) c) n); try assumption; try reflexivity; [apply wf_mk|].
      intros i Hi. rewrite ent_mk by lia. rewrite <- Q by exact Hi. rewrite <- (sum_mul_r RL). apply sum_ext. intros; ring.
  Qed.
End SolveT.
Print Assumptions C159_inverse. Print Assumptions C159_linear.
#[local] Existing Instance ops_Qc.
#[local] Existing Instance fops_Qc.
(** The hypotheses are met by a matrix of rationals that is neither symmetric nor triangular. *)
Example C159_nontrivial : wf exA /\ forall k, 0 < k <= 3 -> determinant k (ent exA) <> t0.
Proof.
  split; [split; [reflexivity|repeat constructor]|]. intros k Hk E. apply (f_equal QArith.Qcanon.this) in E. destruct k as [|[|[|[|k]]]]; try lia; vm_compute in E; discriminate.
Qed.
