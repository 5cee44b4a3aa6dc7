(** Symmetric perturbations; one sweep of rotations on any matrix. *)
From Coq Require Import List Arith Bool Lia ZifyBool Reals Lra.
From Verif Require Import PidModel MatModel MatSpec MatProofs MatProofs2 SnfModel RankModel LuModel LuSpec LuProofs2 LuProofs3 NumModel NumSpec NumProofs HouseProofs HessProofs FrancisModel FrancisSpec FrancisProofs EigProofs TriModel TriSpec TriProofs WilkModel WilkSpec WilkProofs SpectrumProps SymQrSpec.
Import ListNotations.
Open Scope R_scope.

(** Square sums. *)
Definition fsq (n : nat) (F : nat -> nat -> R) : R := sum n (fun i => sum n (fun j => F i j * F i j)).
Lemma fsq_pos n F : 0 <= fsq n F.
Proof. apply rsum_nonneg. intros i _. apply rsum_nonneg. intros j _. nra. Qed.
Definition fdot (n : nat) (F G : nat -> nat -> R) : R := sum n (fun i => sum n (fun j => F i j * G i j)).
Lemma fdot_lin n F G x : fsq n (fun i j => F i j + x * G i j) = fsq n F + 2 * x * fdot n F G + x * x * fsq n G.
Proof.
  unfold fsq, fdot. rewrite (rsum_ext n _ (fun i => sum n (fun j => F i j * F i j) + (2 * x) * sum n (fun j => F i j * G i j) + (x * x) * sum n (fun j => G i j * G i j))).
  - rewrite !rsum_add, !rsum_mul_l. reflexivity.
  - intros i _. rewrite (rsum_ext n _ (fun j => F i j * F i j + (2 * x) * (F i j * G i j) + (x * x) * (G i j * G i j))) by (intros; ring). rewrite !rsum_add, !rsum_mul_l. reflexivity.
Qed.
Lemma cauchy n F G : fdot n F G * fdot n F G <= fsq n F * fsq n G.
Proof.
  pose proof (fsq_pos n F) as P. pose proof (fsq_pos n G) as Q. destruct (Req_EM_T (fsq n G) 0) as [Z|N].
  - assert (forall x, 0 <= fsq n F + 2 * x * fdot n F G) as H by (intros x; pose proof (fsq_pos n (fun i j => F i j + x * G i j)) as K; rewrite fdot_lin, Z in K; lra).
    rewrite Z, Rmult_0_r. set (d := fdot n F G) in *. set (f := fsq n F) in *. destruct (Req_EM_T d 0) as [->|N]; [lra|]. specialize (H (- (f + 1) / (2 * d))) as H1. replace (f + 2 * (- (f + 1) / (2 * d)) * d) with (-1) in H1 by (field; exact N). lra.
  - assert (0 < fsq n G) as QP by lra. pose proof (fsq_pos n (fun i j => F i j + (- fdot n F G / fsq n G) * G i j)) as K. rewrite fdot_lin in K. set (d := fdot n F G) in *. set (f := fsq n F) in *. set (g := fsq n G) in *.
    replace (f + 2 * (- d / g) * d + - d / g * (- d / g) * g) with ((f * g - d * d) / g) in K by (field; lra). apply (Rmult_le_compat_r g) in K; [|lra]. replace ((f * g - d * d) / g * g) with (f * g - d * d) in K by (field; lra). lra.
Qed.
Lemma frob_add n F G : frob n (fun i j => F i j + G i j) <= frob n F + frob n G.
Proof.
  unfold frob. fold (fsq n F) (fsq n G) (fsq n (fun i j => F i j + G i j)). pose proof (fsq_pos n F) as P. pose proof (fsq_pos n G) as Q. pose proof (cauchy n F G) as C.
  assert (fsq n (fun i j => F i j + G i j) = fsq n F + 2 * fdot n F G + fsq n G) as E.
  { transitivity (fsq n (fun i j => F i j + 1 * G i j)); [|rewrite fdot_lin; ring]. unfold fsq. apply rsum_ext. intros i _. apply rsum_ext. intros j _. ring. }
  rewrite E. pose proof (sqrt_pos (fsq n F)) as SF. pose proof (sqrt_pos (fsq n G)) as SG. pose proof (sqrt_sqrt _ P) as EF. pose proof (sqrt_sqrt _ Q) as EG. set (a := sqrt (fsq n F)) in *. set (b := sqrt (fsq n G)) in *.
  assert (fdot n F G <= a * b) as D. { apply Rsqr_incr_0_var; [|nra]. unfold Rsqr. replace (a * b * (a * b)) with ((a * a) * (b * b)) by ring. rewrite EF, EG. exact C. }
  rewrite <- (sqrt_square (a + b)) by lra. apply sqrt_le_1_alt. nra.
Qed.
Lemma frob_ext n F G : same n n F G -> frob n F = frob n G.
Proof. intros H. unfold frob. f_equal. apply rsum_ext. intros i Hi. apply rsum_ext. intros j Hj. now rewrite (H i j Hi Hj). Qed.
Lemma frob_zero n : frob n (fun _ _ => 0) = 0.
Proof. unfold frob. rewrite (rsum_zero n); [apply sqrt_0|]. intros i _. apply rsum_zero. intros; ring. Qed.
(** The square sum of a symmetric conjugate. *)
Lemma fsq_trace n F : fsq n F = trace n (prod_entry n (transposed F) F).
Proof. unfold fsq, trace, prod_entry, transposed. apply rsum_swap. Qed.
Lemma frob_congr n F P G : orthogonal n P -> congruent n F P G -> frob n G = frob n F.
Proof.
  intros O C. unfold frob. f_equal. fold (fsq n F) (fsq n G). rewrite !fsq_trace. symmetry.
  rewrite <- (trace_similar n (prod_entry n (transposed F) F) (prod_entry n (transposed G) G)); [reflexivity|]. exists P. split; [exact O|].
  intros i j Hi Hj.
  transitivity (prod_entry n (prod_entry n (transposed P) (prod_entry n (transposed F) P)) (prod_entry n (transposed P) (prod_entry n F P)) i j).
  - apply rprod_ext; [|intros l Hl; now apply C]. intros l Hl. unfold transposed at 1. rewrite C by assumption. rewrite <- (rprod_trans n (transposed P) (prod_entry n F P) i l). rewrite <- rprod_assoc. apply rprod_ext; [|intros; reflexivity]. intros k Hk. symmetry. apply rprod_trans.
  - rewrite rprod_assoc. apply rprod_ext; [intros; reflexivity|]. intros l Hl. rewrite !rprod_assoc. apply rprod_ext; [intros; reflexivity|]. intros k Hk. rewrite <- rprod_assoc.
    rewrite (rprod_ext n _ id_entry _ (prod_entry n F P)); [now apply rprod_id_l|intros m Hm; now apply O|intros; reflexivity].
Qed.

(** [perturbed] as a relation. *)
Lemma pert_sim n A B eps : 0 <= eps -> orth_similar n A B -> perturbed n A eps B.
Proof.
  intros E (P & O & C). exists P, (fun _ _ => 0). split; [exact O|]. split; [intros i j _ _; reflexivity|]. split; [rewrite frob_zero; exact E|]. eapply congr_ext; [| |exact C]; intros a b _ _; [ring|reflexivity].
Qed.
Lemma pert_refl n A eps : 0 <= eps -> perturbed n A eps A.
Proof. intros E. apply pert_sim; [exact E|]. exists id_entry. split; [apply orth_id|apply congr_id]. Qed.
Lemma pert_ext n A A' B B' eps : same n n A A' -> same n n B B' -> perturbed n A eps B -> perturbed n A' eps B'.
Proof.
  intros EA EB (P & F & O & Y & L & C). exists P, F. split; [exact O|]. split; [exact Y|]. split; [exact L|]. eapply congr_ext; [|exact EB|exact C]. intros a b Ha Hb. now rewrite (EA a b Ha Hb).
Qed.
Lemma pert_le n A B eps eps' : eps <= eps' -> perturbed n A eps B -> perturbed n A eps' B.
Proof. intros L (P & F & O & Y & H & C). exists P, F. split; [exact O|]. split; [exact Y|]. split; [lra|exact C]. Qed.
Lemma pert_add n A B eps : symmetric_mat n (fun i j => B i j - A i j) -> frob n (fun i j => B i j - A i j) <= eps -> perturbed n A eps B.
Proof.
  intros Y L. exists id_entry, (fun i j => B i j - A i j). split; [apply orth_id|]. split; [exact Y|]. split; [exact L|]. eapply congr_ext; [| |apply (congr_id n B)]; intros a b _ _; [ring|reflexivity].
Qed.
Lemma orth_trans n P : orthogonal n P -> orthogonal n (transposed P).
Proof. intros O i j Hi Hj. destruct (O i j Hi Hj) as (H1 & H2). split; assumption. Qed.
Lemma congr_sym n A P B : symmetric_mat n A -> congruent n A P B -> symmetric_mat n B.
Proof.
  intros Y C i j Hi Hj. rewrite (C i j Hi Hj), (C j i Hj Hi). unfold prod_entry, transposed. cbn.
  rewrite (rsum_ext n _ (fun l => sum n (fun k => P l i * (A l k * P k j)))) by (intros l Hl; now rewrite rsum_mul_l). rewrite rsum_swap. apply rsum_ext. intros k Hk. rewrite <- rsum_mul_l. apply rsum_ext. intros l Hl. rewrite (Y l k) by assumption. ring.
Qed.
(** A symmetric matrix moved back by an orthogonal one. *)
Lemma congr_back n P G : orthogonal n P -> exists F, congruent n F P G /\ (symmetric_mat n G -> symmetric_mat n F) /\ frob n F = frob n G.
Proof.
  intros O. set (F := prod_entry n P (prod_entry n G (transposed P))). assert (congruent n G (transposed P) F) as C1 by (intros a b _ _; reflexivity).
  exists F. split; [|split].
  - pose proof (congr_trans n G (transposed P) F P _ C1 (fun a b _ _ => eq_refl)) as C2. intros a b Ha Hb. rewrite (C2 a b Ha Hb). symmetry. rewrite rprod_ext with (f' := id_entry) (g' := G).
    + now rewrite rprod_id_l.
    + intros l Hl. unfold transposed at 1. rewrite (proj1 (O l a Hl Ha)). unfold id_entry. rewrite Nat.eqb_sym. reflexivity.
    + intros l Hl. rewrite (rprod_ext n G G _ id_entry); [now rewrite rprod_id_r|intros; reflexivity|intros k Hk; now apply O].
  - intros Y. now apply (congr_sym n G (transposed P)).
  - apply (frob_congr n G (transposed P)); [now apply orth_trans|exact C1].
Qed.
Lemma congr_add n A A' P B B' : congruent n A P B -> congruent n A' P B' -> congruent n (fun i j => A i j + A' i j) P (fun i j => B i j + B' i j).
Proof.
  intros C C' i j Hi Hj. rewrite (C i j Hi Hj), (C' i j Hi Hj). unfold prod_entry. cbn. rewrite <- rsum_add. apply rsum_ext. intros l Hl. rewrite <- Rmult_plus_distr_l. f_equal. rewrite <- rsum_add. apply rsum_ext. intros k Hk. ring.
Qed.
Lemma pert_trans n A B C e1 e2 : perturbed n A e1 B -> perturbed n B e2 C -> perturbed n A (e1 + e2) C.
Proof.
  intros (P & F & O & Y & L & C1) (Q & G & O2 & Y2 & L2 & C2). destruct (congr_back n P G O) as (G' & CG & YG & FG). exists (prod_entry n P Q), (fun i j => F i j + G' i j).
  split; [now apply orth_mul|]. split; [intros i j Hi Hj; now rewrite (Y i j), (YG Y2 i j)|]. split; [pose proof (frob_add n F G'); rewrite FG in H; lra|].
  eapply congr_trans; [|exact C2]. eapply congr_ext; [| |apply (congr_add _ _ _ _ _ _ C1 CG)]; intros a b _ _; [ring|reflexivity].
Qed.
(** A crude bound: the sum of the absolute values. *)
Lemma abs_sq_sum n (f : nat -> R) : (forall i, (i < n)%nat -> 0 <= f i) -> sum n (fun i => f i * f i) <= sum n f * sum n f.
Proof. induction n as [|n IH]; intros H; cbn [sum]; [cbn; lra|]. specialize (IH ltac:(intros; apply H; lia)). pose proof (rsum_nonneg n f ltac:(intros; apply H; lia)). pose proof (H n ltac:(lia)). cbn in *. nra. Qed.
Definition abs_sum (n : nat) (F : nat -> nat -> R) : R := sum n (fun i => sum n (fun j => Rabs (F i j))).
Lemma frob_abs n F : frob n F <= abs_sum n F.
Proof.
  unfold frob, abs_sum. assert (0 <= sum n (fun i => sum n (fun j => Rabs (F i j)))) as P by (apply rsum_nonneg; intros i _; apply rsum_nonneg; intros j _; apply Rabs_pos).
  rewrite <- (sqrt_square (sum n (fun i => sum n (fun j => Rabs (F i j))))) by exact P. apply sqrt_le_1_alt. eapply Rle_trans; [|apply abs_sq_sum; intros i _; apply rsum_nonneg; intros j _; apply Rabs_pos].
  apply rsum_le. intros i _. eapply Rle_trans; [|apply abs_sq_sum; intros j _; apply Rabs_pos]. apply rsum_le. intros j _. rewrite <- Rabs_mult, Rabs_right by nra. lra.
Qed.
(** A sum over few places: [F] is bounded by [eps] on the listed pairs and zero elsewhere. *)
Definition spot (x y i j : nat) : R := if (i =? x)%nat && (j =? y)%nat then 1 else 0.
Lemma spot_sum n x y : sum n (fun i => sum n (fun j => spot x y i j)) <= 1.
Proof.
  destruct (Nat.ltb_spec x n) as [Hx|Hx].
  - rewrite (rsum_single n x) by (try assumption; intros i Hi N; apply rsum_zero; intros j _; unfold spot; now replace (i =? x)%nat with false by lia). destruct (Nat.ltb_spec y n) as [Hy|Hy].
    + rewrite (rsum_single n y) by (try assumption; intros j Hj N; unfold spot; replace (j =? y)%nat with false by lia; now rewrite andb_false_r). unfold spot. rewrite !Nat.eqb_refl. cbn. lra.
    + rewrite rsum_zero by (intros j Hj; unfold spot; replace (j =? y)%nat with false by lia; now rewrite andb_false_r). lra.
  - rewrite rsum_zero by (intros i Hi; apply rsum_zero; intros j Hj; unfold spot; now replace (i =? x)%nat with false by lia). lra.
Qed.
Fixpoint spots (l : list (nat * nat)) (i j : nat) : R := match l with [] => 0 | (x, y) :: l => spot x y i j + spots l i j end.
Lemma spots_nonneg l i j : 0 <= spots l i j.
Proof. induction l as [|(x & y) l IH]; cbn [spots]; [lra|]. unfold spot. destruct ((i =? x) && (j =? y))%nat; lra. Qed.
Lemma spots_in l i j : In (i, j) l -> 1 <= spots l i j.
Proof.
  induction l as [|(x & y) l IH]; intros H; [destruct H|]. cbn [spots]. pose proof (spots_nonneg l i j). destruct H as [H|H].
  - injection H as -> ->. unfold spot. rewrite !Nat.eqb_refl. cbn. lra.
  - specialize (IH H). unfold spot. destruct ((i =? x) && (j =? y))%nat; lra.
Qed.
Lemma spots_sum n l : sum n (fun i => sum n (fun j => spots l i j)) <= INR (length l).
Proof.
  induction l as [|(x & y) l IH].
  - cbn. rewrite rsum_zero; [lra|]. intros i _. apply rsum_zero. reflexivity.
  - cbn [spots]. rewrite (rsum_ext n _ (fun i => sum n (fun j => spot x y i j) + sum n (fun j => spots l i j))) by (intros; now rewrite rsum_add). rewrite rsum_add. cbn [length]. rewrite S_INR. pose proof (spot_sum n x y). lra.
Qed.
Lemma abs_sum_spots n F l eps : 0 <= eps -> (forall i j, (i < n)%nat -> (j < n)%nat -> F i j = 0 \/ In (i, j) l /\ Rabs (F i j) <= eps) -> abs_sum n F <= eps * INR (length l).
Proof.
  intros E H. apply Rle_trans with (sum n (fun i => sum n (fun j => eps * spots l i j))).
  - apply rsum_le. intros i Hi. apply rsum_le. intros j Hj. destruct (H i j Hi Hj) as [->|(I & L)].
    + rewrite Rabs_R0. pose proof (spots_nonneg l i j). nra.
    + pose proof (spots_in l i j I). nra.
  - rewrite (rsum_ext n _ (fun i => eps * sum n (fun j => spots l i j))) by (intros; now rewrite rsum_mul_l). rewrite rsum_mul_l. pose proof (spots_sum n l). nra.
Qed.
Lemma pert_spots n A B l eps : 0 <= eps -> symmetric_mat n (fun i j => B i j - A i j) -> (forall i j, (i < n)%nat -> (j < n)%nat -> B i j = A i j \/ In (i, j) l /\ Rabs (B i j - A i j) <= eps) -> perturbed n A (eps * INR (length l)) B.
Proof.
  intros E Y H. apply pert_add; [exact Y|]. eapply Rle_trans; [apply frob_abs|]. apply abs_sum_spots; [exact E|]. intros i j Hi Hj. destruct (H i j Hi Hj) as [->|K]; [left; ring|now right].
Qed.
