(** C84: one implicit double-shift step, over the real numbers. *)
From Coq Require Import List Arith Bool Lia ZifyBool Reals Lra.
From Verif Require Import PidModel MatModel MatSpec MatProofs MatProofs2 SnfModel RankModel LuModel LuSpec LuProofs2 LuProofs3 NumModel NumSpec NumProofs HouseProofs HessProofs FrancisModel FrancisSpec FrancisProofs.
Import ListNotations.
Open Scope R_scope.

Lemma shift_ext n A B i : (2 <= n)%nat -> same n n A B -> (i < n)%nat -> shift_column n A i = shift_column n B i.
Proof.
  intros Hn E Hi. unfold shift_column. rewrite !(E (n - 2)%nat), !(E (n - 1)%nat), (E i 0%nat) by lia. f_equal. f_equal. apply rprod_ext; intros l Hl; apply E; lia.
Qed.
Lemma double_shift_ext n A A' B B' : (2 <= n)%nat -> same n n A A' -> same n n B B' -> double_shift n A B -> double_shift n A' B'.
Proof.
  intros Hn EA EB (P & O & C & F). exists P. split; [exact O|]. split; [revert C; apply congr_ext; assumption|]. intros i Hi.
  rewrite <- (shift_ext n A A' i Hn EA Hi). rewrite <- (F i Hi). f_equal. unfold norm2. f_equal. symmetry. apply inner_ext; intros l Hl; now apply shift_ext.
Qed.
Lemma double_shift_similar n A B : double_shift n A B -> orth_similar n A B. Proof. intros (P & O & C & _). now exists P. Qed.
(** C84.  On a matrix in Hessenberg form of order at least three [francis_step] gives a matrix in Hessenberg form.  When no subdiagonal entry of the input is zero,
    the subdiagonal entries of the result are positive but for the last two, and if the last but one is not negative the result comes from the input by a double-shift
    step.  The last clause covers the inputs with zeros on the subdiagonal. *)
Theorem C84_francis_partial : forall M n op, wf M -> nr M = n -> nc M = n -> (3 <= n)%nat -> hessenberg n (ent M) ->
  exists H Q, raw_francis_step M op = Some (H, Q) /\ wf H /\ nr H = n /\ nc H = n /\ hessenberg n (ent H) /\
    (unreduced n (ent M) -> (forall j, (j + 3 < n)%nat -> 0 < ent H (j + 1) j) /\ (0 <= ent H (n - 2) (n - 3) -> double_shift n (ent M) (ent H))) /\
    ((0 <= shift_column n (ent M) 0 \/ exists i, (0 < i < n)%nat /\ shift_column n (ent M) i <> 0) -> (forall j, (j + 2 < n)%nat -> 0 <= ent H (j + 1) j) -> double_shift n (ent M) (ent H)).
Proof.
  intros M n op W RM CM Hn HE. destruct (francis_mk n (ent M) op Hn HE) as (g & E & HG & SIM & UNR). exists (mk n n g). eexists. rewrite (wf_eq_mk M W) at 1. rewrite RM, CM. split; [exact E|].
  split; [apply wf_mk|]. split; [reflexivity|]. split; [reflexivity|]. assert (same n n g (ent (mk n n g))) as EG by (intros i j Hi Hj; symmetry; now apply ent_mk).
  assert (double_shift n (ent M) g -> double_shift n (ent M) (ent (mk n n g))) as DS by (apply double_shift_ext; [lia|now intros i j Hi Hj|exact EG]).
  split; [intros i j Hi; rewrite <- EG by lia; apply HG; exact Hi|]. split.
  - intros UN. destruct (UNR UN) as (PG & SG). split; [intros j Hj; rewrite <- EG by lia; now apply PG|]. intros P. rewrite <- EG in P by lia. apply DS. now apply SG.
  - intros GD P. apply DS. apply SIM.
    + intros (B1 & B2). destruct GD as [GD|(i & Hi & GD)]; [rewrite shift_column_fr in GD by (assumption || lia); cbn [Nat.ltb Nat.leb] in GD; lra|].
      rewrite shift_column_fr in GD by (assumption || lia). destruct (Nat.ltb_spec i 3); [apply GD, B2; lia|now apply GD].
    + intros j Hj. rewrite (EG (j + 1)%nat j) by lia. now apply P.
Qed.
(** In that case the trace and the eigenvalues are those of the input. *)
Theorem C84_spectrum : forall M n op H Q, wf M -> nr M = n -> nc M = n -> (3 <= n)%nat -> hessenberg n (ent M) -> unreduced n (ent M) -> raw_francis_step M op = Some (H, Q) -> 0 <= ent H (n - 2) (n - 3) ->
  trace n (ent H) = trace n (ent M) /\ forall lambda, eigenvalue n (ent M) lambda <-> eigenvalue n (ent H) lambda.
Proof.
  intros M n op H Q W RM CM Hn HE UN E P. destruct (C84_francis_partial M n op W RM CM Hn HE) as (H' & Q' & E' & _ & _ & _ & _ & S & _). rewrite E in E'. injection E' as <- <-.
  destruct (S UN) as (_ & DS). specialize (DS P). apply double_shift_similar in DS. split; [now apply trace_similar|]. intros l. now apply eigen_similar.
Qed.
(** [francis_step_with_op] always returns the identity. *)
Theorem C84_op_identity : forall M n, wf M -> nr M = n -> nc M = n -> (3 <= n)%nat -> hessenberg n (ent M) -> exists H, raw_francis_step M true = Some (H, mk n n id_entry).
Proof.
  intros M n W RM CM Hn HE. destruct (francis_mk n (ent M) true Hn HE) as (g & E & _). exists (mk n n g). rewrite (wf_eq_mk M W) at 1. rewrite RM, CM. exact E.
Qed.
Theorem C84_panics : forall M op, nr M <> nc M \/ (nr M < 3)%nat -> raw_francis_step M op = None.
Proof.
  intros M op H. unfold raw_francis_step. destruct (Nat.eqb_spec (nr M) (nc M)) as [E|]; [|reflexivity]. destruct H as [H|H]; [contradiction|].
  destruct (midentity (if op then nr M else 1%nat)); [|reflexivity]. cbn [obind]. unfold fr_first. destruct (nr M) as [|[|[|k]]] eqn:N; [reflexivity|reflexivity| |lia]. cbn [usub Nat.leb obind Nat.sub].
  unfold mget. rewrite <- E, N. cbn [Nat.ltb Nat.leb andb]. repeat match goal with |- context [obind ?x _] => destruct x; cbn [obind]; [|reflexivity] end. reflexivity.
Qed.

(** Order three, when the shift column is a positive multiple of the last unit vector: the reflection exchanges the first and the last index. *)
Lemma hv_swap z : 0 < z -> hv_b 3 (vec3 0 0 z) = 1 /\ forall i, (i < 3)%nat -> hv_v 3 (vec3 0 0 z) i = vec3 1 0 (-1) i.
Proof.
  intros Z. assert (tail_sq 3 (vec3 0 0 z) = z * z) as T by (unfold tail_sq; cbn; ring). assert (norm2 3 (vec3 0 0 z) = z) as N.
  { unfold norm2, inner. cbn [sum vec3]. replace (tadd (tadd (tadd t0 (0 * 0)) (0 * 0)) (z * z)) with (z * z) by (cbn; ring). apply sqrt_square. lra. }
  assert (hv_h 3 (vec3 0 0 z) = - z) as Hh.
  { unfold hv_h. rewrite N. cbn [vec3]. ring. }
  unfold hv_b, hv_v. rewrite T, ?Hh. destruct (Req_EM_T (z * z) 0) as [K|K]; [nra|]. split; [field; nra|]. intros [|[|[|i]]] Hi; [| | |lia]; cbn [Nat.eqb vec3]; try reflexivity; field; lra.
Qed.

Lemma fr3_turn f z op : 0 < z -> hessenberg 3 f -> (forall i, (i < 3)%nat -> fr_vec 3 f i = vec3 0 0 z i) ->
  raw_francis_step (mk 3 3 f) op =
  (do vb <- householder_vec (mk 2 1 (fun i _ => vec3 (f 1%nat 2%nat) (f 0%nat 2%nat) 0 i)); do M <- fr_left (mk 3 3 (fun i j => f (2 - i)%nat (2 - j)%nat)) 1 3 0 3 (fst vb) (snd vb); do M <- fr_right M 0 3 1 3 (fst vb) (snd vb);
   Some (M, mk (if op then 3 else 1)%nat (if op then 3 else 1)%nat id_entry)).
Proof.
  intros Z HE HV. unfold raw_francis_step. cbn [nr nc mk]. fold (mk 3 3 f). rewrite Nat.eqb_refl. rewrite midentity_mk by (destruct op; lia). cbn [obind]. rewrite fr_first_mk by lia. cbn [obind fst snd usub Nat.leb Nat.sub].
  unfold rng. cbn [Nat.sub seq foldM]. rewrite (fr_step_mk 3 0 f (fr_vec 3 f)); [|lia|intros i j Hi _; now apply HE|lia]. cbn [obind f_m f_x f_y Nat.add].
  assert (forall i j, (i < 3)%nat -> (j < 3)%nat -> fr_next 3 0 f (fr_vec 3 f) i j = f (2 - i)%nat (2 - j)%nat) as N.
  { destruct (hv_ext 3 (fr_vec 3 f) (vec3 0 0 z) HV ltac:(lia)) as (Eb & Ev). destruct (hv_swap z Z) as (Sb & Sv). intros i j Hi Hj. unfold fr_next, hr, hl. rewrite Eb, Sb. cbn [sum Nat.add].
    assert (forall l, (l < 3)%nat -> shifted 0 3 (hv_v 3 (fr_vec 3 f)) l = vec3 1 0 (-1) l) as Sh by (intros l Hl; unfold shifted; replace ((0 <=? l) && (l <? 3))%nat with true by lia; rewrite Nat.sub_0_r, Ev, Sv by exact Hl; reflexivity).
    rewrite !Sh by lia. destruct i as [|[|[|i]]]; [| | |lia]; destruct j as [|[|[|j]]]; try lia; cbn; ring. }
  rewrite !N by lia. cbn [Nat.sub]. rewrite (mk_ext 3 3 _ _ N). rewrite (col_vec2 _ _ 0). reflexivity.
Qed.
Lemma hv2_zero x : 0 <= x -> hv_b 2 (vec3 x 0 0) = 0.
Proof. intros H. unfold hv_b, tail_sq. cbn [sum Nat.sub Nat.add vec3]. destruct (Req_EM_T _ 0) as [E|E]; [|exfalso; apply E; cbn; ring]. now destruct (Rle_dec 0 x). Qed.
Lemma hl_b0 n v f i j : hl n v 0 f i j = f i j. Proof. unfold hl. ring. Qed.
Lemma hr_b0 n v f i j : hr n v 0 f i j = f i j. Proof. unfold hr. ring. Qed.
Lemma fr3_good f z op : 0 < z -> hessenberg 3 f -> (forall i, (i < 3)%nat -> fr_vec 3 f i = vec3 0 0 z i) -> f 0%nat 2%nat = 0 -> 0 <= f 1%nat 2%nat ->
  raw_francis_step (mk 3 3 f) op = Some (mk 3 3 (fun i j => f (2 - i)%nat (2 - j)%nat), mk (if op then 3 else 1)%nat (if op then 3 else 1)%nat id_entry).
Proof.
  intros Z HE HV F02 F12. rewrite (fr3_turn f z op Z HE HV). rewrite householder_mk by lia. rewrite F02. cbn [obind fst snd]. rewrite hv2_zero by exact F12.
  pose proof (fr_left_mk 3 1 3 0 3 (hv_v 2 (vec3 (f 1%nat 2%nat) 0 0)) 0 (fun i j => f (2 - i)%nat (2 - j)%nat) ltac:(lia) ltac:(lia) ltac:(intros; lia)) as HL. change (3 - 1)%nat with 2%nat in HL. rewrite HL. clear HL. cbn [obind].
  pose proof (fr_right_mk 3 0 3 1 3 (hv_v 2 (vec3 (f 1%nat 2%nat) 0 0)) 0 (hl 3 (shifted 1 3 (hv_v 2 (vec3 (f 1%nat 2%nat) 0 0))) 0 (fun i j => f (2 - i)%nat (2 - j)%nat)) ltac:(lia) ltac:(lia) ltac:(intros; lia)) as HR. change (3 - 1)%nat with 2%nat in HR. rewrite HR. clear HR. cbn [obind].
  do 2 f_equal. apply mk_ext. intros i j Hi Hj. now rewrite hr_b0, hl_b0.
Qed.
(** When the last reflection is applied to a negative multiple of the first unit vector, the middle row and column are multiplied by three. *)
Lemma fr3_bad f z op : 0 < z -> hessenberg 3 f -> (forall i, (i < 3)%nat -> fr_vec 3 f i = vec3 0 0 z i) -> f 0%nat 2%nat = 0 -> f 1%nat 2%nat < 0 ->
  raw_francis_step (mk 3 3 f) op = Some (mk 3 3 (fun i j => (if (i =? 1)%nat then 3 else 1) * (if (j =? 1)%nat then 3 else 1) * f (2 - i)%nat (2 - j)%nat), mk (if op then 3 else 1)%nat (if op then 3 else 1)%nat id_entry).
Proof.
  intros Z HE HV F02 F12. rewrite (fr3_turn f z op Z HE HV). rewrite householder_mk by lia. rewrite F02. cbn [obind fst snd].
  assert (bad_vec 2 (vec3 (f 1%nat 2%nat) 0 0)) as BV by (split; [exact F12|intros [|[|i]] Hi; (reflexivity || lia)]). destruct (hv_bad 2 _ ltac:(lia) BV) as (-> & V).
  rewrite (mk_ext 2 1 _ (fun i _ => id_entry i 0%nat)) by (intros i j Hi Hj; now apply V).
  pose proof (fr_left_mk 3 1 3 0 3 (fun i => id_entry i 0%nat) (-2) (fun i j => f (2 - i)%nat (2 - j)%nat) ltac:(lia) ltac:(lia) ltac:(intros; lia)) as HL. change (3 - 1)%nat with 2%nat in HL. rewrite HL. clear HL. cbn [obind].
  pose proof (fr_right_mk 3 0 3 1 3 (fun i => id_entry i 0%nat) (-2) (hl 3 (shifted 1 3 (fun i => id_entry i 0%nat)) (-2) (fun i j => f (2 - i)%nat (2 - j)%nat)) ltac:(lia) ltac:(lia) ltac:(intros; lia)) as HR. change (3 - 1)%nat with 2%nat in HR. rewrite HR. clear HR. cbn [obind].
  do 2 f_equal. apply mk_ext. intros i j Hi Hj. unfold hr, hl, shifted, id_entry. destruct i as [|[|[|i]]]; [| | |lia]; destruct j as [|[|[|j]]]; try lia; cbn; ring.
Qed.

(** The claim that the result is orthogonally similar to the input, for inputs with no zero on the subdiagonal. *)
Definition C84_claim : Prop := forall M n, wf M -> nr M = n -> nc M = n -> (3 <= n)%nat -> hessenberg n (ent M) -> unreduced n (ent M) -> exists H Q, raw_francis_step M false = Some (H, Q) /\ orth_similar n (ent M) (ent H).
(** [[1,-1,0],[1,1,-1],[0,1,1]], of trace 3; the result has trace 11. *)
Definition tri3 (a b c d e : R) : nat -> nat -> R := fun i j => match i, j with 0, 0 | 1, 1 | 2, 2 => a | 0, 1 => b | 1, 0 => c | 1, 2 => d | 2, 1 => e | _, _ => 0%R end%nat.
Lemma tri3_hess a b c d e : hessenberg 3 (tri3 a b c d e).
Proof. intros i j Hi. destruct i as [|[|[|i]]]; try lia. destruct j as [|j]; [reflexivity|lia]. Qed.
Lemma tri3_vec a b c d e i : (i < 3)%nat -> b * c = d * e -> fr_vec 3 (tri3 a b c d e) i = vec3 0 0 (c * e) i.
Proof. intros Hi E. unfold fr_vec. destruct i as [|[|[|i]]]; [| | |lia]; cbn; nra. Qed.
Theorem C84_refuted : ~ C84_claim.
Proof.
  intros H. set (f := tri3 1 (-1) 1 (-1) 1). destruct (H (mk 3 3 f) 3%nat (wf_mk _ _ _) eq_refl eq_refl (le_n _)) as (B & Q & E & TS).
  - intros i j Hi. rewrite ent_mk by lia. now apply tri3_hess.
  - intros i Hi. rewrite ent_mk by lia. destruct i as [|[|i]]; try lia; cbn; lra.
  - rewrite (fr3_bad f (1 * 1) false) in E; [|lra|apply tri3_hess|intros i Hi; apply tri3_vec; [exact Hi|ring]|reflexivity|cbn; lra]. injection E as <- <-. apply trace_similar in TS.
    unfold trace in TS. cbn [sum] in TS. rewrite !ent_mk in TS by lia. cbn in TS. lra.
Qed.
(** The claim that the matrix returned by [francis_step_with_op] is the similarity. *)
Definition C84_op_claim : Prop := forall M n H Q, wf M -> nr M = n -> nc M = n -> (3 <= n)%nat -> hessenberg n (ent M) -> unreduced n (ent M) -> raw_francis_step M true = Some (H, Q) -> 0 <= ent H (n - 2) (n - 3) -> congruent n (ent M) (ent Q) (ent H).
Theorem C84_op_refuted : ~ C84_op_claim.
Proof.
  intros H. set (f := tri3 0 1 2 1 2). pose proof (fr3_good f (2 * 2) true ltac:(lra) (tri3_hess _ _ _ _ _) ltac:(intros i Hi; apply tri3_vec; [exact Hi|ring]) eq_refl ltac:(cbn; lra)) as E.
  assert (congruent 3 (ent (mk 3 3 f)) (ent (mk 3 3 id_entry)) (ent (mk 3 3 (fun i j => f (2 - i)%nat (2 - j)%nat)))) as C.
  { apply (H (mk 3 3 f) 3%nat _ _ (wf_mk _ _ _) eq_refl eq_refl (le_n _)); [| |exact E|].
    - intros i j Hi. rewrite ent_mk by lia. now apply tri3_hess.
    - intros i Hi. rewrite ent_mk by lia. destruct i as [|[|i]]; try lia; cbn; lra.
    - rewrite ent_mk by lia. cbn. lra. }
  specialize (C 0%nat 1%nat ltac:(lia) ltac:(lia)). unfold prod_entry, transposed in C. cbn in C. lra.
Qed.
(** The hypotheses are met: [[0,1,0],[2,0,1],[0,2,0]] becomes [[0,2,0],[1,0,2],[0,1,0]]. *)
Example C84_nonvacuous : exists H Q, raw_francis_step (mk 3 3 (tri3 0 1 2 1 2)) false = Some (H, Q) /\ ent H 1 0 = 1 /\ ent H 0 1 = 2 /\ unreduced 3 (tri3 0 1 2 1 2).
Proof.
  rewrite (fr3_good (tri3 0 1 2 1 2) (2 * 2) false ltac:(lra) (tri3_hess _ _ _ _ _) ltac:(intros i Hi; apply tri3_vec; [exact Hi|ring]) eq_refl ltac:(cbn; lra)). eexists. eexists. split; [reflexivity|]. rewrite !ent_mk by lia. cbn. split; [reflexivity|]. split; [reflexivity|].
  intros i Hi. destruct i as [|[|i]]; try lia; cbn; lra.
Qed.
Print Assumptions C84_francis_partial.
Print Assumptions C84_spectrum.
Print Assumptions C84_op_identity.
Print Assumptions C84_panics.
Print Assumptions C84_refuted.
Print Assumptions C84_op_refuted.
