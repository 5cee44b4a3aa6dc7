(** Property C149: the three products of sparse matrices at the type [f64] are the dense product, bit for bit (up to the payload of a not-a-number),
    although they leave out the entries that are not stored. *)
From Coq Require Import ZArith Reals Lra Lia List Arith Bool.
From Flocq Require Import Core Plus_error IEEE754.BinarySingleNaN.
From Verif Require Import PidModel MatModel MatSpec MatProofs MatProofs2 SnfModel SnfProofs2 SparseModel SparseSpec SparseProofs SparseProofs2 SparseProps RankModel LuModel FloatModel FloatSpec FloatProofs SparseFloatProofs.
Import ListNotations.
Open Scope nat_scope.

Definition not_minus_zero (x : binary64) : Prop := x <> B754_zero true.
Lemma add_not_minus_zero s x : not_minus_zero s -> not_minus_zero (f_add s x).
Proof.
  unfold not_minus_zero. intros Hs E. destruct (is_finite s) eqn:Fs; [|destruct s as [?|?| |]; try discriminate Fs; destruct x as [?|?| |]; try discriminate E; cbn in E; destruct (eqb _ _) in E; discriminate E].
  destruct (is_finite x) eqn:Fx; [|destruct x as [?|?| |]; try discriminate Fx; destruct s as [?|?| |]; try discriminate Fs; discriminate E].
  pose proof (Bplus_correct 53 1024 _ _ mode_NE s x Fs Fx) as B. unfold f_add in E. rewrite E in B. destruct (Rlt_bool _ _) in B.
  - destruct B as (B1 & _ & B2). cbn [B2R Bsign] in B1, B2. symmetry in B1.
    destruct (Req_dec (B2R s + B2R x) 0) as [Z|Z].
    + rewrite Rcompare_Eq in B2 by exact Z. symmetry in B2. apply andb_true_iff in B2. destruct B2 as (Ss & Sx).
      destruct s as [[]|?| |ss ms es Hs']; try discriminate Fs; try discriminate Ss; [now apply Hs|]. cbn [Bsign] in Ss. subst ss.
      destruct x as [[]|?| |sx mx ex Hx]; try discriminate Fx; try discriminate Sx; [cbn in E; discriminate E|]. cbn [Bsign] in Sx. subst sx.
      assert (B2R (B754_finite true ms es Hs' : binary64) < 0)%R by (apply F2R_lt_0; reflexivity). assert (B2R (B754_finite true mx ex Hx : binary64) < 0)%R by (apply F2R_lt_0; reflexivity). lra.
    + revert B1. apply round_plus_neq_0; try apply generic_format_B2R; auto with typeclass_instances.
      * exact (fexp_correct 53 1024 _).
      * change (Exp_not_FTZ (FLT_exp (3 - 1024 - 53) 53)). apply monotone_exp_not_FTZ; [exact (FLT_exp_valid _ _)|exact (FLT_exp_monotone _ _)].
  - destruct B as (B & _). discriminate B.
Qed.
Lemma add_zero_product s x : not_minus_zero s -> finite x -> f_add s (f_mul f_zero x) = s.
Proof.
  unfold not_minus_zero, finite. intros Hs F. assert (E : exists b, f_mul f_zero x = B754_zero b) by (destruct x as [?|?| |]; try discriminate F; eexists; reflexivity).
  destruct E as (b & ->). destruct s as [[]|?| |]; try reflexivity; [now destruct Hs|now destruct b].
Qed.
Lemma f_mul_comm x y : f_mul x y = f_mul y x.
Proof.
  unfold f_mul, Bmult. destruct x as [sx|sx| |sx mx ex Hx], y as [sy|sy| |sy my ey Hy]; try reflexivity; try (now rewrite xorb_comm).
  apply B2SF_inj. rewrite !B2SF_SF2B. rewrite xorb_comm, Pos.mul_comm, Z.add_comm. reflexivity.
Qed.
Lemma zero_not_minus : not_minus_zero t0. Proof. discriminate. Qed.
Lemma zero_finite : finite t0. Proof. reflexivity. Qed.
(** The entries that are stored are finite. *)
Definition finite_entries (f : nat -> nat -> option binary64) (n m : nat) : Prop := forall i j v, i < n -> j < m -> f i j = Some v -> finite v.
Definition full (f : nat -> nat -> option binary64) (i j : nat) : binary64 := match f i j with Some v => v | None => f_zero end.

(** C149.  With finite stored entries the three sparse products return the very matrix the dense product returns, also when a product overflows. *)
Theorem C149_products : forall n k m f g (A B : mat binary64),
  inhabited_entries n k f -> inhabited_entries k m g -> finite_entries f n k -> finite_entries g k m ->
  is_mat n k (full f) A -> is_mat k m (full g) B ->
  exists sa sb P, sparse_from n k f = Some sa /\ sparse_from k m g = Some sb /\ mmul A B = Some P /\
    s_mul sa sb = Some P /\ s_mul_dense sa B = Some P /\ dense_mul_s A sb = Some P.
Proof.
  intros n k m f g A B HA HB FA FB EA EB. destruct (proj1 (sparse_from_ok n k f) HA) as (sa & E1 & R1). destruct (proj1 (sparse_from_ok k m g) HB) as (sb & E2 & R2).
  apply mk_ent in EA. apply mk_ent in EB. rewrite EA, EB. exists sa, sb, (mk n m (prod_entry k (dense f) (dense g))).
  assert (0 < n) by (destruct HA as (? & ? & ? & _); lia). assert (0 < m) by (destruct HB as (? & ? & ? & ? & _); lia).
  assert (DF : forall (f : nat -> nat -> option binary64) n m, finite_entries f n m -> forall i j, i < n -> j < m -> finite (full f i j)).
  { intros h p q F i j Hi Hj. unfold full. destruct (h i j) eqn:E; [eapply F; eauto|reflexivity]. }
  split; [exact E1|]. split; [exact E2|]. split; [apply mmul_mk|].
  split; [apply (s_mul_gen not_minus_zero finite); try assumption; [exact zero_not_minus|exact add_not_minus_zero|exact zero_finite|exact add_zero_product|exact f_mul_comm]|].
  split; [apply (s_mul_dense_gen not_minus_zero finite); try assumption; try exact zero_not_minus; try exact add_not_minus_zero; try exact zero_finite; try exact add_zero_product; try exact f_mul_comm; now apply DF|].
  apply (dense_mul_s_gen not_minus_zero finite); try assumption; try exact zero_not_minus; try exact add_not_minus_zero; try exact zero_finite; try exact add_zero_product; try exact f_mul_comm; now apply DF.
Qed.
Print Assumptions C149_products.
(** With one dense operand only that operand has to be finite: what is stored in the sparse one can be infinite or not a number. *)
Theorem C149_dense_operand : forall n k m f (A : mat binary64), inhabited_entries n k f -> is_mat n k (full f) A ->
  exists sa, sparse_from n k f = Some sa /\
    (0 < m -> forall B, is_mat k m (ent B) B -> finite_mat B -> exists P, mmul A B = Some P /\ s_mul_dense sa B = Some P) /\
    (0 < m -> forall B, is_mat m n (ent B) B -> finite_mat B -> exists P, mmul B A = Some P /\ dense_mul_s B sa = Some P).
Proof.
  intros n k m f A HA EA. destruct (proj1 (sparse_from_ok n k f) HA) as (sa & E1 & R1). apply mk_ent in EA. rewrite EA. exists sa. split; [exact E1|].
  assert (0 < n /\ 0 < k) as (Hn & Hk) by (destruct HA as (? & ? & ? & ? & _); lia).
  split; intros Hm B EB FB; pose proof (proj1 (mk_ent _ _ _ _) EB) as QB; destruct EB as (X & Y & _); rewrite QB.
  - exists (mk n m (prod_entry k (dense f) (ent B))). split; [apply mmul_mk|]. apply (s_mul_dense_gen not_minus_zero finite); try assumption; try exact zero_not_minus; try exact add_not_minus_zero; try exact zero_finite; try exact add_zero_product; try exact f_mul_comm. intros i j Hi Hj. apply FB; lia.
  - exists (mk m k (prod_entry n (ent B) (dense f))). split; [apply mmul_mk|]. apply (dense_mul_s_gen not_minus_zero finite); try assumption; try exact zero_not_minus; try exact add_not_minus_zero; try exact zero_finite; try exact add_zero_product; try exact f_mul_comm. intros i j Hi Hj. apply FB; lia.
Qed.
Print Assumptions C149_dense_operand.

(** Refuted without finiteness: an infinite factor of an entry that is not stored makes the dense product not a number; the sparse products are 1. *)
Definition row10 (i j : nat) : option binary64 := match i, j with 0, 0 => Some f_one | _, _ => None end.
Definition col1inf (i j : nat) : option binary64 := match i, j with 0, 0 => Some f_one | 1, 0 => Some (B754_infinity false) | _, _ => None end.
Lemma row10_run (x y : binary64) : exists sa sb,
  sparse_from 1 2 (fun i j => match i, j with 0, 0 => Some x | _, _ => None end) = Some sa /\
  sparse_from 2 1 (fun i j => match i, j with 0, 0 => Some x | 1, 0 => Some y | _, _ => None end) = Some sb /\
  s_mul sa sb = Some (Mat 1 1 [[f_add f_zero (f_mul x x)]]) /\ s_mul_dense sa (Mat 2 1 [[x]; [y]]) = Some (Mat 1 1 [[f_add f_zero (f_mul x x)]]).
Proof. do 2 eexists. split; [lazy -[f_add f_mul f_zero]; reflexivity|]. split; [lazy -[f_add f_mul f_zero]; reflexivity|]. split; lazy -[f_add f_mul f_zero]; reflexivity. Qed.
Theorem C149_infinite_refuted : exists sa sb A B P Q, is_mat 1 2 (full row10) A /\ is_mat 2 1 (full col1inf) B /\ sparse_from 1 2 row10 = Some sa /\ sparse_from 2 1 col1inf = Some sb /\
  mmul A B = Some P /\ ent P 0 0 = B754_nan /\ s_mul sa sb = Some Q /\ s_mul_dense sa B = Some Q /\ ent Q 0 0 = f_one.
Proof.
  destruct (row10_run f_one (B754_infinity false)) as (sa & sb & E1 & E2 & M1 & M2).
  exists sa, sb, (Mat 1 2 [[f_one; f_zero]]), (Mat 2 1 [[f_one]; [B754_infinity false]]). eexists. eexists.
  split; [apply mk_ent; reflexivity|]. split; [apply mk_ent; reflexivity|]. split; [exact E1|]. split; [exact E2|].
  split; [change (Mat 1 2 [[f_one; f_zero]]) with (mk 1 2 (full row10)); change (Mat 2 1 [[f_one]; [B754_infinity false]]) with (mk 2 1 (full col1inf)); apply mmul_mk|].
  split; [rewrite ent_mk by lia; vm_compute; reflexivity|].
  split; [exact M1|]. split; [exact M2|]. cbn [ent]. apply B2SF_inj. vm_compute. reflexivity.
Qed.
Print Assumptions C149_infinite_refuted.
(** The hypotheses of C149 are met. *)
Definition f22 (i j : nat) : option binary64 := if i =? j then None else Some f_one.
Definition g22 (i j : nat) : option binary64 := if i =? j then Some f_one else None.
Example C149_nontrivial : inhabited_entries 2 2 f22 /\ inhabited_entries 2 2 g22 /\ finite_entries f22 2 2 /\ finite_entries g22 2 2 /\ is_mat 2 2 (full f22) (mk 2 2 (full f22)).
Proof.
  split; [exists 0, 1; repeat split; try lia; discriminate|]. split; [exists 0, 0; repeat split; try lia; discriminate|].
  split; [|split; [|now apply mk_ent]]; intros i j v Hi Hj; unfold f22, g22; destruct (i =? j); intros E; try discriminate E; injection E as <-; vm_compute; reflexivity.
Qed.
