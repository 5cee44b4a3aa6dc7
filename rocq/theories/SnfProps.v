(** Theorems C34-C37: Smith normal form over the integers. *)
From Coq Require Import List Arith ZArith Bool Lia ZifyBool ZifyNat.
From Verif Require Import PidModel MatModel MatSpec MatProofs MatProofs2 SnfModel SnfProofs SnfProofs2 SnfProofs3.
Import ListNotations.
Open Scope nat_scope.

(** [A] is an [n x m] integer matrix. *)
Definition zmat (n m : nat) (A : mat Z) : Prop := wf A /\ nr A = n /\ nc A = m.
(** [A] and [B] are inverse to each other, as computed by the matrix product. *)
Definition inverses (n : nat) (A B : mat Z) : Prop := exists I, midentity n = Some I /\ mmul A B = Some I /\ mmul B A = Some I.
(** Zero off the diagonal; the first [rk] diagonal entries are nonzero, the others zero; each nonzero one divides the next. *)
Definition smith_diagonal (rk : nat) (D : mat Z) : Prop :=
  rk <= nr D /\ rk <= nc D /\
  (forall i j, i < nr D -> j < nc D -> i <> j -> ent D i j = 0%Z) /\
  (forall i, i < nr D -> i < nc D -> (ent D i i <> 0%Z <-> i < rk)) /\
  (forall i, i + 1 < rk -> (ent D i i | ent D (i + 1) (i + 1))%Z).

Lemma zmat_mk n m f : zmat n m (mk n m f). Proof. split; [apply wf_mk|now split]. Qed.
Lemma inverses_mk n A B : 0 < n -> inverse_on n A B -> inverses n (mk n n A) (mk n n B).
Proof.
  intros Hn H. exists (mk n n zid). split; [now apply midentity_mk|]. rewrite !mmul_mk. split; f_equal; apply mk_ext; intros; now apply H.
Qed.
Lemma factors_mk n m f0 S R C : factors n m f0 S R C -> (do RM <- mmul (mk n n R) (mk n m f0); mmul RM (mk m m C)) = Some (mk n m S).
Proof.
  intros H. rewrite mmul_mk. cbn [obind]. rewrite mmul_mk. f_equal. apply mk_ext. intros i j Hi Hj. rewrite (prod_assoc RZ). now apply H.
Qed.
Lemma Diag_mk n m S rk : Diag n m S rk -> chain S rk rk -> smith_diagonal rk (mk n m S).
Proof.
  intros (H1 & H2 & H3 & H4) HC. unfold smith_diagonal. rewrite nr_mk, nc_mk. split; [exact H1|]. split; [exact H2|]. split; [|split].
  - intros i j Hi Hj Hne. rewrite ent_mk by assumption. apply H4; auto.
  - intros i Hi Hj. rewrite ent_mk by assumption. split; [|apply H3]. intros Hz. destruct (le_lt_dec rk i); [|assumption]. exfalso. apply Hz, H4; auto.
  - intros i Hi. rewrite !ent_mk by lia. apply HC; lia.
Qed.

(** C34.  The function terminates without panicking (its debug assertions included) and R * M * C = D. *)
Theorem C34_factors : forall M, wf M -> 0 < nr M -> 0 < nc M ->
  exists Ri R D C Ci, smith_normal_form M = Some (Ri, R, D, C, Ci) /\
    zmat (nr M) (nr M) R /\ zmat (nr M) (nc M) D /\ zmat (nc M) (nc M) C /\
    (do RM <- mmul R M; mmul RM C) = Some D.
Proof.
  intros M HM Hn Hm. rewrite (wf_eq_mk M HM). set (n := nr M) in *. set (m := nc M) in *. rewrite nr_mk, nc_mk.
  destruct (snf_ok n m (ent M) Hn Hm) as (S & Ri & R & C & Ci & Cg & rk & E & F1 & _).
  eexists _, _, _, _, _. split; [exact E|]. repeat (split; [apply zmat_mk|]). now apply factors_mk.
Qed.
Print Assumptions C34_factors.

(** C35 *)
Theorem C35_diagonal : forall M Ri R D C Ci, wf M -> 0 < nr M -> 0 < nc M -> smith_normal_form M = Some (Ri, R, D, C, Ci) ->
  exists rk, smith_diagonal rk D.
Proof.
  intros M Ri' R' D' C' Ci' HM Hn Hm H. rewrite (wf_eq_mk M HM) in H. set (n := nr M) in *. set (m := nc M) in *.
  destruct (snf_ok n m (ent M) Hn Hm) as (S & Ri & R & C & Ci & Cg & rk & E & _ & _ & _ & H1 & H2 & _).
  rewrite E in H. injection H as <- <- <- <- <-. exists rk. now apply Diag_mk.
Qed.
Print Assumptions C35_diagonal.

(** C36 *)
Theorem C36_row_inverse : forall M Ri R D C Ci, wf M -> 0 < nr M -> 0 < nc M -> smith_normal_form M = Some (Ri, R, D, C, Ci) ->
  inverses (nr M) R Ri.
Proof.
  intros M Ri' R' D' C' Ci' HM Hn Hm H. rewrite (wf_eq_mk M HM) in H. set (n := nr M) in *. set (m := nc M) in *.
  destruct (snf_ok n m (ent M) Hn Hm) as (S & Ri & R & C & Ci & Cg & rk & E & _ & H1 & _).
  rewrite E in H. injection H as <- <- <- <- <-. now apply inverses_mk.
Qed.
Print Assumptions C36_row_inverse.

(** C37.  C is invertible over the integers... *)
Theorem C37_col_invertible_partial : forall M Ri R D C Ci, wf M -> 0 < nr M -> 0 < nc M -> smith_normal_form M = Some (Ri, R, D, C, Ci) ->
  exists X, zmat (nc M) (nc M) X /\ inverses (nc M) C X.
Proof.
  intros M Ri' R' D' C' Ci' HM Hn Hm H. rewrite (wf_eq_mk M HM) in H. set (n := nr M) in *. set (m := nc M) in *.
  destruct (snf_ok n m (ent M) Hn Hm) as (S & Ri & R & C & Ci & Cg & rk & E & _ & _ & H1 & _).
  rewrite E in H. injection H as <- <- <- <- <-. exists (mk m m Cg). split; [apply zmat_mk|]. now apply inverses_mk.
Qed.
Print Assumptions C37_col_invertible_partial.
(** ... and the returned matrix is that inverse when D has at most one nonzero diagonal entry, or all of them are 1 or -1. *)
Theorem C37_col_inverse_partial : forall M Ri R D C Ci, wf M -> 0 < nr M -> 0 < nc M -> smith_normal_form M = Some (Ri, R, D, C, Ci) ->
  (forall i, 0 < i < Nat.min (nr M) (nc M) -> ent D i i = 0%Z) \/
  (forall i, i < Nat.min (nr M) (nc M) -> ent D i i = 0%Z \/ ent D i i = 1%Z \/ ent D i i = (-1)%Z) ->
  inverses (nc M) C Ci.
Proof.
  intros M Ri' R' D' C' Ci' HM Hn Hm H HD. rewrite (wf_eq_mk M HM) in H. set (n := nr M) in *. set (m := nc M) in *.
  destruct (snf_ok n m (ent M) Hn Hm) as (S & Ri & R & C & Ci & Cg & rk & E & _ & _ & _ & H1 & H2 & (st & Sp & E1 & _ & H3 & H4 & H5)).
  rewrite E in H. injection H as <- <- <- <- <-. apply inverses_mk; [exact Hm|]. apply H4. destruct H1 as (R1 & R2 & R3 & R4). destruct HD as [HD|HD].
  - assert (rk <= 1). { destruct (le_lt_dec rk 1); [assumption|]. exfalso. specialize (HD 1 ltac:(lia)). rewrite ent_mk in HD by lia. revert HD. now apply R3. }
    intros p q Hp Hq. lia.
  - apply H5. intros p Hp. specialize (HD p ltac:(lia)). rewrite ent_mk in HD by lia. specialize (R3 p Hp). lia.
Qed.
Print Assumptions C37_col_inverse_partial.
(** Before the final divisibility pass (line 1021) both pairs are inverse to each other, for every input. *)
Theorem C37_before_divisibility_partial : forall M st, wf M -> 0 < nr M -> 0 < nc M -> snf_pivots M = Some st ->
  inverses (nr M) (sR st) (sRi st) /\ inverses (nc M) (sC st) (sCi st).
Proof.
  intros M st' HM Hn Hm H. rewrite (wf_eq_mk M HM) in H. set (n := nr M) in *. set (m := nc M) in *.
  destruct (snf_pivots_ok n m (ent M) Hn Hm) as (S & st & rk & E & (R & Ri & C & Ci & Es & _ & H1 & H2) & _). rewrite E in H. injection H as <-.
  rewrite Es. cbn [sS sR sRi sC sCi]. split; now apply inverses_mk.
Qed.
Print Assumptions C37_before_divisibility_partial.
(** The full claim is false: for diag(2, 3) the last two matrices are not inverse to each other. *)
Theorem C37_col_inverse_refuted : exists M Ri R D C Ci, zmat 2 2 M /\ smith_normal_form M = Some (Ri, R, D, C, Ci) /\ ~ inverses 2 C Ci.
Proof.
  exists (Mat 2 2 [[2; 0]; [0; 3]]%Z). eexists _, _, _, _, _. split; [|split; [vm_compute; reflexivity|]].
  - split; [|split; reflexivity]. split; [reflexivity|]. repeat constructor.
  - intros (I & E1 & E2 & _). vm_compute in E1, E2. congruence.
Qed.
Print Assumptions C37_col_inverse_refuted.

(** A concrete, non-trivial run meeting all hypotheses. *)
Example C34_ex : exists Ri R D C Ci, smith_normal_form (Mat 2 3 [[0; 4; 6]; [3; 9; -12]]%Z) = Some (Ri, R, D, C, Ci) /\ rws D = [[1; 0; 0]; [0; 6; 0]]%Z.
Proof. eexists _, _, _, _, _. split; vm_compute; reflexivity. Qed.
Example C37_ex_units : exists Ri R D C Ci, smith_normal_form (Mat 2 3 [[1; 4; 6]; [3; 9; 14]]%Z) = Some (Ri, R, D, C, Ci) /\ rws D = [[1; 0; 0]; [0; 1; 0]]%Z.
Proof. eexists _, _, _, _, _. split; vm_compute; reflexivity. Qed.
Example C37_ex_rank1 : exists Ri R D C Ci, smith_normal_form (Mat 2 2 [[4; 6]; [6; 9]]%Z) = Some (Ri, R, D, C, Ci) /\ rws D = [[1; 0]; [0; 0]]%Z.
Proof. eexists _, _, _, _, _. split; vm_compute; reflexivity. Qed.
