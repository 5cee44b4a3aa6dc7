(** C134, C135: Smith normal form and integral homology on machine integers. *)
From Coq Require Import List Arith ZArith Bool Lia Sorting.Sorted.
From Verif Require Import PidModel LinModel LinSpec MatModel MatSpec MatProofs MatProofs2 SnfModel SnfProps HomModel HomSpec HomProps SnfChkModel SnfChkProofs SnfChkProofs2.
Import ListNotations.
Open Scope nat_scope.

(** The model of this file and the one of C34-C37, C43 are the same function when arithmetic is exact. *)
Theorem C134_exact : forall M, smith_normal_form_p exact M = smith_normal_form M.
Proof. intros M. apply agree_exact. exact (ag_snf _ good_exact M). Qed.
Print Assumptions C134_exact.

(** C134.  On a w-bit type with overflow checks, what smith_normal_form returns is right. *)
Theorem C134_debug : forall w M Ri R D C Ci, wf M -> 0 < nr M -> 0 < nc M -> smith_normal_form_p (debug w) M = Some (Ri, R, D, C, Ci) ->
  zmat (nr M) (nr M) R /\ zmat (nr M) (nc M) D /\ zmat (nc M) (nc M) C /\ (do RM <- mmul R M; mmul RM C) = Some D /\
  (exists rk, smith_diagonal rk D) /\ inverses (nr M) R Ri /\ (exists X, zmat (nc M) (nc M) X /\ inverses (nc M) C X).
Proof.
  intros w M Ri R D C Ci W Hn Hm E. apply (proj1 (ag_snf _ good_debug M)) in E.
  destruct (C34_factors M W Hn Hm) as (Ri' & R' & D' & C' & Ci' & E' & F1 & F2 & F3 & F4). rewrite E in E'. injection E' as <- <- <- <- <-.
  do 4 (split; [assumption|]). split; [eapply C35_diagonal; eassumption|]. split; [eapply C36_row_inverse; eassumption|eapply C37_col_invertible_partial; eassumption].
Qed.
Print Assumptions C134_debug.

(** For every matrix a wide enough type does not overflow. *)
Theorem C134_enough_bits : forall M, wf M -> 0 < nr M -> 0 < nc M -> exists w0 r, forall w, (w0 <= w)%Z -> smith_normal_form_p (debug w) M = Some r.
Proof.
  intros M W Hn Hm. destruct (C34_factors M W Hn Hm) as (Ri & R & D & C & Ci & E & _). destruct (proj2 (ag_snf _ good_debug M) _ E) as [w0 H]. eauto.
Qed.
Print Assumptions C134_enough_bits.

(** A release build returns the same where a debug build does not panic. *)
Theorem C134_release_agrees : forall w M r, (0 < w)%Z -> smith_normal_form_p (debug w) M = Some r -> smith_normal_form_p (release w) M = Some r.
Proof. intros w M r Hw. apply sm_snf; [intros; now apply width_wrap|intros; apply sim_refl|reflexivity]. Qed.
Print Assumptions C134_release_agrees.

(** All entries are representable. *)
Definition fits (w : Z) (M : mat Z) : Prop := forall i j, i < nr M -> j < nc M -> (- 2 ^ (w - 1) <= ent M i j < 2 ^ (w - 1))%Z.
Definition fitsb (w : Z) (M : mat Z) : bool := forallb (forallb (fun z => (- 2 ^ (w - 1) <=? z) && (z <? 2 ^ (w - 1)))%Z) (rws M).
Lemma fitsb_ok w M : wf M -> fitsb w M = true -> fits w M.
Proof.
  intros [W1 W2] H i j Hi Hj. unfold fitsb in H. rewrite forallb_forall in H. assert (Hr : In (nth i (rws M) []) (rws M)) by (apply nth_In; lia).
  specialize (H _ Hr). rewrite forallb_forall in H. rewrite Forall_forall in W2. specialize (W2 _ Hr).
  specialize (H (nth j (nth i (rws M) []) 0%Z) ltac:(apply nth_In; lia)). unfold ent. apply andb_prop in H. rewrite Z.leb_le, Z.ltb_lt in H. exact H.
Qed.

(** False: a debug build panics for a matrix although all five matrices of the exact answer are representable. *)
Theorem C134_panic_refuted : exists M Ri R D C Ci, wf M /\ smith_normal_form M = Some (Ri, R, D, C, Ci) /\
  fits 64 M /\ fits 64 Ri /\ fits 64 R /\ fits 64 D /\ fits 64 C /\ fits 64 Ci /\ smith_normal_form_p (debug 64) M = None.
Proof.
  exists (Mat 2 2 [[2; 2 ^ 62]; [3; 3 * 2 ^ 61 + 1]]%Z). eexists _, _, _, _, _. split; [split; [reflexivity|repeat constructor]|]. split; [vm_compute; reflexivity|].
  do 6 (split; [apply fitsb_ok; [split; [reflexivity|repeat constructor]|vm_compute; reflexivity]|]). vm_compute. reflexivity.
Qed.
Print Assumptions C134_panic_refuted.

Lemma inj2 v : in_kernel (Mat 2 2 [[1; 2 ^ 32]; [2 ^ 32; 0]]%Z) v -> v = [0; 0]%Z.
Proof.
  intros [L K]. destruct v as [|x [|y [|z v]]]; cbn in L; try discriminate.
  assert (K0 := K 0 ltac:(cbn; lia)). assert (K1 := K 1 ltac:(cbn; lia)). unfold apply_at, ent in K0, K1.
  cbn -[Z.mul Z.add Z.pow] in K0, K1. change (2 ^ 32)%Z with 4294967296%Z in *. f_equal; [|f_equal]; lia.
Qed.
(** False: a release build returns, without any sign of it, a diagonal matrix with a zero entry for an injective matrix (determinant -2^64). *)
Theorem C134_release_refuted : exists M Ri R D C Ci, wf M /\ fits 64 M /\
  smith_normal_form_p (release 64) M = Some (Ri, R, D, C, Ci) /\ nc D = 2 /\ nr D = 2 /\ smith_diagonal 1 D /\
  (forall v, in_kernel M v -> v = [0; 0]%Z) /\ smith_normal_form_p (debug 64) M = None.
Proof.
  exists (Mat 2 2 [[1; 2 ^ 32]; [2 ^ 32; 0]]%Z). eexists _, _, _, _, _. split; [split; [reflexivity|repeat constructor]|].
  split; [apply fitsb_ok; [split; [reflexivity|repeat constructor]|vm_compute; reflexivity]|]. split; [vm_compute; reflexivity|].
  split; [reflexivity|]. split; [reflexivity|].
  split. { split; [cbn; lia|]. split; [cbn; lia|]. split; [|split].
    - intros [|[|i]] [|[|j]]; cbn; intros; try lia; reflexivity.
    - intros [|[|i]]; cbn; intros; split; intros; try lia; try discriminate.
    - intros [|i]; cbn; intros; lia. }
  split; [exact inj2|].
  vm_compute. reflexivity.
Qed.
Print Assumptions C134_release_refuted.

Example C134_ex : exists Ri R D C Ci, smith_normal_form_p (debug 8) (Mat 2 3 [[0; 4; 6]; [3; 9; -12]]%Z) = Some (Ri, R, D, C, Ci) /\ rws D = [[1; 0; 0]; [0; 6; 0]]%Z.
Proof. eexists _, _, _, _, _. split; vm_compute; reflexivity. Qed.

(** C135.  [IntegralHomology::new] on a w-bit type with overflow checks: what is returned is the homology. *)
Theorem C135_debug : forall B cmp w (bms : list (mat Z * list B)) max_dim out, total_order cmp -> complex_data bms ->
  integral_homology_p (debug w) cmp bms max_dim = Some out ->
  let ds := map fst bms in
  let top := match max_dim with None => length bms | Some d => Nat.min (d + 1) (length bms) end in
  length out <= top /\
  (forall k h cyc bnd, nth_error out k = Some (h, cyc, bnd) -> exists d bs, nth_error bms k = Some (d, bs) /\
    quotient_is (in_kernel d) (boundaries_of ds k) (group_of (free_rank h) (elementary_divisors h)) /\
    (exists r r', rank_of ds k r /\ rank_of ds (k + 1) r' /\ free_rank h + r + r' = nc d) /\
    Forall (fun x => fst x <> 0%Z /\ fst x <> 1%Z /\ 0 < snd x) (elementary_divisors h) /\
    (NoDup bs -> basis_of (nc d) (map (coords cmp bs) cyc) (in_kernel d) /\ basis_of (nc d) (map (coords cmp bs) bnd) (boundaries_of ds k))) /\
  (forall k, length out <= k < top -> exists d, nth_error ds k = Some d /\ quotient_is (in_kernel d) (boundaries_of ds k) []).
Proof.
  intros B cmp w bms max_dim out Ht HC E ds top. apply (proj1 (ag_hom _ good_debug cmp bms max_dim)) in E.
  destruct (C43_homology_partial B cmp bms max_dim Ht HC) as (out' & E' & H1 & H2 & H3). rewrite E in E'. injection E' as <-.
  split; [exact H1|]. split; [|exact H3]. intros k h cyc bnd Hk. destruct (H2 k h cyc bnd Hk) as (d & Ed & Q1 & Q2 & Q3 & _).
  rewrite nth_error_map in Ed. destruct (nth_error bms k) as [[d' bs]|] eqn:Eb; [|discriminate]. cbn in Ed. injection Ed as ->.
  exists d, bs. split; [reflexivity|]. split; [exact Q1|]. split; [exact Q2|]. split; [exact Q3|]. intros ND. split.
  - eapply C62_cycles_basis; eassumption.
  - eapply C63_boundaries_basis; eassumption.
Qed.
Print Assumptions C135_debug.
Theorem C135_exact : forall B cmp (bms : list (mat Z * list B)) max_dim, integral_homology_p exact cmp bms max_dim = integral_homology cmp bms max_dim.
Proof. intros. apply agree_exact. exact (ag_hom _ good_exact cmp bms max_dim). Qed.
Print Assumptions C135_exact.
Theorem C135_enough_bits : forall B cmp (bms : list (mat Z * list B)) max_dim, total_order cmp -> complex_data bms ->
  exists w0 out, forall w, (w0 <= w)%Z -> integral_homology_p (debug w) cmp bms max_dim = Some out.
Proof.
  intros B cmp bms max_dim Ht HC. destruct (C43_homology_partial B cmp bms max_dim Ht HC) as (out & E & _).
  destruct (proj2 (ag_hom _ good_debug cmp bms max_dim) _ E) as [w0 H]. eauto.
Qed.
Print Assumptions C135_enough_bits.
Theorem C135_release_agrees : forall B cmp w (bms : list (mat Z * list B)) max_dim out, (0 < w)%Z ->
  integral_homology_p (debug w) cmp bms max_dim = Some out -> integral_homology_p (release w) cmp bms max_dim = Some out.
Proof. intros B cmp w bms max_dim out Hw. apply sm_hom; [intros; now apply width_wrap|intros; apply sim_refl|reflexivity]. Qed.
Print Assumptions C135_release_agrees.

(** False: for a complex given by 64-bit integers a release build reports a cycle of degree 1 although the boundary map is injective. *)
Definition wide_complex : list (mat Z * list Z) := [(Mat 1 2 [[0; 0]]%Z, [0; 1]%Z); (Mat 2 2 [[1; 2 ^ 32]; [2 ^ 32; 0]]%Z, [2; 3]%Z)].
Theorem C135_release_refuted : complex_data wide_complex /\ Forall (fun b => fits 64 (fst b)) wide_complex /\
  (exists h0 h1 c0 c1 b0 b1, integral_homology_p (release 64) Z.compare wide_complex None = Some [(h0, c0, b0); (h1, c1, b1)] /\ free_rank h1 = 1 /\ c1 <> []) /\
  (forall d bs, nth_error wide_complex 1 = Some (d, bs) -> forall v, in_kernel d v -> v = [0; 0]%Z) /\
  integral_homology_p (debug 64) Z.compare wide_complex None = None.
Proof.
  split. { split; [discriminate|]. split; [split|].
    - intros [|[|[|k]]] d Hd; try discriminate; injection Hd as <-; (split; [split; [reflexivity|repeat constructor]|split; cbn; lia]).
    - intros [|[|[|k]]] d e Hd He; try discriminate. injection Hd as <-. injection He as <-. split; [reflexivity|]. intros [|i] [|[|j]] Hi Hj; first [reflexivity | cbn in *; lia].
    - repeat constructor. }
  split. { apply Forall_cons; [|apply Forall_cons; [|apply Forall_nil]]; (apply fitsb_ok; [split; [reflexivity|repeat constructor]|vm_compute; reflexivity]). }
  split. { eexists _, _, _, _, _, _. split; [vm_compute; reflexivity|]. split; [reflexivity|discriminate]. }
  split; [intros d bs [= <- <-]; exact inj2|].
  vm_compute. reflexivity.
Qed.
Print Assumptions C135_release_refuted.
(** False: a debug build panics although every number of the answer (and of the complex) is small. *)
Definition tall_complex : list (mat Z * list Z) := [(Mat 1 2 [[0; 0]]%Z, [0; 1]%Z); (Mat 2 2 [[2; 2 ^ 62]; [3; 3 * 2 ^ 61 + 1]]%Z, [2; 3]%Z)].
Theorem C135_panic_refuted : complex_data tall_complex /\ Forall (fun b => fits 64 (fst b)) tall_complex /\
  (exists h c b, integral_homology Z.compare tall_complex None = Some [(h, c, b)] /\ free_rank h = 0 /\ elementary_divisors h = [(2%Z, 1)] /\
    Forall (Forall (fun x => Z.abs (fst x) <= 6)%Z) (c ++ b)) /\
  integral_homology_p (debug 64) Z.compare tall_complex None = None.
Proof.
  split. { split; [discriminate|]. split; [split|].
    - intros [|[|[|k]]] d Hd; try discriminate; injection Hd as <-; (split; [split; [reflexivity|repeat constructor]|split; cbn; lia]).
    - intros [|[|[|k]]] d e Hd He; try discriminate. injection Hd as <-. injection He as <-. split; [reflexivity|]. intros [|i] [|[|j]] Hi Hj; first [reflexivity | cbn in *; lia].
    - repeat constructor. }
  split. { apply Forall_cons; [|apply Forall_cons; [|apply Forall_nil]]; (apply fitsb_ok; [split; [reflexivity|repeat constructor]|vm_compute; reflexivity]). }
  split. { eexists _, _, _. split; [vm_compute; reflexivity|]. split; [reflexivity|]. split; [reflexivity|]. repeat constructor; cbn; lia. }
  vm_compute. reflexivity.
Qed.
Print Assumptions C135_panic_refuted.
Example C135_ex : exists out, integral_homology_p (debug 8) Z.compare rp2 None = Some out /\ map (fun r => fst (fst r)) out =
  [{| free_rank := 1; elementary_divisors := [] |}; {| free_rank := 0; elementary_divisors := [(2%Z, 1)] |}].
Proof. eexists. split; vm_compute; reflexivity. Qed.
