(** Property C148: the graph Laplacian with weights of type [f64]. *)
From Coq Require Import String.
From Coq Require Import ZArith Reals Lra Lia List Arith Bool.
From Flocq Require Import Core IEEE754.BinarySingleNaN.
From Verif Require Import PidModel MatModel MatSpec MatProofs MatProofs2 NumModel NumProofs RankModel LuModel GraphModel LabGraphModel LabGraphSpec LabGraphProofs LabGraphProofs2 LabGraphProps LaplaceProps FloatModel FloatSpec FloatProofs FloatProofs2 FloatProofs3 FloatProofs5 NormFloatModel NormFloatProofs RatFloatModel RatFloatProps.
Import ListNotations.
Open Scope R_scope.

Lemma opp_mul x : finite x -> finite (f_mul x (Bopp f_one)) /\ val (f_mul x (Bopp f_one)) = - val x.
Proof.
  intros Fx. assert (V : val (Bopp f_one) = -1) by (unfold val; rewrite B2R_Bopp; change (B2R f_one) with (val f_one); rewrite val_one; ring).
  pose proof (Bmult_correct 53 1024 _ _ mode_NE x (Bopp f_one)) as B. fold (val x) (val (Bopp f_one)) in B. rewrite V in B. replace (val x * -1) with (- val x) in B by ring.
  assert (Q : rnd (- val x) = - val x) by (rewrite fex_flt; apply round_generic; [typeclasses eauto|]; apply generic_format_opp, val_format). rewrite Q, Rabs_Ropp in B.
  rewrite Rlt_bool_true in B by apply abs_B2R_lt_emax. destruct B as (B1 & B2 & _). split; [unfold finite, f_mul in *; rewrite B2, Fx; reflexivity|exact B1].
Qed.
Lemma weight_finite (input : list (string * string * binary64)) a b : forall z, finite z -> (forall e, In e input -> finite (snd e)) -> finite (weight z input a b).
Proof. unfold weight. induction input as [|e input IH]; intros z Hz H; cbn [fold_left]; [exact Hz|]. apply IH; [|intros f Hf; apply H; now right]. destruct (same_ends _ _); [apply H; now left|exact Hz]. Qed.
(** The weight of two vertices of a graph, by their numbers. *)
Definition wt (input : list (string * string * binary64)) (g : wgraph binary64) (i j : nat) : R :=
  val (weight f_zero input (nth i (wg_labels g) EmptyString) (nth j (wg_labels g) EmptyString)).
Lemma lap_raw (input : list (string * string * binary64)) g : wgraph_from input = Some g -> let n := List.length (wg_labels g) in
  let w i j := weight f_zero input (nth i (wg_labels g) EmptyString) (nth j (wg_labels g) EmptyString) in
  laplacian g = Some (mk n n (fun i j => if (i =? j)%nat then sum n (w i) else f_mul (w i j) (Bopp f_one))) /\ (forall i, w i i = f_zero) /\ (forall i j, w i j = w j i).
Proof.
  intros E n w. rewrite wgraph_from_spec in E. destruct (existsb _ input) eqn:EX; [discriminate E|]. destruct input as [|e input]; [discriminate E|]. set (inp := e :: input) in *. injection E as <-. cbn [wg_labels] in *.
  split; [exact (laplacian_spec n (wfun inp) (wlabels inp))|]. split; [|intros i j; unfold w; apply weight_flip].
  intros i. unfold w. apply weight_diag. intros f Hf. destruct (is_loop (fst f)) eqn:K; [|reflexivity]. assert (Q : existsb (fun e => is_loop (fst e)) inp = true) by (apply existsb_exists; exists f; auto). congruence.
Qed.
(** C148.  Off the diagonal the entries are the negated weights, without error, and the matrix is symmetric; a finite diagonal entry is the weighted
    degree up to the rounding of its [n] sums, and so is the sum of the row. *)
Theorem C148_laplacian : forall (input : list (string * string * binary64)) g, wgraph_from input = Some g -> (forall e, In e input -> finite (snd e)) ->
  let n := List.length (wg_labels g) in
  exists L, laplacian g = Some L /\ wf L /\ nr L = n /\ nc L = n /\
    (forall i j, (i < n)%nat -> (j < n)%nat -> i <> j -> finite (ent L i j) /\ rent L i j = - wt input g i j) /\
    (forall i j, (i < n)%nat -> (j < n)%nat -> ent L i j = ent L j i) /\
    (forall i, (i < n)%nat -> finite (ent L i i) ->
      Rabs (rent L i i - sum n (wt input g i)) <= gam n * sum n (fun j => Rabs (wt input g i j)) /\
      Rabs (sum n (rent L i)) <= gam n * sum n (fun j => Rabs (wt input g i j))).
Proof.
  intros input g E FW n. destruct (lap_raw input g E) as (EL & W0 & WS). fold n in EL. set (w := fun i j => weight f_zero input (nth i (wg_labels g) EmptyString) (nth j (wg_labels g) EmptyString)) in *.
  assert (FF : forall i j, finite (w i j)) by (intros i j; apply weight_finite; [reflexivity|exact FW]). change (forall i, w i i = f_zero) in W0. change (forall i j, w i j = w j i) in WS.
  assert (HL : exists L, laplacian g = Some L /\ wf L /\ nr L = n /\ nc L = n /\ forall i j, (i < n)%nat -> (j < n)%nat -> ent L i j = if (i =? j)%nat then sum n (w i) else f_mul (w i j) (Bopp f_one)).
  { eexists. split; [exact EL|]. split; [apply wf_mk|]. split; [reflexivity|]. split; [reflexivity|]. intros i j Hi Hj. now rewrite ent_mk by assumption. }
  clear EL. destruct HL as (L & EL & WL & NR & NC & HE). exists L. split; [exact EL|]. split; [exact WL|]. split; [exact NR|]. split; [exact NC|].
  assert (OFF : forall i j, (i < n)%nat -> (j < n)%nat -> i <> j -> finite (ent L i j) /\ rent L i j = - wt input g i j).
  { intros i j Hi Hj N. unfold rent. rewrite HE by assumption. replace (i =? j)%nat with false by (symmetry; now apply Nat.eqb_neq). apply (opp_mul (w i j)), FF. }
  split; [exact OFF|]. split.
  { intros i j Hi Hj. rewrite !HE by assumption. rewrite (Nat.eqb_sym j i), (WS j i). destruct (Nat.eqb_spec i j) as [->|]; reflexivity. }
  intros i Hi F. assert (EI : ent L i i = sum n (w i)) by (rewrite HE by assumption; now rewrite Nat.eqb_refl).
  rewrite EI in F. destruct (sum_err n (w i) F) as (_ & B). assert (D : Rabs (val (sum n (w i)) - sum n (wt input g i)) <= gam n * sum n (fun j => Rabs (wt input g i j))) by exact B.
  assert (VI : rent L i i = val (sum n (w i))) by (unfold rent; now rewrite EI). split; [rewrite VI; exact D|].
  assert (R1 : sum n (rent L i) = val (sum n (w i)) - sum n (wt input g i)).
  { rewrite (sum_one RLr n i (rent L i)) by exact Hi. rewrite VI. change (@tadd R ops_R) with Rplus. unfold Rminus. f_equal.
    rewrite (FloatProofs2.sum_ext n (fun k => if (k =? i)%nat then t0 else rent L i k) (fun k => -1 * wt input g i k)); [rewrite rsum_mul; ring|].
    intros k Hk. destruct (Nat.eqb_spec k i) as [->|N]; [|rewrite (proj2 (OFF i k Hi Hk (not_eq_sym N))); ring]. unfold wt. fold (w i i). rewrite W0. change (val f_zero) with 0. change (@t0 R ops_R) with 0. ring. }
  rewrite R1. exact D.
Qed.
Print Assumptions C148_laplacian.
(** The quadratic form of the computed matrix is the weighted sum of squared differences up to the rounding of the diagonal; so for weights that are
    not negative it is not below the rounding error. *)
Theorem C148_quadratic : forall (input : list (string * string * binary64)) g, wgraph_from input = Some g -> (forall e, In e input -> finite (snd e)) ->
  let n := List.length (wg_labels g) in let w := wt input g in
  exists L, laplacian g = Some L /\ forall x : nat -> R, finite_mat L ->
    Rabs (2 * sum n (fun i => sum n (fun j => x i * (rent L i j * x j))) - sum n (fun i => sum n (fun j => w i j * ((x i - x j) * (x i - x j))))) <=
      2 * gam n * sum n (fun i => sum n (fun j => Rabs (w i j)) * (x i * x i)) /\
    ((forall e, In e input -> 0 <= val (snd e)) -> - (gam n * sum n (fun i => sum n (w i) * (x i * x i))) <= sum n (fun i => sum n (fun j => x i * (rent L i j * x j)))).
Proof.
  intros input g E FW n w. destruct (C148_laplacian input g E FW) as (L & EL & WL & NR & NC & OFF & SY & DG). fold n in NR, NC, OFF, SY, DG. exists L. split; [exact EL|]. intros x FL.
  destruct (lap_raw input g E) as (_ & W0 & WS).
  assert (w0 : forall i, w i i = 0) by (intros i; unfold w, wt; rewrite W0; reflexivity). assert (ws : forall i j, w i j = w j i) by (intros i j; unfold w, wt; now rewrite WS).
  set (d := fun i => rent L i i - sum n (w i)). assert (Hd : forall i, (i < n)%nat -> Rabs (d i) <= gam n * sum n (fun j => Rabs (w i j))) by (intros i Hi; apply (DG i Hi), FL; lia).
  assert (ROW : forall i, (i < n)%nat -> sum n (fun j => x i * (rent L i j * x j)) = x i * sum n (fun j => w i j * (x i - x j)) + d i * (x i * x i)).
  { intros i Hi. rewrite rsum_mul. pose proof (row_form RLr n w x i Hi (w0 i)) as RF. change (@tmul R ops_R) with Rmult in RF. change (@tsub R ops_R) with Rminus in RF. change (@topp R ops_R) with Ropp in RF. rewrite <- RF.
    rewrite (FloatProofs2.sum_ext n (fun j => rent L i j * x j) (fun j => (if (i =? j)%nat then sum n (w i) else - w i j) * x j + (if (j =? i)%nat then d i * x i else 0))).
    - rewrite rsum_add. assert (P : sum n (fun j => if (j =? i)%nat then d i * x i else 0) = d i * x i).
      { rewrite (sum_one RLr n i) by exact Hi. rewrite Nat.eqb_refl. change (@tadd R ops_R) with Rplus. rewrite rsum_zero; [ring|]. intros k Hk. destruct (k =? i)%nat; reflexivity. }
      rewrite P. ring.
    - intros j Hj. rewrite (Nat.eqb_sym j i). destruct (Nat.eqb_spec i j) as [->|N]; [unfold d; ring|]. rewrite (proj2 (OFF i j Hi Hj N)). fold w. unfold w. ring. }
  assert (Q : 2 * sum n (fun i => sum n (fun j => x i * (rent L i j * x j))) = sum n (fun i => sum n (fun j => w i j * ((x i - x j) * (x i - x j)))) + 2 * sum n (fun i => d i * (x i * x i))).
  { rewrite (FloatProofs2.sum_ext n _ _ ROW), rsum_add. pose proof (double_form RLr n w x ws) as DF. cbn zeta in DF. change (@tmul R ops_R) with Rmult in DF. change (@tsub R ops_R) with Rminus in DF. change (@tadd R ops_R) with Rplus in DF. lra. }
  assert (B : Rabs (sum n (fun i => d i * (x i * x i))) <= gam n * sum n (fun i => sum n (fun j => Rabs (w i j)) * (x i * x i))).
  { eapply Rle_trans; [apply rsum_abs|]. rewrite <- rsum_mul. apply rsum_le. intros i Hi. rewrite Rabs_mult, (Rabs_pos_eq (x i * x i)) by apply Rle_0_sqr. replace (gam n * (sum n (fun j => Rabs (w i j)) * (x i * x i))) with (gam n * sum n (fun j => Rabs (w i j)) * (x i * x i)) by ring. apply Rmult_le_compat_r; [apply Rle_0_sqr|now apply Hd]. }
  split.
  - rewrite Q. replace (_ + 2 * sum n (fun i => d i * (x i * x i)) - _) with (2 * sum n (fun i => d i * (x i * x i))) by ring. rewrite Rabs_mult, (Rabs_pos_eq 2) by lra. lra.
  - intros HP. assert (wp : forall i j, 0 <= w i j).
    { intros i j. unfold w, wt. assert (G : forall (inp : list (string * string * binary64)) z a b, 0 <= val z -> (forall e, In e inp -> 0 <= val (snd e)) -> 0 <= val (weight z inp a b)).
      { clear. intros inp z a b. unfold weight. revert z. induction inp as [|e inp IH]; intros z Hz H; cbn [fold_left]; [exact Hz|]. apply IH; [|intros f Hf; apply H; now right]. destruct (same_ends _ _); [apply H; now left|exact Hz]. }
      apply G; [apply Rle_refl|exact HP]. }
    assert (P : 0 <= sum n (fun i => sum n (fun j => w i j * ((x i - x j) * (x i - x j))))) by (apply rsum_pos; intros; apply rsum_pos; intros; apply Rmult_le_pos; [apply wp|apply Rle_0_sqr]).
    rewrite (FloatProofs2.sum_ext n (fun i => sum n (fun j => Rabs (w i j)) * (x i * x i)) (fun i => sum n (w i) * (x i * x i))) in B by (intros i _; f_equal; apply FloatProofs2.sum_ext; intros j _; apply Rabs_pos_eq, wp).
    apply Rabs_le_inv in B. lra.
Qed.
Print Assumptions C148_quadratic.
(** Refuted: with rounding the rows do not sum to zero.  The star with the weights 1, 2^53 and 1. *)
Definition star53 : list (string * string * binary64) := [("a", "b", f_of_int (2 ^ 53)); ("a", "c", f_of_int 1); ("a", "d", f_of_int 1)]%string.
Theorem C148_row_sum_refuted : exists g L, wgraph_from star53 = Some g /\ (forall e, In e star53 -> finite (snd e)) /\ laplacian g = Some L /\ finite_mat L /\ sum 4 (rent L 0) = -2.
Proof.
  assert (X : existsb (fun e : string * string * binary64 => is_loop (fst e)) star53 = false) by (vm_compute; reflexivity).
  destruct (wgraph_from star53) as [g|] eqn:E; [|rewrite wgraph_from_spec, X in E; discriminate E]. destruct (lap_raw star53 g E) as (EL & _).
  assert (EW : wg_labels g = ["a"; "b"; "c"; "d"]%string).
  { rewrite wgraph_from_spec, X in E. unfold star53 at 1 in E. injection E as <-. cbn [wg_labels]. vm_compute. reflexivity. }
  rewrite EW in EL. cbn [List.length] in EL. eexists g, _. split; [reflexivity|].
  assert (FI : forall z, (Z.abs z <= 2 ^ 53)%Z -> finite (f_of_int z)) by (intros z Hz; apply of_int_val; lia).
  split; [intros e [<-|[<-|[<-|[]]]]; apply FI; lia|]. split; [exact EL|].
  split.
  - intros i j Hi Hj. cbn [nr nc mk] in Hi, Hj. rewrite ent_mk by assumption. do 4 (destruct i as [|i]; [do 4 (destruct j as [|j]; [vm_compute; reflexivity|]); lia|]). lia.
  - set (L := mk 4 4 _). assert (V0 : rent L 0 0 = 2 ^ 53).
    { unfold rent, L. rewrite ent_mk by lia. transitivity (val (f_of_int (2 ^ 53))); [|rewrite of_int_exact by lia; rewrite pow_IZR; reflexivity]. unfold val. rewrite <- !SF2R_B2SF. f_equal. }
    assert (VO : forall j z, (j < 4)%nat -> (Z.abs z <= 2 ^ 53)%Z -> B2SF (ent L 0 j) = B2SF (f_of_int z) -> rent L 0 j = IZR z).
    { intros j z Hj Hz K. transitivity (val (f_of_int z)); [|now apply of_int_exact]. unfold rent, val. rewrite <- !SF2R_B2SF. now rewrite K. }
    assert (S4 : sum 4 (rent L 0) = 0 + rent L 0 0 + rent L 0 1 + rent L 0 2 + rent L 0 3) by reflexivity.
    rewrite S4, V0, (VO 1%nat (- 2 ^ 53)%Z), (VO 2%nat (-1)%Z), (VO 3%nat (-1)%Z); try lia; try (unfold L; rewrite ent_mk by lia; vm_compute; reflexivity).
    replace (IZR (- 2 ^ 53)) with (- 2 ^ 53); [lra|]. rewrite opp_IZR. f_equal. rewrite pow_IZR. reflexivity.
Qed.
Print Assumptions C148_row_sum_refuted.
(** The hypotheses of C148 are met by the star: finite weights that are not negative, and a finite matrix (C148_row_sum_refuted). *)
Example C148_nontrivial : exists g, wgraph_from star53 = Some g /\ (forall e, In e star53 -> finite (snd e)) /\ (forall e, In e star53 -> 0 <= val (snd e)).
Proof.
  destruct C148_row_sum_refuted as (g & _ & E & F & _). exists g. split; [exact E|]. split; [exact F|]. intros e [<-|[<-|[<-|[]]]]; cbn [snd]; rewrite of_int_exact by lia; apply IZR_le; lia.
Qed.
