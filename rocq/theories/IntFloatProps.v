(** Property C150: matrices of integers stored as [f64] are computed with exactly, as long as the sums stay within 2^53. *)
From Coq Require Import String.
From Coq Require Import ZArith Reals Lra Lia List Arith Bool.
From Flocq Require Import Core IEEE754.BinarySingleNaN.
From Verif Require Import PidModel MatModel MatSpec MatProofs MatProofs2 MatProps RankModel LuModel GraphModel LabGraphModel LabGraphSpec LabGraphProofs LabGraphProofs2 LabGraphProps FloatModel FloatSpec FloatProofs FloatProofs3 FloatProofs5 GeomFloatProofs RatFloatModel RatFloatProps LapFloatProps.
Import ListNotations.
Open Scope Z_scope.

(** The [f64] is the integer [z]; the matrix of [f64] is the matrix of integers [A]. *)
Definition is_int (x : binary64) (z : Z) : Prop := finite x /\ val x = IZR z.
Definition is_int_mat (M : mat binary64) (A : mat Z) : Prop :=
  wf M /\ wf A /\ nr M = nr A /\ nc M = nc A /\ forall i j, (i < nr A)%nat -> (j < nc A)%nat -> is_int (ent M i j) (ent A i j).

Lemma int_round z : Z.abs z <= 2 ^ 53 -> rnd (IZR z) = IZR z /\ (Rabs (IZR z) <= top)%R.
Proof.
  intros H. split.
  - rewrite fex_flt. apply round_generic; [typeclasses eauto|]. replace (IZR z) with (IZR z * bpow radix2 0)%R by (cbn; ring). apply mult_format; lia.
  - apply Rle_trans with (bpow radix2 53); [|apply bpow_le; lia]. rewrite <- abs_IZR. change (bpow radix2 53) with (IZR (2 ^ 53)). now apply IZR_le.
Qed.
Lemma int_add x y a b : is_int x a -> is_int y b -> Z.abs (a + b) <= 2 ^ 53 -> is_int (f_add x y) (a + b).
Proof. intros (Fx & Ex) (Fy & Ey) H. assert (E : (val x + val y)%R = IZR (a + b)) by (now rewrite Ex, Ey, plus_IZR). assert (F : finite (f_add x y)) by (apply add_top; try assumption; rewrite E; now apply int_round). split; [exact F|]. rewrite (add_rnd x y F), E. now apply int_round. Qed.
Lemma int_sub x y a b : is_int x a -> is_int y b -> Z.abs (a - b) <= 2 ^ 53 -> is_int (f_sub x y) (a - b).
Proof. intros (Fx & Ex) (Fy & Ey) H. assert (E : (val x - val y)%R = IZR (a - b)) by (now rewrite Ex, Ey, minus_IZR). assert (F : finite (f_sub x y)) by (apply sub_top; try assumption; rewrite E; now apply int_round). split; [exact F|]. rewrite (sub_rnd x y F), E. now apply int_round. Qed.
Lemma int_mul x y a b : is_int x a -> is_int y b -> Z.abs (a * b) <= 2 ^ 53 -> is_int (f_mul x y) (a * b).
Proof. intros (Fx & Ex) (Fy & Ey) H. assert (E : (val x * val y)%R = IZR (a * b)) by (now rewrite Ex, Ey, mult_IZR). assert (F : finite (f_mul x y)) by (apply mul_top; try assumption; rewrite E; now apply int_round). split; [exact F|]. rewrite (mul_rnd x y F), E. now apply int_round. Qed.
Lemma zsum_abs n (g : nat -> Z) : Z.abs (sum n g) <= sum n (fun k => Z.abs (g k)).
Proof. induction n as [|n IH]; [reflexivity|]. cbn [sum tadd ops_Z]. lia. Qed.
Lemma zsum_pos n (g : nat -> Z) : 0 <= sum n (fun k => Z.abs (g k)).
Proof. pose proof (zsum_abs n g). lia. Qed.
Lemma int_sum n : forall (f : nat -> binary64) (g : nat -> Z), (forall k, (k < n)%nat -> is_int (f k) (g k)) -> sum n (fun k => Z.abs (g k)) <= 2 ^ 53 -> is_int (sum n f) (sum n g).
Proof.
  induction n as [|n IH]; intros f g H B; [split; reflexivity|]. cbn [sum]. cbn [sum tadd ops_Z] in B. pose proof (zsum_pos n g). pose proof (zsum_abs n g).
  apply int_add; [apply IH; [intros; apply H; lia|lia]|apply H; lia|]. lia.
Qed.
Lemma zsum_term n (g : nat -> Z) k : (k < n)%nat -> Z.abs (g k) <= sum n (fun k => Z.abs (g k)).
Proof. induction n as [|n IH]; intros H; [lia|]. cbn [sum tadd ops_Z]. pose proof (zsum_pos n g). destruct (Nat.eq_dec k n) as [->|]; [lia|]. specialize (IH ltac:(lia)). lia. Qed.

(** C150.  Sums, differences and products: the same code at [f64] and at the integers, within 2^53. *)
Theorem C150_sum : forall M N A B, is_int_mat M A -> is_int_mat N B -> nr A = nr B -> nc A = nc B ->
  (forall i j, (i < nr A)%nat -> (j < nc A)%nat -> Z.abs (ent A i j) + Z.abs (ent B i j) <= 2 ^ 53) ->
  (exists P Q, madd M N = Some P /\ madd A B = Some Q /\ is_int_mat P Q) /\ (exists P Q, msub M N = Some P /\ msub A B = Some Q /\ is_int_mat P Q).
Proof.
  intros M N A B (WM & WA & E1 & E2 & HM) (WN & WB & E3 & E4 & HN) R C H. rewrite (wf_eq_mk M WM), (wf_eq_mk N WN), (wf_eq_mk A WA), (wf_eq_mk B WB). rewrite E1, E2, E3, E4, <- R, <- C. unfold madd, msub. rewrite !mzip_mk.
  split; (eexists; eexists; split; [reflexivity|]; split; [reflexivity|]; split; [apply wf_mk|]; split; [apply wf_mk|]; split; [reflexivity|]; split; [reflexivity|]);
  intros i j Hi Hj; cbn [nr nc mk] in Hi, Hj; rewrite !ent_mk by assumption; specialize (H i j Hi Hj);
  [apply int_add|apply int_sub]; try (apply HM; assumption); try (apply HN; lia); lia.
Qed.
Print Assumptions C150_sum.
Theorem C150_product : forall M N A B, is_int_mat M A -> is_int_mat N B -> nc A = nr B ->
  (forall i j, (i < nr A)%nat -> (j < nc B)%nat -> sum (nc A) (fun l => Z.abs (ent A i l * ent B l j)) <= 2 ^ 53) ->
  exists P Q, mmul M N = Some P /\ mmul A B = Some Q /\ is_int_mat P Q.
Proof.
  intros M N A B (WM & WA & E1 & E2 & HM) (WN & WB & E3 & E4 & HN) C H. rewrite (wf_eq_mk M WM), (wf_eq_mk N WN), (wf_eq_mk A WA), (wf_eq_mk B WB). rewrite E1, E2, E3, E4, <- C. rewrite !mmul_mk.
  eexists; eexists; split; [reflexivity|]; split; [reflexivity|]; split; [apply wf_mk|]; split; [apply wf_mk|]; split; [reflexivity|]; split; [reflexivity|].
  intros i j Hi Hj; cbn [nr nc mk] in Hi, Hj; rewrite !ent_mk by assumption. unfold prod_entry. apply int_sum; [|now apply H]. intros k Hk.
  apply int_mul; [now apply HM|apply HN; lia|]. specialize (H i j Hi Hj). pose proof (zsum_term (nc A) (fun l => ent A i l * ent B l j) k Hk). cbn beta in *. lia.
Qed.
Print Assumptions C150_product.
(** The bound cannot be relaxed: 2^53 * 1 + 1 * 1 comes out as 2^53. *)
Theorem C150_bound_refuted : exists M N A B P Q, is_int_mat M A /\ is_int_mat N B /\ mmul M N = Some P /\ mmul A B = Some Q /\
  sum (nc A) (fun l => Z.abs (ent A 0 l * ent B l 0)) = 2 ^ 53 + 1 /\ val (ent P 0 0) = IZR (2 ^ 53) /\ ent Q 0 0 = 2 ^ 53 + 1.
Proof.
  assert (I : forall z, Z.abs z <= 2 ^ 53 -> is_int (f_of_int z) z) by (intros z Hz; split; [apply of_int_val; lia|now apply of_int_exact]).
  exists (mk 1 2 (fun i j => f_of_int (if (j =? 0)%nat then 2 ^ 53 else 1))), (mk 2 1 (fun i j => f_of_int 1)), (mk 1 2 (fun i j => if (j =? 0)%nat then 2 ^ 53 else 1)), (mk 2 1 (fun i j => 1)).
  rewrite !mmul_mk. eexists. eexists. split; [|split; [|split; [reflexivity|split; [reflexivity|split; [reflexivity|]]]]].
  - split; [apply wf_mk|]. split; [apply wf_mk|]. split; [reflexivity|]. split; [reflexivity|]. intros i j Hi Hj. cbn [nr nc mk] in Hi, Hj. rewrite !ent_mk by assumption. destruct (j =? 0)%nat; apply I; lia.
  - split; [apply wf_mk|]. split; [apply wf_mk|]. split; [reflexivity|]. split; [reflexivity|]. intros i j Hi Hj. cbn [nr nc mk] in Hi, Hj. rewrite !ent_mk by assumption. apply I; lia.
  - split; [|reflexivity]. rewrite ent_mk by lia. transitivity (val (f_of_int (2 ^ 53))); [|apply of_int_exact; lia]. unfold val. rewrite <- !SF2R_B2SF. f_equal.
Qed.
Print Assumptions C150_bound_refuted.
(** The Laplacian of a graph with integer weights, stored as [f64], is exact; so its rows sum to zero exactly. *)
Definition as_f64 (input : list (string * string * Z)) : list (string * string * binary64) := map (fun e => (fst e, f_of_int (snd e))) input.
Lemma weight_as_f64 input a b : forall z, weight (f_of_int z) (as_f64 input) a b = f_of_int (weight z input a b).
Proof. unfold weight, as_f64. induction input as [|e input IH]; intros z; [reflexivity|]. cbn [map fold_left fst snd]. destruct (same_ends (a, b) (fst e)); apply IH. Qed.
Lemma zlap_raw (input : list (string * string * Z)) g : wgraph_from input = Some g -> let n := List.length (wg_labels g) in
  let w i j := weight 0 input (nth i (wg_labels g) EmptyString) (nth j (wg_labels g) EmptyString) in
  laplacian g = Some (mk n n (fun i j => if (i =? j)%nat then sum n (w i) else w i j * -1)).
Proof.
  intros E n w. rewrite wgraph_from_spec in E. destruct (existsb _ input) eqn:EX; [discriminate E|]. destruct input as [|e input]; [discriminate E|]. injection E as <-. cbn [wg_labels] in *.
  exact (laplacian_spec n (wfun (e :: input)) (wlabels (e :: input))).
Qed.
Theorem C150_laplacian : forall (input : list (string * string * Z)) g, wgraph_from input = Some g ->
  let n := List.length (wg_labels g) in
  (forall i, (i < n)%nat -> sum n (fun j => Z.abs (weight 0 input (nth i (wg_labels g) EmptyString) (nth j (wg_labels g) EmptyString))) <= 2 ^ 53) ->
  exists h L M, wgraph_from (as_f64 input) = Some h /\ wg_labels h = wg_labels g /\ laplacian g = Some L /\ laplacian h = Some M /\ is_int_mat M L /\
    forall i, (i < n)%nat -> sum n (rent M i) = 0%R.
Proof.
  intros input g E n B. pose proof E as E0. rewrite wgraph_from_spec in E0.
  assert (LE : wlabels (as_f64 input) = wlabels input) by (unfold wlabels, as_f64; rewrite map_map; reflexivity).
  assert (EH : exists h, wgraph_from (as_f64 input) = Some h /\ wg_labels h = wg_labels g).
  { rewrite wgraph_from_spec. replace (existsb (fun e => is_loop (fst e)) (as_f64 input)) with (existsb (fun e => is_loop (fst e)) input) by (unfold as_f64; clear; induction input as [|e l IH]; [reflexivity|]; cbn; now rewrite IH).
    destruct (existsb _ input); [discriminate E0|]. destruct input as [|e input]; [discriminate E0|]. injection E0 as <-. cbn [as_f64 map]. eexists. split; [reflexivity|]. cbn [wg_labels]. exact LE. }
  destruct EH as (h & Eh & Lh). destruct (lap_raw _ h Eh) as (EM & _). rewrite Lh in EM. fold n in EM. pose proof (zlap_raw input g E) as EL. cbn zeta in EL. fold n in EL.
  exists h. eexists. eexists. split; [exact Eh|]. split; [exact Lh|]. split; [exact EL|]. split; [exact EM|].
  set (wz := fun i j => weight 0 input (nth i (wg_labels g) EmptyString) (nth j (wg_labels g) EmptyString)) in *.
  assert (W : forall i j, (i < n)%nat -> (j < n)%nat -> is_int (weight f_zero (as_f64 input) (nth i (wg_labels g) EmptyString) (nth j (wg_labels g) EmptyString)) (wz i j)).
  { intros i j Hi Hj. replace f_zero with (f_of_int 0) by reflexivity. rewrite weight_as_f64. fold (wz i j). specialize (B i Hi). pose proof (zsum_term n (wz i) j Hj) as T. fold (wz i) in B. cbn beta in T.
    assert (Z.abs (wz i j) <= 2 ^ 53) by (eapply Z.le_trans; [exact T|exact B]). split; [apply of_int_val; lia|now apply of_int_exact]. }
  assert (IM : forall i j, (i < n)%nat -> (j < n)%nat ->
    is_int ((fun i j => if (i =? j)%nat then sum n (fun j => weight f_zero (as_f64 input) (nth i (wg_labels g) EmptyString) (nth j (wg_labels g) EmptyString)) else f_mul (weight f_zero (as_f64 input) (nth i (wg_labels g) EmptyString) (nth j (wg_labels g) EmptyString)) (Bopp f_one)) i j) (if (i =? j)%nat then sum n (wz i) else wz i j * -1)).
  { intros i j Hi Hj. cbn beta. destruct (i =? j)%nat; [apply int_sum; [intros k Hk; now apply W|exact (B i Hi)]|]. destruct (W i j Hi Hj) as (F & V). destruct (opp_mul _ F) as (F' & V'). split; [exact F'|]. rewrite V', V. rewrite mult_IZR. lra. }
  split.
  - split; [apply wf_mk|]. split; [apply wf_mk|]. split; [reflexivity|]. split; [reflexivity|]. intros i j Hi Hj. cbn [nr nc mk] in Hi, Hj. rewrite !ent_mk by assumption. now apply IM.
  - intros i Hi. destruct (C54_laplacian Z ops_Z ring_laws_Z input g E) as (L & EL' & _ & NR & NC & _ & _ & S0). fold n in NR, NC, S0. rewrite EL in EL'. injection EL' as <-. specialize (S0 i Hi).
    assert (G : forall m, (m <= n)%nat -> sum m (rent (mk n n (fun i j => if (i =? j)%nat then sum n (fun j => weight f_zero (as_f64 input) (nth i (wg_labels g) EmptyString) (nth j (wg_labels g) EmptyString)) else f_mul (weight f_zero (as_f64 input) (nth i (wg_labels g) EmptyString) (nth j (wg_labels g) EmptyString)) (Bopp f_one))) i) = IZR (sum m (ent (mk n n (fun i j => if (i =? j)%nat then sum n (wz i) else wz i j * -1)) i))).
    { induction m as [|m IH]; intros Hm; [reflexivity|]. cbn [sum]. rewrite IH by lia. cbn [tadd ops_Z NumModel.ops_R]. rewrite plus_IZR. f_equal. unfold rent. rewrite !ent_mk by lia. apply (IM i m Hi); lia. }
    rewrite G by lia. rewrite S0. reflexivity.
Qed.
Print Assumptions C150_laplacian.
(** The hypotheses of C150 are met: a product of matrices of large integers, and a weighted triangle. *)
Definition big_ints (i j : nat) : Z := Z.of_nat (1 + i + 2 * j) * (if (i =? j)%nat then 1000000 else -1000000).
Example C150_nontrivial : is_int_mat (mk 3 3 (fun i j => f_of_int (big_ints i j))) (mk 3 3 big_ints) /\
  (forall i j, (i < 3)%nat -> (j < 3)%nat -> sum 3 (fun l => Z.abs (big_ints i l * big_ints l j)) <= 2 ^ 53).
Proof.
  split.
  - split; [apply wf_mk|]. split; [apply wf_mk|]. split; [reflexivity|]. split; [reflexivity|]. intros i j Hi Hj. cbn [nr nc mk] in Hi, Hj. rewrite !ent_mk by assumption.
    assert (Z.abs (big_ints i j) <= 2 ^ 53) by (do 3 (destruct i as [|i]; [do 3 (destruct j as [|j]; [vm_compute; discriminate|]); lia|]); lia). split; [apply of_int_val; lia|now apply of_int_exact].
  - intros i j Hi Hj. do 3 (destruct i as [|i]; [do 3 (destruct j as [|j]; [vm_compute; discriminate|]); lia|]). lia.
Qed.
Example C150_graph : exists g, wgraph_from [("a", "b", 5); ("b", "c", -7); ("c", "a", 1000000007)]%string = Some g /\
  forall i, (i < List.length (wg_labels g))%nat -> sum (List.length (wg_labels g)) (fun j => Z.abs (weight 0 [("a", "b", 5); ("b", "c", -7); ("c", "a", 1000000007)]%string (nth i (wg_labels g) EmptyString) (nth j (wg_labels g) EmptyString))) <= 2 ^ 53.
Proof. eexists. split; [vm_compute; reflexivity|]. intros i Hi. cbn [wg_labels List.length] in *. do 3 (destruct i as [|i]; [vm_compute; discriminate|]). lia. Qed.
