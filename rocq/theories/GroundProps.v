(** Property C160: elimination on the Laplacian of a weighted graph (real weights, exact arithmetic). *)
From Coq Require Import String.
From Coq Require Import List Arith ZArith Bool Lia Lra Reals Ring_theory Relations Ring.
From Verif Require Import UtilModel PidModel PermModel MatModel MatSpec MatProofs MatProofs2 SnfModel NumModel NumProofs GraphModel LabGraphModel LabGraphSpec LabGraphProofs LabGraphProofs2 LabGraphProps LaplaceProps.
From Verif Require Import RankModel LuModel LuSpec LuProofs LuProofs2 LuProofs3 LuProps DomLuProps BandLuProps.
Import ListNotations.
Open Scope R_scope.

Lemma laplacian_facts (input : list (string * string * R)) g : wgraph_from input = Some g -> (forall e, In e input -> 0 <= snd e) ->
  let n := List.length (wg_labels g) in let lab i := nth i (wg_labels g) EmptyString in
  exists L, laplacian g = Some L /\ wf L /\ nr L = n /\ nc L = n /\ (0 < n)%nat /\ (forall i, (i < n)%nat -> sum n (ent L i) = 0) /\
    (forall i j, (i < n)%nat -> (j < n)%nat -> ent L i j = ent L j i) /\
    forall x : nat -> R, 0 <= sum n (fun i => sum n (fun j => x i * (ent L i j * x j))) /\
      (sum n (fun i => sum n (fun j => x i * (ent L i j * x j))) = 0 -> forall i j, (i < n)%nat -> (j < n)%nat -> joined_by input (lab i) (lab j) -> x i = x j).
Proof.
  intros E HP n lab. destruct (C54_laplacian R ops_R RLr input g E) as (L & EL & WL & NR & NC & HE & HS & HZ). destruct (C109_kernel input g E HP) as (L' & EL' & K). rewrite EL in EL'. injection EL' as <-. fold n in NR, NC, HE, HS, HZ, K.
  exists L. split; [exact EL|]. split; [exact WL|]. split; [exact NR|]. split; [exact NC|]. split.
  - unfold n. rewrite wgraph_from_spec in E. destruct (existsb _ input) eqn:EX; [discriminate E|]. destruct input as [|e input]; [discriminate E|]. injection E as <-. cbn [wg_labels]. assert (KI : In (fst (fst e)) (wlabels (e :: input))) by (apply registered_in; exists (fst e); split; [now left|now left]). destruct (wlabels (e :: input)); [destruct KI|cbn [List.length]; lia].
  - split; [exact HZ|]. split.
    + intros i j Hi Hj. specialize (HS i j Hi Hj). rewrite (wf_eq_mk L WL), NR, NC in HS. rewrite !mget_in in HS by assumption. now injection HS.
    + intros x. destruct (K x) as (K1 & K2 & K3). split; [exact K1|]. intros Z. apply K3, K2. exact Z.
Qed.
Definition ground (k : nat) (x : nat -> R) : nat -> R := fun i => if (i <? k)%nat then x i else 0.
Lemma ground_sum n k (x f : nat -> R) : (k <= n)%nat -> (forall i, (i < k)%nat -> f i = x i) -> (forall i, (k <= i < n)%nat -> f i = 0) -> sum n f = sum k x.
Proof.
  intros Hk H1 H2. rewrite (rsum_split n k f Hk). rewrite (rsum_ext k f x) by exact H1. rewrite (rsum_zero (n - k)); [lra|]. intros i Hi. apply H2. lia.
Qed.
(** C160.  With a positive multiple of the identity added, the Laplacian of a graph with non-negative weights is positive definite: [solve]
    returns for every right-hand side, and the entries of the solution have the sum of the right-hand side divided by the factor. *)
Theorem C160_regularised : forall (input : list (string * string * R)) g, wgraph_from input = Some g -> (forall e, In e input -> 0 <= snd e) -> forall c, 0 < c ->
  let n := List.length (wg_labels g) in
  exists L M, laplacian g = Some L /\ (do I <- midentity n; do D <- mscale I c; madd L D) = Some M /\
    (exists d, det M = Some d /\ 0 < d) /\
    forall b, wf b -> nr b = n -> nc b = 1%nat -> exists X, solve M b = Some X /\ wf X /\ nr X = n /\ nc X = 1%nat /\
      (forall i, (i < n)%nat -> sum n (fun j => ent L i j * ent X j 0) + c * ent X i 0 = ent b i 0) /\
      c * sum n (fun i => ent X i 0) = sum n (fun i => ent b i 0).
Proof.
  intros input g E HP c Hc n. destruct (laplacian_facts input g E HP) as (L & EL & WL & NR & NC & Hn & HZ & HS & Q). fold n in NR, NC, Hn, HZ, HS, Q. set (m := fun i j => ent L i j + (if (i =? j)%nat then c else 0)).
  exists L, (mk n n m). split; [exact EL|]. assert (EM : (do I <- midentity n; do D <- mscale I c; madd L D) = Some (mk n n m)).
  { rewrite midentity_mk by exact Hn. cbn [obind]. rewrite mscale_mk. cbn [obind]. pose proof (wf_eq_mk L WL) as W. rewrite NR, NC in W. transitivity (madd (mk n n (ent L)) (mk n n (fun i j => tmul (id_entry i j) c))); [now rewrite <- W|]. unfold madd. rewrite mzip_mk. f_equal. apply mk_ext.
    intros i j _ _. unfold m, id_entry. cbn [tadd tmul t0 t1 ops_R]. destruct (i =? j)%nat; ring. }
  assert (DM : definite n (ent (mk n n m))).
  { intros x (i0 & Hi0 & X0). rewrite (rsum_ext n _ (fun i => sum n (fun j => x i * (ent L i j * x j)) + c * (x i * x i))).
    - rewrite rsum_add, rsum_mul_l. destruct (Q x) as (Q1 & _). assert (0 < sum n (fun i => x i * x i)); [|assert (0 < c * sum n (fun i => x i * x i)) by (apply Rmult_lt_0_compat; lra); lra].
      assert (0 <= sum n (fun i => x i * x i)) by (apply rsum_nonneg; intros; apply Rle_0_sqr). destruct (Req_dec (sum n (fun i => x i * x i)) 0) as [Z|Z]; [|lra]. exfalso. apply X0.
      pose proof (rsum_zero_nonneg n (fun i => x i * x i) (fun k _ => Rle_0_sqr (x k)) Z i0 Hi0) as K. cbn in K. apply Rmult_integral in K. tauto.
    - intros i Hi. rewrite (rsum_ext n _ (fun j => x i * (ent L i j * x j) + (if (j =? i)%nat then c * (x i * x i) else 0))).
      + rewrite rsum_add. f_equal. rewrite (rsum_single n i); [now rewrite Nat.eqb_refl|exact Hi|]. intros k _ N. now replace (k =? i)%nat with false by (symmetry; now apply Nat.eqb_neq).
      + intros j Hj. rewrite ent_mk by assumption. unfold m. rewrite (Nat.eqb_sym j i). destruct (Nat.eqb_spec i j) as [->|]; ring. }
  split; [exact EM|]. destruct (C152_definite (mk n n m) n (wf_mk _ _ _) eq_refl eq_refl Hn DM) as (_ & D1 & D2 & SO). split; [exists (determinant n (ent (mk n n m))); split; [exact D1|exact D2]|].
  intros b Wb Rb Cb. destruct (SO b Wb Rb ltac:(lia)) as (X & EX & WX & RX & CX & EQ). exists X. split; [exact EX|]. split; [exact WX|]. split; [exact RX|]. split; [congruence|].
  assert (EQ' : forall i, (i < n)%nat -> sum n (fun j => ent L i j * ent X j 0) + c * ent X i 0 = ent b i 0).
  { intros i Hi. rewrite <- (EQ i Hi). symmetry. rewrite (rsum_ext n _ (fun j => ent L i j * ent X j 0 + (if (j =? i)%nat then c * ent X i 0 else 0))).
    - rewrite rsum_add. f_equal. rewrite (rsum_single n i); [now rewrite Nat.eqb_refl|exact Hi|]. intros k _ N. now replace (k =? i)%nat with false by (symmetry; now apply Nat.eqb_neq).
    - intros j Hj. rewrite ent_mk by assumption. unfold m. rewrite (Nat.eqb_sym j i). destruct (Nat.eqb_spec i j) as [->|]; ring. }
  split; [exact EQ'|]. rewrite (rsum_ext n (fun i => ent b i 0) (fun i => sum n (fun j => ent L i j * ent X j 0) + c * ent X i 0)) by (intros; symmetry; now apply EQ').
  rewrite rsum_add, rsum_mul_l, rsum_swap. rewrite (rsum_zero n (fun j => sum n (fun i => ent L i j * ent X j 0))); [lra|]. intros j Hj. rewrite rsum_mul_r. rewrite (rsum_ext n (fun i => ent L i j) (ent L j)) by (intros; now apply HS). rewrite HZ by exact Hj. ring.
Qed.
Print Assumptions C160_regularised.
(** The Laplacian itself is never invertible: [solve] divides by zero for every right-hand side, and [det] is 0 when it is finite. *)
Theorem C160_singular : forall (input : list (string * string * R)) g, wgraph_from input = Some g -> (forall e, In e input -> 0 <= snd e) ->
  exists L, laplacian g = Some L /\ (forall d, det L = Some d -> d = 0) /\ forall b, wf b -> nr b = List.length (wg_labels g) -> (0 < nc b)%nat -> solve L b = None.
Proof.
  intros input g E HP. destruct (laplacian_facts input g E HP) as (L & EL & WL & NR & NC & Hn & HZ & HS & Q). set (n := List.length (wg_labels g)) in *. exists L. split; [exact EL|].
  assert (NS : forall b, wf b -> nr b = n -> (0 < nc b)%nat -> solve L b = None).
  { intros b Wb Rb Cb. destruct (solve L b) as [X|] eqn:EX; [|reflexivity]. exfalso. destruct (C75_solve field_ok_R L b n WL Wb NR NC Rb Hn Cb) as (_ & S75). destruct (S75 X EX) as (_ & _ & _ & U & _).
    pose proof (proj2 (U (fun l => ent X l 0)) (fun i _ => eq_refl)) as K. cbn beta in K. assert (K' : forall i, (i < n)%nat -> sum n (fun l => tmul (ent L i l) (ent X l 0 + 1)) = ent b i 0).
    { intros i Hi. rewrite <- (K i Hi). cbn [tmul ops_R]. rewrite (rsum_ext n (fun l => ent L i l * (ent X l 0 + 1)) (fun l => ent L i l * ent X l 0 + ent L i l)) by (intros; ring). rewrite rsum_add. pose proof (HZ i Hi) as Z. cbn in Z. cbn. lra. }
    pose proof (proj1 (U (fun l => ent X l 0 + 1)) K' 0%nat Hn) as A. cbn beta in A. lra. }
  split; [|exact NS]. intros d Hd. destruct (C74_det_partial field_ok_R L n WL NR NC Hn) as (D1 & D2). assert (ED : d = determinant n (ent L)) by (destruct D1; congruence). destruct (Req_dec d 0) as [Z|N]; [exact Z|]. exfalso.
  set (b := mk n 1 (fun _ _ => 0)). destruct (C75_solve field_ok_R L b n WL (wf_mk _ _ _) NR NC eq_refl Hn ltac:(cbn; lia)) as (I & _).
  destruct (proj2 I) as (X & EX); [|rewrite (NS b (wf_mk _ _ _) eq_refl ltac:(cbn; lia)) in EX; discriminate]. intros k Hk. destruct (Nat.eq_dec k n) as [->|NK]; [cbn; congruence|]. apply (proj1 D2 (ex_intro _ d Hd)). lia.
Qed.
Print Assumptions C160_singular.
(** When the edges of non-zero weight connect all the labels, [lu] of the Laplacian returns, all pivots but the last are positive, and [det] is 0. *)
Theorem C160_connected : forall (input : list (string * string * R)) g, wgraph_from input = Some g -> (forall e, In e input -> 0 <= snd e) ->
  let n := List.length (wg_labels g) in let lab i := nth i (wg_labels g) EmptyString in
  (forall i j, (i < n)%nat -> (j < n)%nat -> joined_by input (lab i) (lab j)) ->
  exists L F, laplacian g = Some L /\ lu L = Some F /\ (forall k, (k + 1 < n)%nat -> 0 < ent F k k) /\ det L = Some 0.
Proof.
  intros input g E HP n lab J. destruct (laplacian_facts input g E HP) as (L & EL & WL & NR & NC & Hn & HZ & HS & Q). fold n in NR, NC, Hn, HZ, HS, Q. fold lab in Q.
  assert (D : definite (n - 1) (ent L)).
  { intros x (i0 & Hi0 & X0). destruct (Q (ground (n - 1) x)) as (Q1 & Q2). set (q := sum n _) in *. assert (EQ : q = sum (n - 1) (fun i => sum (n - 1) (fun j => x i * (ent L i j * x j)))).
    { unfold q. apply ground_sum; [lia| |].
      - intros i Hi. apply ground_sum; [lia| |]; intros j Hj; unfold ground.
        + replace (i <? n - 1)%nat with true by (symmetry; apply Nat.ltb_lt; lia). now replace (j <? n - 1)%nat with true by (symmetry; apply Nat.ltb_lt; lia).
        + replace (j <? n - 1)%nat with false by (symmetry; apply Nat.ltb_ge; lia). ring.
      - intros i Hi. apply rsum_zero. intros j _. unfold ground. replace (i <? n - 1)%nat with false by (symmetry; apply Nat.ltb_ge; lia). ring. }
    rewrite <- EQ. destruct (Req_dec q 0) as [Z|Z]; [|lra]. exfalso. apply X0. pose proof (Q2 Z i0 (n - 1)%nat ltac:(lia) ltac:(lia) (J i0 (n - 1)%nat ltac:(lia) ltac:(lia))) as C. unfold ground in C. replace (i0 <? n - 1)%nat with true in C by (symmetry; apply Nat.ltb_lt; lia). rewrite Nat.ltb_irrefl in C. exact C. }
  assert (P : forall k, (k + 1 < n)%nat -> 0 < piv (ent L) k) by (intros k Hk; apply (definite_piv k (n - 1)); [lia|exact D]).
  assert (MN : forall k, (0 < k < n)%nat -> determinant k (ent L) <> t0) by (apply (proj2 (piv_minor field_ok_R n (ent L))); intros k Hk; specialize (P k Hk); cbn; lra).
  destruct (proj2 (proj1 (C73_lu field_ok_R L n WL NR NC Hn)) MN) as (F & EF). exists L, F. split; [exact EL|]. split; [exact EF|]. split.
  - intros k Hk. destruct (lu_entries field_ok_R L n F WL NR NC Hn EF) as (_ & EN). rewrite EN, Nat.leb_refl by lia. now apply P.
  - destruct (proj2 (proj2 (C74_det_partial field_ok_R L n WL NR NC Hn)) MN) as (d & Hd). destruct (C160_singular input g E HP) as (L' & EL' & DZ & _). rewrite EL in EL'. injection EL' as <-. rewrite Hd. f_equal. now apply DZ.
Qed.
Print Assumptions C160_connected.
(** The hypotheses are met, by a triangle; the weights are 1, 2, 3. *)
Definition triangle : list (string * string * R) := [("a", "b", 1); ("b", "c", 2); ("a", "c", 3)]%string.
Example C160_nontrivial : exists g, wgraph_from triangle = Some g /\ (forall e, In e triangle -> 0 <= snd e) /\
  let lab i := nth i (wg_labels g) EmptyString in List.length (wg_labels g) = 3%nat /\ forall i j, (i < 3)%nat -> (j < 3)%nat -> joined_by triangle (lab i) (lab j).
Proof.
  assert (E : exists g, wgraph_from triangle = Some g /\ wg_labels g = ["a"; "b"; "c"]%string).
  { rewrite wgraph_from_spec. change (existsb _ triangle) with false. cbv iota. eexists. split; [reflexivity|]. reflexivity. }
  destruct E as (g & E & EL). exists g. split; [exact E|]. split; [intros e [<-|[<-|[<-|[]]]]; cbn; lra|]. rewrite EL. cbn zeta. split; [reflexivity|].
  assert (AB : joined_by triangle "a" "b") by (apply rst_step; cbn; lra). assert (BC : joined_by triangle "b" "c") by (apply rst_step; cbn; lra).
  assert (K : forall i, (i < 3)%nat -> joined_by triangle "b" (nth i ["a"; "b"; "c"]%string EmptyString)).
  { intros i Hi. destruct i as [|[|[|i]]]; [apply rst_sym, AB|apply rst_refl|exact BC|lia]. }
  intros i j Hi Hj. eapply rst_trans; [apply rst_sym, K, Hi|apply K, Hj].
Qed.
