(** Theorem C109: the quadratic form and the kernel of the graph Laplacian. *)
From Coq Require Import String.
From Coq Require Import List Arith ZArith Bool Lia Lra Reals Ring_theory Relations Ring.
From Verif Require Import UtilModel PidModel PermModel MatModel MatSpec MatProofs MatProofs2 SnfModel NumModel NumProofs GraphModel LabGraphModel LabGraphSpec LabGraphProofs LabGraphProofs2 LabGraphProps.
Import ListNotations.
Open Scope nat_scope.

(** [x^T M x] and the i-th entry of [M x]. *)
Definition quadratic {T} {O : Ops T} (n : nat) (M : mat T) (x : nat -> T) : T := sum n (fun i => sum n (fun j => tmul (x i) (tmul (ent M i j) (x j)))).
Definition times {T} {O : Ops T} (n : nat) (M : mat T) (x : nat -> T) (i : nat) : T := sum n (fun j => tmul (ent M i j) (x j)).

Section Ring.
  Context {T : Type} {O : Ops T}.
  Hypothesis RL : ring_theory t0 t1 tadd tmul tsub topp (@eq T).
  Add Ring TR : RL.
  Notation "a *! b" := (tmul a b) (at level 40, left associativity). Notation "a +! b" := (tadd a b) (at level 50, left associativity). Notation "a -! b" := (tsub a b) (at level 50, left associativity).
  Lemma row_form n (w : nat -> nat -> T) (x : nat -> T) i : i < n -> w i i = t0 ->
    sum n (fun j => (if i =? j then sum n (w i) else topp (w i j)) *! x j) = sum n (fun j => w i j *! (x i -! x j)).
  Proof.
    intros Hi H0. rewrite (sum_one RL n i) by exact Hi. rewrite Nat.eqb_refl. rewrite (sum_ext n (fun k => if k =? i then t0 else _) (fun k => topp (w i k *! x k))).
    - rewrite <- (sum_mul_r RL). rewrite <- (sum_add RL). apply sum_ext. intros k Hk. ring.
    - intros k Hk. rewrite (Nat.eqb_sym i k). destruct (Nat.eqb_spec k i) as [->|N]; [rewrite H0; ring|ring].
  Qed.
  Lemma double_form n (w : nat -> nat -> T) (x : nat -> T) : (forall i j, w i j = w j i) ->
    let q := sum n (fun i => x i *! sum n (fun j => w i j *! (x i -! x j))) in q +! q = sum n (fun i => sum n (fun j => w i j *! ((x i -! x j) *! (x i -! x j)))).
  Proof.
    intros Hs q. assert (E1 : q = sum n (fun i => sum n (fun j => x i *! (w i j *! (x i -! x j))))) by (apply sum_ext; intros i Hi; symmetry; apply (sum_mul_l RL)).
    assert (E2 : q = sum n (fun i => sum n (fun j => x j *! (w i j *! (x j -! x i))))).
    { rewrite E1, (sum_swap RL). apply sum_ext; intros i Hi; apply sum_ext; intros j Hj. now rewrite (Hs j i). }
    rewrite E1 at 1. rewrite E2, <- (sum_add RL). apply sum_ext; intros i Hi. rewrite <- (sum_add RL). apply sum_ext; intros j Hj. ring.
  Qed.
End Ring.

(** Over any commutative ring: [L x] at a vertex is the weighted sum of the differences to the other vertices, and twice the quadratic form is the
    weighted sum of the squared differences over all ordered pairs. *)
Theorem C109_quadratic : forall (T : Type) (O : Ops T), ring_laws -> forall (input : list (string * string * T)) g, wgraph_from input = Some g ->
  let n := List.length (wg_labels g) in let w i j := weight t0 input (nth i (wg_labels g) EmptyString) (nth j (wg_labels g) EmptyString) in
  exists L, laplacian g = Some L /\ forall x : nat -> T,
    (forall i, i < n -> times n L x i = sum n (fun j => tmul (w i j) (tsub (x i) (x j)))) /\
    tadd (quadratic n L x) (quadratic n L x) = sum n (fun i => sum n (fun j => tmul (w i j) (tmul (tsub (x i) (x j)) (tsub (x i) (x j))))).
Proof.
  intros T O RL input g E n w. destruct (C54_laplacian T O RL input g E) as (L & EL & WL & NR & NC & HE & _). fold n in NR, NC, HE. exists L. split; [exact EL|]. intros x.
  assert (Hent : forall i j, i < n -> j < n -> ent L i j = if i =? j then sum n (w i) else topp (w i j)).
  { intros i j Hi Hj. specialize (HE i j Hi Hj). unfold mget in HE. rewrite NR, NC in HE. destruct ((i <? n) && (j <? n)); [|discriminate HE]. destruct (nth_error (rws L) i) as [r|] eqn:Er; cbn [obind] in HE; [|discriminate HE]. unfold ent. rewrite (nth_error_nth _ _ [] Er). now apply nth_error_nth. }
  assert (W0 : forall i, w i i = t0).
  { intros i. unfold w. apply weight_diag. intros f Hf. rewrite wgraph_from_spec in E. destruct (existsb _ input) eqn:EX; [discriminate E|]. destruct (is_loop (fst f)) eqn:K; [|reflexivity]. assert (Q : existsb (fun e => is_loop (fst e)) input = true) by (apply existsb_exists; exists f; auto). congruence. }
  assert (Hrow : forall i, i < n -> times n L x i = sum n (fun j => tmul (w i j) (tsub (x i) (x j)))).
  { intros i Hi. unfold times. rewrite <- (row_form RL n w x i Hi (W0 i)). apply sum_ext. intros j Hj. now rewrite Hent. }
  split; [exact Hrow|]. rewrite <- (double_form RL n w x) by (intros i j; unfold w; apply weight_flip). cbn zeta.
  assert (EQ : quadratic n L x = sum n (fun i => tmul (x i) (sum n (fun j => tmul (w i j) (tsub (x i) (x j)))))).
  { unfold quadratic. apply sum_ext. intros i Hi. rewrite (sum_mul_l RL). f_equal. apply Hrow, Hi. }
  now rewrite EQ.
Qed.
Print Assumptions C109_quadratic.


(** Two labels joined by entries of non-zero weight, directly or through others. *)
Definition joined_by (input : list (string * string * R)) : string -> string -> Prop := clos_refl_sym_trans string (fun a b => weight 0%R input a b <> 0%R).

Lemma weight_nonneg (input : list (string * string * R)) a b : forall z, (0 <= z)%R -> (forall e, In e input -> (0 <= snd e)%R) -> (0 <= weight z input a b)%R.
Proof. unfold weight. induction input as [|e input IH]; intros z Hz H; cbn [fold_left]; [exact Hz|]. apply IH; [|intros f Hf; apply H; now right]. destruct (same_ends _ _); [apply H; now left|exact Hz]. Qed.
Lemma weight_mentions (input : list (string * string * R)) a b : forall z, weight z input a b <> z -> mentions (map fst input) a /\ mentions (map fst input) b.
Proof.
  unfold weight. induction input as [|[e w] input IH]; intros z H; cbn [fold_left fst snd] in H; [congruence|]. cbn [map fst]. destruct (same_ends (a, b) e) eqn:S.
  - unfold same_ends in S. cbn [fst snd] in S. apply orb_true_iff in S. rewrite !andb_true_iff, !String.eqb_eq in S. split; exists e; (split; [now left|]); destruct S as [[-> ->]|[-> ->]]; auto.
  - destruct (IH z H) as [(f & Hf & A) (f' & Hf' & B)]. split; [exists f|exists f']; (split; [now right|assumption]).
Qed.

(** For non-negative weights: the quadratic form is non-negative; it vanishes exactly for the vectors that the matrix maps to zero, and these are the
    vectors that agree on any two labels joined by edges of non-zero weight. *)
Theorem C109_kernel : forall (input : list (string * string * R)) g, wgraph_from input = Some g -> (forall e, In e input -> (0 <= snd e)%R) ->
  let n := List.length (wg_labels g) in let lab i := nth i (wg_labels g) EmptyString in
  exists L, laplacian g = Some L /\ forall x : nat -> R, (0 <= quadratic n L x)%R /\
    (quadratic n L x = 0%R <-> forall i, i < n -> times n L x i = 0%R) /\
    ((forall i, i < n -> times n L x i = 0%R) <-> forall i j, i < n -> j < n -> joined_by input (lab i) (lab j) -> x i = x j).
Proof.
  intros input g E HP n lab. destruct (C109_quadratic R ops_R RLr input g E) as (L & EL & H). fold n in H. exists L. split; [exact EL|]. intros x. destruct (H x) as [Hr Hq]. clear H.
  set (w := fun i j => weight t0 input (nth i (wg_labels g) EmptyString) (nth j (wg_labels g) EmptyString)) in *.
  assert (WN : forall i j, (0 <= w i j)%R) by (intros i j; apply weight_nonneg; [cbn; lra|exact HP]).
  assert (TN : forall i j, (0 <= tmul (w i j) (tmul (tsub (x i) (x j)) (tsub (x i) (x j))))%R) by (intros i j; cbn; specialize (WN i j); apply Rmult_le_pos; [exact WN|apply Rle_0_sqr]).
  assert (Q0 : (0 <= quadratic n L x)%R).
  { assert (K : (0 <= tadd (quadratic n L x) (quadratic n L x))%R) by (rewrite Hq; apply rsum_nonneg; intros i _; apply rsum_nonneg; intros j _; apply TN). cbn in K. lra. }
  assert (LB : forall a, In a (wg_labels g) <-> mentions (map fst input) a).
  { pose proof (C54_from R ops_R input) as F. destruct (_ || _); [congruence|]. destruct F as (g' & E' & _ & F & _). rewrite E in E'. injection E' as <-. exact F. }
  assert (ND : NoDup (wg_labels g)).
  { pose proof (C54_from R ops_R input) as F. destruct (_ || _); [congruence|]. destruct F as (g' & E' & F & _). rewrite E in E'. injection E' as <-. exact F. }
  assert (ZtoC : quadratic n L x = 0%R -> forall i j, i < n -> j < n -> w i j <> 0%R -> x i = x j).
  { intros Z i j Hi Hj Hw. assert (K : sum n (fun i => sum n (fun j => tmul (w i j) (tmul (tsub (x i) (x j)) (tsub (x i) (x j))))) = 0%R) by (unfold w; etransitivity; [symmetry; exact Hq|]; rewrite Z; cbn; lra).
    pose proof (rsum_zero_nonneg n _ (fun k _ => rsum_nonneg n _ (fun l _ => TN k l)) K i Hi) as K1. pose proof (rsum_zero_nonneg n _ (fun l _ => TN i l) K1 j Hj) as K2. cbn in K2. apply Rmult_integral in K2. destruct K2 as [K2|K2]; [now elim Hw|]. apply Rmult_integral in K2. lra. }
  assert (CtoJ : (forall i j, i < n -> j < n -> w i j <> 0%R -> x i = x j) -> forall i j, i < n -> j < n -> joined_by input (lab i) (lab j) -> x i = x j).
  { intros HC. assert (G : forall a b, joined_by input a b -> a = b \/ (In a (wg_labels g) /\ In b (wg_labels g) /\ forall i j, nth_error (wg_labels g) i = Some a -> nth_error (wg_labels g) j = Some b -> x i = x j)).
    { intros a b J. induction J as [a b J|a|a b J IH|a b c J1 IH1 J2 IH2].
      - right. destruct (weight_mentions input a b _ J) as [A B]. rewrite <- LB in A, B. split; [exact A|]. split; [exact B|]. intros i j Ei Ej.
        apply HC; [now apply nth_error_Some; rewrite Ei|now apply nth_error_Some; rewrite Ej|]. unfold w. now rewrite (nth_error_nth _ _ EmptyString Ei), (nth_error_nth _ _ EmptyString Ej).
      - now left.
      - destruct IH as [->|(A & B & C)]; [now left|]. right. repeat split; auto. intros i j Ei Ej. symmetry. now apply C.
      - destruct IH1 as [->|(A & B & C)]; [exact IH2|]. destruct IH2 as [<-|(A' & B' & C')]; [right; auto|]. right. split; [exact A|]. split; [exact B'|]. intros i j Ei Ej.
        apply In_nth_error in B. destruct B as (k & Ek). now rewrite (C i k Ei Ek), (C' k j Ek Ej). }
    intros i j Hi Hj J. assert (Ei : nth_error (wg_labels g) i = Some (lab i)) by (now apply nth_error_nth'). assert (Ej : nth_error (wg_labels g) j = Some (lab j)) by (now apply nth_error_nth').
    destruct (G _ _ J) as [Eq|(_ & _ & K)]; [|now apply K]. f_equal. apply (proj1 (NoDup_nth_error (wg_labels g)) ND); [exact Hi|]. now rewrite Ei, Ej, Eq. }
  assert (JtoK : (forall i j, i < n -> j < n -> joined_by input (lab i) (lab j) -> x i = x j) -> forall i, i < n -> times n L x i = 0%R).
  { intros HJ i Hi. rewrite (Hr i Hi). apply (sum_zero RLr). intros j Hj. change (w i j * (x i - x j) = 0)%R. destruct (Req_dec (w i j) 0%R) as [Z|Z]; [rewrite Z; ring|]. rewrite (HJ i j Hi Hj); [ring|]. apply rst_step. exact Z. }
  assert (KtoZ : (forall i, i < n -> times n L x i = 0%R) -> quadratic n L x = 0%R).
  { intros HK. unfold quadratic. apply (sum_zero RLr). intros i Hi. rewrite (sum_mul_l RLr). fold (times n L x i). rewrite HK by exact Hi. cbn. ring. }
  split; [exact Q0|]. split; split; auto.
Qed.
Print Assumptions C109_kernel.

(** The path a - b - c with an isolated edge d - e: the weights are non-negative; vertices 0 and 3 are in different parts. *)
Definition two_parts : list (string * string * Z) := [("a","b",2%Z); ("b","c",3%Z); ("d","e",1%Z)]%string.
Example two_parts_laplacian : (do g <- wgraph_from two_parts; do L <- laplacian g; Some (wg_labels g, rws L)) =
  Some (["a"; "b"; "c"; "d"; "e"]%string, [[2; -2; 0; 0; 0]; [-2; 5; -3; 0; 0]; [0; -3; 3; 0; 0]; [0; 0; 0; 1; -1]; [0; 0; 0; -1; 1]]%Z).
Proof. vm_compute. reflexivity. Qed.
Example two_parts_real : exists g, wgraph_from (map (fun e => (fst e, IZR (snd e))) two_parts) = Some g /\ forall e, In e (map (fun e => (fst e, IZR (snd e))) two_parts) -> (0 <= snd e)%R.
Proof.
  pose proof (C54_from R ops_R (map (fun e => (fst e, IZR (snd e))) two_parts)) as F. cbn in F. destruct F as (g & E & _). exists g. split; [exact E|]. intros e [<-|[<-|[<-|[]]]]; cbn; lra.
Qed.
(** With a negative weight the form can be negative. *)
Example negative_weight : (do g <- wgraph_from [("a"%string, "b"%string, (-1)%Z)]; do L <- laplacian g; Some (quadratic 2 L (fun i => if i =? 0 then 1%Z else 0%Z))) = Some (-1)%Z.
Proof. vm_compute. reflexivity. Qed.
