(** Theorem C106: vector-valued functions, their values and their Jacobians. *)
From Coq Require Import List Arith ZArith Bool Reals Lia Lra ZifyBool Sorted.
From Verif Require Import PidModel MatModel MatSpec MatProofs MatProofs2 NumModel SparseModel SparseProofs SparseProps AnaModel AnaSpec AnaProofs AnaProofs2 AnaProofs3 AnaProofs4 AnaProps MvModel MvProofs.
Import ListNotations.
Open Scope nat_scope.

(** The builder: component [i] is what the closure leaves there, given the coordinates. *)
Theorem C106_new : forall n d setter i, mv_index (mv_new (n, d) setter) i = (if i <? n then Some (setter i AZero (map AProj (seq 0 d))) else None) /\
  length (mv_fns (mv_new (n, d) setter)) = n /\ mv_dim (mv_new (n, d) setter) = d.
Proof.
  intros n d setter i. unfold mv_index, mv_new. cbn [mv_fns mv_dim fst snd]. split; [|split; [now rewrite map_length, seq_length|reflexivity]]. destruct (Nat.ltb_spec i n).
  - now apply (map_seq_nth_error (fun i => setter i AZero (map AProj (seq 0 d)))). 
  - apply nth_error_None. now rewrite map_length, seq_length.
Qed.
Print Assumptions C106_new.

(** The value is the column of the values of the components; a function without components stops the program. *)
Theorem C106_eval : forall F x, (mv_fns F = [] -> mv_eval F x = None) /\
  forall vs, mv_fns F <> [] -> Forall2 (fun f v => eval x f = Some v) (mv_fns F) vs ->
    exists M, mv_eval F x = Some M /\ is_mat (length vs) 1 (fun i _ => nth i vs 0%R) M.
Proof.
  intros [fs d] x. unfold mv_eval. cbn [mv_fns]. split; [intros ->; reflexivity|]. intros vs Hn HF. assert (HLen : length fs = length vs) by (clear -HF; induction HF; cbn; congruence).
  assert (0 < length fs) by (destruct fs; [congruence|cbn; lia]). rewrite mzero_mk by lia. cbn [obind]. eexists. split; [|apply mk_ent; reflexivity]. rewrite <- HLen.
  rewrite (foldM_seq0 _ (fun k => mk (length fs) 1 (fun i _ => if i <? k then nth i vs 0%R else 0%R))).
  - f_equal. apply mk_ext. intros i j Hi _. now replace (i <? length fs) with true by lia.
  - apply mk_ext. intros i j _ _. reflexivity.
  - intros k Hk. assert (K : exists f, nth_error fs k = Some f /\ eval x f = Some (nth k vs 0%R)).
    { clear -HF Hk. revert k Hk. induction HF as [|f v fs vs E HF IH]; intros [|k] Hk; cbn in *; try lia; [eauto|]. apply IH. lia. }
    destruct K as (f & -> & E). cbn [obind]. rewrite E. cbn [obind]. rewrite mset_mk by lia. f_equal. apply mk_ext. intros i j Hi Hj. replace j with 0 by lia. cbn [Nat.eqb]. rewrite andb_true_r.
    destruct (Nat.eqb_spec i k) as [->|]; [now replace (k <? k + 1) with true by lia|]. destruct (Nat.ltb_spec i k); destruct (Nat.ltb_spec i (k + 1)); try lia; reflexivity.
Qed.
Print Assumptions C106_eval.

(** A matrix of functions is evaluated entry by entry. *)
Theorem C106_dense_eval : forall A x g, 0 < nr A -> 0 < nc A ->
  (forall i j, i < nr A -> j < nc A -> exists f, mget A i j = Some f /\ eval x f = Some (g i j)) ->
  exists M, dense_eval A x = Some M /\ is_mat (nr A) (nc A) g M.
Proof.
  intros A x g Hn Hm H. unfold dense_eval. rewrite mzero_mk by assumption. cbn [obind]. eexists. split; [|apply mk_ent; reflexivity].
  rewrite (foldM_seq0 _ (fun k => mk (nr A) (nc A) (fun i j => if i <? k then g i j else 0%R))).
  - f_equal. apply mk_ext. intros i j Hi _. now replace (i <? nr A) with true by lia.
  - apply mk_ext. intros i j _ _. reflexivity.
  - intros k Hk. rewrite (foldM_seq0 _ (fun l => mk (nr A) (nc A) (fun i j => if (i <? k) || (i =? k) && (j <? l) then g i j else 0%R))).
    + f_equal. apply mk_ext. intros i j Hi Hj. replace ((i <? k) || (i =? k) && (j <? nc A)) with (i <? k + 1) by lia. reflexivity.
    + apply mk_ext. intros i j _ _. now replace ((i <? k) || (i =? k) && (j <? 0)) with (i <? k) by lia.
    + intros l Hl. destruct (H k l Hk Hl) as (f & -> & E). cbn [obind]. rewrite E. cbn [obind]. rewrite mset_mk by assumption. f_equal. apply mk_ext. intros i j Hi Hj.
      destruct ((i =? k) && (j =? l)) eqn:C; [assert (i = k) by lia; assert (j = l) by lia; subst i j; now replace ((k <? k) || (k =? k) && (l <? l + 1)) with true by lia|].
      now replace ((i <? k) || (i =? k) && (j <? l + 1)) with ((i <? k) || (i =? k) && (j <? l)) by lia.
Qed.
Print Assumptions C106_dense_eval.

(** A sparse matrix of functions is evaluated entry by entry, if it has an entry. *)
Theorem C106_sparse_eval_partial : forall n m f x, inhabited_entries n m f ->
  (forall i j h, i < n -> j < m -> f i j = Some h -> exists v, eval x h = Some v) ->
  exists s D, sparse_from n m f = Some s /\ sparse_eval s x = Some D /\ s_size D = (n, m) /\
    forall i, i < n -> exists row, row_iter D i = Some row /\ lists m (fun j => match f i j with Some h => eval x h | None => None end) row.
Proof.
  intros n m f x HI HV. destruct (C40_iter_partial (OT := ops_afn) n m f HI) as (s & Es & Ss & HR & _). exists s.
  set (rw := fun i => match row_iter s i with Some l => l | None => [] end).
  assert (K : forall i, i < n -> row_iter s i = Some (rw i) /\ lists m (f i) (rw i)). { intros i Hi. destruct (HR i Hi) as (l & E & HL). unfold rw. rewrite E. auto. }
  assert (KV : forall i, i < n -> forall j g, In (j, g) (rw i) -> exists v, eval x g = Some v). { intros i Hi j g Hin. destruct (K i Hi) as (_ & _ & HL). apply HL in Hin. destruct Hin as [Hj E]. now apply (HV i j). }
  rewrite (sparse_eval_ok s n m x rw Ss (fun i Hi => proj1 (K i Hi)) (fun i Hi => proj1 (proj2 (K i Hi)))) by (intros; now eapply KV; eauto).
  set (t := table_get _).
  assert (HT : forall i j v, t i j = Some v <-> i < n /\ j < m /\ exists h, f i j = Some h /\ eval x h = Some v).
  { intros i j v. unfold t. rewrite table_get_tab by (intros k Hk; apply erow_sorted; exact (proj1 (proj2 (K k Hk)))). split.
    - intros [Hi Hin]. apply in_erow in Hin; [|now apply KV]. destruct Hin as (g & Hin & E). apply (proj2 (proj2 (K i Hi))) in Hin. split; [exact Hi|]. split; [tauto|]. exists g. tauto.
    - intros (Hi & Hj & h & Eh & Ev). split; [exact Hi|]. apply in_erow; [now apply KV|]. exists h. split; [|exact Ev]. apply (proj2 (proj2 (K i Hi))). auto. }
  destruct (C40_iter_partial (OT := ops_R) n m t) as (D & ED & SD & HD & _).
  { destruct HI as (i & j & Hi & Hj & Hf). exists i, j. split; [exact Hi|]. split; [exact Hj|]. destruct (f i j) as [h|] eqn:E; [|congruence]. destruct (HV i j h Hi Hj E) as (v & Ev). rewrite (proj2 (HT i j v)); [discriminate|eauto]. }
  exists D. split; [exact Es|]. split; [exact ED|]. split; [exact SD|]. intros i Hi. destruct (HD i Hi) as (row & E & HS & HL). exists row. split; [exact E|]. split; [exact HS|]. intros j v. rewrite HL, HT. split.
  - intros (Hj & _ & _ & h & -> & Ev). auto.
  - intros (Hj & Ev). split; [exact Hj|]. split; [exact Hi|]. split; [exact Hj|]. destruct (f i j) as [h|]; [eauto|discriminate].
Qed.
Print Assumptions C106_sparse_eval_partial.

(** The sparse matrix [D] is the matrix of the partial derivatives of [F] at [x]: row [i] lists, by increasing index, entries [(j, d)]
    where [d] is the partial derivative of component [i] in direction [j]; what it does not list is zero. *)
Definition is_jacobian_at (F : mv) (x : list R) (D : sparse R) : Prop :=
  s_size D = (length (mv_fns F), mv_dim F) /\
  forall i f, nth_error (mv_fns F) i = Some f -> exists row, row_iter D i = Some row /\ StronglySorted (fun p q => fst p < fst q) row /\
    (forall j v, In (j, v) row -> j < mv_dim F) /\
    forall j, j < mv_dim F -> exists d, has_partial f j x d /\ (In (j, d) row \/ d = 0%R /\ forall v, ~ In (j, v) row).

(** C106, where some partial derivative is not the function [Zero]. *)
Theorem C106_jacobian_partial : forall F, (exists i j f, nth_error (mv_fns F) i = Some f /\ j < mv_dim F /\ pderiv j f <> Some AZero) ->
  exists J, mv_jacobian F = Some J /\ s_size J = (length (mv_fns F), mv_dim F) /\
    forall x, (forall f, In f (mv_fns F) -> regular x f /\ exists v, eval x f = Some v) ->
      exists D, sparse_eval J x = Some D /\ is_jacobian_at F x D.
Proof.
  intros F (i0 & j0 & f0 & Ef0 & Hj0 & N0). set (n := length (mv_fns F)). set (m := mv_dim F) in *.
  assert (HI : inhabited_entries n m (jget F)).
  { exists i0, j0. split; [apply nth_error_Some; congruence|]. split; [exact Hj0|]. destruct (pderiv_total j0 f0) as (g & Eg). rewrite (proj2 (jget_spec F i0 j0 g)); [discriminate|]. exists f0. split; [exact Ef0|]. split; [exact Hj0|]. split; [exact Eg|]. intros ->. contradiction. }
  destruct (C40_iter_partial (OT := ops_afn) n m (jget F) HI) as (J & EJ & SJ & _). exists J.
  assert (EM : mv_jacobian F = Some J) by (rewrite mv_jacobian_ok by (unfold m in Hj0; lia); exact EJ). split; [exact EM|]. split; [exact SJ|]. intros x Hx.
  assert (HD : forall i f j, nth_error (mv_fns F) i = Some f -> j < m -> exists g d, pderiv j f = Some g /\ eval x g = Some d /\ has_partial f j x d).
  { intros i f j Ef Hj. destruct (Hx f (nth_error_In _ _ Ef)) as (HR & v & Ev). destruct (C60_partial_derivative f j) as (g & Eg & Hg). destruct (Hg x v Ev HR) as (_ & d & Ed & Hd). eauto. }
  destruct (C106_sparse_eval_partial n m (jget F) x HI) as (s & D & Es & ED & SD & HRow).
  { intros i j h Hi Hj Eh. apply jget_spec in Eh. destruct Eh as (f & Ef & _ & Eg & _). destruct (HD i f j Ef Hj) as (g & d & Eg' & Ed & _). rewrite Eg in Eg'. injection Eg' as <-. eauto. }
  rewrite EJ in Es. injection Es as <-. exists D. split; [exact ED|]. split; [exact SD|]. intros i f Ef. assert (Hi : i < n) by (apply nth_error_Some; congruence). destruct (HRow i Hi) as (row & Er & HS & HL).
  exists row. split; [exact Er|]. split; [exact HS|]. split; [intros j v Hin; now apply HL in Hin|]. intros j Hj. destruct (HD i f j Ef Hj) as (g & d & Eg & Ed & Hd). exists d. split; [exact Hd|].
  destruct (a_eqb g AZero) eqn:C.
  - apply a_eqb_eq in C. subst g. right. cbn [eval] in Ed. injection Ed as <-. split; [reflexivity|]. intros v Hin. apply HL in Hin. destruct Hin as (_ & E). destruct (jget F i j) as [h|] eqn:Eh; [|discriminate]. apply jget_spec in Eh. destruct Eh as (f' & Ef' & _ & Eh & Nh). rewrite Ef in Ef'. injection Ef' as <-. rewrite Eg in Eh. injection Eh as <-. congruence.
  - apply a_eqb_neq in C. left. apply HL. split; [exact Hj|]. rewrite (proj2 (jget_spec F i j g)); [exact Ed|]. exists f. auto.
Qed.
Print Assumptions C106_jacobian_partial.
(** In particular where some component has a partial derivative that is not zero at some point. *)
Theorem C106_nonconstant_partial : forall F, (exists i j f y d, nth_error (mv_fns F) i = Some f /\ j < mv_dim F /\ regular y f /\ has_partial f j y d /\ d <> 0%R) ->
  exists J, mv_jacobian F = Some J /\
    forall x, (forall f, In f (mv_fns F) -> regular x f /\ exists v, eval x f = Some v) ->
      exists D, sparse_eval J x = Some D /\ is_jacobian_at F x D.
Proof.
  intros F (i & j & f & y & d & Ef & Hj & HR & Hd & Nd). destruct (C106_jacobian_partial F) as (J & E & _ & H); [|eauto]. exists i, j, f. split; [exact Ef|]. split; [exact Hj|]. intros EZ.
  destruct (C60_partial_derivative f j) as (g & Eg & Hg). rewrite EZ in Eg. injection Eg as <-. destruct (Hd 1%R ltac:(lra)) as (delta & Hdelta & K).
  destruct (K (delta / 2)%R ltac:(lra)) as (_ & v0 & Ev & _); [rewrite Rabs_pos_eq; lra|]. destruct (Hg y v0 Ev HR) as (_ & d' & Ed & Hd'). cbn [eval] in Ed. injection Ed as <-. apply Nd. exact (C60_derivative_unique f j y d 0%R Hd Hd').
Qed.
Print Assumptions C106_nonconstant_partial.
(** The missing case: where every derivative is the function [Zero], the Jacobian is computed, but evaluating it stops the program. *)
Theorem C106_refuted_constant : forall F, 0 < mv_dim F -> mv_fns F <> [] -> (forall f j, In f (mv_fns F) -> j < mv_dim F -> pderiv j f = Some AZero) ->
  exists J, mv_jacobian F = Some J /\ forall x, sparse_eval J x = None.
Proof.
  intros F Hd Hn H. destruct (C40_refuted_empty (OT := ops_afn) (length (mv_fns F)) (mv_dim F) (jget F)) as (J & E & HR & _).
  { intros i j Hi Hj. destruct (jget F i j) as [g|] eqn:Eg; [|reflexivity]. apply jget_spec in Eg. destruct Eg as (f & Ef & _ & Eg & Ng). rewrite (H f j (nth_error_In _ _ Ef) Hj) in Eg. injection Eg as <-. contradiction. }
  exists J. split; [rewrite mv_jacobian_ok by assumption; exact E|]. intros x. unfold sparse_eval. assert (S0 : fst (s_size J) = length (mv_fns F)).
  { unfold sparse_from in E. destruct (foldM _ _ _) as [rc|]; [|discriminate]. cbn [obind] in E. destruct (sort_start (fst rc)) as [rows|]; [|discriminate]. destruct (sort_start (snd rc)) as [cols|]; [|discriminate]. cbn [obind] in E. destruct rows; injection E as <-; reflexivity. }
  rewrite S0. destruct (mv_fns F) as [|f fs]; [congruence|]. cbn [length seq omapM]. rewrite HR. reflexivity.
Qed.
Print Assumptions C106_refuted_constant.
(** Nothing but an empty list of variables stops the computation of the Jacobian. *)
Theorem C106_jacobian_panics : forall F, mv_jacobian F = None <-> mv_dim F = 0 /\ mv_fns F <> [].
Proof.
  intros F. destruct (Nat.eq_dec (mv_dim F) 0) as [Hd|Hd].
  - unfold mv_jacobian. rewrite Hd. destruct (mv_fns F) as [|f fs] eqn:EF.
    + cbn. split; [discriminate|]. intros [_ K]. congruence.
    + cbn [length seq combine omapM fst snd]. unfold mv_row at 1. unfold a_jacobian. cbn [Nat.ltb Nat.leb obind]. split; [intros _; split; [reflexivity|discriminate]|reflexivity].
  - split; [|intros [K _]; congruence]. rewrite mv_jacobian_ok by lia. intros E. exfalso. destruct (sparse_from_ok (length (mv_fns F)) (mv_dim F) (jget F)) as [K1 K2].
    destruct (existsb (fun i => existsb (fun j => match jget F i j with Some _ => true | None => false end) (seq 0 (mv_dim F))) (seq 0 (length (mv_fns F)))) eqn:B.
    + apply existsb_exists in B. destruct B as (i & Hi & B). apply existsb_exists in B. destruct B as (j & Hj & B). apply in_seq in Hi, Hj. destruct K1 as (s & Es & _); [exists i, j; repeat split; try lia; destruct (jget F i j); discriminate|]. discriminate (eq_trans (eq_sym Es) E).
    + destruct K2 as (s & Es & _); [|discriminate (eq_trans (eq_sym Es) E)]. intros i j Hi Hj. destruct (jget F i j) eqn:G; [|reflexivity]. exfalso. assert (T : existsb (fun i => existsb (fun j => match jget F i j with Some _ => true | None => false end) (seq 0 (mv_dim F))) (seq 0 (length (mv_fns F))) = true); [|congruence].
      apply existsb_exists. exists i. split; [apply in_seq; lia|]. apply existsb_exists. exists j. split; [apply in_seq; lia|]. now rewrite G.
Qed.
Print Assumptions C106_jacobian_panics.

(** Two components of two variables, [x0 x1] and the constant [1]: the theorem applies at every point, and the second row is empty. *)
Example C106_nontrivial : exists p F J, a_mul (AProj 0) (AProj 1) = Some p /\ F = mv_new (2, 2) (fun i _ _ => if i =? 0 then p else AOne) /\ mv_jacobian F = Some J /\
  forall a b, exists D, sparse_eval J [a; b] = Some D /\ is_jacobian_at F [a; b] D.
Proof.
  destruct (C59_mul (AProj 0) (AProj 1)) as (p & Ep & Hp). exists p, (mv_new (2, 2) (fun i _ _ => if i =? 0 then p else AOne)).
  assert (HR : forall a b, regular [a; b] p). { intros a b. assert (P : p = AProd [(1%Z, AProj 0); (1%Z, AProj 1)]); [|rewrite P; cbn; auto]. revert Ep. rewrite a_mul_unfold. cbn. congruence. }
  destruct (C106_nonconstant_partial (mv_new (2, 2) (fun i _ _ => if i =? 0 then p else AOne))) as (J & EJ & HJ).
  { exists 0, 0, p, [0%R; 1%R]. destruct (C60_partial_derivative p 0) as (g & Eg & Hg). destruct (Hg [0%R; 1%R] (0 * 1)%R) as (_ & d & Ed & Hd); [apply Hp; reflexivity|apply HR|]. exists d. split; [reflexivity|]. split; [cbn; lia|]. split; [apply HR|]. split; [exact Hd|].
    intros ->. destruct (Hd (/2)%R ltac:(lra)) as (delta & Hdel & K). destruct (K (delta / 2)%R ltac:(lra)) as (v & v0 & E0 & E1 & B); [rewrite Rabs_pos_eq; lra|]. rewrite (Hp [0%R; 1%R] 0%R 1%R eq_refl eq_refl) in E0. unfold moved in E1. cbn [MatModel.lset nth] in E1.
    rewrite (Hp [0 + delta / 2; 1]%R (0 + delta / 2)%R 1%R eq_refl eq_refl) in E1. injection E0 as <-. injection E1 as <-. replace (((0 + delta / 2) * 1 - 0 * 1) / (delta / 2) - 0)%R with 1%R in B by (field; lra). rewrite Rabs_R1 in B. lra. }
  exists J. split; [exact Ep|]. split; [reflexivity|]. split; [exact EJ|]. intros a b. apply HJ. intros f Hf. cbn in Hf. destruct Hf as [<-|[<-|[]]]; [split; [apply HR|]; exists (a * b)%R; now apply Hp|split; [exact I|exists 1%R; reflexivity]].
Qed.
(** The hypotheses of the refutation: a constant. *)
Example C106_refuted_nontrivial : exists J, mv_jacobian (mv_new (1, 1) (fun _ _ _ => AOne)) = Some J /\ forall x, sparse_eval J x = None.
Proof. apply C106_refuted_constant; [cbn; lia|discriminate|]. intros f j [<-|[]] _. reflexivity. Qed.
