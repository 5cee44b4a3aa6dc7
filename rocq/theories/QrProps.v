(** C85: the QR algorithm, over the real numbers. *)
From Coq Require Import List Arith Bool Lia ZifyBool Reals Lra.
From Verif Require Import PidModel MatModel MatSpec MatProofs MatProofs2 SnfModel SnfProofs2 RankModel LuModel LuSpec LuProofs2 LuProofs3 NumModel NumSpec NumProofs HouseProofs HessProofs HessProps FrancisModel FrancisSpec FrancisProofs FrancisProps QrProofs EigProofs.
Import ListNotations.
Open Scope R_scope.

Lemma qr_loop_run n fuel : (2 <= n)%nat -> forall f op, hessenberg n f -> exists r, qr_loop fuel false (mk n n f) op = Some r /\
  (r = None \/ exists h, r = Some (mk n n h, op) /\ hessenberg n h /\ small_blocks n tolerance h /\ qr_run n tolerance f h).
Proof.
  intros Hn. induction fuel as [|fuel IH]; intros f op HE; [exists None; split; [reflexivity|now left]|]. cbn [qr_loop]. destruct (qr_body_mk n f op Hn HE) as [(SB & B)|(p & e & g & q & _ & _ & IT & HG & B & Hq & _)]; rewrite B; cbn [obind fst snd]; rewrite nr_mk.
  - rewrite Nat.eqb_refl. eexists. split; [reflexivity|]. right. exists (chopped tolerance f). split; [reflexivity|]. split; [now apply chopped_hess|]. split; [exact SB|]. apply run_end; [now intros i j Hi Hj|exact SB].
  - replace (q =? n)%nat with false by lia. destruct (IH g op HG) as (r & E & C). exists r. split; [exact E|]. destruct C as [->|(h & -> & HH & SB & RN)]; [now left|]. right. exists h. split; [reflexivity|]. split; [exact HH|]. split; [exact SB|].
    now apply (run_step n tolerance f g h).
Qed.
Lemma small_ext n eps A B : same n n A B -> small_blocks n eps A -> small_blocks n eps B.
Proof. intros E H i Hi. rewrite <- !E by lia. now apply H. Qed.
Lemma chopped_ext n eps A B : same n n A B -> same n n (chopped eps A) (chopped eps B).
Proof. intros E i j Hi Hj. unfold chopped. destruct (i =? j + 1)%nat; now rewrite ?(E i j), ?(E j j), ?(E i i) by assumption. Qed.
Lemma active_ext n eps A B p e : same n n A B -> active n eps A p e -> active n eps B p e.
Proof.
  intros E (H1 & H2 & H3 & H4 & H5 & H6). split; [exact H1|]. split; [intros; rewrite <- E by lia; now apply H2|]. split; [rewrite <- E by lia; exact H3|]. split; [rewrite <- E by lia; exact H4|].
  split; [intros; rewrite <- E by lia; now apply H5|]. intros. rewrite <- !E by lia. now apply H6.
Qed.
Lemma iteration_ext n eps A A' B : (3 <= n)%nat -> same n n A A' -> qr_iteration n eps A B -> qr_iteration n eps A' B.
Proof.
  intros Hn E (p & e & AC & OUT & HB & PB & DS). pose proof (chopped_ext n eps A A' E) as EC. exists p, e. split; [now apply (active_ext n eps (chopped eps A))|]. split; [intros i j Hi Hj N; rewrite <- EC by assumption; now apply OUT|].
  split; [exact HB|]. split; [exact PB|]. intros P. destruct AC as (He & _). apply (double_shift_ext (e - p) (block_at p (chopped eps A)) _ (block_at p B)); [lia| |now intros i j Hi Hj|now apply DS].
  intros i j Hi Hj. unfold block_at. apply EC; lia.
Qed.
Lemma run_ext_l n eps A A' B : same n n A A' -> qr_run n eps A B -> qr_run n eps A' B.
Proof.
  intros E R. destruct R as [A B EB SB|A C B IT R].
  - pose proof (chopped_ext n eps A A' E) as EC. apply run_end; [|now apply (small_ext n eps (chopped eps A))]. intros i j Hi Hj. rewrite <- EC by assumption. now apply EB.
  - apply (run_step n eps A' C B); [|exact R]. apply (iteration_ext n eps A A' C); [|exact E|exact IT]. destruct IT as (p & e & (He & _) & _). lia.
Qed.
Lemma run_ext_r n eps A B B' : same n n B B' -> qr_run n eps A B -> qr_run n eps A B'.
Proof. intros E R. induction R as [A B EB SB|A C B IT R IH]; [apply run_end; [|exact SB]; intros i j Hi Hj; rewrite <- E by assumption; now apply EB|]. apply (run_step n eps A C B'); [exact IT|now apply IH]. Qed.
(** C85.  [qr] never panics on a square matrix.  If it ends, the result has zeros below the subdiagonal and no two neighbouring subdiagonal entries above the tolerance, and
    it comes from the Hessenberg form of the input by iterations of the QR algorithm. *)
Theorem C85_qr_partial : forall fuel M n, wf M -> nr M = n -> nc M = n ->
  raw_qr fuel M false <> None /\
  forall H Q, raw_qr fuel M false = Some (Some (H, Q)) -> wf H /\ nr H = n /\ nc H = n /\ hessenberg n (ent H) /\ small_blocks n (/ 10 ^ 15) (ent H) /\
    exists A, hessenberg_form M = Some A /\ qr_run n (/ 10 ^ 15) (ent A) (ent H).
Proof.
  intros fuel M n W RM CM. replace (/ 10 ^ 15) with tolerance by (unfold tolerance; f_equal; lra). unfold raw_qr. rewrite RM, CM, Nat.eqb_refl. destruct (Nat.ltb_spec n 2) as [L|L].
  - rewrite midentity_mk by lia. cbn [obind]. split; [discriminate|]. intros H Q [= <- <-]. split; [exact W|]. split; [exact RM|]. split; [exact CM|]. split; [intros i j Hi; lia|]. split; [intros i Hi; lia|]. exists M.
    split; [unfold hessenberg_form; rewrite RM, CM, Nat.eqb_refl; now destruct (Nat.ltb_spec n 2); [|lia]|]. apply run_end; [|intros i Hi; lia]. intros i j Hi Hj. unfold chopped. now replace (i =? j + 1)%nat with false by lia.
  - destruct (C80_hessenberg_partial M n W RM CM) as (A & EA & WA & RA & CA & HA & _). rewrite EA. cbn [obind]. rewrite midentity_mk by lia. cbn [obind]. pose proof (wf_eq_mk A WA) as EM. rewrite RA, CA in EM.
    destruct (qr_loop_run n fuel L (ent A) (mk 1 1 id_entry) HA) as (r & ER & C). rewrite <- EM in ER. rewrite ER. split; [discriminate|]. intros H Q [= ->]. destruct C as [C|(h & [= -> ->] & HH & SB & RN)]; [discriminate|].
    assert (same n n h (ent (mk n n h))) as E by (intros i j Hi Hj; symmetry; now apply ent_mk). split; [apply wf_mk|]. split; [reflexivity|]. split; [reflexivity|]. split; [intros i j Hi; rewrite <- E by lia; now apply HH|].
    split; [now apply (small_ext n tolerance h)|]. exists A. split; [reflexivity|]. now apply (run_ext_r n tolerance (ent A) h).
Qed.
(** One iteration, unless the last but one subdiagonal entry of the window comes out negative, keeps the trace; when the window is decoupled, the eigenvalues of the chopped matrix too. *)
Lemma trace_chop n eps A : trace n (chopped eps A) = trace n A.
Proof. unfold trace. apply rsum_ext. intros i Hi. unfold chopped. now replace (i =? i + 1)%nat with false by lia. Qed.
Lemma trace_ext n A B : (forall i, (i < n)%nat -> A i i = B i i) -> trace n A = trace n B.
Proof. intros E. unfold trace. apply rsum_ext. exact E. Qed.
Theorem C85_iteration : forall n eps A C, hessenberg n A -> qr_iteration n eps A C -> exists p e, active n eps (chopped eps A) p e /\
  (0 <= C (e - 2)%nat (e - 3)%nat -> trace n C = trace n A /\
    (((0 < p)%nat -> chopped eps A p (p - 1)%nat = 0) -> ((e < n)%nat -> chopped eps A e (e - 1)%nat = 0) -> forall l, eigenvalue n (chopped eps A) l <-> eigenvalue n C l)).
Proof.
  intros n eps A C HA (p & e & AC & OUT & HB & PB & DS). exists p, e. split; [exact AC|]. intros P. specialize (DS P). apply double_shift_similar in DS. pose proof (chopped_hess n eps A HA) as HC. destruct AC as (He & _). set (c := chopped eps A) in *. split.
  - rewrite <- (trace_chop n eps A). fold c. rewrite !(trace_split n e) by lia. rewrite !(trace_split e p) by lia. apply trace_similar in DS. change (block_at p) with (window p) in DS. rewrite DS.
    rewrite (trace_ext p C c) by (intros i Hi; apply OUT; lia). f_equal. apply trace_ext. intros i Hi. unfold window. apply OUT; lia.
  - intros D1 D2 l.
    assert (forall i j, (p <= i < n)%nat -> (j < p)%nat -> c i j = 0) as Z1 by (intros i j Hi Hj; destruct (Nat.eq_dec i (j + 1)) as [->|N]; [replace (j + 1)%nat with p by lia; replace j with (p - 1)%nat by lia; apply D1; lia|apply HC; lia]).
    assert (forall i j, (e <= i < n)%nat -> (j < e)%nat -> c i j = 0) as Z2 by (intros i j Hi Hj; destruct (Nat.eq_dec i (j + 1)) as [->|N]; [replace (j + 1)%nat with e by lia; replace j with (e - 1)%nat by lia; apply D2; lia|apply HC; lia]).
    rewrite !(eig_block n e) by (try lia; intros i j Hi Hj; rewrite ?OUT by lia; now apply Z2). rewrite !(eig_block e p) by (try lia; intros i j Hi Hj; rewrite ?OUT by lia; apply Z1; lia).
    change (window p) with (block_at p). rewrite (eigen_similar (e - p) (block_at p c) (block_at p C) l DS).
    assert (eigenvalue p c l <-> eigenvalue p C l) as -> by (split; apply eig_ext; intros i j Hi Hj; rewrite OUT by lia; reflexivity).
    assert (eigenvalue (n - e) (window e c) l <-> eigenvalue (n - e) (window e C) l) as -> by (split; apply eig_ext; intros i j Hi Hj; unfold window; rewrite OUT by lia; reflexivity). reflexivity.
Qed.
(** [qr_with_op] returns the identity, or panics. *)
Theorem C85_op_identity : forall fuel M n H Q, wf M -> nr M = n -> nc M = n -> (2 <= n)%nat -> raw_qr fuel M true = Some (Some (H, Q)) -> Q = mk n n id_entry.
Proof.
  intros fuel M n H Q W RM CM Hn. unfold raw_qr. rewrite RM, CM, Nat.eqb_refl. destruct (Nat.ltb_spec n 2) as [L|_]; [lia|].
  destruct (C80_hessenberg_partial M n W RM CM) as (A & EA & WA & RA & CA & HA & _). rewrite EA. cbn [obind]. rewrite RA. rewrite midentity_mk by lia. cbn [obind]. pose proof (wf_eq_mk A WA) as EM. rewrite RA, CA in EM. rewrite EM. clear EM. revert HA. generalize (ent A). clear.
  induction fuel as [|fuel IH]; intros f HE E; [discriminate|]. cbn [qr_loop] in E. destruct (Nat.lt_ge_cases n 2) as [L|L].
  - exfalso. clear IH. unfold qr_body in E. rewrite nr_mk in E. destruct (qr_chop (mk n n f)); [|discriminate]. cbn [obind] in E. unfold qr_q, usub in E. replace (2 <=? n)%nat with false in E by lia. discriminate.
  - destruct (qr_body_mk n f (mk n n id_entry) L HE) as [(SB & B)|(p & e & g & q & _ & AC & IT & HG & _ & Hq & B)]; rewrite B in E; cbn [obind fst snd] in E; rewrite nr_mk in E.
    + rewrite Nat.eqb_refl in E. now injection E as <- <-.
    + destruct AC as (He & _). destruct (Nat.eq_dec (e - p) n) as [EN|EN].
      * rewrite EN, mmul_mk in E. cbn [obind fst snd] in E. replace (q =? n)%nat with false in E by lia. rewrite (mk_ext n n (prod_entry n id_entry id_entry) id_entry) in E by (intros i j Hi Hj; now apply rprod_id_l). now apply (IH g HG).
      * exfalso. rewrite mmul_none in E by lia. discriminate.
Qed.

Theorem C85_panics : forall fuel M ro, nr M <> nc M -> raw_qr fuel M ro = None.
Proof. intros fuel M ro H. unfold raw_qr. now destruct (Nat.eqb_spec (nr M) (nc M)). Qed.
(** A matrix that is in Hessenberg form with nothing negative on the subdiagonal is its own Hessenberg form. *)
Lemma hess_fixed n f : (2 <= n)%nat -> hessenberg n f -> (forall k, (k + 2 < n)%nat -> 0 <= f (k + 1)%nat k) -> hessenberg_form (mk n n f) = Some (mk n n f).
Proof.
  intros Hn HE P. unfold hessenberg_form. rewrite nr_mk, nc_mk, Nat.eqb_refl. destruct (Nat.ltb_spec n 2); [lia|]. unfold rng. rewrite Nat.sub_0_r. apply (foldM_seq0 _ (fun _ => mk n n f)); [reflexivity|].
  intros k Hk. unfold hess_step. rewrite msub_view_mk by lia. cbn [obind]. replace (k + 1 - k)%nat with 1%nat by lia. rewrite householder_some by lia. cbn [obind fst snd].
  set (x := column (fun i j : nat => f (k + 1 + i)%nat (k + j)%nat) 0). assert (hv_b (n - (k + 1)) x = 0) as B.
  { unfold hv_b. destruct (Req_EM_T (tail_sq (n - (k + 1)) x) 0) as [E|E]; [|exfalso; apply E; apply tail_sq_zero; intros i Hi; unfold x, column; apply HE; lia].
    destruct (Rle_dec 0 (x 0%nat)) as [_|N]; [reflexivity|]. exfalso. apply N. unfold x, column. replace (k + 1 + 0)%nat with (k + 1)%nat by lia. rewrite Nat.add_0_r. apply P. lia. }
  rewrite B. rewrite (house_left_mk n (k + 1) n k n (hv_v (n - (k + 1)) x) 0 f); [|lia|lia|intros i j Hi Hj N; apply HE; lia]. cbn [obind].
  rewrite (house_right_mk n 0 n (k + 1) n (hv_v (n - (k + 1)) x) 0); [|lia|lia|intros; lia]. f_equal. apply mk_ext. intros i j Hi Hj. now rewrite hr_b0, hl_b0.
Qed.
(** The matrices [[a,b,0],[b,a,b],[0,b,a]]: [qr] does not end. *)
Lemma tri3_flip a b i j : (i < 3)%nat -> (j < 3)%nat -> tri3 a b b b b (2 - i)%nat (2 - j)%nat = tri3 a b b b b i j.
Proof. intros Hi Hj. destruct i as [|[|[|i]]]; try lia; destruct j as [|[|[|j]]]; try lia; reflexivity. Qed.
Lemma tri3_chop a b c d e : tolerance * (Rabs a + Rabs a) <= Rabs c -> tolerance * (Rabs a + Rabs a) <= Rabs e -> same 3 3 (chopped tolerance (tri3 a b c d e)) (tri3 a b c d e).
Proof. intros H1 H2 i j Hi Hj. unfold chopped. destruct (Nat.eqb_spec i (j + 1)) as [E|E]; [|reflexivity]. subst i. destruct j as [|[|j]]; try lia; cbn; (destruct (Rlt_dec _ _); [lra|reflexivity]). Qed.
Lemma tri3_search c : tolerance < Rabs (c 1%nat 0%nat) -> tolerance < Rabs (c 2%nat 1%nat) -> qr_q 3 (mk 3 3 c) = Some 0%nat /\ qr_p 3 0 (mk 3 3 c) = Some 0%nat.
Proof.
  intros H1 H2. split.
  - rewrite qr_q_mk by lia. cbn [Nat.sub seq find]. unfold both_large. cbn [Nat.sub]. destruct (rltb_spec tolerance (Rabs (c 2%nat 1%nat))); [|lra]. destruct (rltb_spec tolerance (Rabs (c 1%nat 0%nat))); [|lra]. reflexivity.
  - rewrite qr_p_mk by lia. cbn [Nat.sub seq rev app find]. destruct (rltb_spec (Rabs (c 2%nat 1%nat)) tolerance); [lra|]. destruct (rltb_spec (Rabs (c 1%nat 0%nat)) tolerance); [lra|]. reflexivity.
Qed.
(** One iteration on the whole of a matrix of order three. *)
Lemma body3 f g op ro : same 3 3 (chopped tolerance f) f -> tolerance < Rabs (f 1%nat 0%nat) -> tolerance < Rabs (f 2%nat 1%nat) -> raw_francis_step (mk 3 3 f) ro = Some (mk 3 3 g, mk (if ro then 3 else 1)%nat (if ro then 3 else 1)%nat id_entry) ->
  qr_body ro (mk 3 3 f) op = if ro then (do op' <- mmul op (mk 3 3 id_entry); Some (mk 3 3 g, op', 0%nat)) else Some (mk 3 3 g, op, 0%nat).
Proof.
  intros EC L1 L2 EF. unfold qr_body. rewrite nr_mk, chop_mk by lia. cbn [obind]. rewrite (mk_ext 3 3 _ _ EC). destruct (tri3_search f L1 L2) as (S1 & S2). rewrite S1. cbn [obind]. rewrite S2. cbn [obind Nat.ltb Nat.leb Nat.sub]. rewrite msub_view_mk by lia. cbn [obind].
  rewrite (mk_ext (3 - 0) (3 - 0) _ f) by (intros; reflexivity). change (3 - 0)%nat with 3%nat. rewrite EF. cbn [obind fst snd]. pose proof (mwrite_mk 3 3 f 0 3 0 3 g ltac:(lia) ltac:(lia)) as K. change (3 - 0)%nat with 3%nat in K. rewrite K. clear K. cbn [obind].
  rewrite (mk_ext 3 3 _ g) by (intros i j Hi Hj; replace ((0 <=? i) && (i <? 3) && (0 <=? j) && (j <? 3))%nat with true by lia; now rewrite !Nat.sub_0_r). now destruct ro.
Qed.
Theorem C85_never_ends : forall fuel a b, / 10 ^ 15 < b -> / 10 ^ 15 * (2 * Rabs a) <= b -> raw_qr fuel (mk 3 3 (tri3 a b b b b)) false = Some None.
Proof.
  intros fuel a b Hb Ha. replace (/ 10 ^ 15) with tolerance in * by (unfold tolerance; f_equal; lra). pose proof tol_pos as T. assert (Rabs b = b) as AB by (apply Rabs_right; lra).
  unfold raw_qr. rewrite nr_mk, nc_mk, Nat.eqb_refl. cbn [Nat.ltb Nat.leb]. rewrite hess_fixed; [|lia|apply tri3_hess|intros k Hk; replace k with 0%nat by lia; cbn; lra]. cbn [obind]. rewrite midentity_mk by lia. cbn [obind].
  induction fuel as [|fuel IH]; [reflexivity|]. cbn [qr_loop]. rewrite (body3 (tri3 a b b b b) (tri3 a b b b b)).
  - cbn [obind fst snd]. rewrite nr_mk. cbn [Nat.eqb]. exact IH.
  - apply tri3_chop; rewrite AB; lra.
  - cbn. lra.
  - cbn. lra.
  - rewrite (fr3_good (tri3 a b b b b) (b * b) false); [|nra|apply tri3_hess|intros i Hi; apply tri3_vec; [exact Hi|ring]|reflexivity|cbn; lra]. reflexivity.
Qed.
(** The claim that [qr] ends on symmetric matrices. *)
Definition C85_claim : Prop := forall M n, wf M -> nr M = n -> nc M = n -> (forall i j, (i < n)%nat -> (j < n)%nat -> ent M i j = ent M j i) -> exists fuel H Q, raw_qr fuel M false = Some (Some (H, Q)).
Theorem C85_refuted : ~ C85_claim.
Proof.
  intros H. destruct (H (mk 3 3 (tri3 0 1 1 1 1)) 3%nat (wf_mk _ _ _) eq_refl eq_refl) as (fuel & A & Q & E).
  - intros i j Hi Hj. rewrite !ent_mk by assumption. destruct i as [|[|[|i]]]; try lia; destruct j as [|[|[|j]]]; try lia; reflexivity.
  - rewrite C85_never_ends in E; [discriminate|lra|rewrite Rabs_R0; lra].
Qed.
(** [[q,0,0],[1,p,0],[0,1,q]] ends after one step, with the diagonal reversed. *)
Definition jordan3 (q p : R) : nat -> nat -> R := fun i j => match i, j with 0, 0 | 2, 2 => q | 1, 1 => p | 1, 0 | 2, 1 => 1%R | _, _ => 0%R end%nat.
Lemma jordan3_hess q p : hessenberg 3 (jordan3 q p).
Proof. intros i j Hi. destruct i as [|[|[|i]]]; try lia. destruct j as [|j]; [reflexivity|lia]. Qed.
Lemma jordan3_step q p ro : raw_francis_step (mk 3 3 (jordan3 q p)) ro = Some (mk 3 3 (fun i j => jordan3 q p (2 - i)%nat (2 - j)%nat), mk (if ro then 3 else 1)%nat (if ro then 3 else 1)%nat id_entry).
Proof. apply (fr3_good (jordan3 q p) 1 ro); [lra|apply jordan3_hess| |reflexivity|cbn; lra]. intros i Hi. unfold fr_vec. destruct i as [|[|[|i]]]; try lia; cbn; ring. Qed.
Lemma jordan3_run q p ro : tolerance * (Rabs q + Rabs p) <= 1 -> raw_qr 2 (mk 3 3 (jordan3 q p)) ro = Some (Some (mk 3 3 (fun i j => jordan3 q p (2 - i)%nat (2 - j)%nat), mk (if ro then 3 else 1)%nat (if ro then 3 else 1)%nat id_entry)).
Proof.
  intros T. assert (tolerance < 1) as T1 by (unfold tolerance; rewrite <- Rinv_1; apply Rinv_lt_contravar; lra).
  unfold raw_qr. rewrite nr_mk, nc_mk, Nat.eqb_refl. cbn [Nat.ltb Nat.leb]. rewrite hess_fixed; [|lia|apply jordan3_hess|intros k Hk; replace k with 0%nat by lia; cbn; lra]. cbn [obind]. rewrite nr_mk. rewrite midentity_mk by (destruct ro; lia). cbn [obind].
  cbn [qr_loop]. rewrite (body3 (jordan3 q p) (fun i j => jordan3 q p (2 - i)%nat (2 - j)%nat) (mk (if ro then 3 else 1)%nat (if ro then 3 else 1)%nat id_entry) ro); [| | | |apply jordan3_step].
  - set (g := fun i j => jordan3 q p (2 - i)%nat (2 - j)%nat). set (u := mk (if ro then 3 else 1)%nat (if ro then 3 else 1)%nat id_entry).
    assert ((if ro then do op' <- mmul u (mk 3 3 id_entry); Some (mk 3 3 g, op', 0%nat) else Some (mk 3 3 g, u, 0%nat)) = Some (mk 3 3 g, u, 0%nat)) as ->.
    { destruct ro; [|reflexivity]. unfold u. rewrite mmul_mk. cbn [obind]. do 3 f_equal. apply mk_ext. intros i j Hi Hj. now apply rprod_id_l. }
    cbn [obind fst snd]. rewrite nr_mk. change (0 =? 3)%nat with false. cbn iota.
    assert (hessenberg 3 g) as HG by (intros i j Hi; destruct i as [|[|[|i]]]; try lia; destruct j as [|j]; [reflexivity|lia]).
    assert (same 3 3 (chopped tolerance g) g) as EG by (intros i j Hi Hj; unfold chopped; destruct (Nat.eqb_spec i (j + 1)); [|reflexivity]; destruct (Rlt_dec _ _); [|reflexivity]; destruct i as [|[|[|i]]]; try lia; destruct j as [|[|[|j]]]; try lia; reflexivity).
    destruct (qr_body_mk 3 g u ltac:(lia) HG) as [(_ & B)|(p0 & e & h & q0 & _ & (He & _ & L & _) & _)].
    + rewrite B. cbn [obind fst snd]. rewrite nr_mk, Nat.eqb_refl. now rewrite (mk_ext 3 3 _ _ EG).
    + exfalso. replace e with 3%nat in L by lia. rewrite EG in L by lia. cbn in L. rewrite Rabs_R0 in L. pose proof tol_pos. lra.
  - intros i j Hi Hj. unfold chopped. destruct (Nat.eqb_spec i (j + 1)) as [E|E]; [|reflexivity]. subst i. pose proof (Rabs_R1). destruct j as [|[|j]]; try lia; cbn; (destruct (Rlt_dec _ _); [lra|reflexivity]).
  - cbn. rewrite Rabs_R1. exact T1.
  - cbn. rewrite Rabs_R1. exact T1.
Qed.
(** The claim that [qr_with_op] returns the operation. *)
Definition C85_op_claim : Prop := forall fuel M n H Q, wf M -> nr M = n -> nc M = n -> raw_qr fuel M true = Some (Some (H, Q)) -> congruent n (ent M) (ent Q) (ent H).
Theorem C85_op_refuted : ~ C85_op_claim.
Proof.
  intros H. assert (congruent 3 (ent (mk 3 3 (jordan3 0 0))) (ent (mk 3 3 id_entry)) (ent (mk 3 3 (fun i j => jordan3 0 0 (2 - i)%nat (2 - j)%nat)))) as C.
  { apply (H 2%nat (mk 3 3 (jordan3 0 0)) 3%nat _ _ (wf_mk _ _ _) eq_refl eq_refl). apply jordan3_run. rewrite Rabs_R0. lra. }
  specialize (C 1%nat 0%nat ltac:(lia) ltac:(lia)). unfold prod_entry, transposed in C. cbn in C. lra.
Qed.
(** ... and that it does not panic. *)
Definition C85_op_panic_claim : Prop := forall fuel M n, wf M -> nr M = n -> nc M = n -> raw_qr fuel M true <> None.
Definition bordered : nat -> nat -> R := fun i j => match i, j with S i, S j => tri3 0 1 1 1 1 i j | 0%nat, 0%nat => 5 | _, _ => 0 end.
Theorem C85_op_panic_refuted : ~ C85_op_panic_claim.
Proof.
  intros H. apply (H 1%nat (mk 4 4 bordered) 4%nat (wf_mk _ _ _) eq_refl eq_refl). pose proof tol_pos as TP. assert (tolerance < 1) as T1 by (unfold tolerance; rewrite <- Rinv_1; apply Rinv_lt_contravar; lra).
  assert (hessenberg 4 bordered) as HB by (intros i j Hi; destruct i as [|i]; [lia|]; destruct j as [|j]; [reflexivity|]; apply tri3_hess; lia).
  unfold raw_qr. rewrite nr_mk, nc_mk, Nat.eqb_refl. cbn [Nat.ltb Nat.leb]. rewrite hess_fixed; [|lia|exact HB|intros k Hk; destruct k as [|[|k]]; try lia; cbn; lra]. cbn [obind]. rewrite nr_mk. rewrite midentity_mk by lia. cbn [obind]. cbn [qr_loop].
  assert (same 4 4 (chopped tolerance bordered) bordered) as EC.
  { intros i j Hi Hj. unfold chopped. destruct (Nat.eqb_spec i (j + 1)) as [E|E]; [|reflexivity]. subst i. destruct j as [|[|[|j]]]; try lia; cbn; (destruct (Rlt_dec _ _) as [L|L]; [|reflexivity]); try reflexivity; rewrite Rabs_R1, !Rabs_R0 in L; lra. }
  destruct (qr_body_mk 4 bordered (mk 4 4 id_entry) ltac:(lia) HB) as [(SB & _)|(p & e & g & q & _ & (He & IN & _) & _ & _ & _ & _ & B)].
  - exfalso. specialize (SB 1%nat ltac:(lia)). rewrite !EC in SB by lia. cbn in SB. rewrite Rabs_R1 in SB. lra.
  - rewrite B. rewrite mmul_none; [reflexivity|lia|lia|]. intros K. specialize (IN 0%nat ltac:(lia) ltac:(lia)). rewrite EC in IN by lia. cbn in IN. rewrite Rabs_R0 in IN. lra.
Qed.
(** [qr] of [[2,0,0],[1,1,0],[0,1,2]] ends, with a step. *)
Example C85_nonvacuous : exists H Q, raw_qr 2 (mk 3 3 (jordan3 2 1)) false = Some (Some (H, Q)) /\ ent H 0 0 = 2 /\ ent H 1 1 = 1 /\ ent H 1 0 = 0.
Proof.
  rewrite jordan3_run.
  - eexists. eexists. split; [reflexivity|]. rewrite !ent_mk by lia. cbn. auto.
  - unfold tolerance. rewrite !Rabs_right by lra. lra.
Qed.
Print Assumptions C85_qr_partial.
Print Assumptions C85_iteration.
Print Assumptions C85_op_identity.
Print Assumptions C85_panics.
Print Assumptions C85_never_ends.
Print Assumptions C85_refuted.
Print Assumptions C85_op_refuted.
Print Assumptions C85_op_panic_refuted.
