(** C89, C90: the symmetric QR algorithm and the spectrum of a symmetric matrix, over the real numbers. *)
From Coq Require Import List Arith Bool Lia ZifyBool Reals Lra Permutation.
From Verif Require Import PidModel MatModel MatSpec MatProofs MatProofs2 SnfModel SnfProofs2 RankModel LuModel LuSpec LuProofs2 LuProofs3 NumModel NumSpec NumProofs HouseProofs HessProofs FrancisModel FrancisSpec FrancisProofs QrProofs QrProps EigProofs TriModel TriSpec TriProofs TriProps WilkModel WilkSpec WilkProofs WilkProps SpectrumProps SymQrSpec SymQrProofs SymQrProofs2 SymQrProofs3 SymQrProofs4 SymQrProofs5 SymQrProofs6.
Import ListNotations.
Open Scope R_scope.

Lemma sq_tol_pow : sq_tol = / 10 ^ 10. Proof. unfold sq_tol. f_equal. lra. Qed.
Lemma g_tol_pow : g_tol = / 10 ^ 12. Proof. unfold g_tol. f_equal. lra. Qed.
Lemma run_ext n eps k A B B' : sq_run n eps k A B -> same n n B B' -> sq_run n eps k A B'.
Proof. intros H. revert B'. induction H as [A B E SB|k A C B IT RN IH]; intros B' EB; [apply sq_end; [|exact SB]; intros i j Hi Hj; rewrite <- EB by assumption; now apply E|apply (sq_next _ _ _ _ C); [exact IT|now apply IH]]. Qed.
Lemma state_near n k g : sq_state n (INR k * g_tol) g -> nearly_tridiagonal n (INR (k + 1) / 10 ^ 12) g.
Proof.
  intros (Y & HE & FA & SM). pose proof g_tol_pos as GP. pose proof (pos_INR k) as KP. assert (INR (k + 1) / 10 ^ 12 = (INR k + 1) * g_tol) as -> by (rewrite plus_INR, g_tol_pow; reflexivity). assert (0 <= INR k * g_tol) as Q by (apply Rmult_le_pos; lra).
  assert (forall a b, (b + 1 < a < n)%nat -> Rabs (g a b) < (INR k + 1) * g_tol) as K.
  { intros a b H. destruct (Nat.le_gt_cases a (b + 3)) as [L|L]; [|rewrite HE by lia; rewrite Rabs_R0; nra]. destruct (Nat.eq_dec a (b + 2)) as [->|N]; [specialize (SM b ltac:(lia) ltac:(lia) ltac:(lia)); nra|]. assert (a = b + 3)%nat as -> by lia. specialize (FA b ltac:(lia)). nra. }
  intros i j Hi Hj [H|H]; [rewrite (Y i j) by assumption|]; apply K; lia.
Qed.
(** C89.  On a symmetric matrix [A] of order at least 2, without the accumulation of the transformation, the algorithm does not panic; if it ends, after [k] iterations, the result [H] is
    symmetric; its entries more than one place from the diagonal are below (k + 1)/10^12 and those more than three places from it zero; of two neighbouring entries beside the diagonal one is at most 1/10^10, and none lies strictly between
    zero and that; it comes from the tridiagonal form [T] of [A] by iterations of the single-shift kind; it has the trace of [T]; it is exactly orthogonally similar to [T + F] for a symmetric
    [F] of Frobenius norm at most n (k + 1) (k + 51)/10^10, and the same with [A] for [T] when the reduction of [A] met no column that was zero already. *)
Theorem C89_symmetric_qr_partial : forall fuel M n, wf M -> nr M = n -> nc M = n -> (2 <= n)%nat -> symmetric n (ent M) ->
  exists T, householder_tridiagonalization M false = Some T /\
  (symmetric_qr fuel M false = Some None \/
   exists H op k, (k < fuel)%nat /\ symmetric_qr fuel M false = Some (Some (H, op)) /\ wf H /\ nr H = n /\ nc H = n /\ same n n (ent op) id_entry /\ symmetric n (ent H) /\
    nearly_tridiagonal n (INR (k + 1) / 10 ^ 12) (ent H) /\ (forall i j, (i < n)%nat -> (j < n)%nat -> (i + 3 < j \/ j + 3 < i)%nat -> ent H i j = 0) /\ small_blocks n (/ 10 ^ 10) (ent H) /\ well_split n (/ 10 ^ 10) (ent H) /\ sq_run n (/ 10 ^ 10) k (tridiagonal (ent T)) (ent H) /\ trace n (ent H) = trace n (ent T) /\
    perturbed n (tridiagonal (ent T)) (INR n * INR (k + 1) * INR (k + 51) / 10 ^ 10) (ent H) /\ (full_tails n (ent T) -> perturbed n (ent M) (INR n * INR (k + 1) * INR (k + 51) / 10 ^ 10) (ent H))).
Proof.
  intros fuel M n W RM CM Hn Y. pose proof (wf_eq_mk M W) as EM. rewrite RM, CM in EM. destruct (C86_tridiagonalization_partial M n false W RM CM Hn Y) as (T & ET & WT & RT & CT & _ & _ & OS). exists T. split; [exact ET|].
  destruct (symmetric_qr_mk fuel n (ent M) Hn Y) as (t & E1 & YT & E2). rewrite <- EM in E1, E2. rewrite ET in E1. assert (T = mk n n t) as -> by congruence. clear E1. assert (same n n (tridiagonal (ent (mk n n t))) (tridiagonal t)) as EQ by (intros i j Hi Hj; unfold tridiagonal; now rewrite ent_mk by assumption).
  assert (sq_state n (INR 0 * g_tol) (tridiagonal t)) as ST.
  { cbn [INR]. rewrite Rmult_0_l. apply zero_state; [exact YT|]. intros i j Hi Hj. unfold tridiagonal. destruct ((i <=? j + 1) && (j <=? i + 1))%nat ; reflexivity. }
  rewrite E2. destruct (sq_loop_run n Hn fuel 0 (tridiagonal t) (mk n n id_entry) ST) as [E|(k & g & Hk & E & RN & SG & SB & WS & TR & PT)]; [now left|right]. cbn [Nat.add] in SG.
  exists (mk n n g), (mk n n id_entry), k. split; [exact Hk|]. split; [exact E|]. split; [apply wf_mk|]. split; [reflexivity|]. split; [reflexivity|]. assert (same n n g (ent (mk n n g))) as EG by (intros i j Hi Hj; now rewrite ent_mk by assumption).
  split; [intros i j Hi Hj; now rewrite ent_mk by assumption|]. split; [intros i j Hi Hj; rewrite <- !EG by assumption; now apply SG|]. split; [intros i j Hi Hj; rewrite <- EG by assumption; now apply (state_near n k g SG)|].
  split; [intros i j Hi Hj [K|K]; rewrite <- EG by assumption; destruct SG as (YG & HG & _); [rewrite (YG i j) by assumption|]; apply HG; lia|].
  split; [intros i Hi; rewrite <- !EG by lia; rewrite <- sq_tol_pow; now apply SB|]. split; [intros i Hi; rewrite <- !EG by lia; rewrite <- sq_tol_pow; now apply WS|].
  assert (same n n (tridiagonal t) (tridiagonal (ent (mk n n t)))) as EQ' by (intros i j Hi Hj; symmetry; now apply EQ).
  assert (perturbed n (tridiagonal (ent (mk n n t))) (INR n * INR (k + 1) * INR (k + 51) / 10 ^ 10) (ent (mk n n g))) as PP.
  { eapply pert_ext; [exact EQ'|exact EG|]. eapply pert_le; [|exact PT]. rewrite !plus_INR. cbn [INR]. rewrite sq_tol_pow. pose proof (pos_INR k). pose proof (pos_INR n). unfold Rdiv. apply Rmult_le_compat_r; [apply Rlt_le, Rinv_0_lt_compat; lra|]. rewrite Rmult_assoc. apply Rmult_le_compat_l; [lra|]. nra. }
  split.
  - assert (forall A A' , same n n A A' -> sq_run n sq_tol k A g -> sq_run n sq_tol k A' g) as RA.
    { clear. intros A A' E R. assert (same n n (dropped sq_tol A) (dropped sq_tol A')) as ED.
      { intros i j Hi Hj. unfold dropped. destruct (i =? j + 1)%nat; [now rewrite (E i j)|]. destruct (j =? i + 1)%nat; [now rewrite (E j i), (E i j)|now apply E]. }
      destruct R as [A B EB SB|k A C B (p & e & (He & IN & L1 & L2 & UP & DOWN) & OUT & STP) R].
      - apply sq_end; [intros i j Hi Hj; rewrite EB by assumption; now apply ED|]. intros i Hi. rewrite <- !ED by lia. now apply SB.
      - apply (sq_next _ _ _ _ C); [|exact R]. exists p, e. assert (same (e - p) (e - p) (block_at p (dropped sq_tol A)) (block_at p (dropped sq_tol A'))) as EB by (intros i j Hi Hj; apply ED; lia). split; [|split].
        + split; [exact He|]. split; [intros i H1 H2; rewrite <- ED by lia; now apply IN|]. split; [now rewrite <- ED by lia|]. split; [now rewrite <- ED by lia|]. split; [intros H; rewrite <- ED by lia; now apply UP|]. intros i H1 H2. rewrite <- !ED by lia. now apply DOWN.
        + intros i j Hi Hj N. rewrite <- ED by assumption. now apply OUT.
        + intros TT. destruct STP as (cs & m & rho & N1 & C1 & (CO1 & CO2) & FC & TD).
          { intros i j Hi Hj. rewrite (EB i j Hi Hj), (TT i j Hi Hj). unfold tridiagonal. destruct (_ && _)%bool; [symmetry; now apply EB|reflexivity]. }
          exists cs, m, rho. split; [exact N1|]. split; [eapply congr_ext; [exact EB|intros i j _ _; reflexivity|exact C1]|]. split; [|split; [|exact TD]].
          * assert (same 2 2 (block_at (e - p - 2) (block_at p (dropped sq_tol A))) (block_at (e - p - 2) (block_at p (dropped sq_tol A')))) as E2 by (intros i j Hi Hj; apply EB; lia).
            split; [eapply eig_ext; [|exact CO1]; exact E2|]. intros m' H. rewrite <- EB by lia. apply CO2. eapply eig_ext; [|exact H]. intros i j Hi Hj. symmetry. now apply E2.
          * intros i Hi. rewrite <- EB by lia. now apply FC. }
    rewrite <- sq_tol_pow. apply (run_ext _ _ _ _ g); [|exact EG]. apply (RA (tridiagonal t)); [exact EQ'|exact RN].
  - split; [|split; [exact PP|]].
    + transitivity (trace n g); [apply trace_ext; intros i Hi; symmetry; now apply EG|]. rewrite TR. apply trace_ext. intros i Hi. rewrite ent_mk by assumption. unfold tridiagonal. now replace ((i <=? i + 1) && (i <=? i + 1))%nat with true by lia.
    + intros F. pose proof (pert_sim n _ _ 0 (Rle_refl 0) (OS F)) as PS. eapply pert_le; [|exact (pert_trans n _ _ _ _ _ PS PP)]. lra.
Qed.
(** More iterations allowed than needed change nothing, whether the transformation is accumulated or not. *)
Theorem C89_iterations : forall fuel fuel' M op r, (fuel <= fuel')%nat -> symmetric_qr fuel M op = Some (Some r) -> symmetric_qr fuel' M op = Some (Some r).
Proof.
  intros fuel fuel' M op r L. unfold symmetric_qr. destruct (midentity (nr M)) as [I|]; [|discriminate]. cbn [obind]. destruct (householder_tridiagonalization M op) as [T|]; [|discriminate]. cbn [obind]. destruct (if op then _ else _) as [O|]; [|discriminate]. cbn [obind]. destruct (sq_clear (nr M) T) as [C|]; [|discriminate]. cbn [obind].
  generalize (nr M) as n. revert fuel' L O C. induction fuel as [|fuel IH]; intros fuel' L O C n; [discriminate|]. destruct fuel' as [|fuel']; [lia|]. cbn [sq_loop]. destruct (sq_body op n C O) as [((M' & O') & q)|]; [|discriminate]. cbn [obind]. destruct (q <? n)%nat; [|auto]. apply IH. lia.
Qed.
Theorem C89_panics : forall fuel M op, (nr M < 2)%nat -> symmetric_qr fuel M op = None.
Proof. intros fuel M op H. unfold symmetric_qr. destruct (midentity (nr M)); [|reflexivity]. cbn [obind]. now rewrite C86_panics. Qed.
(** With the accumulation, order 2 panics: there is no vector to extract. *)
Theorem C89_op_panics : forall fuel M, wf M -> nr M = 2%nat -> nc M = 2%nat -> symmetric 2 (ent M) -> symmetric_qr fuel M true = None.
Proof.
  intros fuel M W RM CM Y. unfold symmetric_qr. rewrite RM. rewrite midentity_mk by lia. cbn [obind]. destruct (C86_tridiagonalization_partial M 2 true W RM CM ltac:(lia) Y) as (T & ET & WT & RT & CT & _). rewrite ET. cbn [obind]. rewrite (wf_eq_mk T WT), RT, CT. rewrite msub_view_mk by lia. cbn [obind Nat.sub].
  rewrite C87_panics; [reflexivity|apply wf_mk|now right].
Qed.
(** The claim that it ends, on every symmetric matrix. *)
Definition C89_claim : Prop := forall M n, wf M -> nr M = n -> nc M = n -> (2 <= n)%nat -> symmetric n (ent M) -> exists fuel H op, symmetric_qr fuel M false = Some (Some (H, op)).
(** It does not on some symmetric tridiagonal matrix of order 3 close to [[1, 2/10^10, 0], [2/10^10, -1, 1/10^3], [0, 1/10^3, -1/10^6]]: the shift makes the iteration swing between two matrices. *)
Theorem C89_never_ends : exists M, wf M /\ nr M = 3%nat /\ nc M = 3%nat /\ symmetric 3 (ent M) /\ same 3 3 (ent M) (tridiagonal (ent M)) /\ ent M 0 0 = 1 /\ ent M 1 0 = 2 / 10 ^ 10 /\ (forall j, (j + 1 < 3)%nat -> 0 <= ent M (j + 1) j) /\
  forall fuel, symmetric_qr fuel M false = Some None.
Proof.
  set (t := 2 / 10000000000). set (c := / sqrt (1 + t * t)). set (q := c * c * (t * t)). set (d := - q / 1000000).
  destruct (cyc_c t eq_refl) as (C1 & C2). fold c in C1, C2. fold q in C1. assert (0 <= t * t <= 1 / 10 ^ 18) as TT by (unfold t; lra). assert (0 <= c * c) as CC by nra. assert (c * c <= 1) as CC1 by (unfold q in C1; nra). assert (0 < q <= 1 / 10 ^ 18) as QQ by (split; [unfold q; apply Rmult_lt_0_compat; [nra|unfold t; lra]|unfold q; nra]).
  set (w := 1 / 1000000 * (1 - q * q / 1000000) * (1 + q / 1000000) / (1 - 1 / 1000000)).
  assert (w * (1 - 1 / 1000000) = 1 / 1000000 * (1 - q * q / 1000000) * (1 + q / 1000000)) as EW by (unfold w; field). clearbody w. assert (0 <= q * q <= 1 / 10 ^ 18) as Q2 by nra.
  assert (1 / 10 ^ 7 <= w <= 4 / 10 ^ 6) as BW.
  { assert (999 / 1000 <= 1 - q * q / 1000000 <= 1) as B1 by lra. assert (1 <= 1 + q / 1000000 <= 2) as B2 by lra. set (u := 1 - q * q / 1000000) in *. set (v := 1 + q / 1000000) in *. clearbody u v. assert (999 / 1000 <= u * v <= 2) by nra. lra. }
  set (b := sqrt w). assert (b * b = w) as EB by (apply sqrt_sqrt; lra). assert (0 <= b) as BP by apply sqrt_pos. assert (1 / 10000 <= b <= 3 / 1000) as BB by (split; nra). assert (- (1 / 1000) <= d <= 0) as DB by (unfold d; lra).
  set (e := w / (d - 1)). assert ((d - 1) * e = b * b) as E1 by (rewrite EB; unfold e; field; lra). assert (- (1 / 1000) <= e <= 0) as EE by nra.
  assert ((- 1 - q * d) * (e - d) = (1 - q) * (b * b)) as E2.
  { rewrite EB. apply (Rmult_eq_reg_l (d - 1)); [|lra]. transitivity ((-1 - q * d) * (w - (d - 1) * d)); [rewrite <- EB, <- E1; ring|]. apply (Rmult_eq_reg_l (1 - 1 / 1000000)); [|lra].
    transitivity ((-1 - q * d) * (w * (1 - 1 / 1000000) - (1 - 1 / 1000000) * ((d - 1) * d))); [ring|]. transitivity ((d - 1) * (1 - q) * (w * (1 - 1 / 1000000))); [|ring]. rewrite EW. unfold d. field. }
  set (f := cyc0 t d b e). exists (mk 3 3 f). assert (symmetric_mat 3 f) as Y by apply sym3_sym. assert (forall i j, (i < 3)%nat -> (j < 3)%nat -> ent (mk 3 3 f) i j = f i j) as EF by (intros; now rewrite ent_mk).
  assert (same 3 3 f (tridiagonal f)) as T by (intros i j Hi Hj; destruct i as [|[|[|i]]]; try lia; destruct j as [|[|[|j]]]; try lia; reflexivity).
  assert (symmetric 3 (ent (mk 3 3 f))) as Y' by (intros i j Hi Hj; rewrite !EF by assumption; now apply Y). assert (same 3 3 (ent (mk 3 3 f)) (tridiagonal (ent (mk 3 3 f)))) as T' by (intros i j Hi Hj; unfold tridiagonal; rewrite !EF by assumption; now apply T).
  assert (forall j, (j + 1 < 3)%nat -> 0 <= ent (mk 3 3 f) (j + 1) j) as P by (intros j Hj; rewrite EF by lia; destruct j as [|[|j]]; try lia; unfold f, cyc0, sym3; cbn; unfold t; lra).
  split; [apply wf_mk|]. split; [reflexivity|]. split; [reflexivity|]. split; [exact Y'|]. split; [exact T'|]. split; [rewrite EF by lia; reflexivity|]. split; [rewrite EF by lia; unfold f, cyc0, sym3, t; f_equal; f_equal; lra|]. split; [exact P|].
  intros fuel. unfold symmetric_qr. rewrite nr_mk, midentity_mk by lia. cbn [obind]. rewrite (C86_fixed (mk 3 3 f) 3 false (wf_mk _ _ _) eq_refl eq_refl ltac:(lia) Y' T') by (intros j Hj; apply P; lia). cbn [obind]. rewrite sq_clear_mk by lia. cbn [obind].
  replace (mk 3 3 (tridiagonal f)) with (mk 3 3 f) by (apply mk_ext; exact T). apply (cyc_loop t d b e); try assumption; try reflexivity.
Qed.
Theorem C89_refuted : ~ C89_claim.
Proof. intros H. destruct C89_never_ends as (M & W & RM & CM & Y & _ & _ & _ & _ & E). destruct (H M 3%nat W RM CM ltac:(lia) Y) as (fuel & A & B & K). rewrite E in K. discriminate. Qed.
(** Inputs on which the loop ends at once. *)
Lemma sq_at_once fuel op n f : (2 <= n)%nat -> symmetric_mat n f -> same n n f (tridiagonal f) -> small_blocks n sq_tol (dropped sq_tol f) -> forall o, sq_loop (S fuel) op n (mk n n f) o = Some (Some (mk n n (dropped sq_tol f), o)).
Proof.
  intros Hn Y T SB o. destruct (sq_body_mk n 0 f o Hn (Rle_refl 0) (zero_state n f Y T)) as [(_ & E)|(p & e & g & q & o' & _ & _ & (He & _ & L1 & L2 & _) & _)].
  - cbn [sq_loop]. rewrite E. cbn [obind]. now rewrite Nat.ltb_irrefl.
  - exfalso. specialize (SB (e - 3)%nat ltac:(lia)). replace (e - 3 + 1)%nat with (e - 2)%nat in SB by lia. replace (e - 3 + 2)%nat with (e - 1)%nat in SB by lia. lra.
Qed.
Lemma same_ent n f : same n n (ent (mk n n f)) f. Proof. intros i j Hi Hj. now rewrite ent_mk. Qed.
Lemma tri_fixed n f op : (2 <= n)%nat -> symmetric_mat n f -> same n n f (tridiagonal f) -> (forall j, (j + 2 < n)%nat -> 0 <= f (j + 1)%nat j) -> householder_tridiagonalization (mk n n f) op = Some (mk n n f).
Proof.
  intros Hn Y T P. apply (C86_fixed _ n); [apply wf_mk|reflexivity|reflexivity|exact Hn| | |].
  - intros i j Hi Hj. rewrite !same_ent by assumption. now apply Y.
  - intros i j Hi Hj. unfold tridiagonal. rewrite !same_ent by assumption. now apply T.
  - intros j Hj. rewrite same_ent by lia. now apply P.
Qed.
(** The claim about the matrix returned with the accumulation: it carries the input to the result, up to rounding of the kind above. *)
Definition C89_op_claim : Prop := forall fuel M n H op, wf M -> nr M = n -> nc M = n -> (3 <= n)%nat -> symmetric n (ent M) -> symmetric_qr fuel M true = Some (Some (H, op)) ->
  forall i j, (i < n)%nat -> (j < n)%nat -> Rabs (prod_entry n (ent op) (prod_entry n (ent M) (transposed (ent op))) i j - ent H i j) <= 1.
(** On [[0, 1, 0], [1, 0, 0], [0, 0, 0]] nothing is done, but the matrix returned is diag(1, -1, 1). *)
Theorem C89_op_refuted : ~ C89_op_claim.
Proof.
  intros C. set (f := sym3 0 1 0 0 0 0). assert (same 3 3 f (tridiagonal f)) as T by (intros i j Hi Hj; destruct i as [|[|[|i]]]; try lia; destruct j as [|[|[|j]]]; try lia; reflexivity).
  pose proof (sym3_sym 0 1 0 0 0 0) as Y. fold f in Y. pose proof sq_tol_pos as TP. assert (sq_tol < 1) as T1 by (unfold sq_tol; lra).
  assert (same 3 3 (dropped sq_tol f) f) as ED.
  { intros i j Hi Hj. unfold dropped. destruct i as [|[|[|i]]]; try lia; destruct j as [|[|[|j]]]; try lia; cbn; try reflexivity; destruct (Rlt_dec _ _) as [L|L]; try reflexivity; rewrite Rabs_R1 in L; lra. }
  set (V := fun i j : nat => f (2 + i)%nat (0 + j)%nat). set (o := fun i j : nat => if ((1 <=? i) && (i <? 3) && ((1 <=? j) && (j <? 3)))%nat then ex 1 V (i - 1)%nat (j - 1)%nat else id_entry i j).
  assert (symmetric_qr 1 (mk 3 3 f) true = Some (Some (mk 3 3 (dropped sq_tol f), mk 3 3 o))) as E.
  { unfold symmetric_qr. rewrite nr_mk, midentity_mk by lia. cbn [obind]. rewrite tri_fixed; [|lia|exact Y|exact T|intros j Hj; assert (j = 0)%nat as -> by lia; cbn; lra]. cbn [obind]. rewrite msub_view_mk by lia. cbn [obind Nat.sub]. unfold extract_householder_vecs. rewrite nr_mk. rewrite extract_mk by lia. cbn [obind].
    change (mk 2 2 (ex 1 (fun i j : nat => f (2 + i)%nat (0 + j)%nat))) with (mk (3 - 1) (3 - 1) (ex 1 V)). rewrite mwrite_mk by lia. cbn [obind]. rewrite sq_clear_mk by lia. cbn [obind]. replace (mk 3 3 (tridiagonal f)) with (mk 3 3 f) by (apply mk_ext; exact T). rewrite sq_at_once; [|lia|exact Y|exact T|].
    - reflexivity.
    - intros i Hi. assert (i = 0)%nat as -> by lia. right. rewrite ED by lia. cbn. rewrite Rabs_R0. lra. }
  specialize (C 1%nat (mk 3 3 f) 3%nat _ _ (wf_mk _ _ _) eq_refl eq_refl (le_n 3) ltac:(intros i j Hi Hj; rewrite !same_ent by assumption; now apply Y) E 0%nat 1%nat ltac:(lia) ltac:(lia)).
  assert (stored_b 1 V = 2) as S2 by (unfold stored_b; rewrite stored_inner; unfold inner, column; cbn [sum]; unfold V, f; cbn; field).
  assert (ex 1 V 0%nat 0%nat = -1) as Q00 by (rewrite (ex_entry 0 V 0 0), S2 by lia; cbn; lra). assert (ex 1 V 0%nat 1%nat = 0) as Q01 by (rewrite (ex_entry 0 V 0 1), S2 by lia; unfold V, f; cbn; lra).
  unfold prod_entry in C. cbn [sum] in C. unfold transposed in C. rewrite !same_ent, ED in C by lia. unfold o in C. cbn [Nat.leb Nat.ltb andb Nat.sub] in C. rewrite Q00, Q01 in C. unfold f, id_entry in C. cbn in C.
  match type of C with Rabs ?x <= 1 => replace x with (-2) in C by ring end. rewrite Rabs_left in C by lra. lra.
Qed.
(** Nor are the rotations of a window put in their place: with a window that starts behind the first row they are applied to the rows from 0 on. *)
Lemma apply_first r o n m P : (r < n)%nat -> (0 < r)%nat -> exists P', sq_apply (mk r 2 o) (mk n m P) = Some (mk n m P') /\ forall b, (b < m)%nat -> P' 0%nat b = o 0%nat 0%nat * P 0%nat b - o 0%nat 1%nat * P 1%nat b.
Proof.
  intros Hr H0. unfold sq_apply. rewrite nr_mk. unfold rng. rewrite Nat.sub_0_r. set (F := fun op i => _).
  assert (forall k, (k <= r)%nat -> exists P', foldM F (seq 0 k) (mk n m P) = Some (mk n m P') /\ forall b, (b < m)%nat -> (k = 0%nat -> P' 0%nat b = P 0%nat b /\ P' 1%nat b = P 1%nat b) /\ ((0 < k)%nat -> P' 0%nat b = o 0%nat 0%nat * P 0%nat b - o 0%nat 1%nat * P 1%nat b)) as K.
  { induction k as [|k IH]; intros Hk; [exists P; split; [reflexivity|]; intros b Hb; split; [auto|lia]|]. destruct (IH ltac:(lia)) as (P' & E & H). rewrite seq_S, foldM_app, E. cbn [obind foldM Nat.add]. unfold F at 1. rewrite !mget_in by lia. cbn [obind]. rewrite nc_mk. rewrite msub_view_mk by lia. cbn [obind].
    change (Mat 2 2 [[o k 0%nat; - o k 1%nat]; [o k 1%nat; o k 0%nat]]) with (mk 2 2 (fun i j => nth j (nth i [[o k 0%nat; - o k 1%nat]; [o k 1%nat; o k 0%nat]] []) 0)). replace (k + 2 - k)%nat with 2%nat by lia. rewrite mmul_mk. cbn [obind]. match goal with |- context [mwrite _ _ _ _ _ (mk 2 ?w ?h)] => replace (mk 2 w h) with (mk (k + 2 - k) w h) by (now replace (k + 2 - k)%nat with 2%nat by lia) end. rewrite mwrite_mk by lia. cbn [obind]. eexists. split; [reflexivity|]. intros b Hb. split; [lia|]. intros _. destruct (H b Hb) as (Z & S1).
    destruct k as [|k]; [destruct (Z eq_refl) as (Z0 & Z1)|].
    - replace ((0 <=? 0) && (0 <? 0 + 2) && (0 <=? b) && (b <? m))%nat with true by lia. rewrite !Nat.sub_0_r. unfold prod_entry. cbn [sum]. rewrite <- Z0, <- Z1. cbn. ring.
    - replace ((S k <=? 0) && (0 <? S k + 2) && (0 <=? b) && (b <? m))%nat with false by lia. apply S1. lia. }
  destruct (K r (le_n r)) as (P' & E & H). exists P'. split; [exact E|]. intros b Hb. now apply (H b Hb).
Qed.
Theorem C89_window_refuted : exists f g op q, symmetric 4 f /\ same 4 4 f (tridiagonal f) /\ sq_body true 4 (mk 4 4 f) (mk 4 4 id_entry) = Some (mk 4 4 g, mk 4 4 op, q) /\ (q < 4)%nat /\ perturbed 4 f 0 g /\
  prod_entry 4 op (prod_entry 4 f (transposed op)) 0 0 < g 0%nat 0%nat.
Proof.
  set (f := fun i j : nat => match i, j with 0, 0 => 5%R | 1, 2 | 2, 1 | 2, 3 | 3, 2 => 1%R | _, _ => 0%R end%nat).
  assert (symmetric_mat 4 f) as Y by (intros i j Hi Hj; destruct i as [|[|[|[|i]]]]; try lia; destruct j as [|[|[|[|j]]]]; try lia; reflexivity).
  assert (same 4 4 f (tridiagonal f)) as T by (intros i j Hi Hj; destruct i as [|[|[|[|i]]]]; try lia; destruct j as [|[|[|[|j]]]]; try lia; reflexivity). pose proof sq_tol_pos as TP. assert (sq_tol < 1) as T1 by (unfold sq_tol; lra).
  assert (same 4 4 (dropped sq_tol f) f) as ED.
  { intros i j Hi Hj. unfold dropped. destruct i as [|[|[|[|i]]]]; try lia; destruct j as [|[|[|[|j]]]]; try lia; cbn; try reflexivity; destruct (Rlt_dec _ _) as [L|L]; try reflexivity; rewrite Rabs_R1 in L; lra. }
  destruct (sq_body_mk 4 0 f (mk 4 4 id_entry) ltac:(lia) (Rle_refl 0) (zero_state 4 f Y T)) as [(SB & _)|(p & e & g & q & o & EQ & Hq & AC & (p' & e' & AC' & OUT & STP) & _ & _ & _ & _ & EB & EW)].
  - exfalso. specialize (SB 1%nat ltac:(lia)). cbn [Nat.add] in SB. rewrite !ED in SB by lia. cbn in SB. rewrite Rabs_R1 in SB. lra.
  - assert (forall p e, active 4 sq_tol (dropped sq_tol f) p e -> p = 1%nat /\ e = 4%nat) as AE.
    { intros p0 e0 (He & IN & _). destruct p0 as [|p0]; [|lia]. specialize (IN 0%nat ltac:(lia) ltac:(lia)). rewrite ED in IN by lia. cbn in IN. rewrite Rabs_R0 in IN. lra. }
    destruct (AE p e AC) as (-> & ->). destruct (AE p' e' AC') as (-> & ->). cbn [Nat.sub] in *. clear AE. set (W := block_at 1 (dropped sq_tol f)) in *.
    assert (same 3 3 W (sym3 0 1 0 0 1 0)) as EWW by (intros i j Hi Hj; unfold W, block_at; rewrite ED by lia; destruct i as [|[|[|i]]]; try lia; destruct j as [|[|[|j]]]; try lia; reflexivity).
    assert (symmetric 3 W) as YW by (intros i j Hi Hj; rewrite !EWW by assumption; now apply sym3_sym). assert (same 3 3 W (tridiagonal W)) as TW by (intros i j Hi Hj; unfold tridiagonal; rewrite !EWW by assumption; destruct i as [|[|[|i]]]; try lia; destruct j as [|[|[|j]]]; try lia; reflexivity).
    destruct (wilkinson_mk 3 W ltac:(lia) YW TW) as (g1 & cs & m & E1 & _ & N1 & C1 & _ & _ & _ & G0); [cbn [Nat.sub]; rewrite !EWW by lia; cbn; intros (_ & K); lra|]. cbn [Nat.sub] in E1. rewrite EW in E1. assert (mk 2 2 o = mk 2 2 cs) as EO by congruence. assert (mk 3 3 (block_at 1 g) = mk 3 3 g1) as EG by congruence.
    assert (forall i j, (i < 2)%nat -> (j < 2)%nat -> o i j = cs i j) as EOO by (intros i j Hi Hj; rewrite <- (ent_mk 2 2 o i j Hi Hj), EO; now rewrite ent_mk).
    assert (same 3 3 g1 (block_at 1 g)) as EGG by (intros i j Hi Hj; rewrite <- (ent_mk 3 3 (block_at 1 g) i j Hi Hj), EG; now rewrite ent_mk).
    destruct (givens_some (W 0%nat 0%nat - m) (W 1%nat 0%nat)) as (c & s & E2 & NC & _ & RT). rewrite G0 in E2. injection E2 as E2a E2b. specialize (RT ltac:(rewrite EWW by lia; cbn; rewrite Rabs_R1; lra)). rewrite (EWW 1%nat 0%nat) in RT by lia. cbn in RT.
    assert (s <> 0) as SN by (intros ->; nra). destruct (apply_first 2 o 4 4 id_entry ltac:(lia) ltac:(lia)) as (P & EP & HP). rewrite EP in EB. cbn [obind] in EB.
    exists f, g, P, q. split; [exact Y|]. split; [exact T|]. split; [exact EB|]. split; [exact Hq|]. split.
    + assert (orthogonal 3 (rotations 3 cs 2)) as OR by (apply rotations_orth; [lia|intros i Hi; apply N1; lia]).
      assert (perturbed 4 f 0 (embed 1 4 (block_at 1 g) f)) as PB.
      { apply pert_block; [lia|intros a b Ha Hb N; unfold inr in N; destruct a as [|[|[|[|a]]]]; try lia; destruct b as [|[|[|[|b]]]]; try lia; try reflexivity; exfalso; now apply N|]. cbn [Nat.sub]. apply pert_sim; [lra|]. exists (rotations 3 cs 2). split; [exact OR|].
        eapply congr_ext; [|exact EGG|exact C1]. intros i j Hi Hj. unfold W, block_at. apply ED; lia. }
      eapply pert_ext; [intros i j _ _; reflexivity| |exact PB]. intros i j Hi Hj. unfold embed. destruct (inr 1 4 i && inr 1 4 j) eqn:K; unfold inr in K.
      * unfold block_at. f_equal; lia.
      * rewrite OUT by (try assumption; lia). symmetry. now apply ED.
    + rewrite (OUT 0%nat 0%nat) by lia. rewrite ED by lia. unfold prod_entry. cbn [sum]. unfold transposed. rewrite !HP by lia. rewrite !EOO by lia. rewrite E2a, E2b. unfold f, id_entry. cbn.
      assert (0 < s * s) by nra. match goal with |- ?x < 5 => replace x with (5 * (c * c)) by ring end. lra.
Qed.

(** C90.  On a symmetric matrix [A] of order at least 2 [spectrum_symmetric] does not panic; if it ends, after [k] iterations, the values are [n] numbers in ascending order with the sum of the
    diagonal of the tridiagonal form [T]; unless an entry beside the diagonal of the final matrix is exactly 1/10^10 in absolute value they are exactly the eigenvalues of [T + F] for a symmetric
    [F] of Frobenius norm at most n (k + 1) (k + 52)/10^10, and of [A + F] when the reduction of [A] met no column that was zero already. *)
Theorem C90_spectrum_partial : forall fuel M n, wf M -> nr M = n -> nc M = n -> (2 <= n)%nat -> symmetric n (ent M) ->
  exists T, householder_tridiagonalization M false = Some T /\
  (spectrum_symmetric fuel M = Some None \/
   exists v H op k, (k < fuel)%nat /\ spectrum_symmetric fuel M = Some (Some v) /\ symmetric_qr fuel M false = Some (Some (H, op)) /\ sq_run n (/ 10 ^ 10) k (tridiagonal (ent T)) (ent H) /\ wf v /\ nr v = n /\ nc v = 1%nat /\ ascending n (ent v) /\ sum n (fun i => ent v i 0) = trace n (ent T) /\
    ((forall i, (i + 1 < n)%nat -> Rabs (ent H (i + 1) i) <> / 10 ^ 10) ->
     (exists F, symmetric n F /\ frob n F <= INR n * INR (k + 1) * INR (k + 52) / 10 ^ 10 /\ forall x, (exists i, (i < n)%nat /\ ent v i 0 = x) <-> eigenvalue n (fun i j => tridiagonal (ent T) i j + F i j) x) /\
     (full_tails n (ent T) -> exists F, symmetric n F /\ frob n F <= INR n * INR (k + 1) * INR (k + 52) / 10 ^ 10 /\ forall x, (exists i, (i < n)%nat /\ ent v i 0 = x) <-> eigenvalue n (fun i j => ent M i j + F i j) x))).
Proof.
  intros fuel M n W RM CM Hn Y. destruct (C89_symmetric_qr_partial fuel M n W RM CM Hn Y) as (T & ET & C). exists T. split; [exact ET|]. destruct C as [K|(H & op & k & Hk & EH & WH & RH & CH & _ & YH & NR & FAR & SB & WS & RN & TR & P1 & P2)]; [left; unfold spectrum_symmetric; now rewrite RM, CM, Nat.eqb_refl, K|right].
  pose proof (wf_eq_mk H WH) as EM. rewrite RH, CH in EM. rewrite <- sq_tol_pow in SB, WS. destruct (sym_blocks_spec n (ent H) YH WS SB n 0 ltac:(lia) ltac:(lia)) as (l & EL & LN & SM & EX). rewrite <- EM in EL. rewrite Nat.sub_0_r in *. pose proof (Permutation_length (rsort_perm l)) as PL.
  exists (mk n 1 (fun i _ => nth i (rsort l) 0)), H, op, k. split; [exact Hk|]. split.
  { unfold spectrum_symmetric. rewrite RM, CM, Nat.eqb_refl, EH. cbn [obind]. rewrite EL. cbn [obind]. rewrite sorted_column by exact LN. reflexivity. }
  split; [exact EH|]. split; [exact RN|]. split; [apply wf_mk|]. split; [reflexivity|]. split; [reflexivity|]. split; [|split].
  - intros i Hi. rewrite !ent_mk by lia. apply up_nth; [apply rsort_up|lia].
  - rewrite (rsum_ext n _ (fun i => nth i (rsort l) 0)) by (intros i Hi; now rewrite ent_mk by lia). rewrite <- TR. replace (trace n (ent H)) with (lsum l) by exact SM. rewrite (lsum_perm _ _ (rsort_perm l)), lsum_nth. now rewrite <- PL, LN.
  - intros NT. assert (no_ties n sq_tol (ent H)) as NT' by (intros i Hi; rewrite sq_tol_pow; now apply NT). specialize (EX NT').
    assert (perturbed n (ent H) (INR n * (INR k + 1) * sq_tol) (tridiagonal (ent H))) as PF.
    { apply far_pert; [lia|exact YH|intros a b Hab; apply FAR; lia|]. intros a b Hab. apply Rlt_le. replace ((INR k + 1) * g_tol) with (INR (k + 1) / 10 ^ 12) by (rewrite plus_INR, g_tol_pow; reflexivity). apply NR; lia. }
    assert (forall A, perturbed n A (INR n * INR (k + 1) * INR (k + 51) / 10 ^ 10) (ent H) -> exists F, symmetric n F /\ frob n F <= INR n * INR (k + 1) * INR (k + 52) / 10 ^ 10 /\ forall x, (exists i, (i < n)%nat /\ ent (mk n 1 (fun i _ => nth i (rsort l) 0)) i 0 = x) <-> eigenvalue n (fun i j => A i j + F i j) x) as FIN.
    { intros A P. destruct (pert_trans n A (ent H) (tridiagonal (ent H)) _ _ P PF) as (Q & F & OQ & YF & NF & C). exists F. split; [exact YF|]. split.
      - eapply Rle_trans; [exact NF|]. rewrite sq_tol_pow. rewrite !plus_INR. right. replace (INR 52) with (INR 51 + 1) by (rewrite <- S_INR; reflexivity). unfold Rdiv. change (INR 1) with 1. ring.
      - intros x. rewrite <- (in_sorted l x n LN). rewrite (EX x). symmetry. apply eigen_similar. exists Q. split; [exact OQ|exact C]. }
    split; [now apply FIN|]. intros FT. apply FIN. now apply P2.
Qed.
(** Matrices that are split already: no iteration and no rounding, the values are exactly the eigenvalues. *)
Theorem C90_split : forall fuel M n, wf M -> nr M = n -> nc M = n -> (2 <= n)%nat -> symmetric n (ent M) -> same n n (ent M) (tridiagonal (ent M)) -> (forall j, (j + 2 < n)%nat -> 0 <= ent M (j + 1) j) ->
  (forall j, (j + 1 < n)%nat -> ent M (j + 1) j = 0 \/ / 10 ^ 10 < Rabs (ent M (j + 1) j)) -> (forall j, (j + 2 < n)%nat -> ent M (j + 1) j = 0 \/ ent M (j + 2) (j + 1) = 0) ->
  exists v, spectrum_symmetric (S fuel) M = Some (Some v) /\ wf v /\ nr v = n /\ nc v = 1%nat /\ ascending n (ent v) /\ forall x, (exists i, (i < n)%nat /\ ent v i 0 = x) <-> eigenvalue n (ent M) x.
Proof.
  intros fuel M n W RM CM Hn Y T P WS SP. rewrite <- sq_tol_pow in WS. pose proof (wf_eq_mk M W) as EM. rewrite RM, CM in EM. set (f := ent M) in *. clearbody f. subst M. pose proof sq_tol_pos as TP.
  assert (same n n (dropped sq_tol f) f) as ED.
  { intros i j Hi Hj. unfold dropped. destruct (Nat.eqb_spec i (j + 1)) as [->|N].
    - destruct (Rlt_dec _ _) as [L|L]; [|reflexivity]. destruct (WS j Hi) as [->|K]; [reflexivity|lra].
    - destruct (Nat.eqb_spec j (i + 1)) as [->|N']; [|reflexivity]. destruct (Rlt_dec _ _) as [L|L]; [|reflexivity]. destruct (WS i Hj) as [K|K]; [|lra]. rewrite (Y i (i + 1)%nat) by lia. now rewrite K. }
  assert (small_blocks n sq_tol f) as SB by (intros i Hi; destruct (SP i Hi) as [->| ->]; rewrite Rabs_R0; [left|right]; lra). assert (well_split n sq_tol f) as WS' by (intros i Hi; destruct (WS i Hi); [now left|right; lra]).
  assert (symmetric_qr (S fuel) (mk n n f) false = Some (Some (mk n n f, mk n n id_entry))) as E.
  { unfold symmetric_qr. rewrite nr_mk, midentity_mk by lia. cbn [obind]. rewrite tri_fixed by assumption. cbn [obind]. rewrite sq_clear_mk by exact Hn. cbn [obind]. replace (mk n n (tridiagonal f)) with (mk n n f) by (apply mk_ext; exact T).
    rewrite sq_at_once; [|exact Hn|exact Y|exact T|intros i Hi; rewrite !ED by lia; now apply SB]. do 3 f_equal. apply mk_ext. exact ED. }
  destruct (sym_blocks_spec n f Y WS' SB n 0 ltac:(lia) ltac:(lia)) as (l & EL & LN & _ & EX). rewrite Nat.sub_0_r in *. pose proof (Permutation_length (rsort_perm l)) as PL. exists (mk n 1 (fun i _ => nth i (rsort l) 0)). split.
  { unfold spectrum_symmetric. rewrite nr_mk, nc_mk, Nat.eqb_refl, E. cbn [obind]. rewrite EL. cbn [obind]. rewrite sorted_column by exact LN. reflexivity. }
  split; [apply wf_mk|]. split; [reflexivity|]. split; [reflexivity|]. split; [intros i Hi; rewrite !ent_mk by lia; apply up_nth; [apply rsort_up|lia]|]. intros x. rewrite <- (in_sorted l x n LN). rewrite EX.
  - split; apply eig_ext; intros i j Hi Hj; [symmetry|]; now apply T.
  - intros i Hi K. destruct (WS i Hi) as [Z|Z]; [rewrite Z, Rabs_R0 in K; lra|lra].
Qed.
Theorem C90_never_ends : exists M, wf M /\ nr M = 3%nat /\ nc M = 3%nat /\ symmetric 3 (ent M) /\ forall fuel, spectrum_symmetric fuel M = Some None.
Proof. destruct C89_never_ends as (M & W & RM & CM & Y & _ & _ & _ & _ & E). exists M. repeat (split; [assumption|]). intros fuel. unfold spectrum_symmetric. now rewrite RM, CM, Nat.eqb_refl, E. Qed.
Theorem C90_panics : forall fuel M, nr M <> nc M \/ (nr M < 2)%nat -> spectrum_symmetric fuel M = None.
Proof. intros fuel M H. unfold spectrum_symmetric. destruct (Nat.eqb_spec (nr M) (nc M)) as [E|E]; [|reflexivity]. destruct H as [H|H]; [contradiction|]. now rewrite C89_panics. Qed.
(** The claim: every eigenvalue is among the values up to 1/2. *)
Definition C90_claim : Prop := forall fuel M n v x, wf M -> nr M = n -> nc M = n -> (2 <= n)%nat -> symmetric n (ent M) -> spectrum_symmetric fuel M = Some (Some v) -> eigenvalue n (ent M) x -> exists i, (i < n)%nat /\ Rabs (ent v i 0 - x) <= / 2.
(** [[0, 1/10^10, 0], [1/10^10, 0, 1], [0, 1, 0]], with eigenvalues near -1, 0 and 1, gives -1/10^10, 0, 1/10^10: an entry that is neither below nor above the tolerance. *)
Theorem C90_tie : exists v, spectrum_symmetric 1 (mk 3 3 (sym3 0 (/ 10 ^ 10) 0 0 1 0)) = Some (Some v) /\ forall i, (i < 3)%nat -> Rabs (ent v i 0) <= / 10 ^ 10.
Proof.
  rewrite <- sq_tol_pow. set (f := sym3 0 sq_tol 0 0 1 0). pose proof (sym3_sym 0 sq_tol 0 0 1 0) as Y. fold f in Y. assert (same 3 3 f (tridiagonal f)) as T by (intros i j Hi Hj; destruct i as [|[|[|i]]]; try lia; destruct j as [|[|[|j]]]; try lia; reflexivity).
  pose proof sq_tol_pos as TP. assert (sq_tol < 1) as T1 by (unfold sq_tol; lra). assert (Rabs sq_tol = sq_tol) as AT by (apply Rabs_right; lra).
  assert (same 3 3 (dropped sq_tol f) f) as ED.
  { intros i j Hi Hj. unfold dropped. destruct i as [|[|[|i]]]; try lia; destruct j as [|[|[|j]]]; try lia; cbn; try reflexivity; destruct (Rlt_dec _ _) as [L|L]; try reflexivity; rewrite ?AT, ?Rabs_R1 in L; lra. }
  assert (symmetric_qr 1 (mk 3 3 f) false = Some (Some (mk 3 3 f, mk 3 3 id_entry))) as E.
  { unfold symmetric_qr. rewrite nr_mk, midentity_mk by lia. cbn [obind]. rewrite tri_fixed; [|lia|exact Y|exact T|intros j Hj; assert (j = 0)%nat as -> by lia; cbn; lra]. cbn [obind]. rewrite sq_clear_mk by lia. cbn [obind]. replace (mk 3 3 (tridiagonal f)) with (mk 3 3 f) by (apply mk_ext; exact T).
    rewrite sq_at_once; [|lia|exact Y|exact T|intros i Hi; assert (i = 0)%nat as -> by lia; left; rewrite ED by lia; cbn; rewrite AT; lra]. do 3 f_equal. apply mk_ext. exact ED. }
  assert (sym_blocks 3 (mk 3 3 f) 0 = Some [- sq_tol; sq_tol; 0]) as EB.
  { cbn [sym_blocks]. rewrite !nr_mk. cbn [Nat.ltb Nat.leb Nat.eqb Nat.sub]. rewrite mget_in by lia. cbn [obind Nat.add]. change (f 1%nat 0%nat) with sq_tol. rewrite AT. destruct (rltb_spec sq_tol (/ 100000000000000)) as [L|L]; [unfold sq_tol in L; lra|]. rewrite msub_view_mk by lia. cbn [obind Nat.sub Nat.add].
    rewrite two_mk. cbn zeta. unfold f, sym3. cbn [Nat.add]. replace ((0 + 0) / 2 * ((0 + 0) / 2) - (0 * 0 - sq_tol * sq_tol)) with (sq_tol * sq_tol) by field. destruct (rltb_spec 0 (sq_tol * sq_tol)) as [L2|L2]; [|exfalso; apply L2; apply Rmult_lt_0_compat; exact TP]. cbn [obind]. rewrite sqrt_square by (apply Rlt_le; exact TP). cbn [Nat.add Nat.eqb Nat.sub Nat.ltb Nat.leb obind]. rewrite mget_in by lia. cbn [obind]. do 2 f_equal; [field|]. f_equal. field. }
  eexists. split; [unfold spectrum_symmetric; rewrite nr_mk, nc_mk, Nat.eqb_refl, E; cbn [obind]; rewrite EB; cbn [obind]; rewrite sorted_column by reflexivity; reflexivity|]. intros i Hi. rewrite ent_mk by lia.
  assert (In (nth i (rsort [- sq_tol; sq_tol; 0]) 0) [- sq_tol; sq_tol; 0]) as IN by (apply (Permutation_in _ (Permutation_sym (rsort_perm _))); apply nth_In; rewrite <- (Permutation_length (rsort_perm _)); exact Hi).
  destruct IN as [<-|[<-|[<-|[]]]]; [rewrite Rabs_Ropp, AT|rewrite AT|rewrite Rabs_R0]; lra.
Qed.
Theorem C90_refuted : ~ C90_claim.
Proof.
  intros C. destruct C90_tie as (v & E & B). set (h := / 10 ^ 10) in *. assert (0 < h < / 10) as Hh by (unfold h; lra). set (x := sqrt (1 + h * h)). assert (x * x = 1 + h * h) as XX by (apply sqrt_sqrt; nra). assert (0 <= x) as X0 by apply sqrt_pos. assert (1 <= x) as X1 by nra.
  destruct (C 1%nat (mk 3 3 (sym3 0 h 0 0 1 0)) 3%nat v x (wf_mk _ _ _) eq_refl eq_refl ltac:(lia)) as (i & Hi & K); [intros i j Hi Hj; rewrite !same_ent by assumption; now apply sym3_sym|exact E| |].
  - apply (eig_ext _ (sym3 0 h 0 0 1 0)); [intros i j Hi Hj; symmetry; now apply same_ent|]. exists (fun i => match i with 0%nat => h | 1%nat => x | _ => 1 end). split; [exists 1%nat; split; [lia|cbn; lra]|]. intros i Hi. unfold apply_mat. destruct i as [|[|[|i]]]; try lia; cbn; lra.
  - specialize (B i Hi). unfold Rabs in B, K. destruct (Rcase_abs (ent v i 0)), (Rcase_abs (ent v i 0 - x)); lra.
Qed.
(** And a first column with a negative entry spoils even the sum (C86): [[0, -1, 0], [-1, 1, 0], [0, 0, 0]] gives values with the sum 9 for the trace 1. *)
Theorem C90_sum_refuted : exists M v, wf M /\ nr M = 3%nat /\ nc M = 3%nat /\ symmetric 3 (ent M) /\ trace 3 (ent M) = 1 /\ spectrum_symmetric 1 M = Some (Some v) /\ sum 3 (fun i => ent v i 0) = 9.
Proof.
  set (f := sym3 0 (-1) 0 1 0 0). pose proof (sym3_sym 0 (-1) 0 1 0 0) as Y. fold f in Y. assert (symmetric 3 (ent (mk 3 3 f))) as Y' by (intros i j Hi Hj; rewrite !same_ent by assumption; now apply Y). pose proof sq_tol_pos as TP.
  set (t := tri_next 3 0 false f). assert (householder_tridiagonalization (mk 3 3 f) false = Some (mk 3 3 t)) as ET.
  { unfold householder_tridiagonalization, usub, rng. rewrite nr_mk. change (2 <=? 3)%nat with true. cbn [obind]. change (seq 0 (3 - 2 - 0)) with [0%nat]. cbn [foldM]. rewrite tri_step_mk by lia. reflexivity. }
  set (x := tri_x 0 f). assert (bad_vec 2 x) as BV by (split; [unfold x, tri_x, f; cbn; lra|intros i Hi; assert (i = 1)%nat as -> by lia; reflexivity]).
  destruct (hv_bad 2 x ltac:(lia) BV) as (B & V). pose proof (V 0%nat ltac:(lia)) as V0. pose proof (V 1%nat ltac:(lia)) as V1. unfold id_entry in V0, V1. cbn [Nat.eqb] in V0, V1.
  assert (t 0%nat 0%nat = 0) as T00 by reflexivity.
  assert (t 1%nat 1%nat = 9 /\ t 2%nat 1%nat = 0 /\ t 2%nat 2%nat = 0) as (T11 & T21 & T22).
  { unfold t, tri_next. cbn [Nat.leb Nat.add Nat.eqb andb orb Nat.sub]. fold x. unfold rank2. cbn [Nat.min Nat.max Nat.sub Nat.add]. change (3 - 1)%nat with 2%nat. unfold tri_w, tri_p, inner. cbn [Nat.add]. change (3 - 1)%nat with 2%nat. fold x. cbn [sum]. rewrite V0, V1, B. unfold f, sym3. cbn. repeat split; lra. }
  exists (mk 3 3 f). destruct (C90_spectrum_partial 1 (mk 3 3 f) 3 (wf_mk _ _ _) eq_refl eq_refl ltac:(lia) Y') as (T & ET' & C). rewrite ET in ET'. assert (T = mk 3 3 t) as -> by congruence.
  destruct C as [C|(v & H & op & k & _ & ES & _ & _ & _ & _ & _ & _ & SM & _)].
  - exfalso. destruct (symmetric_qr_mk 1 3 f ltac:(lia) Y) as (t' & E1 & YT & E2). rewrite ET in E1. assert (mk 3 3 t = mk 3 3 t') as EK by congruence. assert (t' 2%nat 1%nat = 0) as Z by (rewrite <- (same_ent 3 t' 2%nat 1%nat) by lia; rewrite <- EK; now rewrite same_ent by lia).
    unfold spectrum_symmetric in C. rewrite nr_mk, nc_mk, Nat.eqb_refl, E2 in C. rewrite sq_at_once in C; [|lia|exact YT| |].
    + cbn [obind] in C. destruct (sym_blocks 3 _ 0) as [l|]; [|discriminate]. cbn [obind] in C. destruct (mbuild 3 1 _) as [w|]; discriminate.
    + intros i j Hi Hj. unfold tridiagonal. destruct ((i <=? j + 1) && (j <=? i + 1))%nat; reflexivity.
    + intros i Hi. assert (i = 0)%nat as -> by lia. right. unfold dropped. cbn [Nat.add Nat.eqb]. change (tridiagonal t' 2%nat 1%nat) with (t' 2%nat 1%nat). rewrite Z. destruct (Rlt_dec _ _); rewrite Rabs_R0; lra.
  - exists v. split; [apply wf_mk|]. split; [reflexivity|]. split; [reflexivity|]. split; [exact Y'|]. split; [unfold trace; cbn [sum]; rewrite !same_ent by lia; unfold f; cbn; lra|]. split; [exact ES|]. rewrite SM. unfold trace. cbn [sum]. rewrite !same_ent by lia. rewrite T00, T11, T22. cbn. lra.
Qed.
(** The hypotheses of the theorems are met. *)
Example C89_nonvacuous : exists M, wf M /\ nr M = 3%nat /\ nc M = 3%nat /\ symmetric 3 (ent M) /\ exists H op, symmetric_qr 1 M false = Some (Some (H, op)).
Proof.
  destruct C90_sum_refuted as (M & v & W & RM & CM & Y & _ & E & _). exists M. repeat (split; [assumption|]). unfold spectrum_symmetric in E. rewrite RM, CM, Nat.eqb_refl in E. destruct (symmetric_qr 1 M false) as [[(H & op)|]|]; cbn [obind] in E; try discriminate. now exists H, op.
Qed.
Example C90_nonvacuous : exists M, wf M /\ nr M = 2%nat /\ nc M = 2%nat /\ symmetric 2 (ent M) /\ same 2 2 (ent M) (tridiagonal (ent M)) /\ (forall j, (j + 2 < 2)%nat -> 0 <= ent M (j + 1) j) /\
  (forall j, (j + 1 < 2)%nat -> ent M (j + 1) j = 0 \/ / 10 ^ 10 < Rabs (ent M (j + 1) j)) /\ (forall j, (j + 2 < 2)%nat -> ent M (j + 1) j = 0 \/ ent M (j + 2) (j + 1) = 0) /\ ent M 1 0 = 1 /\ eigenvalue 2 (ent M) 3.
Proof.
  set (f := sym3 2 1 0 2 0 0). exists (mk 2 2 f). split; [apply wf_mk|]. split; [reflexivity|]. split; [reflexivity|]. assert (same 2 2 (ent (mk 2 2 f)) f) as EF by apply same_ent.
  split; [intros i j Hi Hj; rewrite !EF by assumption; apply sym3_sym; lia|]. split; [intros i j Hi Hj; unfold tridiagonal; now replace ((i <=? j + 1) && (j <=? i + 1))%nat with true by lia|]. split; [intros j Hj; lia|]. split; [intros j Hj; assert (j = 0)%nat as -> by lia; right; rewrite EF by lia; cbn; rewrite Rabs_R1; lra|].
  split; [intros j Hj; lia|]. split; [rewrite EF by lia; reflexivity|]. apply (eig_ext _ f); [intros i j Hi Hj; symmetry; now apply EF|]. exists (fun _ => 1). split; [exists 0%nat; split; [lia|lra]|]. intros i Hi. unfold apply_mat. destruct i as [|[|i]]; try lia; cbn; lra.
Qed.
Print Assumptions C89_symmetric_qr_partial.
Print Assumptions C89_iterations.
Print Assumptions C89_panics.
Print Assumptions C89_op_panics.
Print Assumptions C89_never_ends.
Print Assumptions C89_refuted.
Print Assumptions C89_op_refuted.
Print Assumptions C89_window_refuted.
Print Assumptions C90_spectrum_partial.
Print Assumptions C90_split.
Print Assumptions C90_never_ends.
Print Assumptions C90_panics.
Print Assumptions C90_tie.
Print Assumptions C90_refuted.
Print Assumptions C90_sum_refuted.
