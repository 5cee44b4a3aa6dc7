(** C88: one step of the symmetric QR algorithm, over the real numbers. *)
From Coq Require Import List Arith Bool Lia ZifyBool Reals Lra.
From Verif Require Import PidModel MatModel MatSpec MatProofs MatProofs2 SnfModel RankModel LuModel LuSpec LuProofs2 LuProofs3 NumModel NumSpec NumProofs HouseProofs HessProofs FrancisModel FrancisSpec FrancisProofs EigProofs TriModel TriSpec WilkModel WilkSpec WilkProofs SpectrumProps.
Import ListNotations.
Open Scope R_scope.

Lemma tri_band n f : same n n f (tridiagonal f) -> band n 0 f.
Proof. intros T a b Hab. left. rewrite T by lia. unfold tridiagonal. now replace ((a <=? b + 1) && (b <=? a + 1))%nat with false by lia. Qed.
Lemma wilkinson_mk n f : (2 <= n)%nat -> symmetric n f -> same n n f (tridiagonal f) -> ~ (f (n - 2)%nat (n - 2)%nat = f (n - 1)%nat (n - 1)%nat /\ f (n - 1)%nat (n - 2)%nat = 0) ->
  exists g cs m, wilkinson_step (mk n n f) true = Some (mk n n g, mk (n - 1) 2 cs) /\ symmetric n g /\ (forall i, (i + 1 < n)%nat -> cs i 0%nat * cs i 0%nat + cs i 1%nat * cs i 1%nat = 1) /\
    congruent n f (rotations n cs (n - 1)) g /\ nearly_tridiagonal n g_tol g /\ ((forall i, (i + 1 < n)%nat -> cs i 1%nat <> 0) -> same n n g (tridiagonal g)) /\
    corner_shift n f m /\ givens_rotation (f 0%nat 0%nat - m) (f 1%nat 0%nat) = Some (cs 0%nat 0%nat, cs 0%nat 1%nat).
Proof.
  intros Hn Y T N. destruct (wilkinson_shift_mk n f Hn) as (WS & _). specialize (WS N). set (m := shift_of (f (n - 2)%nat (n - 2)%nat) (f (n - 1)%nat (n - 2)%nat) (f (n - 1)%nat (n - 1)%nat)) in *.
  destruct (wk_fold n true f (f 0%nat 0%nat - m) (f 1%nat 0%nat) (n - 1) Hn ltac:(lia) Y (tri_band n f T)) as (g & x & z & cs & E & YG & N1 & C & ST & _ & _ & G0). exists g, cs, m. split.
  - unfold wilkinson_step. rewrite nr_mk. rewrite WS. cbn [obind]. rewrite !mget_in by lia. cbn [obind]. rewrite mzero_mk by lia. cbn [obind]. unfold rng. rewrite Nat.sub_0_r.
    change (mk (n - 1) 2 (fun _ _ : nat => t0)) with (mk (n - 1) 2 (fun _ _ : nat => 0)). rewrite E. cbn [obind wk_m wk_op]. do 2 f_equal. apply mk_ext. intros a b Ha Hb. cbn [andb]. now replace (a <? n - 1)%nat with true by lia.
  - destruct (status_near n cs g Hn YG ST) as (S1 & S2). split; [exact YG|]. split; [intros i Hi; apply N1; lia|]. split; [exact C|]. split; [exact S1|]. split; [exact S2|]. split; [|apply G0; lia].
    apply shift_corner; try reflexivity; [exact Hn|apply Y; lia|exact N].
Qed.
(** C88.  On a symmetric tridiagonal matrix [A] of order at least 2 whose last two diagonal entries differ or have a nonzero entry beside them, the step computes rotations with product [P], listed
    in the returned matrix, and leaves [B = P^t A P], symmetric, with all entries more than one place from the diagonal below 1e-12.  If no rotation is by the angle 0, [B] is tridiagonal.  If the first entry
    beside the diagonal is at least 1e-12, the first column of [P] is a multiple of that of [A - m], [m] the eigenvalue of the trailing 2 x 2 block that is closest to the corner. *)
Theorem C88_step_partial : forall M n, wf M -> nr M = n -> nc M = n -> (2 <= n)%nat -> symmetric n (ent M) -> same n n (ent M) (tridiagonal (ent M)) ->
  ~ (ent M (n - 2) (n - 2) = ent M (n - 1) (n - 1) /\ ent M (n - 1) (n - 2) = 0) ->
  exists B O, wilkinson_step M true = Some (B, O) /\ wf B /\ nr B = n /\ nc B = n /\ wf O /\ nr O = (n - 1)%nat /\ nc O = 2%nat /\
    let P := rotations n (ent O) (n - 1) in
    orthogonal n P /\ congruent n (ent M) P (ent B) /\ symmetric n (ent B) /\ nearly_tridiagonal n (/ 10 ^ 12) (ent B) /\
    ((forall i, (i + 1 < n)%nat -> ent O i 1 <> 0) -> same n n (ent B) (tridiagonal (ent B))) /\
    (/ 10 ^ 12 <= Rabs (ent M 1 0) -> exists m rho, corner_shift n (ent M) m /\ forall i, (i < n)%nat -> ent M i 0 - m * id_entry i 0%nat = rho * P i 0%nat).
Proof.
  intros M n W RM CM Hn Y T N. pose proof (wf_eq_mk M W) as EM. rewrite RM, CM in EM. destruct (wilkinson_mk n (ent M) Hn Y T N) as (g & cs & m & E & YG & N1 & C & NT & TR & CO & G0).
  exists (mk n n g), (mk (n - 1) 2 cs). rewrite EM at 1. split; [exact E|]. split; [apply wf_mk|]. split; [reflexivity|]. split; [reflexivity|]. split; [apply wf_mk|]. split; [reflexivity|]. split; [reflexivity|]. cbv zeta.
  rewrite (rotations_ext n (ent (mk (n - 1) 2 cs)) cs) by (intros i Hi; rewrite !ent_mk by lia; auto). replace (/ 10 ^ 12) with g_tol by (unfold g_tol; f_equal; lra).
  split; [apply rotations_orth; [lia|intros i Hi; apply N1; lia]|]. split; [eapply congr_ext; [| |exact C]; [intros a b _ _; reflexivity|intros a b Ha Hb; symmetry; now apply ent_mk]|].
  split; [intros a b Ha Hb; rewrite !ent_mk by assumption; now apply YG|]. split; [intros a b Ha Hb H; rewrite ent_mk by assumption; now apply NT|]. split.
  - intros NS. assert (same n n g (tridiagonal g)) as TG by (apply TR; intros i Hi; specialize (NS i Hi); now rewrite ent_mk in NS by lia). intros a b Ha Hb. unfold tridiagonal. rewrite ent_mk by assumption. now apply TG.
  - intros L. destruct (givens_some (ent M 0 0 - m) (ent M 1 0)) as (c & s & E2 & NC & _ & RT). rewrite G0 in E2. injection E2 as <- <-. specialize (RT L). set (c := cs 0%nat 0%nat) in *. set (s := cs 0%nat 1%nat) in *. set (x := ent M 0 0 - m) in *. set (z := ent M 1 0) in *.
    exists m, (c * x - s * z). split; [exact CO|]. intros i Hi. rewrite rotations_first by lia. fold c s. unfold plane, id_entry. destruct i as [|[|i]].
    + cbn. change (ent M 0 0 - m * 1 = (c * x - s * z) * c). replace ((c * x - s * z) * c) with (x * (c * c + s * s) - s * (s * x + c * z)) by ring. rewrite NC, RT. unfold x. ring.
    + cbn. fold z. replace ((c * x - s * z) * - s) with (z * (c * c + s * s) - c * (s * x + c * z)) by ring. rewrite NC, RT. ring.
    + cbn. rewrite T by lia. unfold tridiagonal. replace ((S (S i) <=? 0 + 1) && (0 <=? S (S i) + 1))%nat with false by lia. ring.
Qed.
(** So trace and eigenvalues are kept. *)
Theorem C88_spectrum : forall M n B O, wf M -> nr M = n -> nc M = n -> (2 <= n)%nat -> symmetric n (ent M) -> same n n (ent M) (tridiagonal (ent M)) -> wilkinson_step M true = Some (B, O) ->
  trace n (ent B) = trace n (ent M) /\ forall x, eigenvalue n (ent M) x <-> eigenvalue n (ent B) x.
Proof.
  intros M n B O W RM CM Hn Y T E. assert (~ (ent M (n - 2) (n - 2) = ent M (n - 1) (n - 1) /\ ent M (n - 1) (n - 2) = 0)) as N.
  { intros K. pose proof (wf_eq_mk M W) as EM. rewrite RM, CM in EM. unfold wilkinson_step in E. rewrite RM in E. rewrite EM in E. destruct (wilkinson_shift_mk n (ent M) Hn) as (_ & WN). now rewrite (WN K) in E. }
  destruct (C88_step_partial M n W RM CM Hn Y T N) as (B' & O' & E' & _ & _ & _ & _ & _ & _ & OP & C & _). rewrite E in E'. injection E' as <- <-. assert (orth_similar n (ent M) (ent B)) as S by (eexists; split; [exact OP|exact C]).
  split; [now apply trace_similar|]. intros x. now apply eigen_similar.
Qed.
(** Without the operation the same matrix is left, and a zero matrix is returned. *)
Lemma wk_project n l : forall st st' o, foldM (wk_step true n) l st = Some st' -> foldM (wk_step false n) l (WkSt (wk_m st) (wk_x st) (wk_z st) o) = Some (WkSt (wk_m st') (wk_x st') (wk_z st') o).
Proof.
  induction l as [|i l IH]; intros st st' o E; [cbn in *; now injection E as ->|]. cbn [foldM] in *. destruct (wk_step true n st i) as [st1|] eqn:E1; [|discriminate]. cbn [obind] in E. specialize (IH st1 st' o E).
  unfold wk_step in *. cbn [wk_x wk_z wk_m wk_op]. destruct (givens_rotation (wk_x st) (wk_z st)) as [cs|]; [|discriminate]. cbn [obind] in *. destruct (rotate n i (fst cs) (snd cs) (wk_m st)) as [M|]; [|discriminate]. cbn [obind] in *.
  destruct (if (i <? n - 2)%nat then do x <- mget M (i + 1) i; do z <- mget M (i + 2) i; Some (x, z) else Some (wk_x st, wk_z st)) as [xz|]; [|discriminate]. cbn [obind] in *. destruct (do o0 <- mset (wk_op st) i 0 (fst cs); mset o0 i 1 (snd cs)) as [o1|]; [|discriminate]. cbn [obind] in E1. injection E1 as <-. exact IH.
Qed.
Theorem C88_without_op : forall M B O, (1 < nr M)%nat -> wilkinson_step M true = Some (B, O) -> exists Z, wilkinson_step M false = Some (B, Z) /\ mzero (nr M - 1) 2 = Some Z.
Proof.
  intros M B O Hn E. unfold wilkinson_step in *. destruct (wilkinson_shift (nr M) M) as [m|]; [|discriminate]. cbn [obind] in *. destruct (mget M 0 0) as [a|]; [|discriminate]. cbn [obind] in *. destruct (mget M 1 0) as [z|]; [|discriminate]. cbn [obind] in *.
  destruct (mzero (nr M - 1) 2) as [Z|]; [|discriminate]. cbn [obind] in *. destruct (foldM (wk_step true (nr M)) (rng 0 (nr M - 1)) _) as [st|] eqn:EF; [|discriminate]. cbn [obind] in E. injection E as <- <-. apply (wk_project _ _ _ _ Z) in EF. cbn [wk_m wk_x wk_z] in EF. rewrite EF. exists Z. split; reflexivity.
Qed.
(** 0/0: equal entries at the end of the diagonal with nothing beside them; orders 0 and 1. *)
Theorem C88_degenerate : forall M n op, wf M -> nr M = n -> nc M = n -> (2 <= n)%nat -> ent M (n - 2) (n - 2) = ent M (n - 1) (n - 1) -> ent M (n - 1) (n - 2) = 0 -> wilkinson_step M op = None.
Proof.
  intros M n op W RM CM Hn E1 E2. pose proof (wf_eq_mk M W) as EM. rewrite RM, CM in EM. unfold wilkinson_step. rewrite RM, EM. destruct (wilkinson_shift_mk n (ent M) Hn) as (_ & WN). now rewrite WN.
Qed.
Theorem C88_panics : forall M op, (nr M < 2)%nat -> wilkinson_step M op = None.
Proof. intros M op H. unfold wilkinson_step, wilkinson_shift, usub. now destruct (Nat.leb_spec 2 (nr M)); [lia|]. Qed.
(** The full claim: the step leaves a tridiagonal matrix. *)
Definition C88_claim : Prop := forall M n B O, wf M -> nr M = n -> nc M = n -> symmetric n (ent M) -> same n n (ent M) (tridiagonal (ent M)) -> wilkinson_step M true = Some (B, O) -> same n n (ent B) (tridiagonal (ent B)).
(** [[0,1,0],[1,0,e],[0,e,1]] with e = 1e-13: the second rotation is skipped. *)
Definition wk_bad : nat -> nat -> R := fun i j => match i, j with 0, 1 | 1, 0 => 1%R | 1, 2 | 2, 1 => (/ 10000000000000)%R | 2, 2 => 1%R | _, _ => 0%R end%nat.
Theorem C88_refuted : ~ C88_claim.
Proof.
  intros H. assert (symmetric 3 wk_bad) as Y by (intros i j Hi Hj; destruct i as [|[|[|i]]]; try lia; destruct j as [|[|[|j]]]; try lia; reflexivity).
  assert (same 3 3 wk_bad (tridiagonal wk_bad)) as T by (intros i j Hi Hj; destruct i as [|[|[|i]]]; try lia; destruct j as [|[|[|j]]]; try lia; reflexivity).
  destruct (wilkinson_shift_mk 3 wk_bad ltac:(lia)) as (WS & _). set (m := shift_of _ _ _) in WS. specialize (WS ltac:(cbn; intros (K & _); lra)). clearbody m.
  destruct (givens_some (wk_bad 0%nat 0%nat - m) (wk_bad 1%nat 0%nat)) as (c & s & EG & NC & _ & RT). assert (s <> 0) as SN.
  { intros ->. assert (0 * (wk_bad 0%nat 0%nat - m) + c * wk_bad 1%nat 0%nat = 0) as K by (apply RT; cbn; rewrite Rabs_R1; lra). cbn in K. nra. }
  set (g := rot_r 0 c s (rot_l 0 c s wk_bad)). assert (g 2%nat 0%nat = - s * / 10000000000000) as G20 by (unfold g, rot_r, rot_l; cbn; ring).
  assert (Rabs (g 2%nat 0%nat) < / 1000000000000) as GS. { rewrite G20. rewrite Rabs_mult, Rabs_Ropp, (Rabs_right (/ 10000000000000)) by lra. assert (Rabs s <= 1) by (apply Rabs_le; nra). lra. }
  assert (exists O, wilkinson_step (mk 3 3 wk_bad) true = Some (mk 3 3 g, O)) as (O & E).
  { unfold wilkinson_step. rewrite nr_mk, WS. cbn [obind]. rewrite !mget_in by lia. cbn [obind]. rewrite mzero_mk by lia. cbn [obind]. change (rng 0 (3 - 1)) with [0%nat; 1%nat]. cbn [foldM]. unfold wk_step at 1. cbn [wk_x wk_z wk_m wk_op]. rewrite EG. cbn [obind fst snd].
    rewrite (rotate_mk 3 0 c s wk_bad); [|lia|exact Y|intros j Hj N; unfold w_start, w_fin in N; cbn in N; lia]. fold g. cbn [obind]. change (0 <? 3 - 2)%nat with true. cbn [Nat.add]. rewrite !mget_in by lia. cbn [obind fst snd]. rewrite mset_mk by lia. cbn [obind]. rewrite mset_mk by lia. cbn [obind].
    unfold wk_step. cbn [wk_x wk_z wk_m wk_op]. destruct (givens_some (g 1%nat 0%nat) (g 2%nat 0%nat)) as (c' & s' & EG' & _ & SK & _). destruct (SK GS) as (-> & ->). rewrite EG'. cbn [obind fst snd]. rewrite rotate_none by lia. cbn [obind]. change (1 <? 3 - 2)%nat with false. cbn [obind]. rewrite mset_mk by lia. cbn [obind]. rewrite mset_mk by lia. cbn [obind wk_m wk_op]. eexists. reflexivity. }
  pose proof (H (mk 3 3 wk_bad) 3%nat (mk 3 3 g) O (wf_mk _ _ _) eq_refl eq_refl) as K. specialize (K ltac:(intros i j Hi Hj; rewrite !ent_mk by assumption; now apply Y)).
  specialize (K ltac:(intros i j Hi Hj; unfold tridiagonal; rewrite ent_mk by assumption; now apply T) E 2%nat 0%nat ltac:(lia) ltac:(lia)). rewrite ent_mk in K by lia. change (g 2%nat 0%nat = 0) in K. rewrite G20 in K. nra.
Qed.
(** The hypotheses of [C88_step_partial] and of its last part are met, by the matrix of the refutation. *)
Example C88_nonvacuous : exists M, wf M /\ nr M = 3%nat /\ nc M = 3%nat /\ symmetric 3 (ent M) /\ same 3 3 (ent M) (tridiagonal (ent M)) /\ ~ (ent M 1 1 = ent M 2 2 /\ ent M 2 1 = 0) /\ / 10 ^ 12 <= Rabs (ent M 1 0).
Proof.
  exists (mk 3 3 wk_bad). split; [apply wf_mk|]. split; [reflexivity|]. split; [reflexivity|]. split; [intros i j Hi Hj; rewrite !ent_mk by assumption; destruct i as [|[|[|i]]]; try lia; destruct j as [|[|[|j]]]; try lia; reflexivity|].
  split; [intros i j Hi Hj; unfold tridiagonal; rewrite !ent_mk by assumption; destruct i as [|[|[|i]]]; try lia; destruct j as [|[|[|j]]]; try lia; reflexivity|]. rewrite !ent_mk by lia. split; [cbn; intros (K & _); lra|]. cbn. rewrite Rabs_R1. lra.
Qed.
Print Assumptions C88_step_partial.
Print Assumptions C88_spectrum.
Print Assumptions C88_without_op.
Print Assumptions C88_degenerate.
Print Assumptions C88_panics.
Print Assumptions C88_refuted.
