(** Properties C120-C123: dense linear algebra at the type [f64], with rounding. *)
From Coq Require Import ZArith Reals Lra Lia List Arith Bool.
From Verif Require Import PidModel MatModel MatSpec MatProofs NumModel RankModel LuModel LuSpec LuProofs2 FloatModel FloatSpec FloatProofs FloatProofs2 FloatProofs3 FloatProofs4 FloatProofs5.
Import ListNotations.
Open Scope R_scope.

(** C120.  The number returned by [dot] is the exact dot product up to the roundings of its [n] products and sums. *)
Theorem C120_dot : forall A B s, wf A -> wf B -> mdot A B = Some s -> finite s ->
  nr A = 1%nat /\ nc B = 1%nat /\ nc A = nr B /\ finite_mat A /\ finite_mat B /\
  Rabs (val s - sum (nc A) (fun l => rent A 0 l * rent B l 0)) <= gam (nc A) * sum (nc A) (fun l => Rabs (rent A 0 l) * Rabs (rent B l 0)) + und (nc A).
Proof.
  intros A B s WA WB E F. rewrite (wf_eq_mk A WA), (wf_eq_mk B WB) in E. unfold mdot in E. cbn [nr nc mk] in E. destruct (nr A =? 1)%nat eqn:E1; [|discriminate]. destruct (nc B =? 1)%nat eqn:E2; [|discriminate]. cbn [andb] in E. destruct (nc A =? nr B)%nat eqn:E3; [|discriminate].
  apply Nat.eqb_eq in E1, E2, E3. split; [exact E1|]. split; [exact E2|]. split; [exact E3|].
  rewrite (omapM_some _ (fun i => tmul (ent A 0 i) (ent B i 0))) in E. 2: { intros i Hi. apply in_seq in Hi. fold (mk (nr A) (nc A) (ent A)) (mk (nr B) (nc B) (ent B)). rewrite !mget_in by lia. reflexivity. }
  cbn [obind] in E. rewrite (fold_sum (fun i => tmul (ent A 0 i) (ent B i 0))) in E. injection E as <-. destruct (dot_err (nc A) (fun l => ent A 0 l) (fun l => ent B l 0%nat) F) as (FF & ED).
  split; [intros i j Hi Hj; replace i with 0%nat by lia; now apply FF|]. split; [intros i j Hi Hj; replace j with 0%nat by lia; apply FF; lia|].
  unfold rent. rewrite (FloatProofs2.sum_ext _ (fun l => Rabs (val (ent A 0 l)) * Rabs (val (ent B l 0))) (fun l => Rabs (val (ent A 0 l) * val (ent B l 0%nat)))) by (intros; now rewrite Rabs_mult). exact ED.
Qed.
Print Assumptions C120_dot.
(** The product of matrices, entry by entry. *)
Theorem C120_product : forall A B C, wf A -> wf B -> (0 < nr A)%nat -> (0 < nc B)%nat -> mmul A B = Some C -> finite_mat C ->
  nc A = nr B /\ wf C /\ nr C = nr A /\ nc C = nc B /\ finite_mat A /\ finite_mat B /\
  forall i j, (i < nr A)%nat -> (j < nc B)%nat ->
    Rabs (rent C i j - sum (nc A) (fun l => rent A i l * rent B l j)) <= gam (nc A) * sum (nc A) (fun l => Rabs (rent A i l) * Rabs (rent B l j)) + und (nc A).
Proof.
  intros A B C WA WB HA HB E F. rewrite (wf_eq_mk A WA), (wf_eq_mk B WB) in E. destruct (Nat.eq_dec (nc A) (nr B)) as [Q|Q]; [|rewrite mmul_none in E by assumption; discriminate]. rewrite <- Q in E. rewrite mmul_mk in E. injection E as <-.
  unfold finite_mat in F. cbn [nr nc mk] in F. fold (mk (nr A) (nc B) (prod_entry (nc A) (ent A) (ent B))) in F.
  assert (D : forall i j, (i < nr A)%nat -> (j < nc B)%nat -> (forall l, (l < nc A)%nat -> finite (ent A i l) /\ finite (ent B l j)) /\ Rabs (val (prod_entry (nc A) (ent A) (ent B) i j) - sum (nc A) (fun l => val (ent A i l) * val (ent B l j))) <= gam (nc A) * sum (nc A) (fun l => Rabs (val (ent A i l) * val (ent B l j))) + und (nc A)).
  { intros i j Hi Hj. apply (dot_err (nc A) (ent A i) (fun l => ent B l j)). specialize (F i j Hi Hj). rewrite ent_mk in F by assumption. exact F. }
  split; [exact Q|]. split; [apply wf_mk|]. split; [reflexivity|]. split; [reflexivity|].
  split; [intros i l Hi Hl; now apply (proj1 (D i 0%nat Hi HB))|]. split; [intros l j Hl Hj; apply (proj1 (D 0%nat j HA Hj)); lia|].
  intros i j Hi Hj. unfold rent. rewrite ent_mk by assumption. rewrite (FloatProofs2.sum_ext _ (fun l => Rabs (val (ent A i l)) * Rabs (val (ent B l j))) (fun l => Rabs (val (ent A i l) * val (ent B l j)))) by (intros; now rewrite Rabs_mult). apply (D i j Hi Hj).
Qed.
Print Assumptions C120_product.
(** Sums, differences and multiples: one rounding for each entry. *)
Theorem C120_entrywise : forall A B C c, wf A -> wf B -> finite_mat C ->
  (madd A B = Some C -> nr C = nr A /\ nc C = nc A /\ forall i j, (i < nr A)%nat -> (j < nc A)%nat -> Rabs (rent C i j - (rent A i j + rent B i j)) <= uro * Rabs (rent A i j + rent B i j)) /\
  (msub A B = Some C -> nr C = nr A /\ nc C = nc A /\ forall i j, (i < nr A)%nat -> (j < nc A)%nat -> Rabs (rent C i j - (rent A i j - rent B i j)) <= uro * Rabs (rent A i j - rent B i j)) /\
  (mscale A c = Some C -> nr C = nr A /\ nc C = nc A /\ forall i j, (i < nr A)%nat -> (j < nc A)%nat -> Rabs (rent C i j - rent A i j * val c) <= uro * Rabs (rent A i j * val c) + tiny).
Proof.
  intros A B C c WA WB F.
  assert (Z : forall op, mzip op A B = Some C -> C = mk (nr A) (nc A) (fun i j => op (ent A i j) (ent B i j))).
  { intros op E. rewrite (wf_eq_mk A WA), (wf_eq_mk B WB) in E. destruct (Nat.eq_dec (nr A) (nr B)) as [Q1|Q1], (Nat.eq_dec (nc A) (nc B)) as [Q2|Q2]; try (rewrite mzip_none in E by tauto; discriminate). rewrite <- Q1, <- Q2, mzip_mk in E. now injection E as <-. }
  split; [|split].
  - intros E. apply Z in E. subst C. split; [reflexivity|]. split; [reflexivity|]. intros i j Hi Hj. specialize (F i j Hi Hj). unfold rent. rewrite !ent_mk in * by assumption. destruct (add_err _ _ F) as (_ & _ & _ & H). exact H.
  - intros E. apply Z in E. subst C. split; [reflexivity|]. split; [reflexivity|]. intros i j Hi Hj. specialize (F i j Hi Hj). unfold rent. rewrite !ent_mk in * by assumption. destruct (sub_err _ _ F) as (_ & _ & _ & H). exact H.
  - intros E. rewrite (wf_eq_mk A WA), mscale_mk in E. injection E as <-. split; [reflexivity|]. split; [reflexivity|]. intros i j Hi Hj. specialize (F i j Hi Hj). unfold rent. rewrite !ent_mk in * by assumption. destruct (mul_err _ _ F) as (_ & _ & H). exact H.
Qed.
Print Assumptions C120_entrywise.

(** C121.  The factors returned by [lu] multiply to a matrix near the input. *)
Theorem C121_lu : forall A L n, wf A -> nr A = n -> nc A = n -> lu A = Some L -> finite_mat L ->
  wf L /\ nr L = n /\ nc L = n /\ finite_mat A /\
  forall i j, (i < n)%nat -> (j < n)%nat ->
    Rabs (rent A i j - prod_entry n (lower_part (rent L)) (upper_part (rent L)) i j) <=
    gam (n - 1) * sum n (fun l => Rabs (lower_part (rent L) i l) * Rabs (upper_part (rent L) l j)) + und (n - 1) * (1 + Rabs (rent L j j)).
Proof.
  intros A L n WA RA CA E F. rewrite (wf_eq_mk A WA), RA, CA in E. destruct (lu_raw n (ent A) L E) as (Hn & -> & PV). set (G := lue (ent A) (n - 1)) in *.
  assert (FF : forall i j, (i < n)%nat -> (j < n)%nat -> finite (G i j)) by (intros i j Hi Hj; specialize (F i j Hi Hj); now rewrite ent_mk in F by assumption).
  split; [apply wf_mk|]. split; [reflexivity|]. split; [reflexivity|]. split; [intros i j Hi Hj; apply (lu_err (ent A) n FF PV); lia|].
  intros i j Hi Hj. destruct (lu_err (ent A) n FF PV i j Hi Hj) as (_ & H). fold G in H.
  assert (EL : forall a b, (a < n)%nat -> (b < n)%nat -> lower_part (rent (mk n n G)) a b = lower_part (fun i j => val (G i j)) a b /\ upper_part (rent (mk n n G)) a b = upper_part (fun i j => val (G i j)) a b) by (intros a b Ha Hb; unfold lower_part, upper_part, rent; now rewrite ent_mk by assumption).
  unfold prod_entry in *. rewrite (FloatProofs2.sum_ext n (fun l => tmul (lower_part (rent (mk n n G)) i l) (upper_part (rent (mk n n G)) l j)) (fun l => tmul (lower_part (fun i j => val (G i j)) i l) (upper_part (fun i j => val (G i j)) l j))) by (intros l Hl; destruct (EL i l Hi Hl) as [-> _], (EL l j Hl Hj) as [_ ->]; reflexivity).
  rewrite (FloatProofs2.sum_ext n (fun l => Rabs (lower_part (rent (mk n n G)) i l) * Rabs (upper_part (rent (mk n n G)) l j)) (fun l => Rabs (lower_part (fun i j => val (G i j)) i l) * Rabs (upper_part (fun i j => val (G i j)) l j))) by (intros l Hl; destruct (EL i l Hi Hl) as [-> _], (EL l j Hl Hj) as [_ ->]; reflexivity).
  unfold rent at 2. rewrite ent_mk by assumption. exact H.
Qed.
Print Assumptions C121_lu.

Lemma rsum_swap n m (f : nat -> nat -> R) : sum n (fun i => sum m (fun j => f i j)) = sum m (fun j => sum n (fun i => f i j)).
Proof. induction n as [|n IH]; [symmetry; now apply rsum_zero|]. rewrite rsum_S, IH, <- rsum_add. reflexivity. Qed.
Lemma combine_err n (a l u : nat -> nat -> R) (x y b w : nat -> R) g h i : 0 <= g -> 0 <= h -> (i < n)%nat -> (forall k, 0 <= w k) ->
  (forall j, (j < n)%nat -> Rabs (a i j - sum n (fun k => l i k * u k j)) <= g * sum n (fun k => Rabs (l i k) * Rabs (u k j)) + h * w j) ->
  Rabs (b i - sum n (fun k => l i k * y k)) <= g * sum n (fun k => Rabs (l i k) * Rabs (y k)) + h ->
  (forall k, (k < n)%nat -> Rabs (y k - sum n (fun j => u k j * x j)) <= g * sum n (fun j => Rabs (u k j) * Rabs (x j)) + h * w k) ->
  Rabs (sum n (fun j => a i j * x j) - b i) <= (3 * g + g * g) * sum n (fun k => Rabs (l i k) * sum n (fun j => Rabs (u k j) * Rabs (x j))) +
    h * (1 + sum n (fun j => w j * Rabs (x j)) + (1 + g) * sum n (fun k => Rabs (l i k) * w k)).
Proof.
  intros Hg Hh Hi Hw HA HB HY. set (W := fun k => sum n (fun j => Rabs (u k j) * Rabs (x j))). set (LW := sum n (fun k => Rabs (l i k) * W k)).
  assert (WP : forall k, 0 <= W k) by (intros k; apply rsum_pos; intros; apply Rmult_le_pos; apply Rabs_pos).
  assert (E1 : sum n (fun j => a i j * x j) - b i = sum n (fun j => (a i j - sum n (fun k => l i k * u k j)) * x j) + sum n (fun k => l i k * (sum n (fun j => u k j * x j) - y k)) + (sum n (fun k => l i k * y k) - b i)).
  { assert (X : sum n (fun j => sum n (fun k => l i k * u k j) * x j) = sum n (fun k => l i k * sum n (fun j => u k j * x j))).
    { rewrite (FloatProofs2.sum_ext n _ (fun j => sum n (fun k => l i k * u k j * x j))) by (intros j _; rewrite (Rmult_comm _ (x j)), <- rsum_mul; apply FloatProofs2.sum_ext; intros; ring). rewrite rsum_swap. apply FloatProofs2.sum_ext. intros k _. rewrite <- rsum_mul. apply FloatProofs2.sum_ext. intros; ring. }
    assert (Y : sum n (fun j => (a i j - sum n (fun k => l i k * u k j)) * x j) + sum n (fun j => sum n (fun k => l i k * u k j) * x j) = sum n (fun j => a i j * x j)) by (rewrite <- rsum_add; apply FloatProofs2.sum_ext; intros; ring).
    assert (V : sum n (fun k => l i k * (sum n (fun j => u k j * x j) - y k)) + sum n (fun k => l i k * y k) = sum n (fun k => l i k * sum n (fun j => u k j * x j))) by (rewrite <- rsum_add; apply FloatProofs2.sum_ext; intros; ring).
    lra. }
  rewrite E1. eapply Rle_trans; [apply Rabs_triang|]. eapply Rle_trans; [apply Rplus_le_compat_r, Rabs_triang|].
  assert (B1 : Rabs (sum n (fun j => (a i j - sum n (fun k => l i k * u k j)) * x j)) <= g * LW + h * sum n (fun j => w j * Rabs (x j))).
  { eapply Rle_trans; [apply rsum_abs|]. replace (g * LW + h * sum n (fun j => w j * Rabs (x j))) with (sum n (fun j => (g * sum n (fun k => Rabs (l i k) * Rabs (u k j)) + h * w j) * Rabs (x j))).
    - apply rsum_le. intros j Hj. rewrite Rabs_mult. apply Rmult_le_compat_r; [apply Rabs_pos|now apply HA].
    - rewrite (FloatProofs2.sum_ext n _ (fun j => g * sum n (fun k => Rabs (l i k) * Rabs (u k j) * Rabs (x j)) + h * (w j * Rabs (x j)))) by (intros j _; rewrite (FloatProofs2.sum_ext n (fun k => Rabs (l i k) * Rabs (u k j) * Rabs (x j)) (fun k => Rabs (x j) * (Rabs (l i k) * Rabs (u k j)))) by (intros; ring); rewrite rsum_mul; ring).
      rewrite rsum_add, !rsum_mul. f_equal. f_equal. rewrite rsum_swap. unfold LW, W. apply FloatProofs2.sum_ext. intros k _. rewrite <- rsum_mul. apply FloatProofs2.sum_ext. intros; ring. }
  assert (B2 : Rabs (sum n (fun k => l i k * (sum n (fun j => u k j * x j) - y k))) <= g * LW + h * sum n (fun k => Rabs (l i k) * w k)).
  { eapply Rle_trans; [apply rsum_abs|]. unfold LW. rewrite <- !rsum_mul, <- rsum_add. apply rsum_le. intros k Hk. rewrite Rabs_mult, Rabs_minus_sym. replace (g * (Rabs (l i k) * W k) + h * (Rabs (l i k) * w k)) with (Rabs (l i k) * (g * W k + h * w k)) by ring. apply Rmult_le_compat_l; [apply Rabs_pos|now apply HY]. }
  assert (B3 : Rabs (sum n (fun k => l i k * y k) - b i) <= g * ((1 + g) * LW + h * sum n (fun k => Rabs (l i k) * w k)) + h).
  { rewrite Rabs_minus_sym. eapply Rle_trans; [exact HB|]. apply Rplus_le_compat_r. apply Rmult_le_compat_l; [exact Hg|]. unfold LW. rewrite <- !rsum_mul, <- rsum_add. apply rsum_le. intros k Hk.
    replace ((1 + g) * (Rabs (l i k) * W k) + h * (Rabs (l i k) * w k)) with (Rabs (l i k) * (W k + (g * W k + h * w k))) by ring. apply Rmult_le_compat_l; [apply Rabs_pos|].
    pose proof (abs_le_add (y k) (sum n (fun j => u k j * x j))) as T. specialize (HY k Hk). change (sum n (fun j => Rabs (u k j) * Rabs (x j))) with (W k) in HY. assert (XW : Rabs (sum n (fun j => u k j * x j)) <= W k) by (eapply Rle_trans; [apply rsum_abs|]; unfold W; apply rsum_le; intros; rewrite Rabs_mult; apply Rle_refl). lra. }
  change (sum n (fun k => Rabs (l i k) * sum n (fun j => Rabs (u k j) * Rabs (x j)))) with LW. lra.
Qed.
(** C122.  The vector returned by [solve] leaves a small residual. *)
Theorem C122_solve : forall A B X L n, wf A -> wf B -> nr A = n -> nc A = n -> nr B = n -> (0 < nc B)%nat ->
  solve A B = Some X -> lu A = Some L -> finite_mat L -> (forall i, (i < n)%nat -> finite (ent X i 0)) ->
  finite_mat A /\ (forall i, (i < n)%nat -> finite (ent B i 0)) /\
  forall i, (i < n)%nat ->
    Rabs (sum n (fun j => rent A i j * rent X j 0) - rent B i 0) <=
    (3 * gam n + gam n * gam n) * sum n (fun k => Rabs (lower_part (rent L) i k) * sum n (fun j => Rabs (upper_part (rent L) k j) * Rabs (rent X j 0))) +
    und n * (1 + sum n (fun j => (1 + Rabs (rent L j j)) * Rabs (rent X j 0)) + (1 + gam n) * sum n (fun k => Rabs (lower_part (rent L) i k) * (1 + Rabs (rent L k k)))).
Proof.
  intros A B X L n WA WB RA CA RB HB E EL FL FX. destruct (C121_lu A L n WA RA CA EL FL) as (WL & RL & CL & FA & EA).
  rewrite (wf_eq_mk A WA), RA, CA in E, EL. rewrite (wf_eq_mk B WB), RB in E. destruct (solve_raw n (nc B) (ent A) (ent B) X HB E) as (Hn & EL' & y & x & Hy & Hx & EX). rewrite EL in EL'. injection EL' as EL'.
  assert (XX : forall i, (i < n)%nat -> ent X i 0 = x i) by (intros i Hi; rewrite EX, ent_mk by assumption; reflexivity). set (G := lue (ent A) (n - 1)) in *.
  assert (LL : forall i j, (i < n)%nat -> (j < n)%nat -> ent L i j = G i j) by (intros i j Hi Hj; now rewrite EL', ent_mk by assumption).
  assert (FG : forall i j, (i < n)%nat -> (j < n)%nat -> finite (G i j)) by (intros i j Hi Hj; rewrite <- LL by assumption; apply FL; lia).
  assert (Fx : forall i, (i < n)%nat -> finite (x i)) by (intros i Hi; rewrite <- XX by assumption; now apply FX).
  pose proof (backward_err n G FG y x Hx Fx) as BE. pose proof (fun i Hi => forward_err n G (fun i => ent B i 0) y Hy i Hi (proj1 (BE i Hi))) as FE.
  split; [exact FA|]. split; [intros i Hi; apply (FE i Hi)|]. intros i Hi.
  assert (PL : forall a b, (a < n)%nat -> (b < n)%nat -> lower_part (rent L) a b = lower_part (fun i j => val (G i j)) a b /\ upper_part (rent L) a b = upper_part (fun i j => val (G i j)) a b) by (intros a b Ha Hb; unfold lower_part, upper_part, rent; now rewrite LL by assumption).
  apply (combine_err n (rent A) (lower_part (rent L)) (upper_part (rent L)) (fun j => rent X j 0) (fun k => val (y k)) (fun i => rent B i 0) (fun k => 1 + Rabs (rent L k k)) (gam n) (und n) i).
  - apply gam_pos.
  - apply und_pos.
  - exact Hi.
  - intros k. pose proof (Rabs_pos (rent L k k)). lra.
  - intros j Hj. eapply Rle_trans; [apply (EA i j Hi Hj)|]. pose proof (gam_le (n - 1) n ltac:(lia)). pose proof (und_le (n - 1) n ltac:(lia)). apply Rplus_le_compat; apply Rmult_le_compat_r; try assumption; [apply rsum_pos; intros; apply Rmult_le_pos; apply Rabs_pos|pose proof (Rabs_pos (rent L j j)); lra].
  - destruct (FE i Hi) as (_ & H). rewrite (FloatProofs2.sum_ext n (fun k => lower_part (rent L) i k * val (y k)) (fun k => lower_part (fun i j => val (G i j)) i k * val (y k))) by (intros k Hk; now destruct (PL i k Hi Hk) as [-> _]).
    rewrite (FloatProofs2.sum_ext n (fun k => Rabs (lower_part (rent L) i k) * Rabs (val (y k))) (fun k => Rabs (lower_part (fun i j => val (G i j)) i k) * Rabs (val (y k)))) by (intros k Hk; now destruct (PL i k Hi Hk) as [-> _]).
    eapply Rle_trans; [exact H|]. pose proof (gam_le (n - 1) n ltac:(lia)). pose proof (und_le (n - 1) n ltac:(lia)). apply Rplus_le_compat; [|assumption]. apply Rmult_le_compat_r; [apply rsum_pos; intros; apply Rmult_le_pos; apply Rabs_pos|assumption].
  - intros k Hk. destruct (BE k Hk) as (_ & H). rewrite (FloatProofs2.sum_ext n (fun j => upper_part (rent L) k j * rent X j 0) (fun j => upper_part (fun i j => val (G i j)) k j * val (x j))) by (intros j Hj; destruct (PL k j Hk Hj) as [_ ->]; unfold rent; now rewrite XX by assumption).
    rewrite (FloatProofs2.sum_ext n (fun j => Rabs (upper_part (rent L) k j) * Rabs (rent X j 0)) (fun j => Rabs (upper_part (fun i j => val (G i j)) k j) * Rabs (val (x j)))) by (intros j Hj; destruct (PL k j Hk Hj) as [_ ->]; unfold rent; now rewrite XX by assumption).
    unfold rent. rewrite LL by assumption. exact H.
Qed.
Print Assumptions C122_solve.
(** The relative error of [k] roundings is less than [2 k] units, whatever size fits in a memory. *)
Theorem C120_gam : forall k, INR k * uro <= / 2 -> 0 <= gam k <= 2 * INR k * uro.
Proof. intros k H. split; [apply gam_pos|now apply gam_linear]. Qed.
Print Assumptions C120_gam.
(** Matrices with at most 2^23 columns and entries of size at most 2^500 are multiplied without overflow. *)
Theorem C120_no_overflow : forall A B, wf A -> wf B -> nc A = nr B -> (Z.of_nat (nc A) <= 2 ^ 23)%Z -> finite_mat A -> finite_mat B ->
  (forall i j, (i < nr A)%nat -> (j < nc A)%nat -> Rabs (rent A i j) <= 2 ^ 500) -> (forall i j, (i < nr B)%nat -> (j < nc B)%nat -> Rabs (rent B i j) <= 2 ^ 500) ->
  exists C, mmul A B = Some C /\ finite_mat C.
Proof.
  intros A B WA WB Q Hn FA FB BA BB. rewrite (wf_eq_mk A WA), (wf_eq_mk B WB). rewrite <- Q, mmul_mk. eexists. split; [reflexivity|]. intros i j Hi Hj. cbn [nr nc mk] in Hi, Hj. rewrite ent_mk by assumption. unfold prod_entry.
  apply dot_finite; [exact Hn|]. intros l Hl. split; [now apply FA|]. split; [apply FB; lia|]. split; [now apply BA|apply BB; lia].
Qed.
Print Assumptions C120_no_overflow.
(** No division panics: a square matrix that is not empty always has a result, finite or not. *)
Theorem C121_total : forall A B, wf A -> wf B -> nr A = nc A -> (0 < nr A)%nat -> nr B = nr A -> (0 < nc B)%nat ->
  (exists L, lu A = Some L) /\ (exists d, det A = Some d) /\ (exists X, solve A B = Some X).
Proof.
  intros A B WA WB Q Hn RB CB. rewrite (wf_eq_mk A WA), (wf_eq_mk B WB), <- Q, RB. rewrite lu_total by exact Hn. split; [eexists; reflexivity|]. split; [|now apply solve_total].
  unfold det. cbn [nr nc mk]. rewrite Nat.eqb_refl. fold (mk (nr A) (nr A) (ent A)). rewrite lu_total by exact Hn. cbn [obind nr mk]. fold (mk (nr A) (nr A) (lue (ent A) (nr A - 1))).
  rewrite (omapM_some _ (fun i => lue (ent A) (nr A - 1) i i)); [eexists; reflexivity|]. intros i Hi. apply in_seq in Hi. now rewrite mget_in by lia.
Qed.
Print Assumptions C121_total.
(** C123.  The number returned by [det] is, up to [n - 1] roundings, the determinant of a matrix near the input. *)
Theorem C123_det : forall A L d n, wf A -> nr A = n -> nc A = n -> det A = Some d -> lu A = Some L -> finite d -> finite_mat L ->
  (forall k, (0 < k <= n)%nat -> least_normal < Rabs (val (fold_left f_mul (map (fun i => ent L i i) (seq 0 k)) f_one))) ->
  exists A' : nat -> nat -> R,
    (forall i j, (i < n)%nat -> (j < n)%nat -> Rabs (rent A i j - A' i j) <= gam (n - 1) * sum n (fun l => Rabs (lower_part (rent L) i l) * Rabs (upper_part (rent L) l j)) + und (n - 1) * (1 + Rabs (rent L j j))) /\
    Rabs (val d - determinant n A') <= gam (n - 1) * Rabs (determinant n A').
Proof.
  intros A L d n WA RA CA ED EL Fd FL N. destruct (C121_lu A L n WA RA CA EL FL) as (WL & RL & CL & _ & H). exists (prod_entry n (lower_part (rent L)) (upper_part (rent L))). split; [exact H|].
  rewrite det_LU. unfold det in ED. rewrite RA, CA, Nat.eqb_refl, EL in ED. cbn [obind] in ED. rewrite (omapM_some _ (fun i => ent L i i)) in ED.
  2: { intros i Hi. apply in_seq in Hi. rewrite (wf_eq_mk L WL) at 1. now rewrite mget_in by lia. }
  cbn [obind] in ED. rewrite RL in ED. injection ED as <-. change (@tmul binary64 ops_f64) with f_mul in *. change (@t1 binary64 ops_f64) with f_one in *.
  assert (FP : forall k, fold_left f_mul (map (fun i => ent L i i) (seq 0 k)) f_one = fprod (fun i => ent L i i) k).
  { induction k as [|k IH]; [reflexivity|]. now rewrite seq_S, map_app, fold_left_app, IH. }
  rewrite FP in *. apply prod_err; [exact Fd|]. intros k Hk. rewrite <- FP. now apply N.
Qed.
Print Assumptions C123_det.
(** A zero pivot: the determinant of a regular matrix comes back as not-a-number. *)
Definition swap2 : mat binary64 := mk 2 2 (fun i j => if (i =? j)%nat then f_zero else f_one).
Definition C123_claim : Prop := forall A d n, wf A -> nr A = n -> nc A = n -> finite_mat A -> det A = Some d -> finite d.
Theorem C123_nan_refuted : ~ C123_claim.
Proof.
  intros H. destruct (C121_total swap2 swap2 (wf_mk _ _ _) (wf_mk _ _ _) eq_refl) as (_ & (d & E) & _); [cbn; lia|reflexivity|cbn; lia|].
  assert (F : finite d) by (apply (H swap2 d 2%nat (wf_mk _ _ _) eq_refl eq_refl); [|exact E]; intros i j Hi Hj; cbn in Hi, Hj; unfold swap2; rewrite ent_mk by assumption; destruct (i =? j)%nat; reflexivity).
  assert (G : match det swap2 with Some d => Flocq.IEEE754.BinarySingleNaN.is_finite d | None => true end = false) by (vm_compute; reflexivity). rewrite E in G. unfold finite in F. congruence.
Qed.
Print Assumptions C123_nan_refuted.

(** The hypotheses are met by a matrix whose factors are not exact. *)
Definition fint (z : Z) : binary64 := Flocq.IEEE754.BinarySingleNaN.binary_normalize 53 1024 prec_gt_0_53 prec_lt_emax_53 Flocq.IEEE754.BinarySingleNaN.mode_NE z 0 false.
Definition exA : mat binary64 := mk 3 3 (fun i j => fint (nth j (nth i [[3; 1; 2]; [1; 7; 1]; [2; 1; 5]] []) 0)%Z).
Definition exB : mat binary64 := mk 3 1 (fun i _ => fint (nth i [1; 2; 4] 0)%Z).
Definition fin_b (M : mat binary64) : bool := forallb (fun i => forallb (fun j => Flocq.IEEE754.BinarySingleNaN.is_finite (ent M i j)) (seq 0 (nc M))) (seq 0 (nr M)).
Lemma fin_b_ok M : fin_b M = true -> finite_mat M.
Proof. unfold fin_b. intros H i j Hi Hj. rewrite forallb_forall in H. specialize (H i ltac:(apply in_seq; lia)). rewrite forallb_forall in H. apply (H j). apply in_seq. lia. Qed.
Example C120_example : exists C, mmul exA exA = Some C /\ finite_mat C /\ exists s, mdot (mk 1 3 (ent exA)) exB = Some s /\ finite s.
Proof.
  assert (H : match mmul exA exA, mdot (mk 1 3 (ent exA)) exB with Some C, Some s => fin_b C && Flocq.IEEE754.BinarySingleNaN.is_finite s | _, _ => false end = true) by (vm_compute; reflexivity).
  destruct (mmul exA exA) as [C|]; [|discriminate H]. destruct (mdot _ exB) as [s|]; [|discriminate H]. apply andb_true_iff in H. destruct H as [H1 H2]. exists C. split; [reflexivity|]. split; [now apply fin_b_ok|]. exists s. split; [reflexivity|exact H2].
Qed.
Example C121_C122_example : exists L X, lu exA = Some L /\ finite_mat L /\ solve exA exB = Some X /\ finite_mat X.
Proof.
  assert (H : match lu exA, solve exA exB with Some L, Some X => fin_b L && fin_b X | _, _ => false end = true) by (vm_compute; reflexivity).
  destruct (lu exA) as [L|]; [|discriminate H]. destruct (solve exA exB) as [X|]; [|discriminate H]. apply andb_true_iff in H. destruct H as [H1 H2]. exists L, X. repeat split; now apply fin_b_ok.
Qed.
Example C123_example : exists L d, lu exA = Some L /\ finite_mat L /\ det exA = Some d /\ finite d /\
  forall k, (0 < k <= 3)%nat -> least_normal < Rabs (val (fold_left f_mul (map (fun i => ent L i i) (seq 0 k)) f_one)).
Proof.
  assert (H : match lu exA, det exA with Some L, Some d => fin_b L && Flocq.IEEE754.BinarySingleNaN.is_finite d &&
    forallb (fun k => let x := fold_left f_mul (map (fun i => ent L i i) (seq 0 k)) f_one in Flocq.IEEE754.BinarySingleNaN.is_finite x && Flocq.IEEE754.BinarySingleNaN.Bleb f_one (Flocq.IEEE754.BinarySingleNaN.Babs x)) [1; 2; 3]%nat | _, _ => false end = true) by (vm_compute; reflexivity).
  destruct (lu exA) as [L|]; [|discriminate H]. destruct (det exA) as [d|]; [|discriminate H]. apply andb_true_iff in H. destruct H as [H H3]. apply andb_true_iff in H. destruct H as [H1 H2].
  exists L, d. split; [reflexivity|]. split; [now apply fin_b_ok|]. split; [reflexivity|]. split; [exact H2|]. intros k Hk. rewrite forallb_forall in H3. specialize (H3 k ltac:(cbn; lia)). cbn zeta in H3. apply andb_true_iff in H3. destruct H3 as [F B].
  set (x := fold_left f_mul (map (fun i => ent L i i) (seq 0 k)) f_one) in *. rewrite Flocq.IEEE754.BinarySingleNaN.Bleb_correct in B; [|reflexivity|now rewrite Flocq.IEEE754.BinarySingleNaN.is_finite_Babs].
  rewrite Flocq.IEEE754.BinarySingleNaN.B2R_Babs in B. change (Flocq.IEEE754.BinarySingleNaN.B2R f_one) with (val f_one) in B. rewrite val_one in B. apply Rlt_le_trans with 1.
  - unfold least_normal. rewrite <- Rinv_1. apply Rinv_lt_contravar; [rewrite Rmult_1_l; apply pow_lt; lra|]. change 1 with (2 ^ 0) at 1. apply Rlt_pow; [lra|lia].
  - destruct (Flocq.Core.Raux.Rle_bool_spec 1 (Rabs (Flocq.IEEE754.BinarySingleNaN.B2R x))) as [G|G]; [exact G|discriminate B].
Qed.
