(** C78, C79, C81: Householder vectors, plane rotations, norms, over the real numbers. *)
From Coq Require Import List Arith Bool Lia ZifyBool Reals Lra.
From Verif Require Import PidModel MatModel MatSpec MatProofs MatProofs2 SnfModel RankModel LuModel LuSpec LuProofs2 LuProofs3 NumModel NumSpec NumProofs HouseProofs.
Import ListNotations.
Open Scope R_scope.

(** C78.  [householder_vec x] returns, for every non-empty column vector, a vector [v] with [v_0 = 1] and a number [b].  Unless all components of
    [x] but the first are zero and the first is negative, [I - b v v^t] is orthogonal and maps [x] to [|x| e_0]. *)
Theorem C78_householder_partial : forall x n, wf x -> nr x = n -> nc x = 1%nat -> (0 < n)%nat ->
  exists v b, householder_vec x = Some (v, b) /\ wf v /\ nr v = n /\ nc v = 1%nat /\ ent v 0 0 = 1 /\
    (~ (ent x 0 0 < 0 /\ forall i, (0 < i < n)%nat -> ent x i 0 = 0) ->
     orthogonal n (reflector (column (ent v) 0) b) /\
     forall i, (i < n)%nat -> apply_mat n (reflector (column (ent v) 0) b) (column (ent x) 0) i = if (i =? 0)%nat then norm2 n (column (ent x) 0) else 0).
Proof.
  intros x n W RX CX Hn. set (f := ent x). rewrite (wf_eq_mk x W), RX, CX. fold f. eexists _, _. split; [now apply householder_some|]. split; [apply wf_mk|]. split; [reflexivity|]. split; [reflexivity|].
  split; [rewrite ent_mk by lia; apply hv_v0|]. intros G. set (y := column f 0). change (~ bad_vec n y) in G.
  assert (forall i, (i < n)%nat -> column (ent (mk n 1 (fun i _ : nat => hv_v n y i))) 0 i = hv_v n y i) as E by (intros i Hi; unfold column; now rewrite ent_mk by lia).
  assert (forall i j, (i < n)%nat -> (j < n)%nat -> reflector (column (ent (mk n 1 (fun i _ : nat => hv_v n y i))) 0) (hv_b n y) i j = reflector (hv_v n y) (hv_b n y) i j) as F by (intros i j Hi Hj; unfold reflector; now rewrite !E by assumption).
  split.
  - apply reflector_orth. destruct (hv_good n y Hn G) as [K|K]; [left|right; exact K]. rewrite <- K. f_equal. apply inner_ext; exact E.
  - intros i Hi. rewrite reflector_apply by exact Hi. rewrite (inner_ext n _ (hv_v n y) y y) by (auto || (intros; reflexivity)). rewrite E by exact Hi. now apply hv_reflects.
Qed.
(** What [householder_vec] would have to do. *)
Definition C78_claim : Prop := forall x n, wf x -> nr x = n -> nc x = 1%nat -> (0 < n)%nat ->
  exists v b, householder_vec x = Some (v, b) /\ orthogonal n (reflector (column (ent v) 0) b).
Theorem C78_refuted : ~ C78_claim.
Proof.
  intros H. destruct (H (mk 2 1 (fun i _ => if (i =? 0)%nat then -1 else 0)) 2%nat (wf_mk _ _ _) eq_refl eq_refl ltac:(lia)) as (v & b & E & O).
  rewrite householder_some in E by lia. injection E as <- <-.
  destruct (hv_bad 2 (column (fun i _ => if (i =? 0)%nat then -1 else 0) 0)) as (B & V); [lia|split; [cbn; lra|intros i Hi; unfold column; now replace (i =? 0)%nat with false by lia]|].
  specialize (O 0%nat 0%nat ltac:(lia) ltac:(lia)). destruct O as (O & _). unfold prod_entry, transposed, reflector, column in O. cbn [sum] in O. rewrite !ent_mk in O by lia.
  change (column (fun i _ : nat => if (i =? 0)%nat then -1 else 0) 0) with (fun i : nat => if (i =? 0)%nat then -1 else 0) in *. unfold column in *.
  rewrite B in O. rewrite !V in O by lia. cbn in O. lra.
Qed.
(** In the remaining case the matrix is [diag(3, 1, .., 1)], whatever the vector. *)
Theorem C78_bad_case : forall x n, wf x -> nr x = n -> nc x = 1%nat -> (0 < n)%nat -> ent x 0 0 < 0 -> (forall i, (0 < i < n)%nat -> ent x i 0 = 0) ->
  exists v b, householder_vec x = Some (v, b) /\ forall i j, (i < n)%nat -> (j < n)%nat -> reflector (column (ent v) 0) b i j = if (i =? j)%nat then (if (i =? 0)%nat then 3 else 1) else 0.
Proof.
  intros x n W RX CX Hn B1 B2. set (f := ent x) in *. rewrite (wf_eq_mk x W), RX, CX. fold f. eexists _, _. split; [now apply householder_some|].
  destruct (hv_bad n (column f 0) Hn (conj B1 B2)) as (B & V). intros i j Hi Hj. unfold reflector. rewrite B.
  assert (forall i, (i < n)%nat -> column (ent (mk n 1 (fun i _ : nat => hv_v n (column f 0) i))) 0 i = id_entry i 0) as E by (intros k Hk; unfold column at 1; rewrite ent_mk by lia; now apply V).
  rewrite !E by assumption. unfold id_entry. cbn.
  destruct (Nat.eqb_spec i 0), (Nat.eqb_spec j 0), (Nat.eqb_spec i j); subst; try lia; cbn; ring.
Qed.
Theorem C78_panics : forall x, nc x <> 1%nat \/ nr x = 0%nat -> householder_vec x = None.
Proof.
  intros x H. unfold householder_vec. destruct (Nat.ltb_spec 1 (nc x)); [reflexivity|]. unfold msub_view.
  destruct ((1 <=? nr x) && (nr x <=? nr x) && (0 <=? 1) && (1 <=? nc x))%nat eqn:E; [exfalso; lia|reflexivity].
Qed.

(** C79.  [givens_rotation a b] returns the cosine and the sine of an angle; the rotation annihilates [b] unless [0 < |b| < 10^-12]. *)
Theorem C79_givens : forall a b, exists c s, givens_rotation a b = Some (c, s) /\ c * c + s * s = 1 /\
  (b = 0 \/ / 1000000000000 <= Rabs b -> s * a + c * b = 0) /\
  (b <> 0 -> Rabs b < / 1000000000000 -> c = 1 /\ s = 0 /\ s * a + c * b = b).
Proof.
  intros a b. destruct (givens_some a b) as (c & s & E & N & S & L). exists c, s. split; [exact E|]. split; [exact N|]. split.
  - intros [->|H]; [|now apply L]. assert (Rabs 0 < / 1000000000000) as K by (rewrite Rabs_R0; apply Rinv_0_lt_compat; lra). destruct (S K) as (-> & ->). ring.
  - intros _ H. destruct (S H) as (-> & ->). repeat split; ring.
Qed.
(** The length is kept: the other component becomes [+-sqrt (a^2 + b^2)]. *)
Theorem C79_length : forall a b c s, givens_rotation a b = Some (c, s) -> b = 0 \/ / 1000000000000 <= Rabs b -> (c * a - s * b) * (c * a - s * b) = a * a + b * b.
Proof.
  intros a b c s E H. destruct (C79_givens a b) as (c' & s' & E' & N & Z & _). rewrite E in E'. injection E' as <- <-. specialize (Z H).
  transitivity ((c * c + s * s) * (a * a + b * b) - (s * a + c * b) * (s * a + c * b)); [ring|]. rewrite N, Z. ring.
Qed.

(** C81.  The norms. *)
Lemma fold_sumR (f : nat -> R) n : fold_left Rplus (map f (seq 0 n)) 0 = sum n f.
Proof. apply (fold_sum (O := ops_R)). Qed.
Lemma fold_max_largest (f : nat -> R) n : (forall i, (i < n)%nat -> 0 <= f i) -> largest n f (fold_left (fun mx v => if rleb mx v then v else mx) (map f (seq 0 n)) 0).
Proof.
  induction n as [|n IH]; intros P; [split; [intros; lia|left; split; reflexivity]|]. rewrite seq_S, map_app, fold_left_app. cbn [map fold_left Nat.add].
  destruct (IH ltac:(intros; apply P; lia)) as (U & L). set (x := fold_left _ _ _) in *. destruct (rleb_spec x (f n)) as [G|G].
  - split; [|right; exists n; split; [lia|reflexivity]]. intros i Hi. destruct (Nat.eq_dec i n) as [->|]; [lra|]. apply Rle_trans with x; [apply U; lia|exact G].
  - split; [|destruct L as [(-> & E)|(i & Hi & E)]; [exfalso; pose proof (P 0%nat ltac:(lia)); lra|right; exists i; split; [lia|exact E]]].
    intros i Hi. destruct (Nat.eq_dec i n) as [->|]; [lra|apply U; lia].
Qed.
Theorem C81_norms : forall M n m, wf M -> nr M = n -> nc M = m ->
  (exists x, one_norm M = Some x /\ largest m (fun j => sum n (fun i => Rabs (ent M i j))) x) /\
  (exists x, inf_norm M = Some x /\ largest n (fun i => sum m (fun j => Rabs (ent M i j))) x) /\
  frobenius_norm M = Some (sqrt (sum n (fun i => sum m (fun j => ent M i j * ent M i j)))) /\
  two_norm M = (if (m =? 1)%nat then Some (norm2 n (column (ent M) 0)) else None).
Proof.
  intros M n m W RM CM. set (A := ent M). rewrite (wf_eq_mk M W), RM, CM. fold A. split; [|split; [|split]].
  - unfold one_norm. cbn [nr nc mk]. fold (mk n m A).
    rewrite (omapM_seq (fun j => sum n (fun i => Rabs (A i j)))).
    2: { intros j Hj. rewrite (omapM_seq (fun i => Rabs (A i j))) by (intros i Hi; rewrite mget_in by assumption; reflexivity). cbn [obind]. now rewrite fold_sumR. }
    cbn [obind]. eexists. split; [reflexivity|]. apply fold_max_largest. intros j Hj. apply rsum_nonneg. intros. apply Rabs_pos.
  - unfold inf_norm. cbn [nr nc mk]. fold (mk n m A).
    rewrite (omapM_seq (fun i => sum m (fun j => Rabs (A i j)))).
    2: { intros i Hi. rewrite (omapM_seq (fun j => Rabs (A i j))) by (intros j Hj; rewrite mget_in by assumption; reflexivity). cbn [obind]. now rewrite fold_sumR. }
    cbn [obind]. eexists. split; [reflexivity|]. apply fold_max_largest. intros j Hj. apply rsum_nonneg. intros. apply Rabs_pos.
  - unfold frobenius_norm. cbn [nr nc mk]. fold (mk n m A).
    rewrite (omapM_seq (fun i => sum m (fun j => A i j * A i j))).
    2: { intros i Hi. rewrite (omapM_seq (fun j => A i j * A i j)) by (intros j Hj; rewrite mget_in by assumption; reflexivity). cbn [obind]. now rewrite fold_sumR. }
    cbn [obind]. now rewrite fold_sumR.
  - destruct (Nat.eqb_spec m 1) as [->|N]; [apply two_norm_mk|]. unfold two_norm. cbn [nc mk]. now replace (m =? 1)%nat with false by lia.
Qed.
(** They are norms: zero only for the zero matrix, homogeneous, and subadditive; [one_norm] and [inf_norm] are also submultiplicative. *)
Lemma largest_nonneg n f x : (forall i, (i < n)%nat -> 0 <= f i) -> largest n f x -> 0 <= x.
Proof. intros P (_ & [(_ & ->)|(i & Hi & ->)]); [lra|now apply P]. Qed.
Lemma largest_le n f x y : 0 <= y -> largest n f x -> (forall i, (i < n)%nat -> f i <= y) -> x <= y.
Proof. intros P (_ & [(_ & ->)|(i & Hi & ->)]) H; [exact P|now apply H]. Qed.
Lemma rsum_abs n (f : nat -> R) : Rabs (sum n f) <= sum n (fun i => Rabs (f i)).
Proof. induction n as [|n IH]; [cbn; rewrite Rabs_R0; lra|]. rewrite !rsum_S. eapply Rle_trans; [apply Rabs_triang|lra]. Qed.
Theorem C81_triangle : forall A B C n m a b c, wf A -> wf B -> nr A = n -> nc A = m -> nr B = n -> nc B = m -> madd A B = Some C ->
  (one_norm A = Some a -> one_norm B = Some b -> one_norm C = Some c -> c <= a + b) /\
  (inf_norm A = Some a -> inf_norm B = Some b -> inf_norm C = Some c -> c <= a + b).
Proof.
  intros A B C n m a b c WA WB RA CA RB CB E. set (f := ent A). set (g := ent B). pose proof (wf_eq_mk A WA) as EA. rewrite RA, CA in EA. fold f in EA. pose proof (wf_eq_mk B WB) as EB. rewrite RB, CB in EB. fold g in EB.
  rewrite EA, EB in E. unfold madd in E. rewrite mzip_mk in E. injection E as EC. set (h := fun i j => tadd (f i j) (g i j)). change (mk n m h = C) in EC. subst C.
  destruct (C81_norms A n m WA RA CA) as ((a1 & Ea1 & La1) & (a2 & Ea2 & La2) & _). destruct (C81_norms B n m WB RB CB) as ((b1 & Eb1 & Lb1) & (b2 & Eb2 & Lb2) & _).
  destruct (C81_norms (mk n m h) n m (wf_mk _ _ _) eq_refl eq_refl) as ((c1 & Ec1 & Lc1) & (c2 & Ec2 & Lc2) & _). fold f in La1, La2. fold g in Lb1, Lb2. split.
  - intros E1 E2 E3. rewrite Ea1 in E1. rewrite Eb1 in E2. rewrite Ec1 in E3. injection E1 as <-. injection E2 as <-. injection E3 as <-.
    assert (0 <= a1) by (eapply largest_nonneg; [|exact La1]; intros; apply rsum_nonneg; intros; apply Rabs_pos). assert (0 <= b1) by (eapply largest_nonneg; [|exact Lb1]; intros; apply rsum_nonneg; intros; apply Rabs_pos).
    eapply largest_le; [|exact Lc1|]; [lra|]. intros j Hj. pose proof (proj1 La1 j Hj) as Ka. pose proof (proj1 Lb1 j Hj) as Kb. cbn beta in Ka, Kb. apply Rle_trans with (sum n (fun i => Rabs (f i j) + Rabs (g i j))); [|rewrite rsum_add; lra].
    apply rsum_le. intros i Hi. rewrite ent_mk by assumption. unfold h. apply Rabs_triang.
  - intros E1 E2 E3. rewrite Ea2 in E1. rewrite Eb2 in E2. rewrite Ec2 in E3. injection E1 as <-. injection E2 as <-. injection E3 as <-.
    assert (0 <= a2) by (eapply largest_nonneg; [|exact La2]; intros; apply rsum_nonneg; intros; apply Rabs_pos). assert (0 <= b2) by (eapply largest_nonneg; [|exact Lb2]; intros; apply rsum_nonneg; intros; apply Rabs_pos).
    eapply largest_le; [|exact Lc2|]; [lra|]. intros i Hi. pose proof (proj1 La2 i Hi) as Ka. pose proof (proj1 Lb2 i Hi) as Kb. cbn beta in Ka, Kb. apply Rle_trans with (sum m (fun j => Rabs (f i j) + Rabs (g i j))); [|rewrite rsum_add; lra].
    apply rsum_le. intros j Hj. rewrite ent_mk by assumption. unfold h. apply Rabs_triang.
Qed.
Theorem C81_submultiplicative : forall A B C n k m a b c, wf A -> wf B -> nr A = n -> nc A = k -> nr B = k -> nc B = m -> mmul A B = Some C ->
  (one_norm A = Some a -> one_norm B = Some b -> one_norm C = Some c -> c <= a * b) /\
  (inf_norm A = Some a -> inf_norm B = Some b -> inf_norm C = Some c -> c <= a * b).
Proof.
  intros A B C n k m a b c WA WB RA CA RB CB E. set (f := ent A). set (g := ent B). pose proof (wf_eq_mk A WA) as EA. rewrite RA, CA in EA. fold f in EA. pose proof (wf_eq_mk B WB) as EB. rewrite RB, CB in EB. fold g in EB.
  rewrite EA, EB, mmul_mk in E. injection E as <-. set (h := prod_entry k f g).
  destruct (C81_norms A n k WA RA CA) as ((a1 & Ea1 & La1) & (a2 & Ea2 & La2) & _). destruct (C81_norms B k m WB RB CB) as ((b1 & Eb1 & Lb1) & (b2 & Eb2 & Lb2) & _).
  destruct (C81_norms (mk n m h) n m (wf_mk _ _ _) eq_refl eq_refl) as ((c1 & Ec1 & Lc1) & (c2 & Ec2 & Lc2) & _). fold f in La1, La2. fold g in Lb1, Lb2.
  assert (forall i j, Rabs (h i j) <= sum k (fun l => Rabs (f i l) * Rabs (g l j))) as HB.
  { intros i j. unfold h, prod_entry. eapply Rle_trans; [apply rsum_abs|]. apply rsum_le. intros l Hl. cbn. rewrite Rabs_mult. lra. }
  split.
  - intros E1 E2 E3. rewrite Ea1 in E1. rewrite Eb1 in E2. rewrite Ec1 in E3. injection E1 as <-. injection E2 as <-. injection E3 as <-.
    assert (0 <= a1) by (eapply largest_nonneg; [|exact La1]; intros; apply rsum_nonneg; intros; apply Rabs_pos). assert (0 <= b1) by (eapply largest_nonneg; [|exact Lb1]; intros; apply rsum_nonneg; intros; apply Rabs_pos).
    eapply largest_le; [|exact Lc1|]; [nra|]. intros j Hj. apply Rle_trans with (sum n (fun i => sum k (fun l => Rabs (f i l) * Rabs (g l j)))).
    + apply rsum_le. intros i Hi. rewrite ent_mk by assumption. apply HB.
    + rewrite rsum_swap. apply Rle_trans with (sum k (fun l => a1 * Rabs (g l j))).
      * apply rsum_le. intros l Hl. rewrite rsum_mul_r. pose proof (proj1 La1 l Hl) as Ka. cbn beta in Ka. pose proof (Rabs_pos (g l j)). nra.
      * rewrite rsum_mul_l. pose proof (proj1 Lb1 j Hj) as Kb. cbn beta in Kb. nra.
  - intros E1 E2 E3. rewrite Ea2 in E1. rewrite Eb2 in E2. rewrite Ec2 in E3. injection E1 as <-. injection E2 as <-. injection E3 as <-.
    assert (0 <= a2) by (eapply largest_nonneg; [|exact La2]; intros; apply rsum_nonneg; intros; apply Rabs_pos). assert (0 <= b2) by (eapply largest_nonneg; [|exact Lb2]; intros; apply rsum_nonneg; intros; apply Rabs_pos).
    eapply largest_le; [|exact Lc2|]; [nra|]. intros i Hi. apply Rle_trans with (sum m (fun j => sum k (fun l => Rabs (f i l) * Rabs (g l j)))).
    + apply rsum_le. intros j Hj. rewrite ent_mk by assumption. apply HB.
    + rewrite rsum_swap. apply Rle_trans with (sum k (fun l => Rabs (f i l) * b2)).
      * apply rsum_le. intros l Hl. rewrite rsum_mul_l. pose proof (proj1 Lb2 l Hl) as Kb. cbn beta in Kb. pose proof (Rabs_pos (f i l)). nra.
      * rewrite rsum_mul_r. pose proof (proj1 La2 i Hi) as Ka. cbn beta in Ka. nra.
Qed.
(** The norms of a column vector agree with the triangle inequality of Euclidean space (Cauchy and Schwarz). *)
Lemma cauchy n u v : inner n u v * inner n u v <= inner n u u * inner n v v.
Proof.
  assert (forall t, 0 <= inner n u u - 2 * t * inner n u v + t * t * inner n v v) as Q.
  { intros t. replace (inner n u u - 2 * t * inner n u v + t * t * inner n v v) with (inner n (fun i => u i - t * v i) (fun i => u i - t * v i)); [apply inner_nonneg|].
    unfold inner. rewrite (rsum_ext n _ (fun i => u i * u i - 2 * t * (u i * v i) + t * t * (v i * v i))) by (intros; ring). now rewrite rsum_add, rsum_sub, !rsum_mul_l. }
  pose proof (inner_nonneg n v) as V. destruct (Req_EM_T (inner n v v) 0) as [Z|Z].
  - assert (inner n u v = 0) as ->; [|rewrite Z; lra]. unfold inner. apply rsum_zero. intros i Hi. rewrite (inner_zero n v Z i Hi). ring.
  - specialize (Q (inner n u v / inner n v v)). apply (Rmult_le_compat_r (inner n v v)) in Q; [|exact V]. rewrite Rmult_0_l in Q.
    replace ((inner n u u - 2 * (inner n u v / inner n v v) * inner n u v + inner n u v / inner n v v * (inner n u v / inner n v v) * inner n v v) * inner n v v) with (inner n u u * inner n v v - inner n u v * inner n u v) in Q by (field; exact Z). lra.
Qed.
Lemma norm_triangle n u v : norm2 n (fun i => u i + v i) <= norm2 n u + norm2 n v.
Proof.
  pose proof (norm2_nonneg n u). pose proof (norm2_nonneg n v). pose proof (norm2_sq n u) as Su. pose proof (norm2_sq n v) as Sv. pose proof (cauchy n u v) as C.
  apply Rsqr_incr_0_var; [|lra]. unfold Rsqr. rewrite norm2_sq. rewrite inner_add_l, (inner_sym n u), (inner_sym n v), !inner_add_l, (inner_sym n v u).
  assert (inner n u v <= norm2 n u * norm2 n v) by (destruct (Rle_lt_dec (inner n u v) 0); [nra|]; apply Rsqr_incr_0_var; [unfold Rsqr; nra|nra]). nra.
Qed.
Theorem C81_euclidean : forall x y z n a b c, wf x -> wf y -> nr x = n -> nr y = n -> nc x = 1%nat -> nc y = 1%nat -> madd x y = Some z ->
  two_norm x = Some a -> two_norm y = Some b -> two_norm z = Some c -> c <= a + b.
Proof.
  intros x y z n a b c WX WY RX RY CX CY E Ex Ey Ez. pose proof (wf_eq_mk x WX) as EX. rewrite RX, CX in EX. pose proof (wf_eq_mk y WY) as EY. rewrite RY, CY in EY.
  rewrite EX, EY in E. unfold madd in E. rewrite mzip_mk in E. injection E as <-. rewrite EX, two_norm_mk in Ex. rewrite EY, two_norm_mk in Ey. rewrite two_norm_mk in Ez.
  injection Ex as <-. injection Ey as <-. injection Ez as <-. apply norm_triangle.
Qed.

(** Non-vacuity. *)
Example ex_householder : exists v b, householder_vec (mk 2 1 (fun i _ => if (i =? 0)%nat then 3 else 4)) = Some (v, b) /\
  apply_mat 2 (reflector (column (ent v) 0) b) (column (ent (mk 2 1 (fun i _ => if (i =? 0)%nat then 3 else 4))) 0) 0 = 5.
Proof.
  destruct (C78_householder_partial (mk 2 1 (fun i _ => if (i =? 0)%nat then 3 else 4)) 2 (wf_mk _ _ _) eq_refl eq_refl ltac:(lia)) as (v & b & E & _ & _ & _ & _ & H). exists v, b. split; [exact E|].
  destruct H as (_ & H); [intros (L & _); cbn in L; lra|]. rewrite H by lia. cbn [Nat.eqb]. unfold norm2, inner, column. cbn [sum]. rewrite !ent_mk by lia. cbn.
  replace (0 + 3 * 3 + 4 * 4) with (5 * 5) by ring. apply sqrt_square. lra.
Qed.
Example ex_givens : exists c s, givens_rotation 3 4 = Some (c, s) /\ s * 3 + c * 4 = 0.
Proof.
  destruct (C79_givens 3 4) as (c & s & E & _ & H & _). exists c, s. split; [exact E|]. apply H. right. rewrite Rabs_right by lra.
  apply Rle_trans with (/ 1); [apply Rinv_le_contravar; lra|lra].
Qed.
Print Assumptions C78_householder_partial. Print Assumptions C78_refuted. Print Assumptions C79_givens. Print Assumptions C81_norms. Print Assumptions C81_submultiplicative. Print Assumptions C81_euclidean.
Print Assumptions C78_bad_case.
Print Assumptions C78_panics.
Print Assumptions C79_length.
Print Assumptions C81_triangle.
