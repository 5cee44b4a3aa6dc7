(** Gram-Schmidt vectors under the two moves of lattice reduction. *)
From Coq Require Import List Arith Bool Lia ZifyBool Reals Lra.
From Verif Require Import PidModel MatModel MatSpec MatProofs MatProofs2 SnfModel RankModel LuModel LuSpec LuProofs LuProofs2 NumModel NumSpec NumProofs GsProofs.
Import ListNotations.
Open Scope R_scope.

(** Real combinations of the first [c] columns. *)
Definition rspan (n c : nat) (A : nat -> nat -> R) (x : nat -> R) : Prop := exists s : nat -> R, forall r, (r < n)%nat -> x r = sum c (fun l => A r l * s l).
Lemma rspan_ext n c A x y : (forall r, (r < n)%nat -> x r = y r) -> rspan n c A x -> rspan n c A y.
Proof. intros E (s & H). exists s. intros r Hr. now rewrite <- E, H. Qed.
Lemma rspan_zero n c A : rspan n c A (fun _ => 0).
Proof. exists (fun _ => 0). intros r Hr. symmetry. apply rsum_zero. intros. ring. Qed.
Lemma rspan_add n c A x y : rspan n c A x -> rspan n c A y -> rspan n c A (fun r => x r + y r).
Proof. intros (s & H) (t & K). exists (fun l => s l + t l). intros r Hr. rewrite H, K, <- rsum_add by exact Hr. apply rsum_ext. intros. ring. Qed.
Lemma rspan_scale n c A k x : rspan n c A x -> rspan n c A (fun r => k * x r).
Proof. intros (s & H). exists (fun l => k * s l). intros r Hr. rewrite H, <- rsum_mul_l by exact Hr. apply rsum_ext. intros. ring. Qed.
Lemma rspan_col n c A l : (l < c)%nat -> rspan n c A (column A l).
Proof.
  intros Hl. exists (fun i => if (i =? l)%nat then 1 else 0). intros r Hr. rewrite (rsum_single c l); [rewrite Nat.eqb_refl; unfold column; ring|exact Hl|]. intros i Hi N. destruct (Nat.eqb_spec i l); [lia|ring].
Qed.
Lemma rspan_sum n c A m (f : nat -> nat -> R) : (forall l, (l < m)%nat -> rspan n c A (f l)) -> rspan n c A (fun r => sum m (fun l => f l r)).
Proof.
  induction m as [|m IH]; intros H; [apply (rspan_ext n c A (fun _ => 0)); [reflexivity|apply rspan_zero]|].
  apply (rspan_ext n c A (fun r => sum m (fun l => f l r) + f m r)); [intros; now rewrite rsum_S|]. apply rspan_add; [apply IH; intros; apply H; lia|apply H; lia].
Qed.
Lemma rspan_trans n c A m B x : (forall l, (l < m)%nat -> rspan n c A (column B l)) -> rspan n m B x -> rspan n c A x.
Proof.
  intros H (s & E). apply (rspan_ext n c A (fun r => sum m (fun l => s l * B r l))); [intros r Hr; rewrite E by exact Hr; apply rsum_ext; intros; ring|].
  apply (rspan_sum n c A m (fun l r => s l * B r l)). intros l Hl. apply (rspan_scale n c A (s l) (column B l)). now apply H.
Qed.
Lemma rspan_orth n c A v x : rspan n c A x -> (forall l, (l < c)%nat -> inner n v (column A l) = 0) -> inner n v x = 0.
Proof.
  intros (s & E) O. rewrite inner_sym. rewrite (inner_ext n x (fun r => sum c (fun l => s l * A r l)) v v) by (auto; intros r Hr; rewrite E by exact Hr; apply rsum_ext; intros; ring).
  rewrite (inner_sum_l n c (fun l r => s l * A r l)). apply rsum_zero. intros l Hl. rewrite (inner_scale_l n (s l) (fun r => A r l)). change (fun r => A r l) with (column A l). rewrite inner_sym, O by exact Hl. ring.
Qed.

Definition pos_upto (n c : nat) (A : nat -> nat -> R) : Prop := forall l, (l < c)%nat -> gsq n A l <> 0.
Lemma gvec_orth_col n A c l : pos_upto n c A -> (l < c)%nat -> inner n (gvec n A c) (column A l) = 0.
Proof.
  intros P Hl. rewrite inner_sym. rewrite (inner_ext n (column A l) (fun r => gvec n A l r + sum l (fun k => gmu n A l k * gvec n A k r)) (gvec n A c) (gvec n A c)).
  - rewrite inner_add_l. rewrite (inner_sum_l n l (fun k r => gmu n A l k * gvec n A k r)). rewrite (rsum_zero l).
    + rewrite inner_sym, g_orth by (auto). ring.
    + intros k Hk. rewrite inner_scale_l. rewrite inner_sym, g_orth by (auto; lia). ring.
  - intros r Hr. unfold column. rewrite (a_eq n A l r) at 1. f_equal. apply rsum_ext. intros. ring.
  - reflexivity.
Qed.
Lemma gvec_span n A c : rspan n c A (fun r => gvec n A c r - A r c).
Proof.
  destruct (g_span n A c) as (s & S1 & S2). exists s. intros r Hr. rewrite S2, rsum_S, S1. ring.
Qed.
Lemma gvec_transfer n A B c : pos_upto n c A -> pos_upto n c B ->
  (forall l, (l < c)%nat -> rspan n c A (column B l)) -> (forall l, (l < c)%nat -> rspan n c B (column A l)) -> rspan n c B (fun r => A r c - B r c) ->
  forall r, (r < n)%nat -> gvec n A c r = gvec n B c r.
Proof.
  intros PA PB HB HA D. set (d := fun r => gvec n A c r - gvec n B c r).
  assert (rspan n c B d) as Sd.
  { apply (rspan_ext n c B (fun r => (gvec n A c r - A r c) + ((A r c - B r c) + (-1) * (gvec n B c r - B r c)))); [intros; unfold d; ring|].
    apply rspan_add; [|apply rspan_add; [exact D|apply rspan_scale, gvec_span]]. apply (rspan_trans n c B c A); [exact HA|apply gvec_span]. }
  assert (inner n d d = 0) as Z.
  { apply (rspan_orth n c B d d Sd). intros l Hl. unfold d. rewrite inner_sub_l. rewrite (gvec_orth_col n B c l PB Hl).
    rewrite (rspan_orth n c A (gvec n A c) (column B l)); [ring|now apply HB|]. intros k Hk. now apply gvec_orth_col. }
  intros r Hr. pose proof (inner_zero n d Z r Hr) as E. unfold d in E. lra.
Qed.
Lemma gsq_ext n A B c : (forall r, (r < n)%nat -> gvec n A c r = gvec n B c r) -> gsq n A c = gsq n B c.
Proof. intros H. unfold gsq. apply inner_ext; exact H. Qed.

(** Subtracting a multiple of an earlier column. *)
Definition addcol (A : nat -> nat -> R) (i j : nat) (k : R) : nat -> nat -> R := fun r c => if (c =? i)%nat then A r i - k * A r j else A r c.
Lemma addcol_gvec n m A i j k : (j < i < m)%nat -> pos_upto n m A -> forall c, (c < m)%nat -> forall r, (r < n)%nat -> gvec n A c r = gvec n (addcol A i j k) c r.
Proof.
  intros Hij P c. induction c as [c IH] using (well_founded_induction Wf_nat.lt_wf). intros Hc.
  destruct (Nat.lt_ge_cases c i) as [L|L].
  { intros r Hr. apply gvec_ext; [|exact Hr]. intros a b Ha Hb. unfold addcol. now replace (b =? i)%nat with false by lia. }
  assert (pos_upto n c (addcol A i j k)) as PB by (intros l Hl; rewrite <- (gsq_ext n A (addcol A i j k) l); [apply P; lia|apply IH; lia]).
  assert (forall l, (l < c)%nat -> l <> i -> forall r, column (addcol A i j k) l r = column A l r) as CE by (intros l Hl N r; unfold column, addcol; now replace (l =? i)%nat with false by lia).
  apply gvec_transfer; [intros l Hl; apply P; lia|exact PB| | |].
  - intros l Hl. destruct (Nat.eq_dec l i) as [->|N]; [|apply (rspan_ext n c A (column A l)); [intros; now rewrite CE|now apply rspan_col]].
    apply (rspan_ext n c A (fun r => column A i r + (- k) * column A j r)); [intros; unfold column, addcol; rewrite Nat.eqb_refl; ring|]. apply rspan_add; [|apply rspan_scale]; apply rspan_col; lia.
  - intros l Hl. destruct (Nat.eq_dec l i) as [->|N]; [|apply (rspan_ext n c _ (column (addcol A i j k) l)); [intros; now rewrite CE|now apply rspan_col]].
    apply (rspan_ext n c _ (fun r => column (addcol A i j k) i r + k * column (addcol A i j k) j r)); [intros; unfold column, addcol; rewrite Nat.eqb_refl; replace (j =? i)%nat with false by lia; ring|].
    apply rspan_add; [|apply rspan_scale]; apply rspan_col; lia.
  - destruct (Nat.eq_dec c i) as [->|N].
    + apply (rspan_ext n i _ (fun r => k * column (addcol A i j k) j r)); [intros; unfold column, addcol; rewrite Nat.eqb_refl; replace (j =? i)%nat with false by lia; ring|]. apply rspan_scale, rspan_col. lia.
    + apply (rspan_ext n c _ (fun _ => 0)); [intros; unfold addcol; replace (c =? i)%nat with false by lia; ring|apply rspan_zero].
Qed.
Lemma addcol_pos n m A i j k : (j < i < m)%nat -> pos_upto n m A -> pos_upto n m (addcol A i j k).
Proof. intros H P l Hl. rewrite <- (gsq_ext n A (addcol A i j k) l); [now apply P|]. intros r Hr. apply (addcol_gvec n m A i j k H P); assumption. Qed.
Lemma gmu_self n A c : gsq n A c <> 0 -> pos_upto n c A -> gmu n A c c = 1.
Proof.
  intros N P. unfold gmu. fold (gsq n A c). rewrite (inner_ext n (column A c) (fun r => gvec n A c r + sum c (fun l => gmu n A c l * gvec n A l r)) (gvec n A c) (gvec n A c)).
  - rewrite inner_add_l. rewrite (inner_sum_l n c (fun l r => gmu n A c l * gvec n A l r)). rewrite (rsum_zero c); [fold (gsq n A c); field; exact N|].
    intros l Hl. rewrite inner_scale_l, inner_sym, g_orth by (auto). ring.
  - intros r Hr. unfold column. rewrite (a_eq n A c r) at 1. f_equal. apply rsum_ext. intros. ring.
  - reflexivity.
Qed.
Lemma gmu_above n A j l : (j < l)%nat -> pos_upto n l A -> gmu n A j l = 0.
Proof. intros H P. unfold gmu. rewrite inner_sym, gvec_orth_col by assumption. unfold Rdiv. ring. Qed.
Lemma addcol_gmu n m A i j k : (j < i < m)%nat -> pos_upto n m A -> forall c l, (l < c < m)%nat ->
  gmu n (addcol A i j k) c l = if (c =? i)%nat then gmu n A i l - k * gmu n A j l else gmu n A c l.
Proof.
  intros H P c l Hl. unfold gmu.
  assert (forall r, (r < n)%nat -> gvec n (addcol A i j k) l r = gvec n A l r) as E by (intros r Hr; symmetry; apply (addcol_gvec n m A i j k H P); lia).
  rewrite (inner_ext n (gvec n (addcol A i j k) l) (gvec n A l) (gvec n (addcol A i j k) l) (gvec n A l)) by exact E.
  rewrite (inner_ext n (column (addcol A i j k) c) (column (addcol A i j k) c) (gvec n (addcol A i j k) l) (gvec n A l)) by (auto; reflexivity).
  destruct (Nat.eqb_spec c i) as [->|N].
  - rewrite (inner_ext n (column (addcol A i j k) i) (fun r => column A i r - k * column A j r) (gvec n A l) (gvec n A l)); [|intros; unfold column, addcol; now rewrite Nat.eqb_refl|reflexivity].
    rewrite inner_sub_l, inner_scale_l. unfold Rdiv. ring.
  - apply (f_equal2 Rdiv); [|reflexivity]. apply inner_ext; [|reflexivity]. intros r Hr. unfold column, addcol. now replace (c =? i)%nat with false by lia.
Qed.

(** Exchanging two neighbouring columns, [p] and [p + 1]. *)
Definition swp (p c : nat) : nat := if (c =? p)%nat then (p + 1)%nat else if (c =? p + 1)%nat then p else c.
Definition swapcol (A : nat -> nat -> R) (p : nat) : nat -> nat -> R := fun r c => A r (swp p c).
Lemma swapcol_low n A p c : (c < p)%nat -> forall r, (r < n)%nat -> gvec n (swapcol A p) c r = gvec n A c r.
Proof. intros H r Hr. apply gvec_ext; [|exact Hr]. intros a b Ha Hb. unfold swapcol, swp. replace (b =? p)%nat with false by lia. now replace (b =? p + 1)%nat with false by lia. Qed.
Lemma swapcol_p n A p r : (r < n)%nat -> gvec n (swapcol A p) p r = gvec n A (p + 1) r + gmu n A (p + 1) p * gvec n A p r.
Proof.
  intros Hr. rewrite gvec_eq. unfold swapcol at 1, swp. rewrite Nat.eqb_refl. rewrite (a_eq n A (p + 1) r). rewrite Nat.add_1_r at 2. rewrite rsum_S.
  rewrite (rsum_ext p (fun l => gvec n (swapcol A p) l r * gmu n (swapcol A p) p l) (fun l => gvec n A l r * gmu n A (p + 1) l)); [ring|].
  intros l Hl. rewrite swapcol_low by assumption. f_equal. unfold gmu. apply (f_equal2 Rdiv); apply inner_ext; try (intros; now apply swapcol_low).
  intros i Hi. unfold column, swapcol, swp. now rewrite Nat.eqb_refl.
Qed.
Lemma gsq_nonneg n A c : 0 <= gsq n A c. Proof. apply inner_nonneg. Qed.
Lemma swapcol_sq_p n m A p : (p + 1 < m)%nat -> pos_upto n m A -> gsq n (swapcol A p) p = gsq n A (p + 1) + gmu n A (p + 1) p * gmu n A (p + 1) p * gsq n A p.
Proof.
  intros H P. unfold gsq at 1. set (u := gmu n A (p + 1) p).
  rewrite (inner_ext n _ (fun r => gvec n A (p + 1) r + u * gvec n A p r) _ (fun r => gvec n A (p + 1) r + u * gvec n A p r)) by (intros; now apply swapcol_p).
  rewrite inner_add_l, inner_scale_l. rewrite (inner_sym n (gvec n A (p + 1))), (inner_sym n (gvec n A p)). rewrite !inner_add_l, !inner_scale_l.
  rewrite (inner_sym n (gvec n A p) (gvec n A (p + 1))). rewrite (g_orth n A (p + 1) ltac:(intros; apply P; lia) p ltac:(lia)). unfold gsq. ring.
Qed.
Lemma swapcol_pos_p n m A p : (p + 1 < m)%nat -> pos_upto n m A -> 0 < gsq n (swapcol A p) p.
Proof.
  intros H P. rewrite (swapcol_sq_p n m) by assumption. pose proof (gsq_nonneg n A (p + 1)). pose proof (P (p + 1)%nat ltac:(lia)). pose proof (gsq_nonneg n A p).
  set (u := gmu n A (p + 1) p) in *. pose proof (Rle_0_sqr u) as U. unfold Rsqr in U. assert (0 <= u * u * gsq n A p) by (apply Rmult_le_pos; assumption). lra.
Qed.
Lemma swapcol_p1 n m A p r : (p + 1 < m)%nat -> pos_upto n m A -> (r < n)%nat ->
  gvec n (swapcol A p) (p + 1) r = gvec n A p r - (gmu n A (p + 1) p * gsq n A p / gsq n (swapcol A p) p) * gvec n (swapcol A p) p r.
Proof.
  intros H P Hr. rewrite gvec_eq. rewrite Nat.add_1_r at 2. rewrite rsum_S. unfold swapcol at 1, swp. replace (p + 1 =? p)%nat with false by lia. rewrite Nat.eqb_refl.
  rewrite (a_eq n A p r). rewrite (rsum_ext p (fun l => gvec n (swapcol A p) l r * gmu n (swapcol A p) (p + 1) l) (fun l => gvec n A l r * gmu n A p l)).
  - assert (gmu n (swapcol A p) (p + 1) p = gmu n A (p + 1) p * gsq n A p / gsq n (swapcol A p) p) as ->; [|ring].
    unfold gmu at 1. fold (gsq n (swapcol A p) p). apply (f_equal2 Rdiv); [|reflexivity].
    rewrite (inner_ext n (column (swapcol A p) (p + 1)) (column A p) (gvec n (swapcol A p) p) (fun r => gvec n A (p + 1) r + gmu n A (p + 1) p * gvec n A p r)).
    + rewrite inner_sym, inner_add_l, inner_scale_l. rewrite gvec_orth_col by (try lia; intros l Hl; apply P; lia).
      rewrite (inner_sym n (gvec n A p)). replace (inner n (column A p) (gvec n A p)) with (gmu n A p p * gsq n A p); [rewrite gmu_self by (try apply P; try lia; intros l Hl; apply P; lia); ring|].
      unfold gmu. fold (gsq n A p). field. apply P. lia.
    + intros i Hi. unfold column, swapcol, swp. replace (p + 1 =? p)%nat with false by lia. now rewrite Nat.eqb_refl.
    + intros i Hi. now apply swapcol_p.
  - intros l Hl. rewrite swapcol_low by assumption. f_equal. unfold gmu. apply (f_equal2 Rdiv); apply inner_ext; try (intros; now apply swapcol_low).
    intros i Hi. unfold column, swapcol, swp. replace (p + 1 =? p)%nat with false by lia. now rewrite Nat.eqb_refl.
Qed.
Lemma swapcol_sq_p1 n m A p : (p + 1 < m)%nat -> pos_upto n m A -> gsq n (swapcol A p) (p + 1) * gsq n (swapcol A p) p = gsq n A p * gsq n A (p + 1).
Proof.
  intros H P. pose proof (swapcol_pos_p n m A p H P) as N. set (t := gsq n (swapcol A p) p) in *. set (u := gmu n A (p + 1) p).
  assert (inner n (gvec n A p) (gvec n (swapcol A p) p) = u * gsq n A p) as C.
  { rewrite inner_sym. rewrite (inner_ext n _ (fun r => gvec n A (p + 1) r + u * gvec n A p r) _ (gvec n A p)) by (auto; intros; now apply swapcol_p).
    rewrite inner_add_l, inner_scale_l. rewrite (g_orth n A (p + 1) ltac:(intros; apply P; lia) p ltac:(lia)). unfold gsq. ring. }
  unfold gsq at 1. set (k := u * gsq n A p / t).
  rewrite (inner_ext n _ (fun r => gvec n A p r - k * gvec n (swapcol A p) p r) _ (fun r => gvec n A p r - k * gvec n (swapcol A p) p r)) by (intros; now apply (swapcol_p1 n m)).
  rewrite inner_sub_l, inner_scale_l. rewrite (inner_sym n (gvec n A p)), (inner_sym n (gvec n (swapcol A p) p)). rewrite !inner_sub_l, !inner_scale_l. rewrite (inner_sym n (gvec n (swapcol A p) p) (gvec n A p)), C.
  fold (gsq n A p). fold (gsq n (swapcol A p) p). fold t. unfold k. pose proof (swapcol_sq_p n m A p H P) as E. fold t u in E.
  transitivity (gsq n A p * (t - u * u * gsq n A p)); [field; lra|]. rewrite E. ring.
Qed.
Lemma swapcol_pos_p1 n m A p : (p + 1 < m)%nat -> pos_upto n m A -> gsq n (swapcol A p) (p + 1) <> 0.
Proof.
  intros H P Z. pose proof (swapcol_sq_p1 n m A p H P) as E. rewrite Z, Rmult_0_l in E. symmetry in E. apply Rmult_integral in E. destruct E as [E|E]; revert E; apply P; lia.
Qed.
Lemma swp_lt p c l : (p + 1 < c)%nat -> (l < c)%nat -> (swp p l < c)%nat.
Proof. intros H K. unfold swp. destruct (Nat.eqb_spec l p), (Nat.eqb_spec l (p + 1)); lia. Qed.
Lemma swp_swp p l : swp p (swp p l) = l.
Proof. unfold swp. destruct (Nat.eqb_spec l p) as [->|]; [replace (p + 1 =? p)%nat with false by lia; now rewrite Nat.eqb_refl|]. destruct (Nat.eqb_spec l (p + 1)) as [->|]; [now rewrite Nat.eqb_refl|]. destruct (Nat.eqb_spec l p), (Nat.eqb_spec l (p + 1)); lia. Qed.
Lemma swapcol_high n m A p : (p + 1 < m)%nat -> pos_upto n m A -> forall c, (p + 1 < c < m)%nat -> forall r, (r < n)%nat -> gvec n A c r = gvec n (swapcol A p) c r.
Proof.
  intros H P c. induction c as [c IH] using (well_founded_induction Wf_nat.lt_wf). intros Hc. apply gvec_transfer.
  - intros l Hl. apply P. lia.
  - intros l Hl. destruct (Nat.lt_ge_cases l p) as [L|L]; [rewrite (gsq_ext n (swapcol A p) A l); [apply P; lia|now apply swapcol_low]|].
    destruct (Nat.eq_dec l p) as [->|]; [pose proof (swapcol_pos_p n m A p H P); lra|]. destruct (Nat.eq_dec l (p + 1)) as [->|]; [now apply (swapcol_pos_p1 n m)|].
    rewrite <- (gsq_ext n A (swapcol A p) l); [apply P; lia|apply IH; lia].
  - intros l Hl. change (column (swapcol A p) l) with (column A (swp p l)). apply rspan_col. apply swp_lt; lia.
  - intros l Hl. replace (column A l) with (column (swapcol A p) (swp p l)) by (unfold column, swapcol; now rewrite swp_swp). apply rspan_col. apply swp_lt; lia.
  - apply (rspan_ext n c _ (fun _ => 0)); [|apply rspan_zero]. intros r Hr. unfold swapcol, swp. replace (c =? p)%nat with false by lia. replace (c =? p + 1)%nat with false by lia. ring.
Qed.
Lemma swapcol_pos n m A p : (p + 1 < m)%nat -> pos_upto n m A -> pos_upto n m (swapcol A p).
Proof.
  intros H P l Hl. destruct (Nat.lt_ge_cases l p) as [L|L]; [rewrite (gsq_ext n (swapcol A p) A l); [apply P; lia|now apply swapcol_low]|].
  destruct (Nat.eq_dec l p) as [->|]; [pose proof (swapcol_pos_p n m A p H P); lra|]. destruct (Nat.eq_dec l (p + 1)) as [->|]; [now apply (swapcol_pos_p1 n m)|].
  rewrite <- (gsq_ext n A (swapcol A p) l); [now apply P|]. apply (swapcol_high n m); (assumption || lia).
Qed.
