(** One step of the symmetric QR algorithm. *)
From Coq Require Import List Arith Bool Lia ZifyBool Reals Lra.
From Verif Require Import PidModel MatModel MatSpec MatProofs MatProofs2 SnfModel RankModel LuModel LuSpec LuProofs2 LuProofs3 NumModel NumSpec NumProofs HouseProofs HessProofs FrancisModel FrancisSpec FrancisProofs EigProofs TriModel TriSpec WilkModel WilkSpec.
Import ListNotations.
Open Scope R_scope.

(** Two rows, two columns rotated. *)
Definition rot_l (i : nat) (c s : R) (f : nat -> nat -> R) (a b : nat) : R := if (a =? i)%nat then c * f i b - s * f (i + 1)%nat b else if (a =? i + 1)%nat then s * f i b + c * f (i + 1)%nat b else f a b.
Definition rot_r (i : nat) (c s : R) (f : nat -> nat -> R) (a b : nat) : R := if (b =? i)%nat then c * f a i - s * f a (i + 1)%nat else if (b =? i + 1)%nat then s * f a i + c * f a (i + 1)%nat else f a b.
Lemma plane_row i c s a k : transposed (plane i c s) a k = if (a =? i)%nat then c * id_entry i k - s * id_entry (i + 1)%nat k else if (a =? i + 1)%nat then s * id_entry i k + c * id_entry (i + 1)%nat k else id_entry a k.
Proof.
  unfold transposed, plane, id_entry. destruct (Nat.eqb_spec a i), (Nat.eqb_spec a (i + 1)), (Nat.eqb_spec k i), (Nat.eqb_spec k (i + 1)), (Nat.eqb_spec k a), (Nat.eqb_spec a k), (Nat.eqb_spec i k), (Nat.eqb_spec (i + 1) k); try lia; cbn; ring.
Qed.
Lemma rot_l_prod n i c s f a b : (i + 1 < n)%nat -> (a < n)%nat -> prod_entry n (transposed (plane i c s)) f a b = rot_l i c s f a b.
Proof.
  intros Hi Ha. unfold prod_entry, rot_l. rewrite (rsum_ext n _ (fun k => (if (a =? i)%nat then c * id_entry i k - s * id_entry (i + 1)%nat k else if (a =? i + 1)%nat then s * id_entry i k + c * id_entry (i + 1)%nat k else id_entry a k) * f k b)) by (intros; now rewrite plane_row).
  destruct (a =? i)%nat; [|destruct (a =? i + 1)%nat].
  - rewrite (rsum_ext n _ (fun k => c * (id_entry i k * f k b) - s * (id_entry (i + 1)%nat k * f k b))) by (intros; ring). rewrite rsum_sub, !rsum_mul_l, !rsum_id_l by lia. reflexivity.
  - rewrite (rsum_ext n _ (fun k => s * (id_entry i k * f k b) + c * (id_entry (i + 1)%nat k * f k b))) by (intros; ring). rewrite rsum_add, !rsum_mul_l, !rsum_id_l by lia. reflexivity.
  - now rewrite rsum_id_l.
Qed.
Lemma rot_r_prod n i c s f a b : (i + 1 < n)%nat -> (b < n)%nat -> prod_entry n f (plane i c s) a b = rot_r i c s f a b.
Proof.
  intros Hi Hb. rewrite <- (rprod_trans n f (plane i c s) b a). rewrite rot_l_prod by assumption. reflexivity.
Qed.
Lemma plane_neg i c s a b : transposed (plane i c s) a b = plane i c (- s) a b.
Proof.
  rewrite plane_row. unfold plane, id_entry. destruct (Nat.eqb_spec a i), (Nat.eqb_spec a (i + 1)), (Nat.eqb_spec b i), (Nat.eqb_spec b (i + 1)), (Nat.eqb_spec b a), (Nat.eqb_spec a b), (Nat.eqb_spec i b), (Nat.eqb_spec (i + 1) b); try lia; cbn; ring.
Qed.
Lemma plane_sq n i c s a b : (i + 1 < n)%nat -> c * c + s * s = 1 -> (a < n)%nat -> (b < n)%nat -> prod_entry n (transposed (plane i c s)) (plane i c s) a b = id_entry a b.
Proof.
  intros Hi E Ha Hb. rewrite rot_l_prod by assumption. unfold rot_l, plane, id_entry. rewrite !Nat.eqb_refl. replace (i =? i + 1)%nat with false by lia. replace (i + 1 =? i)%nat with false by lia.
  destruct (Nat.eqb_spec a i), (Nat.eqb_spec a (i + 1)), (Nat.eqb_spec b i), (Nat.eqb_spec b (i + 1)), (Nat.eqb_spec a b), (Nat.eqb_spec i b), (Nat.eqb_spec (i + 1) b); try lia; cbn; try ring; lra.
Qed.
Lemma plane_orth n i c s : (i + 1 < n)%nat -> c * c + s * s = 1 -> orthogonal n (plane i c s).
Proof.
  intros Hi E a b Ha Hb. split; [now apply plane_sq|]. rewrite (rprod_ext n _ (transposed (plane i c (- s))) _ (plane i c (- s))).
  - apply plane_sq; [exact Hi|lra|exact Ha|exact Hb].
  - intros l _. unfold transposed. rewrite <- plane_neg. reflexivity.
  - intros l _. apply plane_neg.
Qed.
Lemma rot_congr n i c s f : (i + 1 < n)%nat -> congruent n f (plane i c s) (rot_r i c s (rot_l i c s f)).
Proof.
  intros Hi a b Ha Hb. rewrite <- rprod_assoc. rewrite rot_r_prod by assumption. unfold rot_r. rewrite !rot_l_prod by assumption. reflexivity.
Qed.
Lemma rot_trivial i f a b : rot_r i 1 0 (rot_l i 1 0 f) a b = f a b.
Proof. unfold rot_r, rot_l. destruct (Nat.eqb_spec b i), (Nat.eqb_spec b (i + 1)), (Nat.eqb_spec a i), (Nat.eqb_spec a (i + 1)); subst; try lia; ring. Qed.
Lemma rot_sym n i c s f a b : (i + 1 < n)%nat -> (forall a b, (a < n)%nat -> (b < n)%nat -> f a b = f b a) -> (a < n)%nat -> (b < n)%nat -> rot_r i c s (rot_l i c s f) a b = rot_r i c s (rot_l i c s f) b a.
Proof.
  intros Hi Y Ha Hb. unfold rot_r, rot_l.
  pose proof (Y i (i + 1)%nat ltac:(lia) ltac:(lia)) as E0. pose proof (Y a b Ha Hb) as E. pose proof (Y a i Ha ltac:(lia)) as E1. pose proof (Y a (i + 1)%nat Ha ltac:(lia)) as E2. pose proof (Y b i Hb ltac:(lia)) as E3. pose proof (Y b (i + 1)%nat Hb ltac:(lia)) as E4.
  destruct (Nat.eqb_spec b i), (Nat.eqb_spec b (i + 1)), (Nat.eqb_spec a i), (Nat.eqb_spec a (i + 1)); subst; try lia; rewrite ?E0, ?E1, ?E2, ?E3, ?E4, ?E; ring.
Qed.
Definition w_start (i : nat) : nat := if (i =? 0)%nat then 0%nat else (i - 1)%nat.
Definition w_fin (n i : nat) : nat := Nat.min n (w_start i + 4).
Lemma rotate_mk n i c s f : (i + 1 < n)%nat -> (forall a b, (a < n)%nat -> (b < n)%nat -> f a b = f b a) ->
  (forall j, (j < n)%nat -> ~ (w_start i <= j < w_fin n i)%nat -> f i j = 0 /\ f (i + 1)%nat j = 0) ->
  rotate n i c s (mk n n f) = Some (mk n n (rot_r i c s (rot_l i c s f))).
Proof.
  intros Hi Y Z. unfold rotate. change (if (i =? 0)%nat then 0%nat else (i - 1)%nat) with (w_start i). cbv zeta. fold (w_fin n i). set (st := w_start i) in *. set (e := w_fin n i) in *.
  assert (st <= i /\ i + 2 <= e <= n)%nat as (H1 & H2) by (unfold e, w_fin, st, w_start; destruct (Nat.eqb_spec i 0); lia).
  change (Mat 2 2 [[c; s]; [- s; c]]) with (mk 2 2 (fun a b : nat => match a, b with 0%nat, 0%nat => c | 0%nat, _ => s | _, 0%nat => - s | _, _ => c end)).
  rewrite msub_view_mk by lia. cbn [obind]. rewrite mtranspose_mk. cbn [obind]. replace (i + 2 - i)%nat with 2%nat by lia. rewrite mmul_mk. cbn [obind].
  match goal with |- context [mwrite (mk n n f) i _ st e (mk 2 _ ?h)] => pose proof (mwrite_mk n n f i (i + 2) st e h ltac:(lia) ltac:(lia)) as K; replace (i + 2 - i)%nat with 2%nat in K by lia; rewrite K; clear K end. cbn [obind].
  match goal with |- context [msub_view (mk n n ?g)] => rewrite (mk_ext n n g (rot_l i c s f)) end.
  2: { intros a b Ha Hb. unfold rot_l. destruct ((i <=? a) && (a <? i + 2) && (st <=? b) && (b <? e))%nat eqn:E.
       - unfold prod_entry. cbn [sum]. replace (st + (b - st))%nat with b by lia. replace (i + 0)%nat with i by lia. destruct (Nat.eqb_spec a i) as [->|N]; [rewrite Nat.sub_diag; cbn; ring|]. replace (a =? i + 1)%nat with true by lia. replace (a - i)%nat with 1%nat by lia. cbn. ring.
       - destruct (Nat.eqb_spec a i) as [->|N]; [|destruct (Nat.eqb_spec a (i + 1)) as [->|N']; [|reflexivity]]; destruct (Z b Hb ltac:(lia)) as (-> & ->); ring. }
  rewrite msub_view_mk by lia. cbn [obind]. replace (i + 2 - i)%nat with 2%nat by lia. rewrite mmul_mk. cbn [obind].
  match goal with |- mwrite (mk n n ?g) st e i _ (mk _ 2 ?h) = _ => pose proof (mwrite_mk n n g st e i (i + 2) h ltac:(lia) ltac:(lia)) as K; replace (i + 2 - i)%nat with 2%nat in K by lia; rewrite K; clear K end. f_equal. apply mk_ext.
  intros a b Ha Hb. unfold rot_r. destruct ((st <=? a) && (a <? e) && (i <=? b) && (b <? i + 2))%nat eqn:E.
  - unfold prod_entry. cbn [sum]. replace (st + (a - st))%nat with a by lia. replace (i + 0)%nat with i by lia. destruct (Nat.eqb_spec b i) as [->|N]; [rewrite Nat.sub_diag; cbn; ring|]. replace (b =? i + 1)%nat with true by lia. replace (b - i)%nat with 1%nat by lia. cbn. ring.
  - destruct (Nat.eqb_spec b i) as [->|N]; [|destruct (Nat.eqb_spec b (i + 1)) as [->|N']; [|reflexivity]]; unfold rot_l; replace (a =? i)%nat with false by lia; replace (a =? i + 1)%nat with false by lia; destruct (Z a Ha ltac:(lia)) as (E1 & E2); rewrite (Y a i), (Y a (i + 1)%nat), E1, E2 by lia; ring.
Qed.
(** Tridiagonal but for the pair of entries [m + 1, m - 1]. *)
Definition band (n m : nat) (f : nat -> nat -> R) : Prop := forall a b, (b + 1 < a < n)%nat -> f a b = 0 \/ (a = m + 1 /\ b + 1 = m)%nat.
Lemma band_step n k f c s : (k + 1 < n)%nat -> (forall a b, (a < n)%nat -> (b < n)%nat -> f a b = f b a) -> band n k f -> ((0 < k)%nat -> s * f k (k - 1)%nat + c * f (k + 1)%nat (k - 1)%nat = 0) ->
  band n (k + 1) (rot_r k c s (rot_l k c s f)).
Proof.
  intros Hk Y B Z a b Hab. destruct (Nat.eq_dec a (k + 2)) as [Ea|Na], (Nat.eq_dec b k) as [Eb|Nb]; try (right; lia); left.
  - unfold rot_r, rot_l. replace (a =? k)%nat with false by lia. replace (a =? k + 1)%nat with false by lia. assert (b < k)%nat by lia. replace (b =? k)%nat with false by lia. replace (b =? k + 1)%nat with false by lia. destruct (B a b Hab); [assumption|lia].
  - unfold rot_r, rot_l. replace (a =? k)%nat with false by lia. replace (a =? k + 1)%nat with false by lia. subst b. rewrite Nat.eqb_refl. destruct (B a k Hab) as [->|]; [|lia]. destruct (B a (k + 1)%nat ltac:(lia)) as [->|]; [|lia]. ring.
  - unfold rot_r. replace (b =? k)%nat with false by lia. destruct (Nat.eqb_spec b (k + 1)) as [->|N1].
    + unfold rot_l. replace (a =? k)%nat with false by lia. replace (a =? k + 1)%nat with false by lia. destruct (B a k ltac:(lia)) as [->|]; [|lia]. destruct (B a (k + 1)%nat ltac:(lia)) as [->|]; [|lia]. ring.
    + unfold rot_l. destruct (Nat.eqb_spec a k) as [->|N2]; [|destruct (Nat.eqb_spec a (k + 1)) as [->|N3]].
      * destruct (B k b ltac:(lia)) as [->|]; [|lia]. destruct (B (k + 1)%nat b ltac:(lia)) as [->|]; [|lia]. ring.
      * destruct (Nat.eq_dec (b + 1) k) as [E|E]; [replace b with (k - 1)%nat by lia; apply Z; lia|]. destruct (B k b ltac:(lia)) as [->|]; [|lia]. destruct (B (k + 1)%nat b ltac:(lia)) as [->|]; [|lia]. ring.
      * destruct (B a b Hab); [assumption|lia].
Qed.
Lemma band_window n k f : (k + 1 < n)%nat -> (forall a b, (a < n)%nat -> (b < n)%nat -> f a b = f b a) -> band n k f ->
  forall j, (j < n)%nat -> ~ (w_start k <= j < w_fin n k)%nat -> f k j = 0 /\ f (k + 1)%nat j = 0.
Proof.
  intros Hk Y B j Hj Nj. unfold w_fin, w_start in Nj. assert (j + 1 < k \/ k + 2 < j)%nat as [L|L] by (destruct (Nat.eqb_spec k 0); lia).
  - destruct (B k j ltac:(lia)); [|lia]. destruct (B (k + 1)%nat j ltac:(lia)); [|lia]. auto.
  - rewrite (Y k j), (Y (k + 1)%nat j) by lia. destruct (B j k ltac:(lia)); [|lia]. destruct (B j (k + 1)%nat ltac:(lia)); [|lia]. auto.
Qed.
(** A rotation by the angle zero is no operation whatever the window. *)
Lemma rotate_none n i f : (i + 1 < n)%nat -> rotate n i 1 0 (mk n n f) = Some (mk n n f).
Proof.
  intros Hi. unfold rotate. change (if (i =? 0)%nat then 0%nat else (i - 1)%nat) with (w_start i). cbv zeta. fold (w_fin n i). set (st := w_start i) in *. set (e := w_fin n i) in *.
  assert (st <= i /\ i + 2 <= e <= n)%nat as (H1 & H2) by (unfold e, w_fin, st, w_start; destruct (Nat.eqb_spec i 0); lia).
  change (Mat 2 2 [[1; 0]; [- 0; 1]]) with (mk 2 2 (fun a b : nat => match a, b with 0%nat, 0%nat => 1 | 0%nat, _ => 0 | _, 0%nat => - 0 | _, _ => 1 end)).
  rewrite msub_view_mk by lia. cbn [obind]. rewrite mtranspose_mk. cbn [obind]. replace (i + 2 - i)%nat with 2%nat by lia. rewrite mmul_mk. cbn [obind].
  match goal with |- context [mwrite (mk n n f) i _ st e (mk 2 _ ?h)] => pose proof (mwrite_mk n n f i (i + 2) st e h ltac:(lia) ltac:(lia)) as K; replace (i + 2 - i)%nat with 2%nat in K by lia; rewrite K; clear K end. cbn [obind].
  match goal with |- context [msub_view (mk n n ?g)] => rewrite (mk_ext n n g f) end.
  2: { intros a b Ha Hb. destruct ((i <=? a) && (a <? i + 2) && (st <=? b) && (b <? e))%nat eqn:E; [|reflexivity].
       unfold prod_entry. cbn [sum]. replace (st + (b - st))%nat with b by lia. replace (i + 0)%nat with i by lia. destruct (Nat.eqb_spec a i) as [->|N]; [rewrite Nat.sub_diag; cbn; ring|]. replace (a - i)%nat with 1%nat by lia. replace a with (i + 1)%nat by lia. cbn. ring. }
  rewrite msub_view_mk by lia. cbn [obind]. replace (i + 2 - i)%nat with 2%nat by lia. rewrite mmul_mk. cbn [obind].
  match goal with |- mwrite (mk n n ?g) st e i _ (mk _ 2 ?h) = _ => pose proof (mwrite_mk n n g st e i (i + 2) h ltac:(lia) ltac:(lia)) as K; replace (i + 2 - i)%nat with 2%nat in K by lia; rewrite K; clear K end. f_equal. apply mk_ext.
  intros a b Ha Hb. destruct ((st <=? a) && (a <? e) && (i <=? b) && (b <? i + 2))%nat eqn:E; [|reflexivity].
  unfold prod_entry. cbn [sum]. replace (st + (a - st))%nat with a by lia. replace (i + 0)%nat with i by lia. destruct (Nat.eqb_spec b i) as [->|N]; [rewrite Nat.sub_diag; cbn; ring|]. replace (b - i)%nat with 1%nat by lia. replace b with (i + 1)%nat by lia. cbn. ring.
Qed.
Definition g_tol : R := / 1000000000000.
Lemma g_tol_pos : 0 < g_tol. Proof. unfold g_tol. lra. Qed.
(** The state of the sweep: the matrix is tridiagonal but for the bulge that is being chased, or a rotation was skipped. *)
Definition wk_status (n k : nat) (cs g : nat -> nat -> R) : Prop :=
  band n k g \/ exists j i, (1 <= j < k)%nat /\ band n j g /\ Rabs (g (j + 1)%nat (j - 1)%nat) < g_tol /\ (i < k)%nat /\ cs i 1%nat = 0.
Lemma wk_status_ext n k cs cs' g : (forall i, (i < k)%nat -> cs i 1%nat = cs' i 1%nat) -> wk_status n k cs g -> wk_status n k cs' g.
Proof. intros E [H|(j & i & H1 & H2 & H3 & H4 & H5)]; [now left|]. right. exists j, i. rewrite <- E by assumption. auto. Qed.
Definition set_row (cs : nat -> nat -> R) (k : nat) (c s : R) (a b : nat) : R := if (a =? k)%nat then if (b =? 0)%nat then c else s else cs a b.
Lemma rotations_ext n cs cs' k : (forall i, (i < k)%nat -> cs i 0%nat = cs' i 0%nat /\ cs i 1%nat = cs' i 1%nat) -> rotations n cs k = rotations n cs' k.
Proof. induction k as [|k IH]; intros H; [reflexivity|]. cbn [rotations]. rewrite IH by (intros; apply H; lia). destruct (H k ltac:(lia)) as (-> & ->). reflexivity. Qed.
Lemma wk_fold n op f x0 z0 k : (2 <= n)%nat -> (k <= n - 1)%nat -> (forall a b, (a < n)%nat -> (b < n)%nat -> f a b = f b a) -> band n 0 f ->
  exists g x z cs, foldM (wk_step op n) (seq 0 k) (WkSt (mk n n f) x0 z0 (mk (n - 1) 2 (fun _ _ => 0))) = Some (WkSt (mk n n g) x z (mk (n - 1) 2 (fun a b => if op && (a <? k)%nat then cs a b else 0))) /\
    (forall a b, (a < n)%nat -> (b < n)%nat -> g a b = g b a) /\ (forall i, (i < k)%nat -> cs i 0%nat * cs i 0%nat + cs i 1%nat * cs i 1%nat = 1) /\ congruent n f (rotations n cs k) g /\ wk_status n k cs g /\
    ((0 < k)%nat -> (k < n - 1)%nat -> x = g k (k - 1)%nat /\ z = g (k + 1)%nat (k - 1)%nat) /\ (k = 0%nat -> x = x0 /\ z = z0) /\ ((0 < k)%nat -> givens_rotation x0 z0 = Some (cs 0%nat 0%nat, cs 0%nat 1%nat)).
Proof.
  intros Hn Hk Y B. induction k as [|k IH].
  - exists f, x0, z0, (fun _ _ => 0). split; [cbn [seq foldM]; do 2 f_equal; apply mk_ext; intros a b Ha Hb; now replace (op && (a <? 0)%nat) with false by (destruct op; reflexivity)|]. split; [exact Y|]. split; [intros; lia|]. split; [apply congr_id|]. split; [now left|]. split; [lia|]. split; [auto|lia].
  - destruct IH as (g & x & z & cs & E & YG & N1 & C & ST & XZ & X0 & G0); [lia|]. rewrite seq_S, foldM_app, E. cbn [obind foldM Nat.add]. unfold wk_step. cbn [wk_x wk_z wk_m wk_op].
    destruct (givens_some x z) as (c & s & EG & NCS & SK & RT). rewrite EG. cbn [obind fst snd].
    assert (exists g', rotate n k c s (mk n n g) = Some (mk n n g') /\ same n n g' (rot_r k c s (rot_l k c s g)) /\ wk_status n (k + 1) (set_row cs k c s) g') as (g' & ER & EG' & ST').
    { assert (forall j, Rabs (g (j + 1)%nat (j - 1)%nat) < g_tol -> band n j g -> (1 <= j)%nat -> (j <= k)%nat -> c = 1 /\ s = 0 -> exists g', rotate n k c s (mk n n g) = Some (mk n n g') /\ same n n g' (rot_r k c s (rot_l k c s g)) /\ wk_status n (k + 1) (set_row cs k c s) g') as TR.
      { intros j HS HB H1 Hj (-> & ->). exists g. split; [apply rotate_none; lia|]. split; [intros a b _ _; now rewrite rot_trivial|]. right. exists j, k. unfold set_row. rewrite Nat.eqb_refl. cbn [Nat.eqb]. split; [lia|]. split; [exact HB|]. split; [exact HS|]. split; [lia|reflexivity]. }
      destruct ST as [HB|(j & i & Hj & HB & HS & Hi & SI)].
      - destruct (Rlt_le_dec (Rabs z) g_tol) as [L|L].
        + destruct (Nat.eq_dec k 0) as [->|NK].
          * destruct (SK L) as (-> & ->). exists g. split; [apply rotate_none; lia|]. split; [intros a b _ _; now rewrite rot_trivial|]. left. intros a b Hab. destruct (HB a b Hab); [now left|lia].
          * destruct (XZ ltac:(lia) ltac:(lia)) as (_ & EZ). apply (TR k); [now rewrite <- EZ|exact HB|lia|lia|now apply SK].
        + exists (rot_r k c s (rot_l k c s g)). split; [apply rotate_mk; [lia|exact YG|apply band_window; [lia|exact YG|exact HB]]|]. split; [intros a b _ _; reflexivity|]. left. apply band_step; [lia|exact YG|exact HB|]. intros K. destruct (XZ K ltac:(lia)) as (<- & <-). now apply RT.
      - apply (TR j); [exact HS|exact HB|lia|lia|]. apply SK. destruct (XZ ltac:(lia) ltac:(lia)) as (_ & ->). destruct (HB (k + 1)%nat (k - 1)%nat ltac:(lia)) as [->|]; [rewrite Rabs_R0; lra|lia]. }
    rewrite ER. cbn [obind].
    assert (forall o : mat R, o = mk (n - 1) 2 (fun a b => if op && (a <? k)%nat then cs a b else 0) -> (if op then do o <- mset o k 0 c; mset o k 1 s else Some o) = Some (mk (n - 1) 2 (fun a b => if op && (a <? S k)%nat then set_row cs k c s a b else 0))) as EO.
    { intros o ->. destruct op.
      - rewrite mset_mk by lia. cbn [obind]. rewrite mset_mk by lia. f_equal. apply mk_ext. intros a b Ha Hb. unfold set_row. cbn [andb]. destruct (Nat.eqb_spec a k) as [->|N]; cbn [andb].
        + replace (k <? S k)%nat with true by lia. destruct b as [|[|b]]; [reflexivity|reflexivity|lia].
        + now replace (a <? S k)%nat with (a <? k)%nat by lia.
      - reflexivity. }
    assert (exists x' z', (if (k <? n - 2)%nat then do x <- mget (mk n n g') (k + 1) k; do z <- mget (mk n n g') (k + 2) k; Some (x, z) else Some (x, z)) = Some (x', z') /\ ((S k < n - 1)%nat -> x' = g' (S k) (S k - 1)%nat /\ z' = g' (S k + 1)%nat (S k - 1)%nat)) as (x' & z' & EXZ & HXZ).
    { destruct (Nat.ltb_spec k (n - 2)) as [L|L].
      - rewrite !mget_in by lia. cbn [obind]. exists (g' (k + 1)%nat k), (g' (k + 2)%nat k). split; [reflexivity|]. intros _. split; f_equal; lia.
      - exists x, z. split; [reflexivity|lia]. }
    rewrite EXZ. cbn [obind fst snd]. rewrite (EO _ eq_refl). cbn [obind].
    exists g', x', z', (set_row cs k c s). split; [reflexivity|]. split; [|split; [|split; [|split; [|split; [|split]]]]].
    + intros a b Ha Hb. rewrite !EG' by assumption. apply (rot_sym n); [lia|exact YG|exact Ha|exact Hb].
    + intros i Hi. unfold set_row. destruct (Nat.eqb_spec i k) as [->|N]; [exact NCS|]. apply N1. lia.
    + cbn [rotations]. rewrite (rotations_ext n (set_row cs k c s) cs) by (intros i Hi; unfold set_row; now replace (i =? k)%nat with false by lia). unfold set_row. rewrite Nat.eqb_refl. cbn [Nat.eqb].
      eapply congr_trans; [exact C|]. eapply congr_ext; [| |apply rot_congr; lia]; [intros a b _ _; reflexivity|]. intros a b Ha Hb. symmetry. now apply EG'.
    + now rewrite <- Nat.add_1_r.
    + intros _. exact HXZ.
    + lia.
    + intros _. destruct (Nat.eq_dec k 0) as [->|NK].
      * destruct (X0 eq_refl) as (-> & ->). unfold set_row. cbn [Nat.eqb]. exact EG.
      * rewrite G0 by lia. unfold set_row. replace (0 =? k)%nat with false by lia. reflexivity.
Qed.
Lemma rotations_orth n cs k : (k + 1 <= n)%nat -> (forall i, (i < k)%nat -> cs i 0%nat * cs i 0%nat + cs i 1%nat * cs i 1%nat = 1) -> orthogonal n (rotations n cs k).
Proof.
  induction k as [|k IH]; intros Hk H; [apply orth_id|]. cbn [rotations]. apply orth_mul; [apply IH; [lia|intros; apply H; lia]|]. apply plane_orth; [lia|apply H; lia].
Qed.
(** The first column of the product is that of the first rotation. *)
Lemma rotations_first n cs k a : (0 < k)%nat -> (k + 1 <= n)%nat -> (a < n)%nat -> rotations n cs k a 0%nat = plane 0 (cs 0%nat 0%nat) (cs 0%nat 1%nat) a 0%nat.
Proof.
  intros Hk. induction k as [|k IH]; [lia|]. intros Hn Ha. cbn [rotations]. destruct (Nat.eq_dec k 0) as [->|N].
  - cbn [rotations]. now rewrite rprod_id_l.
  - rewrite rot_r_prod by lia. unfold rot_r. replace (0 =? k)%nat with false by lia. replace (0 =? k + 1)%nat with false by lia. apply IH; lia.
Qed.
Lemma status_near n cs g : (2 <= n)%nat -> (forall a b, (a < n)%nat -> (b < n)%nat -> g a b = g b a) -> wk_status n (n - 1) cs g ->
  nearly_tridiagonal n g_tol g /\ ((forall i, (i + 1 < n)%nat -> cs i 1%nat <> 0) -> same n n g (tridiagonal g)).
Proof.
  intros Hn Y ST. assert (forall a b, (b + 1 < a < n)%nat -> Rabs (g a b) < g_tol) as L.
  { intros a b Hab. destruct ST as [B|(j & i & Hj & B & S & _)].
    - destruct (B a b Hab) as [->|]; [rewrite Rabs_R0; apply g_tol_pos|lia].
    - destruct (B a b Hab) as [->|(-> & E)]; [rewrite Rabs_R0; apply g_tol_pos|]. replace b with (j - 1)%nat by lia. exact S. }
  split.
  - intros a b Ha Hb [H|H]; [rewrite Y by assumption; apply L; lia|apply L; lia].
  - intros NS. destruct ST as [B|(j & i & Hj & B & _ & Hi & Z)]; [|exfalso; now apply (NS i ltac:(lia))]. intros a b Ha Hb. unfold tridiagonal. destruct ((a <=? b + 1) && (b <=? a + 1))%nat eqn:E; [reflexivity|].
    destruct (Nat.le_ge_cases a b) as [K|K]; [rewrite Y by assumption; destruct (B b a ltac:(lia)); [assumption|lia]|destruct (B a b ltac:(lia)); [assumption|lia]].
Qed.
(** The shift. *)
Definition shift_of (a b e : R) : R := let d := (a - e) / 2 in let sign := if Rle_dec 0 d then 1 else -1 in e - b * b / (d + sign * sqrt (d * d + b * b)).
Lemma shift_facts a b e : ~ (a = e /\ b = 0) -> let d := (a - e) / 2 in let sign := if Rle_dec 0 d then 1 else -1 in let t := d + sign * sqrt (d * d + b * b) in
  t <> 0 /\ t * t - 2 * d * t - b * b = 0 /\ b * b <= t * t.
Proof.
  intros N d sign t. set (q := sqrt (d * d + b * b)) in *. assert (0 <= d * d + b * b) as P by nra. pose proof (sqrt_pos (d * d + b * b)) as QP. fold q in QP. pose proof (sqrt_sqrt (d * d + b * b) P) as QQ. fold q in QQ.
  assert (0 < q) as QN. { destruct QP as [|E]; [assumption|]. exfalso. apply N. rewrite <- E in QQ. assert (d = 0) by nra. assert (b = 0) by nra. unfold d in *. split; lra. }
  unfold t, sign. destruct (Rle_dec 0 d) as [D|D].
  - split; [|split]; nra.
  - split; [|split]; nra.
Qed.
Lemma shift_corner n A a b e : (2 <= n)%nat -> a = A (n - 2)%nat (n - 2)%nat -> e = A (n - 1)%nat (n - 1)%nat -> b = A (n - 1)%nat (n - 2)%nat -> b = A (n - 2)%nat (n - 1)%nat -> ~ (a = e /\ b = 0) -> corner_shift n A (shift_of a b e).
Proof.
  intros Hn Ea Ee Eb Eb' N. destruct (shift_facts a b e N) as (T0 & TQ & TB). unfold shift_of. set (d := (a - e) / 2) in *. set (sign := if Rle_dec 0 d then 1 else -1) in *. cbv zeta. set (t := d + sign * sqrt (d * d + b * b)) in *.
  assert (forall m, eigenvalue 2 (block_at (n - 2) A) m <-> (m - e) * (m - e) - 2 * d * (m - e) - b * b = 0) as CH.
  { intros m. rewrite eig_two. unfold block_at. rewrite Nat.add_0_r. replace (n - 2 + 1)%nat with (n - 1)%nat by lia. rewrite <- Ea, <- Ee, <- Eb, <- Eb'. unfold d. split; intros H; lra. }
  split.
  - apply CH. replace (e - b * b / t - e) with (- (b * b / t)) by ring. apply (Rmult_eq_reg_r (t * t)); [|nra]. rewrite Rmult_0_l. replace ((- (b * b / t) * - (b * b / t) - 2 * d * - (b * b / t) - b * b) * (t * t)) with (- (b * b) * (t * t - 2 * d * t - b * b)) by (field; exact T0). rewrite TQ. ring.
  - intros m' H. apply CH in H. rewrite <- Ee. replace (e - b * b / t - e) with (- (b * b / t)) by ring. rewrite Rabs_Ropp. assert ((m' - e - t) * (m' - e + b * b / t) = 0) as F.
    { apply (Rmult_eq_reg_r t); [|exact T0]. rewrite Rmult_0_l. replace ((m' - e - t) * (m' - e + b * b / t) * t) with (t * ((m' - e) * (m' - e) - b * b) + (b * b - t * t) * (m' - e)) by (field; exact T0). replace (b * b - t * t) with (- 2 * d * t) by lra. replace (t * ((m' - e) * (m' - e) - b * b) + -2 * d * t * (m' - e)) with (t * ((m' - e) * (m' - e) - 2 * d * (m' - e) - b * b)) by ring. rewrite H. ring. }
    apply Rmult_integral in F. destruct F as [F|F].
    + replace (m' - e) with t by lra. assert (0 < Rabs t) as AP by (now apply Rabs_pos_lt). apply (Rmult_le_reg_r (Rabs t)); [exact AP|]. rewrite <- Rabs_mult. replace (b * b / t * t) with (b * b) by (field; exact T0). rewrite <- Rabs_mult. rewrite !Rabs_right by nra. exact TB.
    + replace (m' - e) with (- (b * b / t)) by lra. rewrite Rabs_Ropp. lra.
Qed.
Lemma wilkinson_shift_mk n f : (2 <= n)%nat -> let a := f (n - 2)%nat (n - 2)%nat in let b := f (n - 1)%nat (n - 2)%nat in let e := f (n - 1)%nat (n - 1)%nat in
  (~ (a = e /\ b = 0) -> wilkinson_shift n (mk n n f) = Some (shift_of a b e)) /\ (a = e /\ b = 0 -> wilkinson_shift n (mk n n f) = None).
Proof.
  intros Hn a b e. unfold wilkinson_shift, usub. replace (2 <=? n)%nat with true by lia. cbn [obind]. rewrite !mget_in by lia. cbn [obind]. fold a b e.
  assert ((if rleb 0 ((a - e) / 2) then 1 else -1) = (if Rle_dec 0 ((a - e) / 2) then 1 else -1)) as -> by (destruct (rleb_spec 0 ((a - e) / 2)), (Rle_dec 0 ((a - e) / 2)); lra).
  split.
  - intros N. destruct (shift_facts a b e N) as (T0 & _). rewrite (fdiv_some field_ok_R) by exact T0. reflexivity.
  - intros (-> & ->). unfold fdiv. replace ((e - e) / 2) with 0 by lra. destruct (Rle_dec 0 0); [|lra]. replace (0 * 0 + 0 * 0) with 0 by ring. rewrite sqrt_0. replace (0 + 1 * 0) with 0 by ring. cbn. destruct (Req_EM_T 0 0); [reflexivity|lra].
Qed.
