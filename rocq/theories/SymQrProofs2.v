(** One sweep of rotations on any symmetric matrix with small entries away from the diagonal. *)
From Coq Require Import List Arith Bool Lia ZifyBool Reals Lra.
From Verif Require Import PidModel MatModel MatSpec MatProofs MatProofs2 SnfModel SnfProofs2 RankModel LuModel LuSpec LuProofs2 LuProofs3 NumModel NumSpec NumProofs HouseProofs HessProofs FrancisModel FrancisSpec FrancisProofs QrProofs EigProofs TriModel TriSpec TriProofs WilkModel WilkSpec WilkProofs WilkProps SpectrumProps SymQrSpec SymQrProofs.
Import ListNotations.
Open Scope R_scope.

Definition inw (n i a : nat) : bool := ((w_start i <=? a) && (a <? w_fin n i))%nat.
Definition rot_w (n i : nat) (c s : R) (f : nat -> nat -> R) (a b : nat) : R := if inw n i a && inw n i b then rot_r i c s (rot_l i c s f) a b else f a b.
Lemma rotate_any n i c s f : (i + 1 < n)%nat -> rotate n i c s (mk n n f) = Some (mk n n (rot_w n i c s f)).
Proof.
  intros Hi. unfold rotate. change (if (i =? 0)%nat then 0%nat else (i - 1)%nat) with (w_start i). cbv zeta. fold (w_fin n i).
  assert (w_start i <= i /\ i + 2 <= w_fin n i <= n)%nat as (H1 & H2) by (unfold w_fin, w_start; destruct (Nat.eqb_spec i 0); lia).
  unfold rot_w, inw. set (st := w_start i) in *. set (e := w_fin n i) in *. clearbody st e.
  change (Mat 2 2 [[c; s]; [- s; c]]) with (mk 2 2 (fun a b : nat => match a, b with 0%nat, 0%nat => c | 0%nat, _ => s | _, 0%nat => - s | _, _ => c end)).
  rewrite msub_view_mk by lia. cbn [obind]. rewrite mtranspose_mk. cbn [obind]. replace (i + 2 - i)%nat with 2%nat by lia. rewrite mmul_mk. cbn [obind].
  match goal with |- context [mwrite (mk n n f) i _ st e (mk 2 _ ?h)] => pose proof (mwrite_mk n n f i (i + 2) st e h ltac:(lia) ltac:(lia)) as K; replace (i + 2 - i)%nat with 2%nat in K by lia; rewrite K; clear K end. cbn [obind].
  match goal with |- context [msub_view (mk n n ?g)] => rewrite (mk_ext n n g (fun a b => if ((st <=? b) && (b <? e))%nat then rot_l i c s f a b else f a b)) end.
  2: { intros a b Ha Hb. unfold rot_l. destruct ((i <=? a) && (a <? i + 2) && (st <=? b) && (b <? e))%nat eqn:E.
       - replace ((st <=? b) && (b <? e))%nat with true by lia. unfold prod_entry. cbn [sum]. replace (st + (b - st))%nat with b by lia. replace (i + 0)%nat with i by lia. destruct (Nat.eqb_spec a i) as [->|N]; [rewrite Nat.sub_diag; cbn; ring|]. replace (a =? i + 1)%nat with true by lia. replace (a - i)%nat with 1%nat by lia. cbn. ring.
       - destruct ((st <=? b) && (b <? e))%nat eqn:E2; [|reflexivity]. replace (a =? i)%nat with false by lia. now replace (a =? i + 1)%nat with false by lia. }
  rewrite msub_view_mk by lia. cbn [obind]. replace (i + 2 - i)%nat with 2%nat by lia. rewrite mmul_mk. cbn [obind].
  match goal with |- mwrite (mk n n ?g) st e i _ (mk _ 2 ?h) = _ => pose proof (mwrite_mk n n g st e i (i + 2) h ltac:(lia) ltac:(lia)) as K; replace (i + 2 - i)%nat with 2%nat in K by lia; rewrite K; clear K end. f_equal. apply mk_ext.
  intros a b Ha Hb. unfold rot_r. destruct ((st <=? a) && (a <? e) && (i <=? b) && (b <? i + 2))%nat eqn:E.
  - replace ((st <=? a) && (a <? e) && ((st <=? b) && (b <? e)))%nat with true by lia. unfold prod_entry. cbn [sum]. replace (st + (a - st))%nat with a by lia. replace (i + 0)%nat with i by lia. replace ((st <=? i) && (i <? e))%nat with true by lia. replace ((st <=? i + 1) && (i + 1 <? e))%nat with true by lia.
    destruct (Nat.eqb_spec b i) as [->|N]; [rewrite Nat.sub_diag; cbn; ring|]. replace (b =? i + 1)%nat with true by lia. replace (b - i)%nat with 1%nat by lia. cbn. ring.
  - destruct ((st <=? a) && (a <? e))%nat eqn:E1; cbn [andb].
    + destruct ((st <=? b) && (b <? e))%nat eqn:E2; [|reflexivity]. replace (b =? i)%nat with false by lia. now replace (b =? i + 1)%nat with false by lia.
    + destruct ((st <=? b) && (b <? e))%nat eqn:E2; [|reflexivity]. unfold rot_l. replace (a =? i)%nat with false by lia. now replace (a =? i + 1)%nat with false by lia.
Qed.
(** Zero four places from the diagonal, at most [t] three places from it, small two places from it except at the bulge. *)
Definition hepta (n : nat) (f : nat -> nat -> R) : Prop := forall a b, (b + 3 < a < n)%nat -> f a b = 0.
Definition far3 (n : nat) (t : R) (f : nat -> nat -> R) : Prop := forall b, (b + 3 < n)%nat -> Rabs (f (b + 3)%nat b) <= t.
Definition small2 (n k : nat) (f : nat -> nat -> R) : Prop := forall b, (b + 2 < n)%nat -> (b + 1 <> k)%nat -> (k = 1 -> b <> 1)%nat -> Rabs (f (b + 2)%nat b) < g_tol.
Lemma rot_w_sym n i c s f : (i + 1 < n)%nat -> symmetric_mat n f -> symmetric_mat n (rot_w n i c s f).
Proof. intros Hi Y a b Ha Hb. unfold rot_w. rewrite (andb_comm (inw n i b)). destruct (inw n i a && inw n i b); [apply (rot_sym n); assumption|now apply Y]. Qed.
Lemma rot_trace n i c s f : (i + 1 < n)%nat -> c * c + s * s = 1 -> symmetric_mat n f -> trace n (rot_w n i c s f) = trace n f.
Proof.
  intros Hi E Y. transitivity (trace n (rot_r i c s (rot_l i c s f))).
  - unfold trace. apply rsum_ext. intros a Ha. unfold rot_w. destruct (inw n i a) eqn:I; [reflexivity|]. cbn [andb]. unfold inw, w_fin, w_start in I. unfold rot_r, rot_l. assert (a <> i /\ a <> i + 1)%nat as (N1 & N2) by (split; destruct (Nat.eqb_spec i 0); lia).
    replace (a =? i)%nat with false by lia. now replace (a =? i + 1)%nat with false by lia.
  - apply trace_similar. exists (plane i c s). split; [now apply plane_orth|now apply rot_congr].
Qed.
Lemma sweep_step n k c s t f : (k + 1 < n)%nat -> c * c + s * s = 1 -> 0 <= t -> symmetric_mat n f -> hepta n f -> far3 n t f -> small2 n k f ->
  ((0 < k)%nat -> (Rabs (f (k + 1)%nat (k - 1)%nat) < g_tol -> c = 1 /\ s = 0) /\ (g_tol <= Rabs (f (k + 1)%nat (k - 1)%nat) -> s * f k (k - 1)%nat + c * f (k + 1)%nat (k - 1)%nat = 0)) ->
  hepta n (rot_w n k c s f) /\ far3 n (if (k =? 0)%nat then t + g_tol else t) (rot_w n k c s f) /\ small2 n (k + 1) (rot_w n k c s f) /\ perturbed n f (48 * (t + g_tol)) (rot_w n k c s f).
Proof.
  intros Hk E T0 Y HE FA SM Z. assert (forall a, (a < n)%nat -> inw n k a = true <-> (k <= a + 1 /\ (a <= k + 2 \/ k = 0 /\ a = 3))%nat) as IW.
  { intros a Ha. unfold inw, w_fin, w_start. destruct (Nat.eqb_spec k 0); lia. }
  pose proof g_tol_pos as GP. assert (Rabs c <= 1) as AC by (apply Rabs_le; nra). assert (Rabs s <= 1) as AS by (apply Rabs_le; nra).
  assert (forall y w T, Rabs y <= 1 -> Rabs w <= T -> Rabs (y * w) <= T) as AB by (intros y w T Hy Hw; rewrite Rabs_mult; pose proof (Rabs_pos y); pose proof (Rabs_pos w); nra).
  split; [|split; [|split]].
  - intros a b Hab. unfold rot_w. destruct (inw n k a && inw n k b) eqn:I; [|now apply HE]. apply andb_prop in I. destruct I as (I1 & I2). apply IW in I1; [|lia]. apply IW in I2; [|lia]. lia.
  - intros b Hb. unfold rot_w. destruct (inw n k (b + 3) && inw n k b) eqn:I; [|specialize (FA b Hb); destruct (k =? 0)%nat; lra]. apply andb_prop in I. destruct I as (I1 & I2). apply IW in I1; [|lia]. apply IW in I2; [|lia].
    unfold rot_r, rot_l. replace (b + 3 =? k)%nat with false by lia. replace (b + 3 =? k + 1)%nat with false by lia. replace (b =? k + 1)%nat with false by lia. destruct (Nat.eqb_spec k 0) as [->|Nk].
    + replace (b =? 0)%nat with true by lia. assert (b = 0)%nat as -> by lia. cbn [Nat.add]. pose proof (AB c _ t AC (FA 0%nat Hb)) as B1. pose proof (AB s (f 3%nat 1%nat) g_tol AS (Rlt_le _ _ (SM 1%nat ltac:(lia) ltac:(lia) ltac:(lia)))) as B2.
      cbn [Nat.add] in B1. replace (c * f 3%nat 0%nat - s * f 3%nat 1%nat) with (c * f 3%nat 0%nat + - (s * f 3%nat 1%nat)) by ring. pose proof (Rabs_triang (c * f 3%nat 0%nat) (- (s * f 3%nat 1%nat))) as B3. rewrite Rabs_Ropp in B3. lra.
    + replace (b =? k)%nat with false by lia. now apply FA.
  - intros b Hb Nb Nb1. unfold rot_w. destruct (inw n k (b + 2) && inw n k b) eqn:I.
    2: { apply SM; [exact Hb| |].
         - intros K. assert (inw n k (b + 2) = true) as I1 by (apply IW; lia). assert (inw n k b = true) as I2 by (apply IW; lia). rewrite I1, I2 in I. discriminate.
         - intros -> ->. lia. }
    apply andb_prop in I. destruct I as (I1 & I2). apply IW in I1; [|lia]. apply IW in I2; [|lia]. assert (b + 1 = k)%nat as Eb by lia.
    unfold rot_r, rot_l. replace (b =? k)%nat with false by lia. replace (b =? k + 1)%nat with false by lia. replace (b + 2 =? k)%nat with false by lia. replace (b + 2 =? k + 1)%nat with true by lia.
    destruct (Z ltac:(lia)) as (Z1 & Z2). replace (k - 1)%nat with b in Z1, Z2 by lia. destruct (Rlt_le_dec (Rabs (f (k + 1)%nat b)) g_tol) as [L|L].
    + destruct (Z1 L) as (-> & ->). now replace (0 * f k b + 1 * f (k + 1)%nat b) with (f (k + 1)%nat b) by ring.
    + rewrite (Z2 L), Rabs_R0. exact GP.
  - replace (48 * (t + g_tol)) with (0 + 3 * (t + g_tol) * INR 16) by (cbn; ring). apply (pert_trans n f (rot_r k c s (rot_l k c s f))).
    + apply pert_sim; [lra|]. exists (plane k c s). split; [now apply plane_orth|now apply rot_congr].
    + set (l := [(k, (k - 2)%nat); ((k + 1)%nat, (k - 2)%nat); (k, (k - 3)%nat); ((k + 1)%nat, (k - 3)%nat); (k, (k + 3)%nat); ((k + 1)%nat, (k + 3)%nat); (k, (k + 4)%nat); ((k + 1)%nat, (k + 4)%nat);
          ((k - 2)%nat, k); ((k - 2)%nat, (k + 1)%nat); ((k - 3)%nat, k); ((k - 3)%nat, (k + 1)%nat); ((k + 3)%nat, k); ((k + 3)%nat, (k + 1)%nat); ((k + 4)%nat, k); ((k + 4)%nat, (k + 1)%nat)]). change 16%nat with (length l).
      assert (symmetric_mat n (rot_r k c s (rot_l k c s f))) as YR by (intros a b Ha Hb; apply (rot_sym n); assumption). pose proof (rot_w_sym n k c s f Hk Y) as YW. set (T := t + g_tol) in *.
      assert (forall u v, Rabs u <= T -> Rabs v <= T -> Rabs (u - (c * u - s * v)) <= 3 * T /\ Rabs (v - (s * u + c * v)) <= 3 * T) as BD.
      { intros u v Hu Hv. pose proof (AB c u T AC Hu). pose proof (AB c v T AC Hv). pose proof (AB s u T AS Hu). pose proof (AB s v T AS Hv). split.
        - replace (u - (c * u - s * v)) with (u + (- (c * u)) + s * v) by ring. pose proof (Rabs_triang (u + - (c * u)) (s * v)). pose proof (Rabs_triang u (- (c * u))). rewrite Rabs_Ropp in *. lra.
        - replace (v - (s * u + c * v)) with (v + (- (c * v)) + - (s * u)) by ring. pose proof (Rabs_triang (v + - (c * v)) (- (s * u))). pose proof (Rabs_triang v (- (c * v))). rewrite Rabs_Ropp in *. lra. }
      assert (forall a b, (a < n)%nat -> (b < n)%nat -> (b + 2 <= a)%nat -> (b + 2 = a -> b + 1 <> k /\ (k = 1 -> b <> 1))%nat -> Rabs (f a b) <= T) as BT.
      { intros a b Ha Hb L N. destruct (Nat.eq_dec a (b + 2)) as [->|N2]; [destruct (N eq_refl); specialize (SM b Ha ltac:(assumption) ltac:(assumption)); unfold T; lra|]. destruct (Nat.eq_dec a (b + 3)) as [->|N3]; [specialize (FA b Ha); unfold T; lra|]. rewrite HE by lia. rewrite Rabs_R0. unfold T. lra. }
      assert (forall a b, (a < n)%nat -> (b < n)%nat -> (a = k \/ a = k + 1)%nat -> rot_w n k c s f a b = rot_r k c s (rot_l k c s f) a b \/ (In (a, b) l /\ In (b, a) l) /\ Rabs (rot_w n k c s f a b - rot_r k c s (rot_l k c s f) a b) <= 3 * T) as HR.
      { intros a b Ha Hb Ea. unfold rot_w. replace (inw n k a) with true by (symmetry; apply IW; lia). cbn [andb]. destruct (inw n k b) eqn:I; [now left|]. assert (~ (k <= b + 1 /\ (b <= k + 2 \/ k = 0 /\ b = 3))%nat) as NB by (intros K; apply IW in K; [congruence|exact Hb]).
        unfold rot_r, rot_l. replace (b =? k)%nat with false by lia. replace (b =? k + 1)%nat with false by lia.
        assert ((f k b = 0 /\ f (k + 1)%nat b = 0) \/ ((b + 2 = k \/ b + 3 = k \/ b = k + 3 \/ b = k + 4)%nat /\ Rabs (f k b) <= T /\ Rabs (f (k + 1)%nat b) <= T)) as [(Z1 & Z2)|(EB & Z1 & Z2)].
        { destruct (Nat.le_gt_cases b k) as [K|K].
          - destruct (Nat.le_gt_cases k (b + 3)) as [K3|K3]; [right|left; split; apply HE; lia]. split; [lia|]. split; apply BT; lia.
          - destruct (Nat.le_gt_cases b (k + 4)) as [K3|K3]; [right|left; rewrite (Y k b), (Y (k + 1)%nat b) by lia; split; apply HE; lia]. split; [lia|]. rewrite (Y k b), (Y (k + 1)%nat b) by lia. split; apply BT; lia. }
        - left. destruct Ea as [-> | ->]; [rewrite Nat.eqb_refl, Z1, Z2; ring|]. replace (k + 1 =? k)%nat with false by lia. rewrite Nat.eqb_refl, Z1, Z2. ring.
        - right. split; [split; unfold l; destruct EB as [EB|[EB|[-> | ->]]]; try (replace b with (k - 2)%nat by lia; clear EB); try (replace b with (k - 3)%nat by lia; clear EB); destruct Ea as [-> | ->]; cbn [In]; tauto|].
          destruct (BD _ _ Z1 Z2) as (B1 & B2). destruct Ea as [-> | ->]; [rewrite Nat.eqb_refl; exact B1|]. replace (k + 1 =? k)%nat with false by lia. rewrite Nat.eqb_refl. exact B2. }
      apply pert_spots; [unfold T; lra|intros a b Ha Hb; now rewrite (YR a b), (YW a b)|]. intros a b Ha Hb.
      destruct (Nat.eq_dec a k) as [Ea|Na]; [destruct (HR a b Ha Hb ltac:(lia)) as [H|(H1 & H2)]; [now left|right; tauto]|]. destruct (Nat.eq_dec a (k + 1)) as [Ea|Na1]; [destruct (HR a b Ha Hb ltac:(lia)) as [H|(H1 & H2)]; [now left|right; tauto]|].
      destruct (Nat.eq_dec b k) as [Eb|Nb]; [rewrite (YR a b), (YW a b) by assumption; destruct (HR b a Hb Ha ltac:(lia)) as [H|(H1 & H2)]; [now left|right; tauto]|]. destruct (Nat.eq_dec b (k + 1)) as [Eb|Nb1]; [rewrite (YR a b), (YW a b) by assumption; destruct (HR b a Hb Ha ltac:(lia)) as [H|(H1 & H2)]; [now left|right; tauto]|].
      left. unfold rot_w. destruct (inw n k a && inw n k b); [reflexivity|]. unfold rot_r, rot_l. replace (b =? k)%nat with false by lia. replace (b =? k + 1)%nat with false by lia. replace (a =? k)%nat with false by lia. now replace (a =? k + 1)%nat with false by lia.
Qed.
(** The whole sweep. *)
Lemma sweep n f t x0 z0 k : (2 <= n)%nat -> (k <= n - 1)%nat -> 0 <= t -> symmetric_mat n f -> hepta n f -> far3 n t f -> small2 n 0 f ->
  exists g x z o, foldM (wk_step true n) (seq 0 k) (WkSt (mk n n f) x0 z0 (mk (n - 1) 2 (fun _ _ => 0))) = Some (WkSt (mk n n g) x z (mk (n - 1) 2 o)) /\
    symmetric_mat n g /\ hepta n g /\ far3 n (t + g_tol) g /\ small2 n k g /\ perturbed n f (48 * (t + 2 * g_tol) * INR k) g /\ trace n g = trace n f /\ ((0 < k)%nat -> (k < n - 1)%nat -> x = g k (k - 1)%nat /\ z = g (k + 1)%nat (k - 1)%nat).
Proof.
  intros Hn Hk T0 Y HE FA SM. pose proof g_tol_pos as GP.
  enough (exists g x z o, foldM (wk_step true n) (seq 0 k) (WkSt (mk n n f) x0 z0 (mk (n - 1) 2 (fun _ _ => 0))) = Some (WkSt (mk n n g) x z (mk (n - 1) 2 o)) /\
    symmetric_mat n g /\ hepta n g /\ far3 n (if (k =? 0)%nat then t else t + g_tol) g /\ small2 n k g /\ perturbed n f (48 * (t + 2 * g_tol) * INR k) g /\ trace n g = trace n f /\ ((0 < k)%nat -> (k < n - 1)%nat -> x = g k (k - 1)%nat /\ z = g (k + 1)%nat (k - 1)%nat)) as (g & x & z & o & E & YG & HG & FG & R).
  { exists g, x, z, o. split; [exact E|]. split; [exact YG|]. split; [exact HG|]. split; [|exact R]. intros b Hb. specialize (FG b Hb). destruct (k =? 0)%nat; lra. }
  induction k as [|k IH].
  - exists f, x0, z0, (fun _ _ => 0). split; [reflexivity|]. split; [exact Y|]. split; [exact HE|]. split; [exact FA|]. split; [exact SM|]. split; [apply pert_refl; cbn; lra|]. split; [reflexivity|lia].
  - destruct IH as (g & x & z & o & E & YG & HG & FG & SG & PT & TR & XZ); [lia|]. rewrite seq_S, foldM_app, E. cbn [obind foldM Nat.add]. unfold wk_step. cbn [wk_x wk_z wk_m wk_op].
    destruct (givens_some x z) as (c & s & EG & NCS & SK & RT). rewrite EG. cbn [obind fst snd]. rewrite rotate_any by lia. cbn [obind]. set (g' := rot_w n k c s g).
    destruct (sweep_step n k c s (if (k =? 0)%nat then t else t + g_tol) g ltac:(lia) NCS) as (HG' & FG' & SG' & PT'); [destruct (k =? 0)%nat; lra|exact YG|exact HG|exact FG|exact SG| |].
    { intros K. destruct (XZ K ltac:(lia)) as (<- & <-). split; [exact SK|exact RT]. }
    fold g' in HG', FG', SG', PT'. pose proof (rot_w_sym n k c s g ltac:(lia) YG) as YG'. fold g' in YG'. pose proof (rot_trace n k c s g ltac:(lia) NCS YG) as TR'. fold g' in TR'.
    assert (exists x' z', (if (k <? n - 2)%nat then do x <- mget (mk n n g') (k + 1) k; do z <- mget (mk n n g') (k + 2) k; Some (x, z) else Some (x, z)) = Some (x', z') /\ ((S k < n - 1)%nat -> x' = g' (S k) (S k - 1)%nat /\ z' = g' (S k + 1)%nat (S k - 1)%nat)) as (x' & z' & EXZ & HXZ).
    { destruct (Nat.ltb_spec k (n - 2)) as [L|L].
      - rewrite !mget_in by lia. cbn [obind]. exists (g' (k + 1)%nat k), (g' (k + 2)%nat k). split; [reflexivity|]. intros _. split; f_equal; lia.
      - exists x, z. split; [reflexivity|lia]. }
    rewrite EXZ. cbn [obind fst snd]. rewrite mset_mk by lia. cbn [obind]. rewrite mset_mk by lia. cbn [obind].
    eexists g', x', z', _. split; [reflexivity|]. split; [exact YG'|]. split; [exact HG'|]. split; [cbn [Nat.eqb]; destruct (k =? 0)%nat; exact FG'|]. split; [now rewrite <- Nat.add_1_r|]. split; [|split; [now rewrite TR'|intros _; exact HXZ]].
    rewrite S_INR. replace (48 * (t + 2 * g_tol) * (INR k + 1)) with (48 * (t + 2 * g_tol) * INR k + 48 * (t + 2 * g_tol)) by ring. apply (pert_trans n f g); [exact PT|]. eapply pert_le; [|exact PT']. destruct (k =? 0)%nat; lra.
Qed.
Lemma step_any n t f : (2 <= n)%nat -> 0 <= t -> symmetric_mat n f -> hepta n f -> far3 n t f -> small2 n 0 f -> ~ (f (n - 2)%nat (n - 2)%nat = f (n - 1)%nat (n - 1)%nat /\ f (n - 1)%nat (n - 2)%nat = 0) ->
  exists g o, wilkinson_step (mk n n f) true = Some (mk n n g, mk (n - 1) 2 o) /\ symmetric_mat n g /\ hepta n g /\ far3 n (t + g_tol) g /\ small2 n 0 g /\ perturbed n f (48 * (t + 2 * g_tol) * INR (n - 1)) g /\ trace n g = trace n f.
Proof.
  intros Hn T0 Y HE FA SM N. destruct (wilkinson_shift_mk n f Hn) as (WS & _). specialize (WS N). set (m := shift_of (f (n - 2)%nat (n - 2)%nat) (f (n - 1)%nat (n - 2)%nat) (f (n - 1)%nat (n - 1)%nat)) in *.
  destruct (sweep n f t (f 0%nat 0%nat - m) (f 1%nat 0%nat) (n - 1) Hn ltac:(lia) T0 Y HE FA SM) as (g & x & z & o & E & YG & HG & FG & SG & PT & TR & _). exists g, o.
  split; [|split; [exact YG|split; [exact HG|split; [exact FG|split; [|split; [exact PT|exact TR]]]]]].
  2: { intros b Hb Nb _. apply SG; lia. }
  unfold wilkinson_step. rewrite nr_mk. rewrite WS. cbn [obind]. rewrite !mget_in by lia. cbn [obind]. rewrite mzero_mk by lia. cbn [obind]. unfold rng. rewrite Nat.sub_0_r.
  change (mk (n - 1) 2 (fun _ _ : nat => t0)) with (mk (n - 1) 2 (fun _ _ : nat => 0)). rewrite E. reflexivity.
Qed.
