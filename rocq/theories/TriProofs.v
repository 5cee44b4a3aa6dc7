(** Tridiagonalisation of a symmetric matrix. *)
From Coq Require Import List Arith Bool Lia ZifyBool Reals Lra.
From Verif Require Import PidModel MatModel MatSpec MatProofs MatProofs2 SnfModel RankModel LuModel LuSpec LuProofs2 LuProofs3 NumModel NumSpec NumProofs HouseProofs HessProofs FrancisModel FrancisSpec FrancisProofs TriModel.
Import ListNotations.
Open Scope R_scope.

(** The rank-two update of the trailing block, both halves from the upper one. *)
Definition rank2 (o : nat) (v w : nat -> R) (g : nat -> nat -> R) (a b : nat) : R :=
  g (Nat.min a b) (Nat.max a b) - (v (Nat.min a b - o)%nat * w (Nat.max a b - o)%nat + v (Nat.max a b - o)%nat * w (Nat.min a b - o)%nat).
Lemma tri_off_fold n o j d v w g m : (o + d = n)%nat -> (j + 1 + m <= d)%nat ->
  foldM (tri_off o j (mk d 1 (fun i _ => v i)) (mk d 1 (fun i _ => w i))) (seq (j + 1) m) (mk n n g) =
  Some (mk n n (fun a b => if ((Nat.min a b =? j + o) && (j + o <? Nat.max a b) && (Nat.max a b <? j + 1 + m + o))%nat then rank2 o v w g a b else g a b)).
Proof.
  intros Hn Hm. set (st := fun m => mk n n (fun a b => if ((Nat.min a b =? j + o) && (j + o <? Nat.max a b) && (Nat.max a b <? j + 1 + m + o))%nat then rank2 o v w g a b else g a b)).
  replace (mk n n g) with (st 0%nat) by (apply mk_ext; intros a b Ha Hb; now replace ((Nat.min a b =? j + o) && (j + o <? Nat.max a b) && (Nat.max a b <? j + 1 + 0 + o))%nat with false by lia).
  change (foldM (tri_off o j (mk d 1 (fun i _ => v i)) (mk d 1 (fun i _ => w i))) (seq (j + 1) m) (st 0%nat) = Some (st m)). apply foldM_seq. intros k Hk. unfold tri_off, st. rewrite !mget_in by lia. cbn [obind].
  replace ((Nat.min (j + o) (j + 1 + k + o) =? j + o) && (j + o <? Nat.max (j + o) (j + 1 + k + o)) && (Nat.max (j + o) (j + 1 + k + o) <? j + 1 + k + o))%nat with false by lia.
  rewrite mset_mk by lia. cbn [obind]. rewrite mget_in by lia. cbn [obind]. rewrite !Nat.eqb_refl. cbn [andb]. rewrite mset_mk by lia. f_equal. apply mk_ext. intros a b Ha Hb.
  destruct ((a =? j + 1 + k + o) && (b =? j + o))%nat eqn:E1; [|destruct ((a =? j + o) && (b =? j + 1 + k + o))%nat eqn:E2].
  - replace ((Nat.min a b =? j + o) && (j + o <? Nat.max a b) && (Nat.max a b <? j + 1 + (k + 1) + o))%nat with true by lia. unfold rank2. replace (Nat.min a b) with (j + o)%nat by lia. replace (Nat.max a b) with (j + 1 + k + o)%nat by lia.
    replace (j + o - o)%nat with j by lia. now replace (j + 1 + k + o - o)%nat with (j + 1 + k)%nat by lia.
  - replace ((Nat.min a b =? j + o) && (j + o <? Nat.max a b) && (Nat.max a b <? j + 1 + (k + 1) + o))%nat with true by lia. unfold rank2. replace (Nat.min a b) with (j + o)%nat by lia. replace (Nat.max a b) with (j + 1 + k + o)%nat by lia.
    replace (j + o - o)%nat with j by lia. now replace (j + 1 + k + o - o)%nat with (j + 1 + k)%nat by lia.
  - now replace ((Nat.min a b =? j + o) && (j + o <? Nat.max a b) && (Nat.max a b <? j + 1 + (k + 1) + o))%nat with ((Nat.min a b =? j + o) && (j + o <? Nat.max a b) && (Nat.max a b <? j + 1 + k + o))%nat by lia.
Qed.
Lemma tri_rows n o d v w g : (o + d = n)%nat ->
  foldM (tri_row o d (mk d 1 (fun i _ => v i)) (mk d 1 (fun i _ => w i))) (rng 0 d) (mk n n g) = Some (mk n n (fun a b => if ((o <=? a) && (o <=? b))%nat then rank2 o v w g a b else g a b)).
Proof.
  intros Hn. set (st := fun m => mk n n (fun a b => if ((o <=? Nat.min a b) && (Nat.min a b <? m + o))%nat then rank2 o v w g a b else g a b)). unfold rng. rewrite Nat.sub_0_r.
  rewrite (foldM_seq0 _ st).
  - f_equal. apply mk_ext. intros a b Ha Hb. now replace ((o <=? Nat.min a b) && (Nat.min a b <? d + o))%nat with ((o <=? a) && (o <=? b))%nat by lia.
  - apply mk_ext. intros a b Ha Hb. now replace ((o <=? Nat.min a b) && (Nat.min a b <? 0 + o))%nat with false by lia.
  - intros j Hj. unfold tri_row, st. rewrite !mget_in by lia. cbn [obind]. rewrite mset_mk by lia. cbn [obind]. unfold rng. rewrite (tri_off_fold n o j d) by lia. f_equal. apply mk_ext. intros a b Ha Hb.
    replace ((o <=? Nat.min (j + o) (j + o)) && (Nat.min (j + o) (j + o) <? j + o))%nat with false by lia.
    destruct (Nat.eq_dec (Nat.min a b) (j + o)) as [E|E].
    + replace ((o <=? Nat.min a b) && (Nat.min a b <? j + 1 + o))%nat with true by lia. destruct (Nat.eq_dec (Nat.max a b) (j + o)) as [E'|E'].
      * replace ((Nat.min a b =? j + o) && (j + o <? Nat.max a b) && (Nat.max a b <? j + 1 + (d - (j + 1)) + o))%nat with false by lia. replace ((a =? j + o) && (b =? j + o))%nat with true by lia. unfold rank2. rewrite E, E'. replace (j + o - o)%nat with j by lia. ring.
      * replace ((Nat.min a b =? j + o) && (j + o <? Nat.max a b) && (Nat.max a b <? j + 1 + (d - (j + 1)) + o))%nat with true by lia. unfold rank2. rewrite E.
        replace ((j + o =? j + o) && (Nat.max a b =? j + o))%nat with false by lia. now replace ((o <=? Nat.min (j + o) (Nat.max a b)) && (Nat.min (j + o) (Nat.max a b) <? j + o))%nat with false by lia.
    + replace ((Nat.min a b =? j + o) && (j + o <? Nat.max a b) && (Nat.max a b <? j + 1 + (d - (j + 1)) + o))%nat with false by lia. replace ((a =? j + o) && (b =? j + o))%nat with false by lia.
      now replace ((o <=? Nat.min a b) && (Nat.min a b <? j + 1 + o))%nat with ((o <=? Nat.min a b) && (Nat.min a b <? j + o))%nat by lia.
Qed.
Section Step.
  Variables (n i : nat) (op : bool) (f : nat -> nat -> R).
  Hypothesis Hi : (i + 2 < n)%nat.
  Let o := (i + 1)%nat.
  Let d := (n - o)%nat.
  Definition tri_x : nat -> R := fun k => f (i + 1 + k)%nat i.
  Let v := hv_v d tri_x.
  Let b := hv_b d tri_x.
  Definition tri_p (k : nat) : R := sum d (fun l => f (o + k)%nat (o + l)%nat * v l) * b.
  Definition tri_w (k : nat) : R := tri_p k - v k * b / 2 * inner d v tri_p.
  Definition tri_next (r c : nat) : R :=
    if (op && (c =? i) && (i + 2 <=? r))%nat then v (r - o)%nat
    else if ((r =? i + 1) && (c =? i) || (r =? i) && (c =? i + 1))%nat then norm2 d tri_x
    else if ((o <=? r) && (o <=? c))%nat then rank2 o v tri_w f r c else f r c.
  Lemma tri_step_mk : tri_step op n (mk n n f) i = Some (mk n n tri_next).
  Proof.
    unfold tri_step. rewrite nr_mk, nc_mk. rewrite msub_view_mk by lia. cbn [obind]. replace (i + 1 - i)%nat with 1%nat by lia. rewrite (mk_ext (n - (i + 1)) 1 _ (fun k _ => tri_x k)) by (intros k c Hk Hc; unfold tri_x; f_equal; lia).
    change (n - (i + 1))%nat with d. rewrite householder_mk by lia. cbn [obind fst snd]. fold v b. rewrite msub_view_mk by lia. cbn [obind]. change (n - (i + 1))%nat with d. rewrite mmul_mk. cbn [obind]. rewrite mscale_mk. cbn [obind]. rewrite mscale_mk. cbn [obind].
    rewrite mdivs_mk by lra. cbn [obind]. rewrite cdot_mk. cbn [obind]. rewrite mscale_mk. cbn [obind]. unfold msub. rewrite mzip_mk. cbn [obind]. rewrite two_norm_mk. cbn [obind]. rewrite mset_mk by lia. cbn [obind]. rewrite mget_in by lia. cbn [obind]. rewrite !Nat.eqb_refl. cbn [andb].
    rewrite mset_mk by lia. cbn [obind]. match goal with |- context [foldM (tri_row _ _ _ ?W) _ (mk n n ?g)] => replace W with (mk d 1 (fun k _ : nat => tri_w k)) by (apply mk_ext; intros k c Hk Hc; reflexivity); set (G := g) end.
    fold o. rewrite (tri_rows n o d v tri_w G) by (unfold d; lia). cbn [obind].
    assert (forall r c, (r < n)%nat -> (c < n)%nat -> (if ((o <=? r) && (o <=? c))%nat then rank2 o v tri_w G r c else G r c) = (if ((r =? i + 1) && (c =? i) || (r =? i) && (c =? i + 1))%nat then norm2 d tri_x else if ((o <=? r) && (o <=? c))%nat then rank2 o v tri_w f r c else f r c)) as EG.
    { intros r c Hr Hc. destruct ((o <=? r) && (o <=? c))%nat eqn:E.
      - replace ((r =? i + 1) && (c =? i) || (r =? i) && (c =? i + 1))%nat with false by lia. unfold rank2, G. replace ((Nat.min r c =? i) && (Nat.max r c =? i + 1))%nat with false by lia. now replace ((Nat.min r c =? i + 1) && (Nat.max r c =? i))%nat with false by lia.
      - unfold G. destruct ((r =? i) && (c =? i + 1))%nat; [now rewrite Bool.orb_true_r|]. rewrite Bool.orb_false_r. reflexivity. }
    unfold tri_next. destruct op.
    - rewrite nr_mk. rewrite msub_view_mk by lia. cbn [obind]. rewrite nr_mk. pose proof (mwrite_mk n n (fun a b0 => if ((o <=? a) && (o <=? b0))%nat then rank2 o v tri_w G a b0 else G a b0) (i + 2) n i (i + 1) (fun k _ => v (1 + k)%nat) ltac:(lia) ltac:(lia)) as K.
      replace (n - (i + 2))%nat with (d - 1)%nat in K by lia. replace (i + 1 - i)%nat with 1%nat in K by lia. change (1 - 0)%nat with 1%nat. fold o in K. rewrite K. f_equal. apply mk_ext. intros r c Hr Hc.
      rewrite EG by assumption. destruct ((i + 2 <=? r) && (r <? n) && (i <=? c) && (c <? o))%nat eqn:E.
      + cbn [andb]. replace ((c =? i) && (i + 2 <=? r))%nat with true by lia. f_equal. lia.
      + replace (true && (c =? i) && (i + 2 <=? r))%nat with false by lia. reflexivity.
    - f_equal. apply mk_ext. intros r c Hr Hc. cbn [andb]. now apply EG.
  Qed.
End Step.
(** What is left of the matrix before step [k]: the trailing block and the three diagonals. *)
Definition core (k : nat) (f : nat -> nat -> R) (a b : nat) : R := if (((k <=? a) && (k <=? b)) || ((a <=? b + 1) && (b <=? a + 1)))%nat then f a b else 0.
Definition sym_core (n k : nat) (f : nat -> nat -> R) : Prop := forall a b, (a < n)%nat -> (b < n)%nat -> core k f a b = core k f b a.
Lemma two_sided_entries n v b f r c : (forall a b, (a < n)%nat -> (b < n)%nat -> f a b = f b a) -> (r < n)%nat -> (c < n)%nat ->
  hr n v b (hl n v b f) r c = f r c - b * v r * sum n (fun k => v k * f c k) - b * v c * sum n (fun k => v k * f r k) + b * b * v r * v c * sum n (fun k => v k * sum n (fun l => v l * f k l)).
Proof.
  intros Y Hr Hc. unfold hr, hl. rewrite (rsum_ext n (fun k => v k * (f r k - b * (v r * sum n (fun l => v l * f l k)))) (fun k => v k * f r k - b * v r * (v k * sum n (fun l => v l * f k l)))).
  - rewrite rsum_sub, rsum_mul_l. rewrite (rsum_ext n (fun k => v k * f k c) (fun k => v k * f c k)) by (intros k Hk; now rewrite (Y k c)). ring.
  - intros k Hk. rewrite (rsum_ext n (fun l => v l * f l k) (fun l => v l * f k l)) by (intros l Hl; now rewrite (Y l k)). ring.
Qed.
Lemma two_sided_sym n v b f r c : (forall a b, (a < n)%nat -> (b < n)%nat -> f a b = f b a) -> (r < n)%nat -> (c < n)%nat -> hr n v b (hl n v b f) r c = hr n v b (hl n v b f) c r.
Proof. intros Y Hr Hc. rewrite !two_sided_entries by assumption. rewrite (Y r c) by assumption. ring. Qed.
Lemma sym_next n i op f : (i + 2 < n)%nat -> sym_core n i f -> sym_core n (i + 1) (tri_next n i op f).
Proof.
  intros Hi Y r c Hr Hc. unfold core. replace ((i + 1 <=? c) && (i + 1 <=? r) || (c <=? r + 1) && (r <=? c + 1))%nat with ((i + 1 <=? r) && (i + 1 <=? c) || (r <=? c + 1) && (c <=? r + 1))%nat by lia.
  destruct ((i + 1 <=? r) && (i + 1 <=? c) || (r <=? c + 1) && (c <=? r + 1))%nat eqn:E; [|reflexivity].
  unfold tri_next. replace (op && (c =? i) && (i + 2 <=? r))%nat with false by (destruct op; cbn [andb]; lia). replace (op && (r =? i) && (i + 2 <=? c))%nat with false by (destruct op; cbn [andb]; lia).
  replace ((c =? i + 1) && (r =? i) || (c =? i) && (r =? i + 1))%nat with ((r =? i + 1) && (c =? i) || (r =? i) && (c =? i + 1))%nat by lia. destruct ((r =? i + 1) && (c =? i) || (r =? i) && (c =? i + 1))%nat; [reflexivity|].
  rewrite (Bool.andb_comm (i + 1 <=? c)%nat). destruct ((i + 1 <=? r) && (i + 1 <=? c))%nat eqn:E2.
  - unfold rank2. now rewrite (Nat.min_comm c r), (Nat.max_comm c r).
  - specialize (Y r c Hr Hc). unfold core in Y. replace ((i <=? r) && (i <=? c) || (r <=? c + 1) && (c <=? r + 1))%nat with true in Y by lia. now replace ((i <=? c) && (i <=? r) || (c <=? r + 1) && (r <=? c + 1))%nat with true in Y by lia.
Qed.
Lemma tri_core n i op f : (i + 2 < n)%nat -> sym_core n i f -> ~ bad_vec (n - (i + 1)) (tri_x i f) ->
  let V := shifted (i + 1) n (hv_v (n - (i + 1)) (tri_x i f)) in let b := hv_b (n - (i + 1)) (tri_x i f) in
  same n n (core (i + 1) (tri_next n i op f)) (hr n V b (hl n V b (core i f))).
Proof.
  intros Hi Y G V b.
  assert (forall r c, (c <= r < n)%nat -> core (i + 1) (tri_next n i op f) r c = hr n V b (hl n V b (core i f)) r c) as HH.
  { intros r c Hr. destruct (Nat.le_gt_cases (i + 1) c) as [C|C].
    - rewrite two_sided_entries by (assumption || lia). unfold core at 1. replace ((i + 1 <=? r) && (i + 1 <=? c) || (r <=? c + 1) && (c <=? r + 1))%nat with true by lia.
      unfold tri_next. replace (op && (c =? i) && (i + 2 <=? r))%nat with false by (destruct op; cbn [andb]; lia). replace ((r =? i + 1) && (c =? i) || (r =? i) && (c =? i + 1))%nat with false by lia.
      replace ((i + 1 <=? r) && (i + 1 <=? c))%nat with true by lia. unfold rank2. replace (Nat.min r c) with c by lia. replace (Nat.max r c) with r by lia.
      set (d := (n - (i + 1))%nat) in *. set (v := hv_v d (tri_x i f)) in *. set (q := fun k => sum d (fun l => f (i + 1 + k)%nat (i + 1 + l)%nat * v l)).
      assert (forall a, (i + 1 <= a < n)%nat -> sum n (fun k => V k * core i f a k) = q (a - (i + 1))%nat) as Q.
      { intros a Ha. unfold V. rewrite shifted_sum by lia. fold d v. apply rsum_ext. intros l Hl. unfold core. replace ((i <=? a) && (i <=? i + 1 + l) || (a <=? i + 1 + l + 1) && (i + 1 + l <=? a + 1))%nat with true by lia. replace (i + 1 + (a - (i + 1)))%nat with a by lia. ring. }
      rewrite !Q by lia.
      replace (sum n (fun k => V k * sum n (fun l => V l * core i f k l))) with (inner d v q).
      2: { unfold V at 1. rewrite shifted_sum by lia. unfold inner. fold d v. apply rsum_ext. intros k Hk. rewrite Q by lia. f_equal. f_equal. lia. }
      assert (forall a, (i + 1 <= a < n)%nat -> V a = v (a - (i + 1))%nat) as EV by (intros a Ha; unfold V, shifted; now replace ((i + 1 <=? a) && (a <? n))%nat with true by lia). rewrite !EV by lia.
      assert (forall k, tri_w n i f k = q k * b - v k * b / 2 * (b * inner d v q)) as W.
      { intros k. unfold tri_w. f_equal. f_equal. unfold inner. rewrite <- rsum_mul_l. apply rsum_ext. intros l Hl. unfold tri_p. fold d v b. unfold q. ring. }
      rewrite !W.
      assert (core i f r c = f c r) as ->.
      { rewrite (Y r c) by lia. unfold core. now replace ((i <=? c) && (i <=? r) || (c <=? r + 1) && (r <=? c + 1))%nat with true by lia. }
      unfold Rdiv. field.
    - unfold V at 1. rewrite hr_out by lia. destruct (Nat.le_gt_cases (i + 1) r) as [L|L]; [destruct (Nat.eq_dec c i) as [->|N]|].
      + unfold V. rewrite (hl_own n (i + 1) n (core i f) i (tri_x i f)); [|lia| |lia].
        2: { intros k Hk. unfold core, tri_x. now replace ((i <=? i + 1 + k) && (i <=? i) || (i + 1 + k <=? i + 1) && (i <=? i + 1 + k + 1))%nat with true by lia. }
        rewrite hv_reflects by (assumption || lia). unfold core, tri_next. destruct (Nat.eq_dec r (i + 1)) as [->|N].
        * replace ((i + 1 <=? i + 1) && (i + 1 <=? i) || (i + 1 <=? i + 1) && (i <=? i + 1 + 1))%nat with true by lia. replace (op && (i =? i) && (i + 2 <=? i + 1))%nat with false by (destruct op; cbn [andb]; lia).
          rewrite Nat.sub_diag, !Nat.eqb_refl. reflexivity.
        * replace ((i + 1 <=? r) && (i + 1 <=? i) || (r <=? i + 1) && (i <=? r + 1))%nat with false by lia. now replace (r - (i + 1) =? 0)%nat with false by lia.
      + unfold V. rewrite hl_zero_col by (lia || (intros k Hk; unfold core; now replace ((i <=? k) && (i <=? c) || (k <=? c + 1) && (c <=? k + 1))%nat with false by lia)).
        unfold core. replace ((i + 1 <=? r) && (i + 1 <=? c) || (r <=? c + 1) && (c <=? r + 1))%nat with false by lia. now replace ((i <=? r) && (i <=? c) || (r <=? c + 1) && (c <=? r + 1))%nat with false by lia.
      + unfold V. rewrite hl_out by lia. unfold core, tri_next. replace (op && (c =? i) && (i + 2 <=? r))%nat with false by (destruct op; cbn [andb]; lia). replace ((r =? i + 1) && (c =? i) || (r =? i) && (c =? i + 1))%nat with false by lia.
        replace ((i + 1 <=? r) && (i + 1 <=? c))%nat with false by lia. destruct (Nat.eq_dec c i) as [->|N].
        * replace r with i by lia. replace ((i <=? i) && (i <=? i) || (i <=? i + 1) && (i <=? i + 1))%nat with true by lia. now replace ((i <=? i + 1) && (i <=? i + 1))%nat with true by lia.
        * replace ((i <=? r) && (i <=? c))%nat with false by lia. reflexivity. }
  intros r c Hr Hc. destruct (Nat.le_gt_cases c r) as [L|L]; [apply HH; lia|]. rewrite two_sided_sym by assumption. rewrite <- HH by lia.
  now apply sym_next.
Qed.
(** The reflections of the successive steps and their product. *)
Definition tri_refl (n : nat) (xs : nat -> nat -> R) (j : nat) : nat -> nat -> R := reflector (shifted (j + 1) n (hv_v (n - (j + 1)) (xs j))) (hv_b (n - (j + 1)) (xs j)).
Fixpoint tri_prod (n : nat) (xs : nat -> nat -> R) (k : nat) : nat -> nat -> R :=
  match k with 0%nat => id_entry | S k => prod_entry n (tri_prod n xs k) (tri_refl n xs k) end.
Lemma tri_prod_ext n xs ys k : (forall j, (j < k)%nat -> xs j = ys j) -> tri_prod n xs k = tri_prod n ys k.
Proof.
  induction k as [|k IH]; intros H; [reflexivity|]. cbn [tri_prod]. rewrite IH by (intros; apply H; lia). unfold tri_refl. now rewrite H by lia.
Qed.
Lemma tri_prod_orth n xs k : (k + 2 <= n)%nat -> (forall j, (j < k)%nat -> ~ bad_vec (n - (j + 1)) (xs j)) -> orthogonal n (tri_prod n xs k).
Proof.
  induction k as [|k IH]; intros Hk G; [apply orth_id|]. cbn [tri_prod]. apply orth_mul; [apply IH; [lia|intros; apply G; lia]|]. apply refl_orth; [lia|apply G; lia].
Qed.
Lemma tri_fold n op f k : (k + 2 <= n)%nat -> (forall a b, (a < n)%nat -> (b < n)%nat -> f a b = f b a) ->
  exists g xs, foldM (tri_step op n) (seq 0 k) (mk n n f) = Some (mk n n g) /\ sym_core n k g /\
    (forall j a, (j < k)%nat -> (j + 2 <= a < n)%nat -> g a j = if op then hv_v (n - (j + 1)) (xs j) (a - (j + 1)) else xs j (a - (j + 1))%nat) /\
    (forall j, (j < k)%nat -> g (j + 1)%nat j = norm2 (n - (j + 1)) (xs j)) /\
    ((forall j, (j < k)%nat -> ~ bad_vec (n - (j + 1)) (xs j)) -> congruent n f (tri_prod n xs k) (core k g)).
Proof.
  intros Hk Y. induction k as [|k IH].
  - exists f, (fun _ _ => 0). split; [reflexivity|]. split; [intros a b Ha Hb; unfold core; cbn [Nat.leb andb orb]; now apply Y|]. split; [intros; lia|]. split; [intros; lia|]. intros _. eapply congr_ext; [| |apply congr_id]; intros a b Ha Hb; reflexivity.
  - destruct IH as (g & xs & E & Z & ST & NM & C); [lia|]. rewrite seq_S, foldM_app, E. cbn [obind foldM Nat.add]. rewrite tri_step_mk by lia. cbn [obind].
    exists (tri_next n k op g), (fun j => if (j =? k)%nat then tri_x k g else xs j). split; [reflexivity|]. split; [rewrite <- Nat.add_1_r; apply sym_next; [lia|exact Z]|]. split; [|split].
    + intros j a Hj Ha. destruct (Nat.eqb_spec j k) as [->|N].
      * unfold tri_next. rewrite Nat.eqb_refl. replace (k + 2 <=? a)%nat with true by lia. destruct op; [reflexivity|]. cbn [andb]. replace ((a =? k + 1) && true || (a =? k) && (k =? k + 1))%nat with false by lia. replace ((k + 1 <=? a) && (k + 1 <=? k))%nat with false by lia.
        unfold tri_x. f_equal. lia.
      * rewrite <- (ST j a) by lia. unfold tri_next. replace (op && (j =? k) && (k + 2 <=? a))%nat with false by (destruct op; cbn [andb]; lia). replace ((a =? k + 1) && (j =? k) || (a =? k) && (j =? k + 1))%nat with false by lia. now replace ((k + 1 <=? a) && (k + 1 <=? j))%nat with false by lia.
    + intros j Hj. destruct (Nat.eqb_spec j k) as [->|N].
      * unfold tri_next. replace (op && (k =? k) && (k + 2 <=? k + 1))%nat with false by (destruct op; cbn [andb]; lia). rewrite !Nat.eqb_refl. reflexivity.
      * rewrite <- (NM j) by lia. unfold tri_next. replace (op && (j =? k) && (k + 2 <=? j + 1))%nat with false by (destruct op; cbn [andb]; lia). replace ((j + 1 =? k + 1) && (j =? k) || (j + 1 =? k) && (j =? k + 1))%nat with false by lia. now replace ((k + 1 <=? j + 1) && (k + 1 <=? j))%nat with false by lia.
    + intros G. cbn [tri_prod]. rewrite (tri_prod_ext n _ xs) by (intros j Hj; now replace (j =? k)%nat with false by lia). eapply congr_trans; [apply C; intros j Hj; specialize (G j ltac:(lia)); now replace (j =? k)%nat with false in G by lia|].
      specialize (G k ltac:(lia)). rewrite Nat.eqb_refl in G. unfold tri_refl. rewrite Nat.eqb_refl. eapply congr_ext; [| |apply two_sided]; [intros a b Ha Hb; reflexivity|]. intros a b Ha Hb. symmetry. rewrite <- Nat.add_1_r. apply tri_core; [lia|exact Z|exact G|exact Ha|exact Hb].
Qed.

(** Extraction of the accumulated product. *)
Definition lift (t : nat) (q : nat -> nat -> R) (a b : nat) : R := if ((t <=? a) && (t <=? b))%nat then q (a - t)%nat (b - t)%nat else id_entry a b.
Lemma lift_id t a b : lift t id_entry a b = id_entry a b.
Proof. unfold lift. destruct ((t <=? a) && (t <=? b))%nat eqn:E; [|reflexivity]. unfold id_entry. destruct (Nat.eqb_spec (a - t) (b - t)), (Nat.eqb_spec a b); reflexivity || lia. Qed.
Lemma lift_prod n t p q a b : (t <= n)%nat -> (a < n)%nat -> (b < n)%nat -> prod_entry n (lift t p) (lift t q) a b = lift t (prod_entry (n - t) p q) a b.
Proof.
  intros Ht Ha Hb. unfold prod_entry at 1. rewrite (rsum_split n t) by exact Ht. unfold lift at 5. destruct (Nat.leb_spec t a) as [La|La]; destruct (Nat.leb_spec t b) as [Lb|Lb]; cbn [andb].
  - rewrite (rsum_zero t). { rewrite Rplus_0_l. unfold prod_entry. apply rsum_ext. intros k Hk. unfold lift. replace ((t <=? a) && (t <=? t + k))%nat with true by lia. replace ((t <=? t + k) && (t <=? b))%nat with true by lia. now replace (t + k - t)%nat with k by lia. }
    intros k Hk. unfold lift. replace ((t <=? a) && (t <=? k))%nat with false by lia. unfold id_entry. replace (a =? k)%nat with false by lia. cbn. ring.
  - rewrite (rsum_zero t), (rsum_zero (n - t)). { unfold id_entry. replace (a =? b)%nat with false by lia. cbn. ring. }
    + intros k Hk. unfold lift. replace ((t <=? t + k) && (t <=? b))%nat with false by lia. unfold id_entry. replace (t + k =? b)%nat with false by lia. cbn. ring.
    + intros k Hk. unfold lift. replace ((t <=? a) && (t <=? k))%nat with false by lia. unfold id_entry at 1. replace (a =? k)%nat with false by lia. cbn. ring.
  - rewrite (rsum_zero t), (rsum_zero (n - t)). { unfold id_entry. replace (a =? b)%nat with false by lia. cbn. ring. }
    + intros k Hk. unfold lift. replace ((t <=? a) && (t <=? t + k))%nat with false by lia. unfold id_entry. replace (a =? t + k)%nat with false by lia. cbn. ring.
    + intros k Hk. unfold lift. replace ((t <=? k) && (t <=? b))%nat with false by lia. unfold id_entry at 2. replace (k =? b)%nat with false by lia. cbn. ring.
  - rewrite (rsum_zero (n - t)). { rewrite Rplus_0_r. rewrite (rsum_ext t _ (fun k => id_entry a k * id_entry k b)). - now rewrite (rsum_id_l t a (fun k => id_entry k b)). - intros k Hk. unfold lift. replace ((t <=? a) && (t <=? k))%nat with false by lia. now replace ((t <=? k) && (t <=? b))%nat with false by lia. }
    intros k Hk. unfold lift. replace ((t <=? a) && (t <=? t + k))%nat with false by lia. unfold id_entry. replace (a =? t + k)%nat with false by lia. cbn. ring.
Qed.
Lemma lift_lift s t q a b : lift s (lift t q) a b = lift (s + t) q a b.
Proof.
  unfold lift. destruct ((s <=? a) && (s <=? b))%nat eqn:E.
  - destruct ((t <=? a - s) && (t <=? b - s))%nat eqn:E2.
    + replace ((s + t <=? a) && (s + t <=? b))%nat with true by lia. f_equal; lia.
    + replace ((s + t <=? a) && (s + t <=? b))%nat with false by lia. unfold id_entry. destruct (Nat.eqb_spec (a - s) (b - s)), (Nat.eqb_spec a b); reflexivity || lia.
  - now replace ((s + t <=? a) && (s + t <=? b))%nat with false by lia.
Qed.
Lemma lift_refl n t u s a b : (a < n)%nat -> (b < n)%nat -> lift t (reflector u s) a b = reflector (shifted t n u) s a b.
Proof.
  intros Ha Hb. unfold lift, reflector, shifted. replace ((t <=? a) && (a <? n))%nat with (t <=? a)%nat by lia. replace ((t <=? b) && (b <? n))%nat with (t <=? b)%nat by lia.
  destruct (Nat.leb_spec t a), (Nat.leb_spec t b); cbn [andb]; [|ring..]. f_equal. unfold id_entry. destruct (Nat.eqb_spec (a - t) (b - t)), (Nat.eqb_spec a b); reflexivity || lia.
Qed.
Lemma lift_orth n t q : (t <= n)%nat -> orthogonal (n - t) q -> orthogonal n (lift t q).
Proof.
  intros Ht O a b Ha Hb. assert (forall x y, transposed (lift t q) x y = lift t (transposed q) x y) as T by (intros x y; unfold transposed, lift; rewrite (Bool.andb_comm (t <=? y)%nat), id_sym; reflexivity).
  assert (forall p, (forall x y, (x < n - t)%nat -> (y < n - t)%nat -> p x y = id_entry x y) -> lift t p a b = id_entry a b) as I.
  { intros p Hp. rewrite <- (lift_id t). unfold lift. destruct ((t <=? a) && (t <=? b))%nat eqn:E; [|reflexivity]. apply Hp; lia. }
  split; [rewrite (rprod_ext n _ (lift t (transposed q)) (lift t q) (lift t q)) by auto|rewrite (rprod_ext n (lift t q) (lift t q) _ (lift t (transposed q))) by auto]; rewrite lift_prod by assumption; apply I; intros x y Hx Hy; now apply O.
Qed.
Definition stored_vec (V : nat -> nat -> R) : nat -> R := fun a => match a with 0%nat => 1 | S a => V a 0%nat end.
Definition stored_b (m : nat) (V : nat -> nat -> R) : R := 2 / inner (S m) (stored_vec V) (stored_vec V).
Fixpoint ex (m : nat) (V : nat -> nat -> R) : nat -> nat -> R :=
  match m with
  | 0%nat => id_entry
  | S m' => prod_entry (S m) (lift 1 (ex m' (fun a c => V (S a) (S c)))) (reflector (stored_vec V) (stored_b m V))
  end.
Lemma stored_pos m V : 0 < inner (S m) (stored_vec V) (stored_vec V).
Proof. unfold inner. rewrite rsum_first. change (stored_vec V 0%nat) with 1. match goal with |- 0 < _ + ?x => assert (0 <= x) by (apply rsum_nonneg; intros; apply Rle_0_sqr) end. lra. Qed.
Lemma ex_orth m V : orthogonal (S m) (ex m V).
Proof.
  revert V. induction m as [|m IH]; intros V; [apply orth_id|]. cbn [ex]. apply orth_mul; [apply lift_orth; [lia|]; replace (S (S m) - 1)%nat with (S m) by lia; apply IH|]. apply reflector_orth. left. unfold stored_b. pose proof (stored_pos (S m) V). field. lra.
Qed.
Lemma ex_entry m V a b : (a < S (S m))%nat -> (b < S (S m))%nat -> let q := ex m (fun a c => V (S a) (S c)) in let v := fun k => V k 0%nat in let s := stored_b (S m) V in
  ex (S m) V a b = match a, b with 0%nat, 0%nat => 1 - s | S a, 0%nat => sum (S m) (fun k => q a k * v k) * - s | 0%nat, S b => v b * - s | S a, S b => q a b - sum (S m) (fun k => q a k * v k) * (v b * s) end.
Proof.
  intros Ha Hb q v s. cbn [ex]. fold q s. unfold prod_entry. rewrite rsum_first.
  destruct a as [|a].
  - rewrite (rsum_zero (S m)). + destruct b as [|b]; unfold lift, reflector, stored_vec, id_entry; cbn [Nat.leb Nat.eqb andb]; try (fold (v b)); cbn; ring.
    + intros k Hk. unfold lift. cbn [Nat.leb andb]. unfold id_entry at 1. cbn. ring.
  - assert (lift 1 q (S a) 0 = 0) as -> by reflexivity.
    rewrite (rsum_ext (S m) _ (fun k => q a k * id_entry (S k) b - s * stored_vec V b * (q a k * v k))).
    2: { intros k Hk. unfold lift. replace ((1 <=? S a) && (1 <=? S k))%nat with true by lia. replace (S a - 1)%nat with a by lia. replace (S k - 1)%nat with k by lia. unfold reflector. cbn [stored_vec]. fold (v k). cbn. ring. }
    rewrite rsum_sub, rsum_mul_l. destruct b as [|b].
    + rewrite (rsum_zero (S m) (fun k => q a k * id_entry (S k) 0)) by (intros; unfold id_entry; cbn; ring). cbn [stored_vec]. cbn. ring.
    + rewrite (rsum_ext (S m) (fun k => q a k * id_entry (S k) (S b)) (fun k => q a k * id_entry k b)) by reflexivity. rewrite rsum_id_r by lia. cbn [stored_vec]. fold (v b). cbn. ring.
Qed.
Lemma stored_inner m V : inner (S m) (stored_vec V) (stored_vec V) = inner m (column V 0) (column V 0) + 1.
Proof. unfold inner. rewrite rsum_first. change (stored_vec V 0%nat) with 1. rewrite (rsum_ext m _ (fun i => column V 0 i * column V 0 i)) by reflexivity. ring. Qed.
Lemma extract_mk m V fuel : (0 < m)%nat -> (m <= fuel)%nat -> extract_vecs fuel (mk m m V) = Some (mk (S m) (S m) (ex m V)).
Proof.
  revert V fuel. induction m as [|m IH]; intros V fuel Hm Hf; [lia|]. destruct fuel as [|fuel]; [lia|]. cbn [extract_vecs]. rewrite nr_mk, nc_mk, Nat.eqb_refl.
  pose proof (stored_pos (S m) V) as SP. destruct (Nat.eqb_spec (S m) 1) as [E|E].
  - assert (m = 0%nat) as -> by lia. rewrite mget_in by lia. cbn [obind]. assert (stored_b 1 V = 2 / (V 0%nat 0%nat * V 0%nat 0%nat + 1)) as ES.
    { unfold stored_b. rewrite stored_inner. unfold inner, column. cbn [sum]. f_equal. cbn. ring. }
    rewrite (fdiv_some field_ok_R) by (cbn; nra). cbn [obind]. change (tdiv 2 (V 0%nat 0%nat * V 0%nat 0%nat + 1)) with (2 / (V 0%nat 0%nat * V 0%nat 0%nat + 1)). rewrite <- ES. f_equal. symmetry.
    transitivity (mk 2 2 (fun a b : nat => match a, b with 0%nat, 0%nat => 1 - stored_b 1 V | S a, 0%nat => - stored_b 1 V * V 0%nat 0%nat | 0%nat, S b => - stored_b 1 V * V 0%nat 0%nat | S a, S b => 1 - stored_b 1 V * V 0%nat 0%nat * V 0%nat 0%nat end)); [|reflexivity].
    apply mk_ext. intros a b Ha Hb. rewrite ex_entry by assumption. destruct a as [|[|a]]; destruct b as [|[|b]]; try lia; cbn [ex sum]; unfold id_entry; cbn; ring.
  - rewrite midentity_mk by lia. cbn [obind]. rewrite mcol_mk by lia. cbn [obind]. rewrite cdot_mk. cbn [obind]. rewrite (fdiv_some field_ok_R).
    2: { rewrite stored_inner in SP. unfold column in *. cbn in *. lra. }
    cbn [obind]. rewrite msub_view_mk by lia. cbn [obind]. replace (S m - 1)%nat with m by lia. rewrite (mk_ext m m _ (fun a c => V (S a) (S c))) by reflexivity. rewrite IH by lia. cbn [obind].
    set (q := ex m (fun a c : nat => V (S a) (S c))). set (sr := tdiv _ _). assert (sr = stored_b (S m) V) as ES by (unfold sr, stored_b; rewrite stored_inner; reflexivity). clearbody sr.
    rewrite mset_mk by lia. cbn [obind]. rewrite mmul_mk. cbn [obind]. rewrite mscale_mk. cbn [obind]. rewrite nr_mk, ?nc_mk.
    replace (S m + 1)%nat with (S (S m)) by lia.
    match goal with |- context [mwrite (mk (S (S m)) (S (S m)) ?g) 1 _ 0 1 (mk _ _ ?h)] => pose proof (mwrite_mk (S (S m)) (S (S m)) g 1 (S (S m)) 0 1 h ltac:(lia) ltac:(lia)) as K end.
    replace (S (S m) - 1)%nat with (S m) in K by lia. change (1 - 0)%nat with 1%nat in K. rewrite K. clear K. cbn [obind]. rewrite mtranspose_mk. cbn [obind]. rewrite mscale_mk. cbn [obind]. rewrite ?nr_mk, ?nc_mk.
    match goal with |- context [mwrite (mk (S (S m)) (S (S m)) ?g) 0 1 1 _ (mk _ _ ?h)] => pose proof (mwrite_mk (S (S m)) (S (S m)) g 0 1 1 (S (S m)) h ltac:(lia) ltac:(lia)) as K end.
    replace (S (S m) - 1)%nat with (S m) in K by lia. change (1 - 0)%nat with 1%nat in K. rewrite K. clear K. cbn [obind]. rewrite mscale_mk. cbn [obind]. rewrite mmul_mk. cbn [obind]. unfold msub. rewrite mzip_mk. cbn [obind]. rewrite ?nr_mk, ?nc_mk.
    match goal with |- mwrite (mk (S (S m)) (S (S m)) ?g) 1 _ 1 _ (mk _ _ ?h) = _ => pose proof (mwrite_mk (S (S m)) (S (S m)) g 1 (S (S m)) 1 (S (S m)) h ltac:(lia) ltac:(lia)) as K end.
    replace (S (S m) - 1)%nat with (S m) in K by lia. rewrite K. clear K. f_equal. apply mk_ext. intros a b Ha Hb. rewrite ex_entry by assumption. fold q. rewrite <- ES.
    destruct a as [|a], b as [|b].
    + reflexivity.
    + replace ((1 <=? 0) && (0 <? S (S m)) && (1 <=? S b) && (S b <? S (S m)))%nat with false by lia. replace ((0 <=? 0) && (0 <? 1) && (1 <=? S b) && (S b <? S (S m)))%nat with true by lia. replace (S b - 1)%nat with b by lia. reflexivity.
    + replace ((1 <=? S a) && (S a <? S (S m)) && (1 <=? 0) && (0 <? S (S m)))%nat with false by lia. replace ((0 <=? S a) && (S a <? 1) && (1 <=? 0) && (0 <? S (S m)))%nat with false by lia. replace ((1 <=? S a) && (S a <? S (S m)) && (0 <=? 0) && (0 <? 1))%nat with true by lia. replace (S a - 1)%nat with a by lia. reflexivity.
    + replace ((1 <=? S a) && (S a <? S (S m)) && (1 <=? S b) && (S b <? S (S m)))%nat with true by lia. replace (S a - 1)%nat with a by lia. replace (S b - 1)%nat with b by lia. unfold prod_entry. cbn [sum]. cbn. f_equal. ring.
Qed.
Fixpoint tri_from (n : nat) (xs : nat -> nat -> R) (t c : nat) : nat -> nat -> R :=
  match c with 0%nat => id_entry | S c => prod_entry n (tri_refl n xs t) (tri_from n xs (S t) c) end.
Lemma tri_from_snoc n xs t c : same n n (tri_from n xs t (S c)) (prod_entry n (tri_from n xs t c) (tri_refl n xs (t + c))).
Proof.
  revert t. induction c as [|c IH]; intros t a b Ha Hb.
  - cbn [tri_from]. rewrite Nat.add_0_r, rprod_id_r, rprod_id_l by assumption. reflexivity.
  - change (tri_from n xs t (S (S c))) with (prod_entry n (tri_refl n xs t) (tri_from n xs (S t) (S c))). change (tri_from n xs t (S c)) with (prod_entry n (tri_refl n xs t) (tri_from n xs (S t) c)).
    rewrite rprod_assoc. apply rprod_ext; [reflexivity|]. intros l Hl. rewrite IH by assumption. now replace (S t + c)%nat with (t + S c)%nat by lia.
Qed.
Lemma tri_from_prod n xs k : same n n (tri_from n xs 0 k) (tri_prod n xs k).
Proof.
  induction k as [|k IH]; intros a b Ha Hb; [reflexivity|]. rewrite tri_from_snoc by assumption. cbn [tri_prod Nat.add]. apply rprod_ext; [intros; now apply IH|reflexivity].
Qed.
Lemma ex_ext k V W : (forall a c, V a c = W a c) -> forall x y, ex k V x y = ex k W x y.
Proof.
  revert V W. induction k as [|k IHk]; intros V W HV x y; [reflexivity|]. cbn [ex]. apply rprod_ext.
  - intros l _. unfold lift. destruct ((1 <=? x) && (1 <=? l))%nat; [|reflexivity]. apply IHk. intros; apply HV.
  - intros l _. unfold reflector. assert (forall z, stored_vec V z = stored_vec W z) as E by (intros [|z]; [reflexivity|apply HV]). unfold stored_b. rewrite (inner_ext _ (stored_vec V) (stored_vec W) (stored_vec V) (stored_vec W)) by (intros; apply E). now rewrite !E.
Qed.
Section Extract.
  Variables (n : nat) (xs : nat -> nat -> R) (g : nat -> nat -> R).
  Hypothesis ST : forall j a, (j + 2 < n)%nat -> (j + 2 <= a < n)%nat -> g a j = hv_v (n - (j + 1)) (xs j) (a - (j + 1)).
  Hypothesis TL : forall j, (j + 2 < n)%nat -> tail_sq (n - (j + 1)) (xs j) <> 0.
  Lemma stored_house t c : (t + S c + 2 = n)%nat -> (forall a, (a < S (S c))%nat -> stored_vec (fun a c => g (a + t + 2)%nat (c + t)%nat) a = hv_v (n - (t + 1)) (xs t) a) /\ stored_b (S c) (fun a c => g (a + t + 2)%nat (c + t)%nat) = hv_b (n - (t + 1)) (xs t).
  Proof.
    intros H. assert (forall a, (a < S (S c))%nat -> stored_vec (fun a c => g (a + t + 2)%nat (c + t)%nat) a = hv_v (n - (t + 1)) (xs t) a) as E.
    { intros [|a] Ha; cbn [stored_vec]; [symmetry; apply hv_v0|]. rewrite Nat.add_0_l. rewrite ST by lia. f_equal. lia. }
    split; [exact E|]. unfold stored_b. pose proof (stored_pos (S c) (fun a c => g (a + t + 2)%nat (c + t)%nat)) as P.
    assert (inner (S (S c)) (stored_vec (fun a c => g (a + t + 2)%nat (c + t)%nat)) (stored_vec (fun a c => g (a + t + 2)%nat (c + t)%nat)) = inner (n - (t + 1)) (hv_v (n - (t + 1)) (xs t)) (hv_v (n - (t + 1)) (xs t))) as EI.
    { replace (n - (t + 1))%nat with (S (S c)) in * by lia. now apply inner_ext. }
    rewrite EI in *. pose proof (hv_inner_v (n - (t + 1)) (xs t) ltac:(lia) (TL t ltac:(lia))) as Q. apply (Rmult_eq_reg_r (inner (n - (t + 1)) (hv_v (n - (t + 1)) (xs t)) (hv_v (n - (t + 1)) (xs t)))); [|lra]. rewrite Q. field. lra.
  Qed.
  Lemma ex_from c : forall t, (t + c + 2 = n)%nat -> same n n (lift (t + 1) (ex c (fun a c => g (a + t + 2)%nat (c + t)%nat))) (transposed (tri_from n xs t c)).
  Proof.
    induction c as [|c IH]; intros t H a b Ha Hb.
    - cbn [ex tri_from]. rewrite lift_id. unfold transposed. apply id_sym.
    - cbn [ex]. pose proof (lift_prod n (t + 1) (lift 1 (ex c (fun a c => g (S a + t + 2)%nat (S c + t)%nat))) (reflector (stored_vec (fun a c => g (a + t + 2)%nat (c + t)%nat)) (stored_b (S c) (fun a c => g (a + t + 2)%nat (c + t)%nat))) a b ltac:(lia) Ha Hb) as L.
      replace (n - (t + 1))%nat with (S (S c)) in L by lia. rewrite <- L. clear L. change (transposed (tri_from n xs t (S c)) a b) with (prod_entry n (tri_refl n xs t) (tri_from n xs (S t) c) b a). rewrite <- (rprod_trans n (tri_refl n xs t) (tri_from n xs (S t) c)). apply rprod_ext.
      + intros l Hl. rewrite lift_lift. rewrite <- (IH (S t)) by lia. unfold lift. replace (S t + 1)%nat with (t + 1 + 1)%nat by lia. destruct ((t + 1 + 1 <=? a) && (t + 1 + 1 <=? l))%nat; [|reflexivity].
        apply ex_ext. intros x y. f_equal; lia.
      + intros l Hl. rewrite (lift_refl n) by assumption. destruct (stored_house t c ltac:(lia)) as (E1 & E2). unfold transposed, tri_refl. rewrite reflector_sym, E2. unfold reflector. do 3 f_equal; unfold shifted; destruct ((t + 1 <=? b) && (b <? n))%nat eqn:Eb; destruct ((t + 1 <=? l) && (l <? n))%nat eqn:El; try reflexivity; apply E1; lia.
  Qed.
End Extract.
