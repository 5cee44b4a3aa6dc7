(** One step of the integral homology computation. *)
From Coq Require Import List Arith ZArith Bool Lia ZifyBool ZifyNat Sorted.
From Verif Require Import PidModel LinModel LinSpec LinProofs LinProofs2 LinProofs3 MatModel MatSpec MatProofs MatProofs2 SnfModel SnfProofs SnfProofs2 SnfProofs3 RankSpec RankProofs HomModel HomSpec HomProofs.
Import ListNotations.
Open Scope nat_scope.

Lemma rank_of_diag_ok n m S rk : Diag n m S rk -> rank_of_diag (mk n m S) = Some rk.
Proof.
  intros (D1 & D2 & D3 & D4). unfold rank_of_diag. cbn [nr nc mk]. fold (mk n m S).
  rewrite (findM_some _ (fun i => (S i i =? 0)%Z)) by (intros i Hi; apply rng_in in Hi; unfold equalsM; now rewrite mget_in by lia).
  cbn [obind]. f_equal. destruct (find _ _) as [i|] eqn:E.
  - apply find_rng in E. destruct E as (H1 & H2 & H3). apply Z.eqb_eq in H2. destruct (Nat.lt_total i rk) as [H|[H|H]]; [|assumption|].
    + now apply D3 in H.
    + assert (X := H3 rk ltac:(lia)). rewrite D4 in X by lia. discriminate.
  - destruct (Nat.eq_dec rk (Nat.min n m)); [easy|]. exfalso. assert (X := find_none _ _ E rk ltac:(apply rng_in; lia)). cbn beta in X. rewrite D4 in X by lia. discriminate.
Qed.

(** run-length encoded divisors *)
Definition expand (ds : list (Z * nat)) : list Z := flat_map (fun d => repeat (fst d) (snd d)) ds.
Lemma repeat_snoc (d : Z) m : repeat d (m + 1) = repeat d m ++ [d].
Proof. induction m; cbn; [reflexivity|]. now rewrite IHm. Qed.
Lemma expand_push ds d : expand (push_divisor ds d) = expand ds ++ [d].
Proof.
  unfold push_divisor. destruct (rev ds) as [|[e m] r] eqn:E.
  - apply (f_equal (@rev _)) in E. rewrite rev_involutive in E. subst. reflexivity.
  - apply (f_equal (@rev _)) in E. rewrite rev_involutive in E. cbn [rev] in E. subst ds. destruct (Z.eqb_spec e d) as [->|Hne].
    + cbn [rev]. unfold expand. rewrite !flat_map_app. cbn [flat_map fst snd]. rewrite repeat_snoc, !app_nil_r. now rewrite app_assoc.
    + unfold expand. rewrite !flat_map_app. cbn [flat_map fst snd repeat]. now rewrite app_nil_r.
Qed.
Lemma expand_fold l ds : expand (fold_left push_divisor l ds) = expand ds ++ l.
Proof. revert ds; induction l as [|d l IH]; intros ds; cbn [fold_left]; [now rewrite app_nil_r|]. rewrite IH, expand_push, <- app_assoc. reflexivity. Qed.
Lemma push_pos ds d : Forall (fun x => 0 < snd x) ds -> Forall (fun x => 0 < snd x) (push_divisor ds d).
Proof.
  intros H. unfold push_divisor. destruct (rev ds) as [|[e m] r] eqn:E; [repeat constructor|].
  assert (H' : Forall (fun x : Z * nat => 0 < snd x) (rev ds)) by (now apply Forall_rev). rewrite E in H'. inversion H'; subst.
  destruct (e =? d)%Z.
  - apply Forall_rev. constructor; [cbn in *; lia|assumption].
  - apply Forall_app. split; [exact H|]. repeat constructor.
Qed.
Lemma fold_pos l ds : Forall (fun x => 0 < snd x) ds -> Forall (fun x => 0 < snd x) (fold_left push_divisor l ds).
Proof. revert ds; induction l as [|d l IH]; intros ds H; cbn [fold_left]; [exact H|]. now apply IH, push_pos. Qed.
Lemma divisor_at_ok ds i : divisor_at ds i = nth_error (expand ds) i.
Proof.
  revert i; induction ds as [|[d m] ds IH]; intros i; cbn [divisor_at expand flat_map fst snd]; [now destruct i|].
  destruct (Nat.leb_spec m i).
  - rewrite nth_error_app2 by (now rewrite repeat_length). rewrite repeat_length. apply IH.
  - rewrite nth_error_app1 by (now rewrite repeat_length). symmetry. clear -H. revert i H; induction m as [|m IH]; intros [|i] H; cbn; try lia; [reflexivity|]. apply IH. lia.
Qed.
(** adjacent runs carry different divisors *)
Definition rle (ds : list (Z * nat)) : Prop := forall i a b, nth_error ds i = Some a -> nth_error ds (i + 1) = Some b -> fst a <> fst b.

(** change of basis *)
Section Change.
  Context {B : Type}.
  Variable cmp : B -> B -> comparison.
  Hypothesis Ht : total_order cmp.
  Definition ind (o : option B) (b : B) : Z := match o with Some x => match cmp x b with Eq => 1%Z | _ => 0%Z end | None => 0%Z end.
  Lemma b_scale_ok c b : exists v, b_scale ideal c b = Some v /\ canonical_vec cmp v /\ length v <= 1 /\ forall x, coeff cmp v x = (c * ind (Some b) x)%Z.
  Proof.
    unfold b_scale, vmul, vfrom. destruct (Z.eqb_spec c 0) as [->|Hc].
    - exists []. split; [reflexivity|]. split; [split; constructor|]. split; [cbn; lia|]. intros x. reflexivity.
    - cbn [scale obind ideal]. unfold ideal; cbn [obind]. eexists. split; [reflexivity|]. split.
      + split; repeat constructor. cbn [fst]. lia.
      + split; [cbn; lia|]. intros x. cbn [coeff ind]. destruct (cmp b x); lia.
  Qed.
  Lemma sum_fold_right (g : nat -> Z) m s : fold_right (fun j a => g j + a)%Z 0%Z (seq s m) = sum m (fun j => g (s + j)).
  Proof.
    revert s; induction m as [|m IH]; intros s; [reflexivity|]. rewrite seq_S, fold_right_app. cbn [fold_right].
    change (sum (S m) (fun j => g (s + j))) with (sum m (fun j => g (s + j)%nat) + g (s + m)%nat)%Z. rewrite <- (IH s). clear. generalize (seq s m) as l.
    induction l as [|x l IHl]; cbn [fold_right]; lia.
  Qed.
  Lemma change_ok n m f bs : length bs = m -> exists vs, change_basis cmp (mk n m f) bs = Some vs /\ length vs = n /\
    forall i, i < n -> canonical_vec cmp (nth i vs []) /\ forall b, coeff cmp (nth i vs []) b = sum m (fun j => f i j * ind (nth_error bs j) b)%Z.
  Proof.
    intros Hl. unfold change_basis. cbn [nr nc mk]. fold (mk n m f). replace (m =? length bs) with true by lia.
    assert (X : forall i, i < n -> exists v, (do l <- omapM (fun j => do c <- mget (mk n m f) i j; do b <- nth_error bs j; b_scale ideal c b) (seq 0 m); vsum ideal cmp l) = Some v
        /\ canonical_vec cmp v /\ forall b, coeff cmp v b = sum m (fun j => f i j * ind (nth_error bs j) b)%Z).
    { intros i Hi.
      assert (Y : forall s k, s + k = m -> exists l, omapM (fun j => do c <- mget (mk n m f) i j; do b <- nth_error bs j; b_scale ideal c b) (seq s k) = Some l /\
          Forall (canonical_vec cmp) l /\ Forall (fun v => length v <= 1) l /\
          forall b, fold_right (fun v a => coeff cmp v b + a)%Z 0%Z l = fold_right (fun j a => f i j * ind (nth_error bs j) b + a)%Z 0%Z (seq s k)).
      { intros s k; revert s; induction k as [|k IH]; intros s Hs; cbn [seq omapM].
        - exists []. split; [reflexivity|]. split; [constructor|]. split; [constructor|reflexivity].
        - rewrite mget_in by lia. cbn [obind]. destruct (nth_error bs s) as [b|] eqn:Eb; [|apply nth_error_None in Eb; lia]. cbn [obind].
          destruct (b_scale_ok (f i s) b) as (v & Ev & V1 & V2 & V3). rewrite Ev. cbn [obind].
          destruct (IH (S s) ltac:(lia)) as (l & El & L1 & L2 & L3). rewrite El. cbn [obind]. exists (v :: l). split; [reflexivity|].
          split; [now constructor|]. split; [now constructor|]. intros x. cbn [fold_right]. rewrite L3, V3, Eb. reflexivity. }
      destruct (Y 0 m eq_refl) as (l & El & L1 & L2 & L3). rewrite El. cbn [obind]. destruct (vsum_ideal cmp Ht l) as [u Hu]. exists u. split; [exact Hu|].
      split; [eapply vsum_single; try eassumption; apply exact_ideal|].
      intros b. rewrite (vsum_total ideal cmp (exact_ideal) Ht _ _ b Hu). etransitivity; [|exact (sum_fold_right (fun j => f i j * ind (nth_error bs j) b)%Z m 0)]. etransitivity; [|exact (L3 b)].
      clear. induction l as [|v l IH]; cbn [concat fold_right]; [reflexivity|]. rewrite coeff_app, IH. reflexivity. }
    clear Hl. assert (Y : forall s k, s + k = n -> exists vs, omapM (fun i => do l <- omapM (fun j => do c <- mget (mk n m f) i j; do b <- nth_error bs j; b_scale ideal c b) (seq 0 m); vsum ideal cmp l) (seq s k) = Some vs
        /\ length vs = k /\ forall i, i < k -> canonical_vec cmp (nth i vs []) /\ forall b, coeff cmp (nth i vs []) b = sum m (fun j => f (s + i)%nat j * ind (nth_error bs j) b)%Z).
    { intros s k; revert s; induction k as [|k IH]; intros s Hs; cbn [seq omapM].
      - exists []. split; [reflexivity|]. split; [reflexivity|]. intros i Hi; lia.
      - destruct (X s ltac:(lia)) as (v & Ev & V1 & V2). rewrite Ev. cbn [obind]. destruct (IH (S s) ltac:(lia)) as (l & El & L1 & L2). rewrite El. cbn [obind].
        exists (v :: l). split; [reflexivity|]. split; [cbn; lia|]. intros [|i] Hi; cbn [nth].
        + rewrite Nat.add_0_r. now split.
        + rewrite Nat.add_succ_r. apply (L2 i). lia. }
    exact (Y 0 n eq_refl).
  Qed.
  Lemma ind_distinct bs m (g : nat -> Z) j b : NoDup bs -> length bs = m -> nth_error bs j = Some b -> sum m (fun l => g l * ind (nth_error bs l) b)%Z = g j.
  Proof.
    intros HN Hl Hj. assert (j < length bs) by (apply nth_error_Some; congruence). rewrite (sum_single RZ m j); [|lia|].
    - rewrite Hj. cbn [ind]. destruct Ht as (Te & _). rewrite (proj2 (Te b b) eq_refl). lia.
    - intros l Hl' Hne. cbn [t0 ops_Z]. destruct (nth_error bs l) as [x|] eqn:E; cbn [ind]; [|lia]. destruct (cmp x b) eqn:C; try lia. apply Ht in C. subst.
      exfalso. apply Hne. apply (proj1 (NoDup_nth_error bs) HN); congruence.
  Qed.
  Lemma ind_outside bs m (g : nat -> Z) b : ~ In b bs -> sum m (fun l => g l * ind (nth_error bs l) b)%Z = 0%Z.
  Proof.
    intros HN. apply (sum_zero RZ). intros l Hl. cbn [t0 ops_Z]. destruct (nth_error bs l) as [x|] eqn:E; cbn [ind]; [|lia]. destruct (cmp x b) eqn:C; try lia. apply Ht in C. subst.
    exfalso. apply HN. now apply nth_error_In in E.
  Qed.
End Change.
