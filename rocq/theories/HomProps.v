(** Theorems C43, C44, C61, C62, C63: homology. *)
From Coq Require Import List Arith ZArith Bool Lia ZifyBool ZifyNat Sorted Ring_theory Setoid.
From Verif Require Import PidModel LinModel LinSpec LinProofs LinProofs2 LinProofs3 LinProps MatModel MatSpec MatProofs MatProofs2 MatProps SnfModel SnfProofs SnfProofs2 SnfProofs3 RankModel RankSpec RankProofs RankProps HomModel HomSpec HomProofs HomProofs2 HomProofs3 HomProofs4.
Import ListNotations.
Open Scope nat_scope.

(** What [IntegralHomology::new] gets from a complex: conforming boundary maps, each with one cell per column. *)
Definition complex_data {B} (bms : list (mat Z * list B)) : Prop :=
  bms <> [] /\ conforming (map fst bms) /\ Forall (fun bm => length (snd bm) = nc (fst bm)) bms.

Section Run.
  Context {B : Type}.
  Variable cmp : B -> B -> comparison.
  Hypothesis Ht : total_order cmp.

  Lemma chainable_snoc t up bm : chainable (B := B) (Some (fst bm)) t ->
    wf (fst bm) -> 0 < nr (fst bm) -> 0 < nc (fst bm) -> length (snd bm) = nc (fst bm) ->
    (forall e, up = Some e -> nr e = nc (fst bm)) -> (forall x i, bnds up (nc (fst bm)) x -> i < nr (fst bm) -> apply_at (fst bm) x i = 0%Z) ->
    chainable up (bm :: t).
  Proof. cbn [chainable]. tauto. Qed.

  Lemma zero_image d e : wf d -> wf e -> nc d = nr e -> (forall i j, i < nr d -> j < nc e -> prod_entry (nc d) (ent d) (ent e) i j = 0%Z) ->
    forall x i, in_image e x -> i < nr d -> apply_at d x i = 0%Z.
  Proof.
    intros Hd He HE H x i [Lx (y & Ly & Hy)] Hi. unfold apply_at. change (ap (nc d) (ent d) (fun j => nth j x 0%Z) i = 0%Z).
    rewrite (ap_ext (nc d) _ (ent d) _ (ap (nc e) (ent e) (fun j => nth j y 0%Z))); [|reflexivity|].
    - rewrite <- ap_prod. apply (sum_zero RZ). intros j Hj. rewrite H by assumption. cbn [tmul t0 ops_Z]. lia.
    - intros j Hj. apply Hy. lia.
  Qed.

  Lemma chainable_rev bms : conforming (map fst bms) -> Forall (fun bm : mat Z * list B => length (snd bm) = nc (fst bm)) bms ->
    forall up, (forall e bm, up = Some e -> nth_error bms (length bms - 1) = Some bm -> wf e /\ nc (fst bm) = nr e /\
        forall i j, i < nr (fst bm) -> j < nc e -> prod_entry (nc (fst bm)) (ent (fst bm)) (ent e) i j = 0%Z) ->
    chainable up (rev bms).
  Proof.
    induction bms as [|bm bms IH] using rev_ind; intros [HC1 HC2] HL up HU; [exact I|]. rewrite rev_app_distr. cbn [rev app].
    rewrite map_app in HC1, HC2. cbn [map] in HC1, HC2. apply Forall_app in HL. destruct HL as [HL1 HL2]. inversion HL2; subst.
    assert (Nk : forall k d, nth_error (map fst bms) k = Some d -> nth_error (map fst bms ++ [fst bm]) k = Some d).
    { intros k d Hk. rewrite nth_error_app1; [exact Hk|]. apply nth_error_Some. congruence. }
    assert (Nl : nth_error (map fst bms ++ [fst bm]) (length bms) = Some (fst bm)).
    { rewrite nth_error_app2 by (now rewrite map_length). now rewrite map_length, Nat.sub_diag. }
    destruct (HC1 _ _ Nl) as (W & W1 & W2).
    assert (Nm : nth_error (bms ++ [bm]) (length (bms ++ [bm]) - 1) = Some bm).
    { rewrite app_length. cbn [length]. rewrite nth_error_app2 by lia. now replace (length bms + 1 - 1 - length bms) with 0 by lia. }
    apply chainable_snoc; auto.
    - apply IH; [split; [intros k d Hk; apply (HC1 k); now apply Nk|]|exact HL1|].
      + intros k d e Hk Hk1. apply (HC2 k); now apply Nk.
      + intros e b [= <-] Eb. split; [exact W|]. assert (length bms - 1 < length bms) by (apply nth_error_Some; congruence).
        apply (HC2 (length bms - 1)); [apply Nk; now rewrite nth_error_map, Eb|]. now replace (length bms - 1 + 1) with (length bms) by lia.
    - intros e ->. destruct (HU e bm eq_refl Nm) as (_ & Hn & _). lia.
    - intros x i Hx Hi. destruct up as [e|].
      + destruct (HU e bm eq_refl Nm) as (We & Hn & HZ). eapply zero_image; eauto.
      + cbn [bnds] in Hx. subst x. unfold apply_at. apply (sum_zero RZ). intros j Hj. rewrite nth_repeat0. cbn [t0 ops_Z]. lia.
  Qed.

  Lemma drop_zero_prefix (l : list (module_ * list (list (Z * B)) * list (list (Z * B)))) : exists z, l = rev (drop_zero (rev l)) ++ z /\ Forall (fun x => module_is_zero (fst (fst x)) = true) z.
  Proof.
    induction l as [|x l IH] using rev_ind; [exists []; split; [reflexivity|constructor]|]. rewrite rev_app_distr. cbn [rev app drop_zero].
    destruct (module_is_zero (fst (fst x))) eqn:E.
    - destruct IH as (z & Ez & Hz). exists (z ++ [x]). split; [now rewrite app_assoc, <- Ez|]. apply Forall_app. split; [exact Hz|]. repeat constructor. exact E.
    - exists []. split; [|constructor]. cbn [rev]. now rewrite rev_involutive, app_nil_r.
  Qed.

  Lemma boundaries_bnds (bms : list (mat Z * list B)) k bm : nth_error bms k = Some bm ->
    forall x, boundaries_of (map fst bms) k x <-> bnds (match nth_error bms (k + 1) with Some b => Some (fst b) | None => None end) (nc (fst bm)) x.
  Proof.
    intros Hk x. unfold boundaries_of. rewrite nth_error_map. destruct (nth_error bms (k + 1)); cbn [option_map bnds]; [reflexivity|]. rewrite nth_error_map, Hk. cbn [option_map].
    split; [intros (d & [= <-] & ->); reflexivity|]. intros ->. eauto.
  Qed.

  Lemma homology_run bms max_dim : complex_data bms ->
    exists out all, integral_homology cmp bms max_dim = Some out /\ length all = length bms /\
      (exists z, match max_dim with None => all | Some d => firstn (d + 1) all end = out ++ z /\ Forall (fun x => module_is_zero (fst (fst x)) = true) z) /\
      forall k res, nth_error all k = Some res -> exists bm, nth_error bms k = Some bm /\
        deg_ok cmp (match nth_error bms (k + 1) with Some b => Some (fst b) | None => None end) bm res.
  Proof.
    intros (Hne & HC & HL). unfold integral_homology. destruct (rev bms) as [|lastm r] eqn:E.
    { exfalso. apply Hne. apply (f_equal (@rev _)) in E. now rewrite rev_involutive in E. }
    assert (HCh : chainable None (rev bms)) by (apply chainable_rev; [exact HC|exact HL|discriminate]).
    assert (Hp : 0 < nc (fst lastm)) by (rewrite E in HCh; apply HCh).
    rewrite midentity_mk by exact Hp. cbn [obind].
    destruct (run_ok cmp Ht (rev bms) None {| h_rank := 0; h_divs := []; h_row := mk (nc (fst lastm)) (nc (fst lastm)) zid |} HCh) as (all & E1 & L1 & H1).
    { intros bm Hb. rewrite E in Hb. injection Hb as <-. now apply above_top. }
    rewrite E in E1. change (@id_entry Z ops_Z) with zid. rewrite E1. cbn [obind].
    destruct (drop_zero_prefix (match max_dim with None => all | Some d => firstn (d + 1) all end)) as (z & Ez & Hz).
    eexists _, all. split; [reflexivity|]. split; [rewrite L1; apply rev_length|]. split; [exists z; split; [exact Ez|exact Hz]|].
    intros k res Hk. rewrite rev_involutive in H1. exact (H1 k res Hk).
  Qed.
End Run.

(** C43.  For every chain complex of nonzero free abelian groups of finite rank, [IntegralHomology::new] does not panic (with exact
    integers), and in every reported degree [k] (up to [max_dim]):
    - the reported module is the homology group, ker d_k / im d_(k+1);
    - its free rank is dim C_k - rank d_k - rank d_(k+1);
    - the reported divisors are nonzero, not 1, and each divides the next;
    and in every degree that is not reported (up to [max_dim]) the homology group is trivial. *)
Theorem C43_homology_partial : forall B cmp (bms : list (mat Z * list B)) max_dim, total_order cmp -> complex_data bms ->
  let ds := map fst bms in
  let top := match max_dim with None => length bms | Some d => Nat.min (d + 1) (length bms) end in
  exists out, integral_homology cmp bms max_dim = Some out /\ length out <= top /\
    (forall k h cyc bnd, nth_error out k = Some (h, cyc, bnd) -> exists d, nth_error ds k = Some d /\
      quotient_is (in_kernel d) (boundaries_of ds k) (group_of (free_rank h) (elementary_divisors h)) /\
      (exists r r', rank_of ds k r /\ rank_of ds (k + 1) r' /\ free_rank h + r + r' = nc d) /\
      Forall (fun x => fst x <> 0%Z /\ fst x <> 1%Z /\ 0 < snd x) (elementary_divisors h) /\
      StronglySorted Z.divide (flat_map (fun x => repeat (fst x) (snd x)) (elementary_divisors h))) /\
    (forall k, length out <= k < top -> exists d, nth_error ds k = Some d /\ quotient_is (in_kernel d) (boundaries_of ds k) []).
Proof.
  intros B cmp bms max_dim Ht HC ds top. destruct (homology_run cmp Ht bms max_dim HC) as (out & all & E & La & (z & Ez & Hz) & HA). exists out. split; [exact E|].
  assert (LT : length (out ++ z) = top) by (rewrite <- Ez; unfold top; destruct max_dim; [rewrite firstn_length|]; lia).
  assert (Sub : forall k res, nth_error (out ++ z) k = Some res -> nth_error all k = Some res).
  { intros k res Hk. rewrite <- Ez in Hk. destruct max_dim as [d|]; [|exact Hk]. assert (k < length (firstn (d + 1) all)) by (apply nth_error_Some; congruence).
    rewrite firstn_length in H. rewrite <- (firstn_skipn (d + 1) all), nth_error_app1 by (rewrite firstn_length; lia). exact Hk. }
  assert (Main : forall k h cyc bnd, nth_error (out ++ z) k = Some (h, cyc, bnd) -> exists d, nth_error ds k = Some d /\
      quotient_is (in_kernel d) (boundaries_of ds k) (group_of (free_rank h) (elementary_divisors h)) /\
      (exists r r', rank_of ds k r /\ rank_of ds (k + 1) r' /\ free_rank h + r + r' = nc d) /\
      Forall (fun x => fst x <> 0%Z /\ fst x <> 1%Z /\ 0 < snd x) (elementary_divisors h) /\
      StronglySorted Z.divide (flat_map (fun x => repeat (fst x) (snd x)) (elementary_divisors h))).
  { intros k h cyc bnd Hk. destruct (HA k _ (Sub _ _ Hk)) as (bm & Eb & (Q & (r & r' & R1 & R2 & R3) & (F1 & F2) & _)).
    exists (fst bm). assert (Ed : nth_error ds k = Some (fst bm)) by (unfold ds; now rewrite nth_error_map, Eb). split; [exact Ed|]. split; [|split; [|split; [exact F1|exact F2]]].
    - eapply quotient_ext; [reflexivity| |exact Q]. intros x _. symmetry. now apply boundaries_bnds.
    - exists r, r'. split; [unfold rank_of; now rewrite Ed|]. split; [|exact R3]. unfold rank_of, ds. rewrite nth_error_map. destruct (nth_error bms (k + 1)); exact R2. }
  rewrite app_length in LT. split; [lia|]. split.
  - intros k h cyc bnd Hk. apply (Main k h cyc bnd). rewrite nth_error_app1; [exact Hk|]. apply nth_error_Some. congruence.
  - intros k Hk. destruct (nth_error z (k - length out)) as [[[h cyc] bnd]|] eqn:Ek; [|apply nth_error_None in Ek; lia].
    assert (Ek' : nth_error (out ++ z) k = Some (h, cyc, bnd)) by (rewrite nth_error_app2 by lia; exact Ek).
    destruct (Main k h cyc bnd Ek') as (d & Ed & Q & _). exists d. split; [exact Ed|].
    apply nth_error_In in Ek. rewrite Forall_forall in Hz. specialize (Hz _ Ek). cbn [fst] in Hz. unfold module_is_zero in Hz. apply andb_true_iff in Hz. destruct Hz as [Z1 Z2].
    apply Nat.eqb_eq in Z1. destruct (elementary_divisors h) eqn:Z3; [|discriminate]. rewrite Z1 in Q. exact Q.
Qed.
Print Assumptions C43_homology_partial.

(** C62, C63: the reported cycles are a basis of the kernel of d_k, the reported boundaries a basis of the image of d_(k+1). *)
Theorem C62_cycles_basis : forall B cmp (bms : list (mat Z * list B)) max_dim out k h cyc bnd d bs, total_order cmp -> complex_data bms ->
  integral_homology cmp bms max_dim = Some out -> nth_error out k = Some (h, cyc, bnd) -> nth_error bms k = Some (d, bs) ->
  Forall (canonical_vec cmp) cyc /\ (forall v b, In v cyc -> coeff cmp v b <> 0%Z -> In b bs) /\
  (NoDup bs -> basis_of (nc d) (map (coords cmp bs) cyc) (in_kernel d)).
Proof.
  intros B cmp bms max_dim out k h cyc bnd d bs Ht HC E Hk Hb. destruct (homology_run cmp Ht bms max_dim HC) as (out' & all & E' & La & (z & Ez & Hz) & HA). rewrite E in E'. injection E' as <-.
  assert (Hk' : nth_error all k = Some (h, cyc, bnd)).
  { assert (X : nth_error (out ++ z) k = Some (h, cyc, bnd)) by (rewrite nth_error_app1; [exact Hk|apply nth_error_Some; congruence]). rewrite <- Ez in X. destruct max_dim as [m|]; [|exact X].
    assert (H : k < length (firstn (m + 1) all)) by (apply nth_error_Some; congruence). rewrite firstn_length in H. rewrite <- (firstn_skipn (m + 1) all), nth_error_app1 by (rewrite firstn_length; lia). exact X. }
  destruct (HA k _ Hk') as (bm & Eb & (_ & _ & _ & C1 & C2 & C3 & C4)). rewrite Hb in Eb. injection Eb as <-. cbn [fst snd] in *.
  split; [exact C1|]. split; [intros v b Hv; apply C3; now left|]. intros ND. now apply C4.
Qed.
Print Assumptions C62_cycles_basis.
Theorem C63_boundaries_basis : forall B cmp (bms : list (mat Z * list B)) max_dim out k h cyc bnd d bs, total_order cmp -> complex_data bms ->
  integral_homology cmp bms max_dim = Some out -> nth_error out k = Some (h, cyc, bnd) -> nth_error bms k = Some (d, bs) ->
  Forall (canonical_vec cmp) bnd /\ (forall v b, In v bnd -> coeff cmp v b <> 0%Z -> In b bs) /\
  (NoDup bs -> basis_of (nc d) (map (coords cmp bs) bnd) (boundaries_of (map fst bms) k)).
Proof.
  intros B cmp bms max_dim out k h cyc bnd d bs Ht HC E Hk Hb. destruct (homology_run cmp Ht bms max_dim HC) as (out' & all & E' & La & (z & Ez & Hz) & HA). rewrite E in E'. injection E' as <-.
  assert (Hk' : nth_error all k = Some (h, cyc, bnd)).
  { assert (X : nth_error (out ++ z) k = Some (h, cyc, bnd)) by (rewrite nth_error_app1; [exact Hk|apply nth_error_Some; congruence]). rewrite <- Ez in X. destruct max_dim as [m|]; [|exact X].
    assert (H : k < length (firstn (m + 1) all)) by (apply nth_error_Some; congruence). rewrite firstn_length in H. rewrite <- (firstn_skipn (m + 1) all), nth_error_app1 by (rewrite firstn_length; lia). exact X. }
  destruct (HA k _ Hk') as (bm & Eb & (_ & _ & _ & C1 & C2 & C3 & C4)). rewrite Hb in Eb. injection Eb as <-. cbn [fst snd] in *.
  split; [exact C2|]. split; [intros v b Hv; apply C3; now right|]. intros ND. eapply basis_ext; [|apply C4; exact ND]. intros x. symmetry. apply (boundaries_bnds bms k (d, bs) Hb).
Qed.
Print Assumptions C63_boundaries_basis.

(** C61: the change of basis [M * basis] panics exactly when the sizes differ, and otherwise its i-th vector has at each cell the sum of the entries of
    row i at the positions of that cell. *)
Theorem C61_change_of_basis : forall B cmp (M : mat Z) (bs : list B), total_order cmp -> wf M ->
  (length bs <> nc M -> change_basis cmp M bs = None) /\
  (length bs = nc M -> exists vs, change_basis cmp M bs = Some vs /\ length vs = nr M /\
    forall i, i < nr M -> exists v, nth_error vs i = Some v /\ canonical_vec cmp v /\
      (forall b, ~ In b bs -> coeff cmp v b = 0%Z) /\
      (forall b, coeff cmp v b = sum (nc M) (fun j => match nth_error bs j with Some x => match cmp x b with Eq => ent M i j | _ => 0%Z end | None => 0%Z end)) /\
      (NoDup bs -> forall j b, nth_error bs j = Some b -> coeff cmp v b = ent M i j)).
Proof.
  intros B cmp M bs Ht HM. split.
  - intros H. unfold change_basis. now replace (nc M =? length bs) with false by lia.
  - intros H. destruct (change_ok cmp Ht (nr M) (nc M) (ent M) bs H) as (vs & E & L & HV). rewrite <- (wf_eq_mk M HM) in E. exists vs. split; [exact E|]. split; [exact L|].
    intros i Hi. exists (nth i vs []). destruct (HV i Hi) as [H1 H2]. split; [apply nth_error_nth'; lia|]. split; [exact H1|]. split; [|split].
    + intros b Hb. rewrite H2. now apply (ind_outside cmp Ht).
    + intros b. rewrite H2. apply sum_ext. intros j Hj. destruct (nth_error bs j) as [x|]; cbn [ind]; [|lia]. destruct (cmp x b); lia.
    + intros ND j b Hj. rewrite H2. exact (ind_distinct cmp Ht bs (nc M) (ent M i) j b ND H Hj).
Qed.
Print Assumptions C61_change_of_basis.

(** ** Field coefficients *)
Section FieldHom.
  Context {T : Type} {OT : Ops T} {FT : FOps T}.
  Hypothesis FL : field_laws (T := T).

  (** What [rank_as_linear_map] says about the k-th map (0 above the top). *)
  Definition reported_rank (ds : list (mat T)) (k r : nat) : Prop :=
    match nth_error ds k with Some d => rank_as_linear_map d = Some r | None => r = 0 end.

  (** C44.  On every complex it returns one number per degree without panicking; the number is dim C_k minus the two reported ranks, hence never below the
      Betti number, and equal to it when the reported ranks are the ranks (for instance when they are full, C38). *)
  Theorem C44_upper_bound_partial : forall ds : list (mat T), field_complex ds ->
    exists hs, field_homology ds = Some hs /\ length hs = length ds /\
      forall k h d, nth_error hs k = Some h -> nth_error ds k = Some d ->
        exists r r', reported_rank ds k r /\ reported_rank ds (k + 1) r' /\ h + r + r' = nc d /\
          forall R R', field_rank_of ds k R -> field_rank_of ds (k + 1) R' ->
            R + R' <= nc d /\ nc d - R - R' <= h /\ (h = nc d - R - R' <-> r = R /\ r' = R').
  Proof.
    intros ds [HW HZ]. pose proof FL as (RL & H1 & H2 & H3).
    assert (RK : forall d, wf d -> exists r, rank_as_linear_map d = Some r /\ rank_at_least (nr d) (nc d) (ent d) r).
    { intros d Hd. destruct (C38_lower_bound_partial FL d Hd) as (r & E & R1 & _). eauto. }
    set (rr := fun d => match rank_as_linear_map d with Some r => r | None => 0 end).
    assert (RR : forall d, wf d -> rank_as_linear_map d = Some (rr d) /\ rank_at_least (nr d) (nc d) (ent d) (rr d) /\ rr d <= nc d).
    { intros d Hd. destruct (RK d Hd) as (r & E & Hr). unfold rr. rewrite E. split; [reflexivity|]. split; [exact Hr|]. pose proof (rank_le_F RL H1 H2 H3 _ _ _ _ Hr). lia. }
    assert (CR : forall q n m A B r s, rank_at_least q n A r -> rank_at_least n m B s -> (forall i j, i < q -> j < m -> prod_entry n A B i j = t0) -> r + s <= n).
    { intros q n m A B r s. exact (compose_rank RL (integral_F RL H1) H2 (eq_dec_F H3) q n m A B r s). }
    unfold field_homology. destruct ds as [|d0 ds].
    { exists []. split; [reflexivity|]. split; [reflexivity|]. intros [|k] h d; discriminate. }
    rewrite (omapM_some _ (fun d => (rr d, nc d - rr d))).
    2:{ intros d Hd. apply In_nth_error in Hd. destruct Hd as (k & Hk). destruct (RR d (HW k d Hk)) as (E & _ & Hle). rewrite E. cbn [obind]. unfold subM. now replace (rr d <=? nc d) with true by lia. }
    cbn [obind map]. set (L := map (fun d => (rr d, nc d - rr d)) ds).
    assert (LN : forall i ik, nth_error L i = Some ik -> exists d, nth_error ds i = Some d /\ ik = (rr d, nc d - rr d)).
    { intros i ik Hi. unfold L in Hi. rewrite nth_error_map in Hi. destruct (nth_error ds i) as [d|]; [|discriminate]. injection Hi as <-. eauto. }
    assert (PK : forall i d, nth_error ds i = Some d -> exists d', nth_error (d0 :: ds) i = Some d' /\ rr d' + rr d <= nc d' /\
        match i with 0 => nc d0 - rr d0 | S j => snd (nth j L (0, 0)) end = nc d' - rr d').
    { intros i d Hd. destruct (nth_error (d0 :: ds) i) as [d'|] eqn:E'.
      - exists d'. split; [reflexivity|]. split.
        + destruct (HZ i d' d E') as [HE HP]; [now rewrite Nat.add_1_r|]. eapply CR.
          * apply RR. now apply (HW i).
          * rewrite HE. apply RR. apply (HW (S i)). exact Hd.
          * exact HP.
        + destruct i as [|j]; [now injection E' as <-|]. cbn in E'. unfold L. rewrite (nth_indep _ (0, 0) (rr d', nc d' - rr d')) by (rewrite map_length; apply nth_error_Some; congruence).
          rewrite (map_nth (fun d => (rr d, nc d - rr d)) ds d' j). now rewrite (nth_error_nth ds j d' E').
      - apply nth_error_None in E'. assert (i < length ds) by (apply nth_error_Some; congruence). cbn in E'. lia. }
    destruct (field_loop_ok L (nc d0 - rr d0)) as (r & E & Lr & Sr & HN).
    { intros i ik Hi. destruct (LN i ik Hi) as (d & Hd & ->). cbn [fst]. destruct (PK i d Hd) as (d' & _ & Hle & ->). lia. }
    rewrite E. cbn [obind]. exists (fst r ++ [snd r]). split; [reflexivity|]. split; [rewrite app_length, Lr; unfold L; rewrite map_length; cbn; lia|].
    assert (LL : length L = length ds) by (unfold L; apply map_length).
    intros k h d Hh Hd.
    assert (X : exists r', reported_rank (d0 :: ds) (k + 1) r' /\ rr d + r' <= nc d /\ h = nc d - rr d - r' /\
                forall R', field_rank_of (d0 :: ds) (k + 1) R' -> r' <= R').
    { rewrite Nat.add_1_r. unfold reported_rank, field_rank_of. cbn [nth_error]. destruct (nth_error ds k) as [e|] eqn:Ek.
      - assert (Hk : k < length ds) by (apply nth_error_Some; congruence). rewrite nth_error_app1 in Hh by lia.
        assert (EL : nth_error L k = Some (rr e, nc e - rr e)) by (unfold L; now rewrite nth_error_map, Ek).
        rewrite (HN k _ EL) in Hh. injection Hh as <-. destruct (PK k e Ek) as (d' & Hd' & Hle & ->). rewrite Hd in Hd'. injection Hd' as <-.
        destruct (RR e (HW (S k) e Ek)) as (Ee & Re & _). exists (rr e). split; [exact Ee|]. split; [exact Hle|]. split; [reflexivity|]. intros R' [_ HR]. now apply HR.
      - exists 0. split; [reflexivity|]. apply nth_error_None in Ek. assert (k < length (d0 :: ds)) by (apply nth_error_Some; congruence). cbn in H.
        assert (k = length ds) by lia. rewrite nth_error_app2 in Hh by lia. replace (k - length (fst r)) with 0 in Hh by lia. injection Hh as <-.
        destruct (RR d (HW k d Hd)) as (_ & _ & Hle). split; [lia|]. split; [|intros; lia]. rewrite Sr.
        destruct ds as [|d1 ds'] eqn:Eds using rev_ind; [subst k; injection Hd as <-; cbn; lia|]. clear IHds'.
        unfold L. rewrite map_app, rev_app_distr. cbn [map rev app]. cbn [snd]. rewrite app_length in H0. cbn in H0. subst k. rewrite Nat.add_1_r in Hd. cbn [nth_error] in Hd. rewrite nth_error_app2, Nat.sub_diag in Hd by lia. injection Hd as <-. lia. }
    destruct X as (r' & X1 & X2 & X3 & X4). destruct (RR d (HW k d Hd)) as (Ed & Rd & Hle). exists (rr d), r'. split; [unfold reported_rank; now rewrite Hd|]. split; [exact X1|]. split; [lia|].
    intros R R' HR HR'. assert (rr d <= R) by (unfold field_rank_of in HR; rewrite Hd in HR; now apply HR). specialize (X4 R' HR').
    assert (R + R' <= nc d).
    { unfold field_rank_of in HR, HR'. rewrite Hd in HR. destruct HR as [HR _]. destruct (nth_error (d0 :: ds) (k + 1)) as [e|] eqn:Ee.
      - destruct HR' as [HR' _]. destruct (HZ k d e Hd Ee) as [HE HP]. eapply CR; [exact HR|rewrite HE; exact HR'|exact HP].
      - pose proof (rank_le_F RL H1 H2 H3 _ _ _ _ HR). lia. }
    lia.
  Qed.

  (** Refutation over every field: 0 <- T^2 <- T^2 with the exchange matrix as second map has no homology in degree 0; 2 is reported. *)
  Theorem C44_refuted : exists ds : list (mat T), field_complex ds /\ field_rank_of ds 0 0 /\ field_rank_of ds 1 2 /\ field_homology ds = Some [2; 2].
  Proof.
    pose proof FL as (RL & H1 & H2 & H3). destruct (C38_refuted FL) as [E1 E2].
    set (z := Mat 1 2 [[t0; t0]] : mat T). assert (E0 : teqb t0 t0 = true) by now apply H3.
    assert (Wz : wf z) by (split; [reflexivity|repeat constructor]). assert (We : wf exchange) by (split; [reflexivity|repeat constructor]).
    assert (Zz : forall i j, i < 1 -> j < 2 -> ent z i j = t0) by (intros [|i] [|[|j]] Hi Hj; try lia; reflexivity).
    assert (RZ0 : forall s, rank_at_least 1 2 (ent z) s -> s = 0).
    { intros s (C & HC). destruct s as [|s]; [reflexivity|]. exfalso. apply H2. apply (HC (fun _ => t1)) with (i := 0); [|lia]. intros j Hj. apply (sum_zero RL). intros i Hi.
      rewrite (Rmul_1_l RL). apply (sum_zero RL). intros k Hk. rewrite Zz by assumption. rewrite (Rmul_comm RL). apply (ARmul_0_l (Rth_ARth (Eqsth T) (Eq_ext _ _ _) RL)). }
    exists [z; exchange]. split; [|split; [|split]].
    - split.
      + intros [|[|[|k]]] d Hd; try discriminate; injection Hd as <-; assumption.
      + intros [|[|[|k]]] d e Hd He; try discriminate. injection Hd as <-. injection He as <-. split; [reflexivity|]. intros i j Hi Hj. apply (sum_zero RL). intros k Hk.
        rewrite Zz by assumption. apply (ARmul_0_l (Rth_ARth (Eqsth T) (Eq_ext _ _ _) RL)).
    - split; [exists (fun _ _ => t0); intros c _ i Hi; lia|]. intros s Hs. apply RZ0 in Hs. lia.
    - exact E2.
    - unfold field_homology. cbn [omapM].
      destruct (C38_lower_bound_partial FL z Wz) as (r & Er & Rr & _). apply RZ0 in Rr. subst r. rewrite Er, E1. reflexivity.
  Qed.
End FieldHom.
Print Assumptions C44_upper_bound_partial.
Print Assumptions C44_refuted.

(** C43 refuted as stated ("torsion given by the non-unit elementary divisors"): a unit divisor -1 is reported, so a trivial group
    is reported as a nonzero module. *)
Definition m1 (z : Z) : mat Z := Mat 1 1 [[z]].
Lemma m1_ent z i j : i < 1 -> j < 1 -> ent (m1 z) i j = z. Proof. destruct i, j; try lia; reflexivity. Qed.
Lemma wf_m1 z : wf (m1 z). Proof. split; [reflexivity|repeat constructor]. Qed.
Lemma total_Z : total_order Z.compare.
Proof.
  split; [exact Z.compare_eq_iff|]. split; [intros a b; symmetry; rewrite Z.compare_antisym; now rewrite CompOpp_involutive|]. intros a b c H1 H2. rewrite Z.compare_lt_iff in *. lia.
Qed.
Theorem C43_refuted : exists (bms : list (mat Z * list Z)) h cyc bnd, complex_data bms /\
  integral_homology Z.compare bms None = Some [(h, cyc, bnd)] /\ elementary_divisors h = [((-1)%Z, 1)] /\ module_is_zero h = false /\
  quotient_is (in_kernel (m1 0)) (boundaries_of (map fst bms) 0) [].
Proof.
  set (bms := [(m1 0, [0%Z]); (m1 (-1), [1%Z])]).
  assert (HC : complex_data bms).
  { split; [discriminate|]. split; [split|].
    - intros [|[|[|k]]] d Hd; try discriminate; injection Hd as <-; (split; [apply wf_m1|split; cbn; lia]).
    - intros [|[|[|k]]] d e Hd He; try discriminate. injection Hd as <-. injection He as <-. split; [reflexivity|]. intros [|i] [|j] Hi Hj; first [reflexivity | cbn in *; lia].
    - repeat constructor. }
  exists bms. eexists _, _, _. split; [exact HC|]. split; [vm_compute; reflexivity|]. split; [reflexivity|]. split; [reflexivity|].
  destruct (C43_homology_partial Z Z.compare bms None total_Z HC) as (out & E & _ & H & _). vm_compute in E. injection E as <-.
  destruct (H 0 _ _ _ eq_refl) as (d & Ed & Q & _). injection Ed as <-. destruct Q as (phi & P1 & P2 & P3 & P4). cbn [free_rank elementary_divisors group_of repeat flat_map app fst snd] in *.
  exists (fun _ => []). split; [|split; [|split]].
  - intros; reflexivity.
  - intros. apply geq_refl. reflexivity.
  - intros x Hx. rewrite <- P3 by exact Hx. split; intros _; [|apply geq_refl; reflexivity]. split; [apply P1, Hx|]. split; [reflexivity|]. intros [|i] Hi; [|cbn in Hi; lia].
    cbn [map nth]. exists (- (nth 0 (phi x) 0 - 0))%Z. lia.
  - intros g Hg. destruct (P4 [0%Z] eq_refl) as (x & Hx & _). exists x. split; [exact Hx|]. destruct g; [|discriminate]. apply geq_refl. reflexivity.
Qed.
Print Assumptions C43_refuted.

(** Concrete cases meeting the hypotheses. *)
(** The projective plane: H_0 = Z, H_1 = Z/2, H_2 = 0. *)
Example rp2 : list (mat Z * list Z) := [(m1 0, [10%Z]); (m1 0, [20%Z]); (m1 2, [30%Z])].
Example rp2_data : complex_data rp2.
Proof.
  split; [discriminate|]. split; [split|].
  - intros [|[|[|[|k]]]] d Hd; try discriminate; injection Hd as <-; (split; [apply wf_m1|split; cbn; lia]).
  - intros [|[|[|[|k]]]] d e Hd He; try discriminate; injection Hd as <-; injection He as <-; (split; [reflexivity|]); intros [|i] [|j] Hi Hj; first [reflexivity | cbn in *; lia].
  - repeat constructor.
Qed.
Example rp2_homology : option_map (map (fun r => fst (fst r))) (integral_homology Z.compare rp2 None) =
  Some [{| free_rank := 1; elementary_divisors := [] |}; {| free_rank := 0; elementary_divisors := [(2%Z, 1)] |}].
Proof. vm_compute. reflexivity. Qed.
(** A circle with three vertices and edges. *)
Example circle : list (mat Z * list Z) := [(Mat 1 3 [[0; 0; 0]]%Z, [0; 1; 2]%Z); (Mat 3 3 [[1; 1; 0]; [-1; 0; 1]; [0; -1; -1]]%Z, [3; 4; 5]%Z)].
Example circle_data : complex_data circle.
Proof.
  split; [discriminate|]. split; [split|].
  - intros [|[|[|k]]] d Hd; try discriminate; injection Hd as <-; (split; [split; [reflexivity|repeat constructor]|split; cbn; lia]).
  - intros [|[|[|k]]] d e Hd He; try discriminate. injection Hd as <-. injection He as <-. split; [reflexivity|]. intros [|i] [|[|[|j]]] Hi Hj; first [reflexivity | cbn in *; lia].
  - repeat constructor.
Qed.
Example circle_homology : integral_homology Z.compare circle (Some 5) =
  Some [({| free_rank := 1; elementary_divisors := [] |}, [[(1, 0)]; [(1, 1)]; [(1, 2)]], [[(1, 0); (-1, 1)]; [(1, 1); (-1, 2)]]);
        ({| free_rank := 1; elementary_divisors := [] |}, [[(1, 3); (-1, 4); (1, 5)]], [])]%Z.
Proof. vm_compute. reflexivity. Qed.
