(** Homology of complexes whose boundary matrices have at most one 1 and at most one -1 in every column. *)
From Coq Require Import List Arith ZArith Bool Lia ZifyBool ZifyNat Permutation.
From Verif Require Import PidModel LinModel LinSpec LinProofs MatModel MatSpec MatProofs MatProofs2 SnfModel SnfProofs SnfProofs2 SnfProofs3 HomModel SnfChkModel SnfChkProofs SnfGraphProofs SnfGraphProofs2 SnfGraphProofs3.
Import ListNotations.
Open Scope nat_scope.

Lemma omapM_ext_in {A B} (f g : A -> option B) l : (forall x, In x l -> f x = g x) -> omapM f l = omapM g l.
Proof. induction l as [|x l IH]; intros H; cbn [omapM]; [reflexivity|]. rewrite (H x) by now left. rewrite IH by (intros; apply H; now right). reflexivity. Qed.
Lemma omapM_forall {A B} (f : A -> option B) (P : B -> Prop) l r : omapM f l = Some r -> (forall x y, In x l -> f x = Some y -> P y) -> Forall P r.
Proof.
  revert r. induction l as [|x l IH]; intros r E H; cbn [omapM] in E. { injection E as <-. constructor. }
  destruct (f x) as [y|] eqn:Ex; [|discriminate]. cbn [obind] in E. destruct (omapM f l) as [t|]; [|discriminate]. cbn [obind] in E. injection E as <-.
  constructor; [exact (H x y (or_introl eq_refl) Ex)|]. apply IH; [reflexivity|]. intros z w Hz. apply H. now right.
Qed.

Section Hom.
  Context {B : Type}.
  Variable cmp : B -> B -> comparison.
  Hypothesis Ht : total_order cmp.
  Variable chk : Z -> option Z.
  Hypothesis Hchk : forall z, unit_range z -> chk z = Some z.
  Notation vec := (list (Z * B)).
  Definition unit_vec (v : vec) : Prop := Forall (fun x => unit_range (fst x)) v.
  (** cursors at the only entry of their vectors, with different basis elements *)
  Definition single (c : @cursor B) : Prop := snd c = [] /\ unit_range (fst (fst c)).
  Definition key (c : @cursor B) : B := snd (fst c).

  Lemma leading_one c l : NoDup (map key (c :: l)) -> leading cmp (snd (fst c)) (c :: l) = 1.
  Proof using Ht.
    intros H. destruct Ht as (Te & _). cbn [leading]. unfold beqb at 1. rewrite (proj2 (Te _ _) eq_refl). f_equal. destruct l as [|d l]; [reflexivity|].
    cbn [leading]. unfold beqb. destruct (cmp (snd (fst d)) (snd (fst c))) eqn:E; try reflexivity. apply Te in E.
    exfalso. cbn [map] in H. inversion H as [|? ? H1 _]; subst. apply H1. left. exact E.
  Qed.
  Lemma sum_single_chk fuel : forall l, Forall single l -> NoDup (map key l) ->
    sum_loop chk cmp fuel l = sum_loop ideal cmp fuel l /\ forall v, sum_loop ideal cmp fuel l = Some v -> unit_vec v.
  Proof using Ht.
    induction fuel as [|k IH]; intros l HS HN; [split; [reflexivity|discriminate]|].
    rewrite (sum_loop_S chk cmp), (sum_loop_S ideal cmp). destruct l as [|c l]; [split; [reflexivity|]; intros v E; injection E as <-; constructor|].
    cbv zeta. rewrite (leading_one c l HN). cbn [firstn tl sum_coeffs obind].
    assert (EN : Permutation l (step_next cmp (c :: l))).
    { inversion HS as [|? ? [E1 _] _]; subst. cbn [step_next]. rewrite (leading_one c l HN). cbv zeta. cbn [firstn skipn flat_map]. destruct c as [c0 t]. cbn in E1. subst t.
      cbn [snd take_cursor app]. etransitivity; [|apply merge_spec_perm]. cbn [sort_by fold_right]. unfold sort_by. cbn [fold_right]. rewrite app_nil_r. apply Permutation_refl. }
    destruct (IH (step_next cmp (c :: l))) as [I1 I2].
    - rewrite Forall_forall in HS |- *. intros x Hx. apply HS. right. eapply Permutation_in; [symmetry; exact EN|exact Hx].
    - inversion HN; subst. eapply Permutation_NoDup; [|eassumption]. now apply Permutation_map.
    - rewrite I1. split; [reflexivity|]. intros v E. destruct (sum_loop ideal cmp k _) as [o|]; [|discriminate]. cbn [obind] in E. injection E as <-.
      specialize (I2 o eq_refl). destruct (_ =? 0)%Z; [exact I2|]. constructor; [|exact I2]. inversion HS as [|? ? [_ E2] _]; subst. exact E2.
  Qed.
  (** vectors with one entry or none *)
  Definition part (bs : list B) (vs : list vec) : Prop := Forall2 (fun b v => v = [] \/ exists c, unit_range c /\ v = [(c, b)]) bs vs.
  Lemma part_singles bs vs : part bs vs -> Forall single (flat_map take_cursor vs) /\ incl (map key (flat_map take_cursor vs)) bs /\ (NoDup bs -> NoDup (map key (flat_map take_cursor vs))).
  Proof.
    induction 1 as [|b v bs vs Hv HP (I1 & I2 & I3)]; cbn [flat_map]. { split; [constructor|]. split; [easy|constructor]. }
    destruct Hv as [->|(c & Hc & ->)]; cbn [take_cursor app].
    - split; [exact I1|]. split; [now apply incl_tl|]. intros HN. inversion HN; auto.
    - split; [constructor; [now split|exact I1]|]. cbn [map]. unfold key at 1 3. cbn [fst snd]. split; [intros x [<-|Hx]; [now left|right; now apply I2]|].
      intros HN. inversion HN; subst. constructor; auto.
  Qed.
  Lemma vsum_part bs vs : part bs vs -> NoDup bs -> vsum chk cmp vs = vsum ideal cmp vs /\ forall v, vsum ideal cmp vs = Some v -> unit_vec v.
  Proof using Ht.
    intros HP HN. destruct (part_singles bs vs HP) as (I1 & _ & I3). specialize (I3 HN). unfold vsum. apply sum_single_chk.
    - rewrite Forall_forall in I1 |- *. intros x Hx. apply I1. eapply Permutation_in; [|exact Hx]. symmetry. apply sort_by_perm.
    - eapply Permutation_NoDup; [|exact I3]. apply Permutation_map, sort_by_perm.
  Qed.
  Lemma scale_unit d v : unit_range d -> unit_vec v -> scale chk d v = scale ideal d v.
  Proof using Hchk.
    intros Hd. induction 1 as [|[s b] v Hs HV IH]; cbn [scale]; [reflexivity|]. cbn [fst] in Hs. rewrite Hchk; [|unfold unit_range in *; nia]. cbn [obind].
    rewrite IH. reflexivity.
  Qed.
  Lemma vmul_unit d v : unit_range d -> unit_vec v -> vmul chk v d = vmul ideal v d.
  Proof using Hchk. intros Hd HV. unfold vmul. destruct (d =? 0)%Z; [reflexivity|]. now apply scale_unit. Qed.
  Lemma b_scale_unit c (b : B) : unit_range c -> b_scale chk c b = b_scale ideal c b.
  Proof using Hchk. intros Hc. unfold b_scale. apply vmul_unit; [exact Hc|]. unfold vfrom. constructor; [cbn; unfold unit_range; lia|constructor]. Qed.
  Lemma row_part m (g : nat -> Z) bs : (forall j, j < m -> unit_range (g j)) -> length bs = m -> forall vs,
    omapM (fun j => do b <- nth_error bs j; b_scale ideal (g j) b) (seq 0 m) = Some vs -> part bs vs.
  Proof.
    intros Hg Hl vs. revert m g Hg Hl vs. induction bs as [|b bs IH]; intros m g Hg <- vs; cbn [length seq omapM]. { intros E. injection E as <-. constructor. }
    cbn [nth_error obind]. destruct (b_scale ideal (g 0) b) as [v|] eqn:Ev; [|discriminate]. cbn [obind]. destruct (omapM _ (seq 1 _)) as [t|] eqn:Et; [|discriminate]. cbn [obind].
    intros E. injection E as <-. constructor.
    - unfold b_scale, vmul, vfrom in Ev. destruct (Z.eqb_spec (g 0) 0) as [E0|E0]; [injection Ev as <-; now left|]. cbn [scale ideal obind] in Ev. unfold ideal in Ev. cbn [obind] in Ev. injection Ev as <-.
      right. exists (g 0). split; [apply Hg; cbn; lia|]. do 2 f_equal. destruct (g 0); reflexivity.
    - apply (IH (length bs) (fun j => g (S j))); [intros j Hj; apply Hg; cbn; lia|reflexivity|]. rewrite <- Et. rewrite <- seq_shift.
      clear. generalize (seq 0 (length bs)) as l. induction l as [|x l IHl]; cbn [map omapM]; [reflexivity|]. rewrite IHl. reflexivity.
  Qed.
End Hom.

Section Run.
  Context {B : Type}.
  Variable cmp : B -> B -> comparison.
  Hypothesis Ht : total_order cmp.
  Variable w : Z.
  Hypothesis Hw : (2 <= w)%Z.
  Notation dbg := (debug w).
  Lemma ar_unit z : unit_range z -> p_ar dbg z = Some z.
  Proof using Hw. intros. now apply width_unit. Qed.

  Lemma change_unit n m (f : efun) (bs : list B) : (forall r l, r < n -> l < m -> unit_range (f r l)) -> NoDup bs ->
    change_basis_p dbg cmp (mk n m f) bs = change_basis cmp (mk n m f) bs /\ forall vs, change_basis cmp (mk n m f) bs = Some vs -> Forall unit_vec vs.
  Proof using Ht Hw.
    intros Hf HN. unfold change_basis_p, change_basis. rewrite nc_mk, nr_mk. destruct (Nat.eqb_spec m (length bs)) as [El|]; [|split; [reflexivity|discriminate]].
    assert (X : forall i, i < n -> omapM (fun j => do c <- mget (mk n m f) i j; do b <- nth_error bs j; b_scale (p_ar dbg) c b) (seq 0 m) =
                                   omapM (fun j => do b <- nth_error bs j; b_scale ideal (f i j) b) (seq 0 m)).
    { intros i Hi. apply omapM_ext_in. intros j Hj. apply in_seq in Hj. rewrite mget_in by lia. cbn [obind]. destruct (nth_error bs j); [|reflexivity]. cbn [obind].
      apply b_scale_unit; [exact ar_unit|]. apply Hf; lia. }
    assert (Y : forall i, i < n -> omapM (fun j => do c <- mget (mk n m f) i j; do b <- nth_error bs j; b_scale ideal c b) (seq 0 m) =
                                   omapM (fun j => do b <- nth_error bs j; b_scale ideal (f i j) b) (seq 0 m)).
    { intros i Hi. apply omapM_ext_in. intros j Hj. apply in_seq in Hj. rewrite mget_in by lia. reflexivity. }
    split.
    - apply omapM_ext_in. intros i Hi. apply in_seq in Hi. rewrite X, Y by lia. destruct (omapM _ _) as [vs|] eqn:E; [|reflexivity]. cbn [obind].
      apply (vsum_part cmp Ht _ bs); [|exact HN]. apply (row_part m (f i)); auto. intros j Hj. apply Hf; lia.
    - intros vs E. apply (omapM_forall _ _ _ _ E). intros i v Hi Ev. apply in_seq in Hi. rewrite Y in Ev by lia. clear E. destruct (omapM _ _) as [us|] eqn:E2; [|discriminate]. cbn [obind] in Ev.
      refine (proj2 (vsum_part cmp Ht ideal bs us _ HN) v Ev). apply (row_part m (f i)); [|lia|exact E2]. intros j Hj. apply Hf; lia.
  Qed.
  Lemma scale_units d (u v : list (Z * B)) : unit_range d -> unit_vec u -> scale ideal d u = Some v -> unit_vec v.
  Proof.
    intros Hd HU. revert v. induction HU as [|[s b] t Hs HV IH]; intros v Q; cbn [scale] in Q; [injection Q as <-; constructor|].
    unfold ideal at 1 in Q. cbn [obind] in Q. destruct (scale ideal d t) as [t'|]; [|discriminate]. cbn [obind] in Q. injection Q as <-. cbn [fst] in Hs.
    constructor; [cbn [fst]; unfold unit_range in *; nia|]. now apply IH.
  Qed.
  Definition unit_divs (ds : list (Z * nat)) : Prop := Forall (fun d => unit_range (fst d)) ds.
  Lemma divisor_at_unit ds : unit_divs ds -> forall i d, divisor_at ds i = Some d -> unit_range d.
  Proof.
    induction 1 as [|[e k] ds He HD IH]; intros i d; cbn [divisor_at]; [discriminate|]. destruct (k <=? i); [apply IH|]. intros E. injection E as <-. exact He.
  Qed.
  Lemma push_unit ds d : unit_divs ds -> unit_range d -> unit_divs (push_divisor ds d).
  Proof.
    intros HD Hd. unfold push_divisor. destruct (rev ds) as [|[e k] r] eqn:E. { constructor; [exact Hd|constructor]. }
    assert (HR : unit_divs (rev ds)) by now apply Forall_rev. rewrite E in HR. inversion HR as [|? ? H1 H2]; subst. destruct (_ =? _)%Z.
    - apply Forall_rev. constructor; [exact H1|exact H2].
    - apply Forall_app. split; [exact HD|]. constructor; [exact Hd|constructor].
  Qed.
  Lemma push_all ds : forall acc, unit_divs acc -> Forall unit_range ds -> unit_divs (fold_left push_divisor ds acc).
  Proof. induction ds as [|d ds IH]; intros acc HA HF; cbn [fold_left]; [exact HA|]. inversion HF; subst. apply IH; [now apply push_unit|assumption]. Qed.
  Definition unit_state (st : hst) : Prop := unit_divs (h_divs st) /\ exists k (g : efun), h_row st = mk k k g /\ forall r l, r < k -> l < k -> unit_range (g r l).
  Lemma network_ends n m (f : efun) : (forall l, l < m -> (forall r, r < n -> unit_range (f r l)) /\ forall r r', r < n -> r' < n -> f r l = f r' l -> f r l <> 0%Z -> r = r') ->
    exists src tgt, forall r l, r < n -> l < m -> f r l = (dl (src l) r - dl (tgt l) r)%Z.
  Proof.
    intros H. exists (fun l => find (fun r => f r l =? 1)%Z (rng 0 n)), (fun l => find (fun r => f r l =? -1)%Z (rng 0 n)). intros r l Hr Hl.
    destruct (H l Hl) as [H1 H2].
    assert (D : forall v, v <> 0%Z -> dl (find (fun r => f r l =? v)%Z (rng 0 n)) r = if (f r l =? v)%Z then 1%Z else 0%Z).
    { intros v Hv. destruct (find _ _) as [s|] eqn:E.
      - apply find_rng in E. destruct E as (E1 & E2 & _). apply Z.eqb_eq in E2. cbn [dl]. destruct (Nat.eqb_spec s r) as [->|N].
        + now rewrite E2, Z.eqb_refl.
        + destruct (Z.eqb_spec (f r l) v) as [E3|]; [|reflexivity]. exfalso. apply N, H2; try lia; congruence.
      - assert (X := find_none _ _ E r ltac:(apply rng_in; lia)). cbv beta in X. cbn [dl]. now rewrite X. }
    rewrite !D by lia. specialize (H1 r Hr). unfold unit_range in H1. destruct (Z.eqb_spec (f r l) 1), (Z.eqb_spec (f r l) (-1)); lia.
  Qed.
  Definition good_bm (bm : mat Z * list B) : Prop := exists n m f, fst bm = mk n m f /\ 0 < n /\ 0 < m /\ NoDup (snd bm) /\
    exists src tgt, forall r l, r < n -> l < m -> f r l = (dl (src l) r - dl (tgt l) r)%Z.
  Lemma hom_step_unit st bm : unit_state st -> good_bm bm -> hom_step_p dbg cmp st bm = hom_step cmp st bm /\
    forall r, hom_step cmp st bm = Some r -> unit_state (snd r) /\ Forall unit_vec (snd (fst (fst r))) /\ Forall unit_vec (snd (fst r)) /\ unit_divs (elementary_divisors (fst (fst (fst r)))).
  Proof using Ht Hw.
    intros (HD & k & g & Eg & Hg) (n & m & f & Ef & Hn & Hm & HN & src & tgt & HF).
    destruct (snf_units w n m src tgt f Hw Hn Hm HF) as (Ri & R & S & C & Ci & rk & E & U & _ & _).
    assert (E' := proj1 (ag_snf debug good_debug (mk n m f)) _ _ E).
    destruct U as (S' & R' & Ri' & C' & Ci' & Est & U1 & U2 & U3 & U4 & U5). apply (f_equal (fun s => (sS s, sRi s, sC s))) in Est. cbn [sS sRi sC] in Est. injection Est as ES ER EC.
    assert (ES' : mk n m S = mk n m S') by (unfold mk; now rewrite ES). assert (ER' : mk n n Ri = mk n n Ri') by (unfold mk; now rewrite ER). assert (EC' : mk m m C = mk m m C') by (unfold mk; now rewrite EC).
    rewrite ES', ER', EC' in E, E'. clear ES ER EC ES' ER' EC' U2 U5.
    unfold hom_step_p, hom_step. rewrite Ef, E, E'. cbn [obind]. rewrite mtranspose_mk. rewrite Eg, mtranspose_mk. cbn [obind].
    destruct (change_unit m m (fun i j => C' j i) (snd bm)) as [A1 A2]; [intros; now apply U4|exact HN|]. rewrite A1.
    destruct (change_unit k k (fun i j => g j i) (snd bm)) as [B1 B2]; [intros; now apply Hg|exact HN|]. rewrite B1.
    destruct (rank_of_diag (mk n m S')) as [rl|]; [|split; [reflexivity|discriminate]]. cbn [obind].
    destruct (subM (nc (mk n m S')) rl) as [f1|]; [|split; [reflexivity|discriminate]]. cbn [obind].
    destruct (subM f1 (h_rank st)) as [fr|]; [|split; [reflexivity|discriminate]]. cbn [obind].
    destruct (change_basis cmp (mk m m _) (snd bm)) as [cyc|] eqn:Ecyc; [|split; [reflexivity|discriminate]]. cbn [obind].
    destruct (change_basis cmp (mk k k _) (snd bm)) as [bnd|] eqn:Ebnd; [|split; [reflexivity|discriminate]]. cbn [obind].
    specialize (A2 _ eq_refl). specialize (B2 _ eq_refl).
    assert (EB : forall ix, In ix (combine (seq 0 (h_rank st)) (firstn (h_rank st) bnd)) -> unit_vec (snd ix)).
    { intros [a v] Hin. apply in_combine_r in Hin. rewrite Forall_forall in B2. apply B2. rewrite <- (firstn_skipn (h_rank st) bnd). apply in_or_app. now left. }
    rewrite (omapM_ext_in _ (fun ix => do d <- divisor_at (h_divs st) (fst ix); vmul ideal (snd ix) d)).
    2:{ intros ix Hin. destruct (divisor_at _ _) as [d|] eqn:Ed; [|reflexivity]. cbn [obind]. apply vmul_unit; [exact ar_unit|exact (divisor_at_unit _ HD _ _ Ed)|now apply EB]. }
    split; [reflexivity|]. intros r. destruct (omapM _ (combine _ _)) as [bds|] eqn:Eb; [|discriminate]. cbn [obind].
    destruct (omapM _ (seq 0 rl)) as [ds|] eqn:Eds; [|discriminate]. cbn [obind]. intros Q. injection Q as <-. cbn [fst snd h_divs h_row]. split; [|split; [|split]].
    - split; cbn [h_divs h_row].
      + apply push_all; [constructor|]. apply (omapM_forall _ _ _ _ Eds). intros a b _. rewrite mget_mk. destruct ((a <? n) && (a <? m)) eqn:Ea; [|discriminate]. intros Q. injection Q as <-. apply U1; lia.
      + exists n, Ri'. split; [reflexivity|]. exact U3.
    - rewrite <- (firstn_skipn rl cyc) in A2. now apply Forall_app in A2.
    - apply (omapM_forall _ _ _ _ Eb). intros ix v Hin. destruct (divisor_at _ _) as [d|] eqn:Ed; [|discriminate]. cbn [obind].
      assert (Hd := divisor_at_unit _ HD _ _ Ed). specialize (EB ix Hin). unfold vmul. destruct (d =? 0)%Z; [intros Q; injection Q as <-; constructor|].
      intros Q. exact (scale_units d (snd ix) v Hd EB Q).
    - cbn [module_new elementary_divisors]. unfold unit_divs in *. rewrite Forall_forall in HD |- *. intros x Hx. apply filter_In in Hx. apply HD, Hx.
  Qed.
  Definition unit_degree (x : module_ * list (list (Z * B)) * list (list (Z * B))) : Prop :=
    Forall unit_vec (snd (fst x)) /\ Forall unit_vec (snd x) /\ unit_divs (elementary_divisors (fst (fst x))).
  Lemma hom_run_unit l : forall st, unit_state st -> Forall good_bm l -> hom_run_p dbg cmp st l = hom_run cmp st l /\
    forall out, hom_run cmp st l = Some out -> Forall unit_degree out.
  Proof using Ht Hw.
    induction l as [|bm t IH]; intros st HS HG; cbn [hom_run_p hom_run]. { split; [reflexivity|]. intros out E. injection E as <-. constructor. }
    inversion HG as [|? ? G1 G2]; subst. destruct (hom_step_unit st bm HS G1) as [A1 A2]. rewrite A1. destruct (hom_step cmp st bm) as [r|]; [|split; [reflexivity|discriminate]]. cbn [obind].
    destruct (A2 r eq_refl) as (S' & V1 & V2 & V3). destruct (IH (snd r) S' G2) as [B1 B2]. rewrite B1. split; [reflexivity|]. intros out E.
    destruct (hom_run cmp (snd r) t) as [o|]; [|discriminate]. cbn [obind] in E. injection E as <-. apply Forall_app. split; [now apply B2|]. constructor; [now repeat split|constructor].
  Qed.
  Lemma drop_zero_incl l : incl (drop_zero (B := B) l) l.
  Proof. induction l as [|x l IH]; cbn [drop_zero]; [easy|]. destruct (module_is_zero (fst (fst x))); [now apply incl_tl|apply incl_refl]. Qed.
  Lemma homology_unit (bms : list (mat Z * list B)) max_dim : Forall good_bm bms ->
    integral_homology_p dbg cmp bms max_dim = integral_homology cmp bms max_dim /\ forall out, integral_homology cmp bms max_dim = Some out -> Forall unit_degree out.
  Proof using Ht Hw.
    intros HG. unfold integral_homology_p, integral_homology. assert (HR : Forall good_bm (rev bms)) by now apply Forall_rev.
    destruct (rev bms) as [|lastm r] eqn:Er; [split; [reflexivity|discriminate]|]. inversion HR as [|? ? G1 G2]; subst. destruct G1 as (n & m & f & Ef & Hn & Hm & _).
    rewrite Ef, nc_mk. rewrite (midentity_mk m Hm). cbn [obind].
    destruct (hom_run_unit (lastm :: r) {| h_rank := 0; h_divs := []; h_row := mk m m id_entry |}) as [A1 A2]; [|exact HR|].
    - split; cbn [h_divs h_row]; [constructor|]. exists m, id_entry. split; [reflexivity|]. intros a b _ _. unfold id_entry, unit_range. destruct (a =? b); cbn; lia.
    - rewrite A1. split; [reflexivity|]. intros out E. destruct (hom_run cmp _ _) as [o|]; [|discriminate]. cbn [obind] in E. injection E as <-. specialize (A2 o eq_refl).
      rewrite Forall_forall in A2 |- *. intros x Hx. apply A2. apply in_rev in Hx. apply drop_zero_incl in Hx. apply in_rev in Hx. destruct max_dim as [d|]; [|exact Hx].
      rewrite <- (firstn_skipn (d + 1) o). apply in_or_app. now left.
  Qed.
End Run.
