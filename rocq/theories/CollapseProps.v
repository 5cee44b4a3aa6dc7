(** C143: elementary collapses do not change the homology report. *)
From Coq Require Import List Arith ZArith Bool Lia ZifyBool ZifyNat Sorted.
From Verif Require Import PidModel LinModel LinSpec LinProofs3 MatModel MatSpec HomModel HomSpec HomProps SimpModel SimpSpec SimpProofs4 SimpProps CompSpec CompProps IsoSpec IsoProofs IsoProofs4 IsoProofs5 IsoProps ConeProofs ConeSpec ConeProps CollapseSpec CollapseProofs CollapseProofs2.
Import ListNotations.
Open Scope nat_scope.

Lemma facts_all {T} (eqb : T -> T -> bool) hist d : (forall x y, eqb x y = true <-> x = y) -> valid_hist hist -> length (skeleton eqb hist) <= 64 -> has_dim hist d ->
  exists K bm, attach_all eqb hist = Some K /\ boundary_map K = Some bm /\ length bm = S d /\ complex_data bm /\
    (forall D bs, nth_error bm 0 = Some (D, bs) -> nr D = 1 /\ forall i j, i < nr D -> j < nc D -> ent D i j = 0%Z) /\
    (forall k, lists_cells eqb hist k (lab bm k)) /\
    (forall k i j t s, nth_error (lab bm k) i = Some t -> nth_error (lab bm (S k)) j = Some s -> face_sign t s (en bm k i j)).
Proof.
  intros He V L Hd. destruct (facts eqb hist d He V L Hd) as (K & bm & EK & EB & LB & CD & HC & H0 & HE). exists K, bm. repeat (split; [assumption|]). split.
  - intros k. destruct (Nat.le_gt_cases k d) as [Hk|Hk].
    + destruct (HC k Hk) as (D & bs & E & F). unfold lab. now rewrite E.
    + unfold lab. rewrite (proj2 (nth_error_None bm k)) by lia. split; [constructor|]. intros c. split; [intros []|]. intros (S1 & E & s & Hs & I). exfalso. destruct Hd as (_ & Hm). specialize (Hm s Hs).
      assert (length c <= length s); [|lia]. apply NoDup_incl_length; [|exact I]. apply (subseq_NoDup _ _ S1). now apply skeleton_spec.
  - intros k i j t s Et Es. unfold lab in Et, Es. unfold en. destruct (nth_error bm k) as [[D0 rows]|] eqn:E0; [|now destruct i]. destruct (nth_error bm (S k)) as [[D cols]|] eqn:E1; [|now destruct j].
    rewrite nth_error_map in Et, Es. destruct (nth_error rows i) as [t'|] eqn:Ft; [|discriminate]. destruct (nth_error cols j) as [s'|] eqn:Fs; [|discriminate]. injection Et as <-. injection Es as <-.
    rewrite <- Nat.add_1_r in E1. now apply (HE k D0 rows D cols E0 E1).
Qed.

(** Two complexes, the first possibly longer. *)
Lemma report_at {B} (cmp : B -> B -> comparison) (bms : list (mat Z * list B)) max_dim : total_order cmp -> complex_data bms ->
  exists out, integral_homology cmp bms max_dim = Some out /\ forall k,
    (match max_dim with None => True | Some m => k <= m end /\ exists d r ds, nth_error (map fst bms) k = Some d /\ quotient_is (in_kernel d) (boundaries_of (map fst bms) k) (group_of r ds) /\ reported_rank out k = r /\
       reported_divisors out k = proper_divisors ds /\ Forall (fun d => fst d <> 0%Z) ds /\ StronglySorted Z.divide (flat_map (fun d => repeat (fst d) (snd d)) ds)) \/
    (reported_rank out k = 0 /\ reported_divisors out k = [] /\ (match max_dim with None => True | Some m => k <= m end -> nth_error (map fst bms) k = None)).
Proof.
  intros Ht CD. destruct (C43_homology_partial B cmp bms max_dim Ht CD) as (out & EO & LO & H1 & H2). exists out. split; [exact EO|]. intros k. unfold reported_rank, reported_divisors. destruct (nth_error out k) as [[[h cyc] bnd]|] eqn:E.
  - left. split. { assert (k < length out) by (apply nth_error_Some; congruence). destruct max_dim; [lia|exact I]. } destruct (H1 k h cyc bnd E) as (d & Ed & Q & _ & F & S). exists d, (free_rank h), (elementary_divisors h). repeat (split; [assumption||reflexivity|]). split; [|exact S]. eapply Forall_impl; [|exact F]. intros a Ha. apply Ha.
  - apply nth_error_None in E. destruct (Nat.lt_ge_cases k (match max_dim with None => length bms | Some d => Nat.min (d + 1) (length bms) end)) as [Hk|Hk].
    + left. split; [destruct max_dim; [lia|exact I]|]. destruct (H2 k (conj E Hk)) as (d & Ed & Q). exists d, 0, []. repeat (split; [assumption||reflexivity|]). split; constructor.
    + right. repeat (split; [reflexivity|]). intros Hm. apply nth_error_None. rewrite map_length. destruct max_dim; lia.
Qed.
Lemma same_report_longer {B B'} (cmp : B -> B -> comparison) (cmp' : B' -> B' -> comparison) (bms : list (mat Z * list B)) (bms' : list (mat Z * list B')) max_dim :
  total_order cmp -> total_order cmp' -> complex_data bms -> complex_data bms' -> length bms' <= length bms ->
  (forall k d, nth_error (map fst bms) k = Some d -> match nth_error (map fst bms') k with
     | Some d' => forall ms, quotient_is (in_kernel d') (boundaries_of (map fst bms') k) ms -> quotient_is (in_kernel d) (boundaries_of (map fst bms) k) ms
     | None => quotient_is (in_kernel d) (boundaries_of (map fst bms) k) [] end) ->
  exists out out', integral_homology cmp bms max_dim = Some out /\ integral_homology cmp' bms' max_dim = Some out' /\
    forall k, reported_rank out k = reported_rank out' k /\ reported_divisors out k = reported_divisors out' k.
Proof.
  intros Ht Ht' CD CD' LE HT. destruct (report_at cmp bms max_dim Ht CD) as (out & EO & H). destruct (report_at cmp' bms' max_dim Ht' CD') as (out' & EO' & H').
  exists out, out'. split; [exact EO|]. split; [exact EO'|]. intros k. destruct (H k) as [(Hm & d & r & ds & Ed & Q & -> & -> & N & S)|(-> & -> & Hn)]; destruct (H' k) as [(Hm' & d' & r' & ds' & Ed' & Q' & -> & -> & N' & S')|(-> & -> & Hn')].
  - specialize (HT k d Ed). rewrite Ed' in HT. apply HT in Q'. now apply (divisors_unique r ds r' ds' N N' S S'), (homology_unique _ _ _ _ Q Q').
  - specialize (HT k d Ed). rewrite (Hn' Hm) in HT. apply (divisors_unique r ds 0 [] N); [constructor|exact S|constructor|]. exact (homology_unique _ _ _ _ Q HT).
  - exfalso. specialize (Hn Hm'). apply nth_error_None in Hn. assert (k < length (map fst bms')) by (apply nth_error_Some; congruence). rewrite map_length in *. lia.
  - split; reflexivity.
Qed.

(** Removing a free face together with the one simplex it is a proper face of does not change the reported free ranks and
    torsion. *)
Theorem C143_collapse : forall T (eqb : T -> T -> bool) x sigma hist hist', (forall x y, eqb x y = true <-> x = y) -> valid_hist hist -> valid_hist hist' ->
  length (skeleton eqb hist) <= 64 -> collapse x sigma hist hist' ->
  length (skeleton eqb hist') <= 64 /\ exists K bm K' bm', attach_all eqb hist = Some K /\ boundary_map K = Some bm /\ attach_all eqb hist' = Some K' /\ boundary_map K' = Some bm' /\
    forall cmp cmp' max_dim, total_order cmp -> total_order cmp' -> exists out out',
      integral_homology cmp bm max_dim = Some out /\ integral_homology cmp' bm' max_dim = Some out' /\
      forall k, reported_rank out k = reported_rank out' k /\ reported_divisors out k = reported_divisors out' k.
Proof.
  intros T eqb x sigma hist hist' He V V' L (Ns & ND & FT & FR & FC).
  set (big := hist' ++ [x :: sigma]).
  assert (VB : valid_hist big) by (apply Forall_app; split; [exact V'|]; constructor; [split; [discriminate|exact ND]|constructor]).
  assert (NF : ~ face_of hist' sigma) by (intros K; apply FC in K; now apply (proj2 K), incl_refl).
  assert (OF : forall c, incl c (x :: sigma) -> ~ incl sigma c -> face_of hist' c). { intros c I N. apply FC. split; [|exact N]. destruct FT as (s & Hs & J). exists s. split; [exact Hs|]. intros y Hy. apply J, I, Hy. }
  assert (B1 : forall s, In s hist -> face_of big s).
  { intros s Hs. assert (Fs : face_of hist s) by (exists s; split; [exact Hs|apply incl_refl]). destruct (forallb (fun y => existsb (eqb y) s) sigma) eqn:E.
    - exists (x :: sigma). split; [apply in_or_app; right; now left|]. apply FR; [exact Fs|]. intros y Hy. rewrite forallb_forall in E. specialize (E y Hy). apply existsb_exists in E. destruct E as (z & Hz & E). apply He in E. now subst.
    - destruct (proj2 (FC s)) as (s' & Hs' & I); [split; [exact Fs|]|exists s'; split; [apply in_or_app; now left|exact I]]. intros I. assert (forallb (fun y => existsb (eqb y) s) sigma = true); [|congruence]. apply forallb_forall. intros y Hy. apply existsb_exists. exists y. split; [now apply I|now apply He]. }
  assert (B2 : forall s, In s big -> face_of hist s).
  { intros s Hs. apply in_app_iff in Hs. destruct Hs as [Hs|[<-|[]]]; [|exact FT]. apply (FC s). exists s. split; [exact Hs|apply incl_refl]. }
  assert (SI : simplicial_iso (fun x => x) (fun x => x) hist big) by (split; [reflexivity|]; split; [reflexivity|]; split; intros s Hs; rewrite map_id; auto).
  assert (Hne : hist <> []). { destruct FT as (s & Hs & _). now intros ->. }
  destruct (dim_exists hist V Hne) as (d & Hd).
  destruct (C140_isomorphic T T eqb eqb _ _ hist big d He He V VB L Hd SI) as (HdB & LE & K & bm & KB & bmB & EK & EB & EKB & EBB & HH).
  assert (LB : length (skeleton eqb big) <= 64) by lia.
  assert (L' : length (skeleton eqb hist') <= 64) by (destruct (skeleton_app eqb hist' [x :: sigma]) as (R & ER); fold big in ER; rewrite ER, app_length in LB; lia).
  split; [exact L'|].
  assert (Hne' : hist' <> []). { intros ->. destruct sigma as [|y sigma]; [congruence|]. destruct (OF [x]) as (s & [] & _); [intros z [<-|[]]; now left|]. intros I. specialize (I y (or_introl eq_refl)). destruct I as [->|[]]. inversion ND as [|? ? N1 _]; subst. apply N1. now left. }
  destruct (dim_exists hist' V' Hne') as (d' & Hd').
  destruct (facts_all eqb big d He VB LB HdB) as (KB2 & bmB2 & EKB2 & EBB2 & LbB & CDB & ZB & LK & FK). rewrite EKB in EKB2. injection EKB2 as <-. rewrite EBB in EBB2. injection EBB2 as <-.
  destruct (facts_all eqb hist' d' He V' L' Hd') as (K' & bm' & EK' & EB' & Lb' & CD' & Z' & LL & FL).
  exists K, bm, K', bm'. repeat (split; [assumption|]). intros cmp cmp' max_dim Ht Ht'. destruct (HH cmp cmp max_dim Ht Ht) as (out & outB & EO & EOB & SM).
  assert (DL : d' <= d). { destruct Hd' as ((s & Hs & Ls) & _). destruct HdB as (_ & Hm). assert (length s <= S d) by (apply Hm, in_or_app; now left). lia. }
  destruct (same_report_longer cmp cmp' bmB bm' max_dim Ht Ht' CDB CD' ltac:(lia)) as (outB2 & out' & EOB2 & EO' & SM').
  - intros k D ED. destruct (nth_error (map fst bm') k) as [D'|] eqn:ED'.
    + intros ms Q.
      apply (quotient_transport (cycl (en bmB) (cnt_ bmB) k) (bndl (en bmB) (cnt_ bmB) k) _ _ (fun x => x)); [intros y Hy; now apply (cyc_bridge bmB CDB ZB k D)|reflexivity|intros y Hy; symmetry; now apply (bnd_bridge bmB CDB ZB k D)|intros y Hy; exists y; split; [now apply (cyc_bridge bmB CDB ZB k D)|reflexivity]|].
      apply (abs_quotient eqb x sigma hist' He V' Ns ND NF OF bmB bm' CDB CD' ZB Z' LK LL FK FL).
      apply (quotient_transport (in_kernel D') (boundaries_of (map fst bm') k) _ _ (fun x => x)); [intros y Hy; now apply (cyc_bridge bm' CD' Z' k D')|reflexivity|intros y Hy; now apply (bnd_bridge bm' CD' Z' k D')|intros y Hy; exists y; split; [now apply (cyc_bridge bm' CD' Z' k D')|reflexivity]|exact Q].
    + apply trivial_quotient.
      * intros y Hy. apply (bnd_bridge bmB CDB ZB k D y ED). apply (abs_empty eqb x sigma hist' He V' Ns ND NF OF bmB bm' CDB CD' ZB Z' LK LL FK FL); [|now apply (cyc_bridge bmB CDB ZB k D)].
        unfold cnt_. rewrite nth_error_map in ED'. now destruct (nth_error bm' k) as [[]|].
      * right. exists (repeat 0%Z (nc D)). split; [apply repeat_length|]. intros i Hi. unfold apply_at. apply IsoProofs2.zsum_zero. intros j Hj. rewrite nth_repeat. lia.
  - rewrite EOB in EOB2. injection EOB2 as <-. exists out, out'. split; [exact EO|]. split; [exact EO'|]. intros k. destruct (SM k) as [A B]. destruct (SM' k) as [A' B']. split; congruence.
Qed.

(** Any number of collapses. *)
Theorem C143_collapses : forall T (eqb : T -> T -> bool) hist hist', (forall x y, eqb x y = true <-> x = y) -> valid_hist hist -> hist <> [] ->
  length (skeleton eqb hist) <= 64 -> collapses hist hist' ->
  exists K bm K' bm', attach_all eqb hist = Some K /\ boundary_map K = Some bm /\ attach_all eqb hist' = Some K' /\ boundary_map K' = Some bm' /\
    forall cmp cmp' max_dim, total_order cmp -> total_order cmp' -> exists out out',
      integral_homology cmp bm max_dim = Some out /\ integral_homology cmp' bm' max_dim = Some out' /\
      forall k, reported_rank out k = reported_rank out' k /\ reported_divisors out k = reported_divisors out' k.
Proof.
  intros T eqb hist hist' He V N L C. induction C as [hist|x sigma hist hist1 hist2 C V1 CS IH].
  - destruct (dim_exists hist V N) as (d & Hd). apply (C140_reorder T eqb hist hist d He V V L Hd); intros s Hs; exists s; split; [exact Hs|apply incl_refl|exact Hs|apply incl_refl].
  - destruct (C143_collapse T eqb x sigma hist hist1 He V V1 L C) as (L1 & K & bm & K1 & bm1 & EK & EB & EK1 & EB1 & H1).
    assert (N1 : hist1 <> []). { intros ->. destruct C as (Ns & ND & FT & _ & FC). destruct sigma as [|y sigma]; [congruence|]. destruct (proj2 (FC [x])) as (s & [] & _). split; [destruct FT as (s & Hs & J); exists s; split; [exact Hs|]; intros z [<-|[]]; apply J; now left|].
      intros I. specialize (I y (or_introl eq_refl)). destruct I as [->|[]]. inversion ND as [|? ? M1 _]; subst. apply M1. now left. }
    destruct (IH V1 N1 L1) as (K1' & bm1' & K2 & bm2 & EK1' & EB1' & EK2 & EB2 & H2). rewrite EK1 in EK1'. injection EK1' as <-. rewrite EB1 in EB1'. injection EB1' as <-.
    exists K, bm, K2, bm2. repeat (split; [assumption|]). intros cmp cmp' max_dim Ht Ht'. destruct (H1 cmp cmp max_dim Ht Ht) as (out & out1 & EO & EO1 & S1). destruct (H2 cmp cmp' max_dim Ht Ht') as (out1' & out2 & EO1' & EO2 & S2). rewrite EO1 in EO1'. injection EO1' as <-.
    exists out, out2. split; [exact EO|]. split; [exact EO2|]. intros k. destruct (S1 k), (S2 k). split; congruence.
Qed.

(** A complex that collapses to a vertex is reported as a point. *)
Theorem C143_collapsible : forall T (eqb : T -> T -> bool) hist v, (forall x y, eqb x y = true <-> x = y) -> valid_hist hist ->
  length (skeleton eqb hist) <= 64 -> hist <> [] -> collapses hist [[v]] ->
  exists K bm, attach_all eqb hist = Some K /\ boundary_map K = Some bm /\ forall cmp max_dim, total_order cmp ->
    exists out, integral_homology cmp bm max_dim = Some out /\ reported_rank out 0 = 1 /\ (forall k, 0 < k -> reported_rank out k = 0) /\ forall k, reported_divisors out k = [].
Proof.
  intros T eqb hist v He V L N C. destruct (C143_collapses T eqb hist [[v]] He V N L C) as (K & bm & K' & bm' & EK & EB & EK' & EB' & H).
  destruct (C141_cone T eqb v [[v]] He) as (K2 & bm2 & EK2 & EB2 & H2).
  - constructor; [split; [discriminate|constructor; [intros []|constructor]]|constructor].
  - cbn. lia.
  - split; [discriminate|]. intros s [<-|[]]. exists [v]. split; [now left|]. intros y [<-|[<-|[]]]; now left.
  - rewrite EK' in EK2. injection EK2 as <-. rewrite EB' in EB2. injection EB2 as <-. exists K, bm. split; [exact EK|]. split; [exact EB|]. intros cmp max_dim Ht.
    assert (exists cmp', @total_order (simplex T) cmp') as (cmp' & Ht') by (now exists cmp). destruct (H cmp cmp' max_dim Ht Ht') as (out & out' & EO & EO' & S1). destruct (H2 cmp' max_dim Ht') as (out2 & EO2 & A & B & D). rewrite EO' in EO2. injection EO2 as <-.
    exists out. split; [exact EO|]. split; [now rewrite (proj1 (S1 0))|]. split; [intros k Hk; rewrite (proj1 (S1 k)); now apply B|intros k; now rewrite (proj2 (S1 k))].
Qed.

(** A triangle glued to a hollow square along an edge: pushed in from the free edge 0-2, then the edge
    left dangling is removed. *)
Example C143_nontrivial : valid_hist [[1; 2]; [2; 3]; [3; 4]; [4; 1]; [0; 1; 2]] /\ length (skeleton Nat.eqb [[1; 2]; [2; 3]; [3; 4]; [4; 1]; [0; 1; 2]]) <= 64 /\
  collapse 1 [0; 2] [[1; 2]; [2; 3]; [3; 4]; [4; 1]; [0; 1; 2]] [[1; 2]; [2; 3]; [3; 4]; [4; 1]; [0; 1]] /\
  collapse 1 [0] [[1; 2]; [2; 3]; [3; 4]; [4; 1]; [0; 1]] [[1; 2]; [2; 3]; [3; 4]; [4; 1]] /\
  collapses [[1; 2]; [2; 3]; [3; 4]; [4; 1]; [0; 1; 2]] [[1; 2]; [2; 3]; [3; 4]; [4; 1]].
Proof.
  assert (V : forall l : list (list nat), forallb (fun s => negb (length s =? 0) && (length (nodup Nat.eq_dec s) =? length s)) l = true -> valid_hist l).
  { intros l H. apply Forall_forall. intros s Hs. rewrite forallb_forall in H. specialize (H s Hs). split; [intros ->; discriminate|].
    assert (E : length (nodup Nat.eq_dec s) = length s) by lia. apply (NoDup_incl_NoDup (l := nodup Nat.eq_dec s)); [apply NoDup_nodup|lia|]. intros x Hx. now apply nodup_In in Hx. }
  assert (C1 : collapse 1 [0; 2] [[1; 2]; [2; 3]; [3; 4]; [4; 1]; [0; 1; 2]] [[1; 2]; [2; 3]; [3; 4]; [4; 1]; [0; 1]]).
  { split; [discriminate|]. split; [repeat constructor; cbn; intuition discriminate|]. split; [exists [0; 1; 2]; split; [cbn; tauto|]; intros y Hy; cbn in Hy |- *; tauto|]. split.
    - intros c (s & Hs & I) J. pose proof (I 0 (J 0 ltac:(now left))) as H0. cbn in Hs. repeat (destruct Hs as [<-|Hs]; [first [cbn in H0; exfalso; intuition discriminate|intros y Hy; apply I in Hy; cbn in Hy |- *; tauto]|]). destruct Hs.
    - intros c. split.
      + intros (s & Hs & I). split.
        * cbn in Hs. repeat (destruct Hs as [<-|Hs]; [first [eexists; split; [|exact I]; cbn; tauto|exists [0; 1; 2]; split; [cbn; tauto|]; intros y Hy; apply I in Hy; cbn in Hy |- *; tauto]|]). destruct Hs.
        * intros J. pose proof (I 0 (J 0 ltac:(now left))) as H0. pose proof (I 2 (J 2 ltac:(right; now left))) as H2. cbn in Hs. repeat (destruct Hs as [<-|Hs]; [cbn in H0, H2; intuition discriminate|]). destruct Hs.
      + intros ((s & Hs & I) & N). cbn in Hs. repeat (destruct Hs as [<-|Hs]; [try (eexists; split; [|exact I]; cbn; tauto)|]); [|destruct Hs].
        destruct (in_dec Nat.eq_dec 0 c) as [H0|H0].
        * exists [0; 1]. split; [cbn; tauto|]. intros y Hy. pose proof (I y Hy) as Iy. cbn in Iy |- *. destruct Iy as [<-|[<-|[<-|[]]]]; [tauto|tauto|]. exfalso. apply N. intros z [<-|[<-|[]]]; assumption.
        * exists [1; 2]. split; [cbn; tauto|]. intros y Hy. pose proof (I y Hy) as Iy. cbn in Iy |- *. destruct Iy as [<-|[<-|[<-|[]]]]; tauto. }
  assert (C2 : collapse 1 [0] [[1; 2]; [2; 3]; [3; 4]; [4; 1]; [0; 1]] [[1; 2]; [2; 3]; [3; 4]; [4; 1]]).
  { split; [discriminate|]. split; [repeat constructor; cbn; intuition discriminate|]. split; [exists [0; 1]; split; [cbn; tauto|]; intros y Hy; cbn in Hy |- *; tauto|]. split.
    - intros c (s & Hs & I) J. pose proof (I 0 (J 0 ltac:(now left))) as H0. cbn in Hs. repeat (destruct Hs as [<-|Hs]; [first [cbn in H0; exfalso; intuition discriminate|intros y Hy; apply I in Hy; cbn in Hy |- *; tauto]|]). destruct Hs.
    - intros c. split.
      + intros (s & Hs & I). split; [exists s; split; [cbn in Hs |- *; tauto|exact I]|]. intros J. pose proof (I 0 (J 0 ltac:(now left))) as H0. cbn in Hs. repeat (destruct Hs as [<-|Hs]; [cbn in H0; intuition discriminate|]). destruct Hs.
      + intros ((s & Hs & I) & N). cbn in Hs. repeat (destruct Hs as [<-|Hs]; [try (eexists; split; [|exact I]; cbn; tauto)|]); [|destruct Hs].
        exists [1; 2]. split; [cbn; tauto|]. intros y Hy. pose proof (I y Hy) as Iy. cbn in Iy |- *. destruct Iy as [<-|[<-|[]]]; [|tauto]. exfalso. apply N. intros z [<-|[]]. exact Hy. }
  split; [now apply V|]. split; [cbn; lia|]. split; [exact C1|]. split; [exact C2|]. eapply col_step; [exact C1|now apply V|]. eapply col_step; [exact C2|now apply V|]. apply col_refl.
Qed.
Print Assumptions C143_collapse.
Print Assumptions C143_collapses.
Print Assumptions C143_collapsible.
