(** C145: the homology of a union of two complexes with at most one common vertex. *)
From Coq Require Import List Arith ZArith Bool Lia ZifyBool ZifyNat Sorted.
From Verif Require Import PidModel LinModel LinSpec MatModel MatSpec HomModel HomSpec HomProps SimpModel SimpSpec SimpProofs4 SimpProps CompSpec CompProps LinProofs3 IsoSpec IsoProofs IsoProofs2 IsoProofs4 IsoProofs5 IsoProps ConeProofs ConeProps CollapseSpec CollapseProofs CollapseProofs2 CollapseProps UnionSpec UnionProofs UnionProofs2.
Import ListNotations.
Open Scope nat_scope.

(** ** Direct sums of isomorphisms *)
Lemma split_at {A} (n : nat) (x : list A) : n <= length x -> length (firstn n x) = n /\ firstn n x ++ skipn n x = x.
Proof. intros H. split; [rewrite firstn_length; lia|apply firstn_skipn]. Qed.
Lemma ghom_app ms ms' ns ns' f f' : ghom ms ns f -> ghom ms' ns' f' -> ghom (ms ++ ms') (ns ++ ns') (fun x => f (firstn (length ms) x) ++ f' (skipn (length ms) x)).
Proof.
  intros (F1 & F2 & F3) (G1 & G2 & G3).
  assert (SP : forall x, gelt (ms ++ ms') x -> exists a b, x = a ++ b /\ gelt ms a /\ gelt ms' b /\ firstn (length ms) x = a /\ skipn (length ms) x = b).
  { intros x Hx. unfold gelt in *. rewrite app_length in Hx. exists (firstn (length ms) x), (skipn (length ms) x). split; [now rewrite firstn_skipn|]. split; [rewrite firstn_length; lia|]. split; [rewrite skipn_length; lia|split; reflexivity]. }
  split; [|split].
  - intros x Hx. destruct (SP x Hx) as (a & b & -> & Ga & Gb & -> & ->). unfold gelt. rewrite !app_length. f_equal; [now apply F1|now apply G1].
  - intros x y E. destruct (SP x) as (a & b & -> & Ga & Gb & -> & ->); [apply E|]. destruct (SP y) as (a' & b' & -> & Ga' & Gb' & -> & ->); [apply E|]. apply geq_app in E; [|assumption|assumption]. destruct E as [E1 E2]. apply geq_app; [now apply F1|now apply F1|]. split; [now apply F2|now apply G2].
  - intros x y Hx Hy. destruct (SP x Hx) as (a & b & Ex & Ga & Gb & E1 & E2). destruct (SP y Hy) as (a' & b' & Ey & Ga' & Gb' & E1' & E2'). rewrite E1, E2, E1', E2'. subst x y. unfold gelt in Ga, Ga'. rewrite gadd_app by congruence.
    assert (L : length (gadd a a') = length ms) by (rewrite LinProofs3.gadd_length; lia). rewrite firstn_app, skipn_app, <- L, firstn_all, skipn_all, Nat.sub_diag. cbn [firstn skipn]. rewrite app_nil_r. cbn [app].
    pose proof (F1 _ Ga) as K. pose proof (F1 _ Ga') as K'. unfold gelt in K, K'. rewrite gadd_app by congruence. apply geq_app; [apply F1; exact L|rewrite LinProofs3.gadd_length; lia|]. split; [now apply F3|now apply G3].
Qed.
Lemma group_iso_app ms ms' ns ns' : group_iso ms ns -> group_iso ms' ns' -> group_iso (ms ++ ms') (ns ++ ns').
Proof.
  intros (f & g & F & G & A & B) (f' & g' & F' & G' & A' & B'). exists (fun x => f (firstn (length ms) x) ++ f' (skipn (length ms) x)), (fun x => g (firstn (length ns) x) ++ g' (skipn (length ns) x)).
  split; [now apply ghom_app|]. split; [now apply ghom_app|].
  assert (K : forall (p q : list Z) (l r : list Z), gelt l p -> firstn (length l) (p ++ q) = p /\ skipn (length l) (p ++ q) = q) by (intros p q l _ Hp; unfold gelt in Hp; rewrite <- Hp, firstn_app, skipn_app, firstn_all, skipn_all, Nat.sub_diag; cbn; now rewrite app_nil_r).
  split; intros x Hx; unfold gelt in Hx; rewrite app_length in Hx.
  - assert (H1 : gelt ms (firstn (length ms) x)) by (unfold gelt; rewrite firstn_length; lia). assert (H2 : gelt ms' (skipn (length ms) x)) by (unfold gelt; rewrite skipn_length; lia).
    destruct (K (f (firstn (length ms) x)) (f' (skipn (length ms) x)) ns []) as [-> ->]; [now apply F|]. rewrite <- (firstn_skipn (length ms) x) at 3. apply geq_app; [now apply G, F|exact H1|]. split; [now apply A|now apply A'].
  - assert (H1 : gelt ns (firstn (length ns) x)) by (unfold gelt; rewrite firstn_length; lia). assert (H2 : gelt ns' (skipn (length ns) x)) by (unfold gelt; rewrite skipn_length; lia).
    destruct (K (g (firstn (length ns) x)) (g' (skipn (length ns) x)) ms []) as [-> ->]; [now apply G|]. rewrite <- (firstn_skipn (length ns) x) at 3. apply geq_app; [now apply F, G|exact H1|]. split; [now apply B|now apply B'].
Qed.

(** ** The report of one complex *)
Lemma cycl_dec e c k x : {cycl e c k x} + {~ cycl e c k x}.
Proof.
  unfold cycl. destruct (Nat.eq_dec (length x) (c k)) as [L|L]; [|right; tauto]. destruct k as [|k]; [left; cbn; auto|]. cbn [cyc].
  assert (H : forall n, {forall i, i < n -> bd e c k (fun i => nth i x 0%Z) i = 0%Z} + {~ forall i, i < n -> bd e c k (fun i => nth i x 0%Z) i = 0%Z}).
  { induction n as [|n IH]; [left; lia|]. destruct IH as [IH|IH]; [|right; intros K; apply IH; intros i Hi; apply K; lia].
    destruct (Z.eq_dec (bd e c k (fun i => nth i x 0%Z) n) 0) as [E|E]; [left|right; intros K; apply E, K; lia]. intros i Hi. destruct (Nat.eq_dec i n) as [->|]; [exact E|apply IH; lia]. }
  destruct (H (c k)) as [K|K]; [left|right]; tauto.
Qed.
Lemma cycl_add e c k x y : cycl e c k x -> cycl e c k y -> cycl e c k (gadd x y).
Proof.
  intros (L1 & H1) (L2 & H2). split; [rewrite LinProofs3.gadd_length; lia|]. destruct k as [|k]; [exact I|]. intros i Hi. specialize (H1 i Hi). specialize (H2 i Hi). unfold bd in *.
  rewrite (zsum_ext _ _ (fun j => e k i j * nth j x 0 + e k i j * nth j y 0)%Z). { rewrite zsum_add. lia. }
  intros j Hj. rewrite LinProofs3.gadd_nth by lia. lia.
Qed.
Lemma cycl_neg e c k x : cycl e c k x -> cycl e c k (gneg x).
Proof.
  intros (L1 & H1). split; [now rewrite gneg_length|]. destruct k as [|k]; [exact I|]. intros i Hi. specialize (H1 i Hi). unfold bd in *.
  rewrite (zsum_ext _ _ (fun j => (-1) * (e k i j * nth j x 0))%Z). { rewrite zsum_mul. lia. }
  intros j Hj. rewrite gneg_nth. lia.
Qed.
Lemma cycl_unique e c k Bnd ms ns : quotient_is (cycl e c k) Bnd ms -> quotient_is (cycl e c k) Bnd ns -> group_iso ms ns.
Proof. apply (quotient_unique (c k)); [apply cycl_dec|intros x H; apply H|apply cycl_add|apply cycl_neg]. Qed.

Lemma report_group {B} (cmp : B -> B -> comparison) (bm : list (mat Z * list B)) max_dim : total_order cmp -> complex_data bm ->
  (forall D bs, nth_error bm 0 = Some (D, bs) -> nr D = 1 /\ forall i j, i < nr D -> j < nc D -> ent D i j = 0%Z) ->
  exists out, integral_homology cmp bm max_dim = Some out /\ forall k,
    Forall (fun d => 0 < d)%Z (reported_divisors out k) /\
    (match max_dim with None => True | Some m => k <= m end -> exists ms, quotient_is (cycl (en bm) (cnt_ bm) k) (bndl (en bm) (cnt_ bm) k) ms /\ group_iso ms (reported_group out k)) /\
    (~ match max_dim with None => True | Some m => k <= m end -> reported_rank out k = 0 /\ reported_divisors out k = []).
Proof.
  intros Ht CD Z0. destruct (report_at cmp bm max_dim Ht CD) as (out & EO & H). exists out. split; [exact EO|]. intros k. destruct (H k) as [(Hm & d & r & ds & Ed & Q & ER & EV & N & S1)|(ER & EV & Hn)].
  - destruct (normal_form r ds N S1) as (es & IE & EE & GI). split; [|split; [|tauto]].
    + rewrite EV, <- EE. apply Forall_flat_map. eapply Forall_impl; [|exact (proj1 IE)]. intros [a n] [Ha _]. apply Forall_forall. intros x Hx. apply repeat_spec in Hx. cbn in *. lia.
    + intros _. exists (group_of r ds). split.
      * apply (quotient_transport (in_kernel d) (boundaries_of (map fst bm) k) _ _ (fun x => x)); [intros y Hy; now apply (cyc_bridge bm CD Z0 k d)|reflexivity|intros y Hy; now apply (bnd_bridge bm CD Z0 k d)|intros y Hy; exists y; split; [now apply (cyc_bridge bm CD Z0 k d)|reflexivity]|exact Q].
      * unfold reported_group. rewrite ER, EV. unfold group_of in GI at 2. rewrite EE in GI. exact GI.
  - split; [rewrite EV; constructor|]. split; [|intros _; now split]. intros Hm. exists []. assert (C0 : cnt_ bm k = 0). { specialize (Hn Hm). rewrite nth_error_map in Hn. unfold cnt_. now destruct (nth_error bm k) as [[]|]. } split.
    + apply trivial_quotient.
      * intros x (L & _). split; [exact L|]. exists (fun _ => 0%Z). intros i Hi. lia.
      * left. split; [now rewrite C0|]. destruct k as [|k]; [exact I|]. intros i _. unfold bd. now rewrite C0.
    + unfold reported_group. rewrite ER, EV. apply group_iso_refl.
Qed.

Lemma face_self {T} (h : list (list T)) s : In s h -> face_of h s.
Proof. intros H. exists s. split; [exact H|apply incl_refl]. Qed.

(** The homology reported for the complex obtained by attaching the simplices of both histories: in every positive degree the direct sum of
    the two reported groups when the two complexes have at most one vertex in common, in every degree when they have none. *)
Theorem C145_union : forall T (eqb : T -> T -> bool) hist1 hist2, (forall x y, eqb x y = true <-> x = y) -> valid_hist hist1 -> valid_hist hist2 -> hist1 <> [] -> hist2 <> [] ->
  share_at_most_one hist1 hist2 -> length (skeleton eqb (hist1 ++ hist2)) <= 64 ->
  exists K bm K1 bm1 K2 bm2, attach_all eqb (hist1 ++ hist2) = Some K /\ boundary_map K = Some bm /\ attach_all eqb hist1 = Some K1 /\ boundary_map K1 = Some bm1 /\ attach_all eqb hist2 = Some K2 /\ boundary_map K2 = Some bm2 /\
    forall cmp cmp1 cmp2 max_dim, total_order cmp -> total_order cmp1 -> total_order cmp2 -> exists out out1 out2,
      integral_homology cmp bm max_dim = Some out /\ integral_homology cmp1 bm1 max_dim = Some out1 /\ integral_homology cmp2 bm2 max_dim = Some out2 /\
      forall k, 0 < k \/ disjoint hist1 hist2 -> sum_in_degree out out1 out2 k.
Proof.
  intros T eqb h1 h2 He V1 V2 N1 N2 SH L. destruct (second_order eqb He h1 h2 SH) as (com & IC & OR). set (h2' := map (fun v => [v]) com ++ h2) in *.
  assert (VT : forall y, In y com -> exists s, In s h2 /\ In y s) by (intros y Hy; apply (skeleton_spec eqb _ He); now apply IC).
  assert (V2' : valid_hist h2').
  { apply Forall_app. split; [|exact V2]. apply Forall_forall. intros s Hs. apply in_map_iff in Hs. destruct Hs as (v & <- & _). split; [discriminate|]. constructor; [intros []|constructor]. }
  assert (FA : forall s, In s h2' -> face_of h2 s). { intros s Hs. apply in_app_iff in Hs. destruct Hs as [Hs|Hs]; [|now apply face_self]. apply in_map_iff in Hs. destruct Hs as (v & <- & Hv). destruct (VT v Hv) as (s & Hs & K). exists s. split; [exact Hs|]. intros y [<-|[]]. exact K. }
  assert (FB : forall s, In s h2 -> face_of h2' s) by (intros s Hs; apply face_self, in_or_app; now right).
  assert (VO : forall x, vertex_of h2' x -> vertex_of h2 x) by (intros x (s & Hs & Hx); destruct (FA s Hs) as (t & Ht & I); exists t; split; [exact Ht|now apply I]).
  assert (SH' : share_at_most_one h1 h2') by (intros x y A B A' B'; apply SH; auto).
  set (big := h1 ++ h2'). assert (VB : valid_hist (h1 ++ h2)) by (apply Forall_app; now split). assert (VB' : valid_hist big) by (apply Forall_app; now split).
  destruct (dim_exists h1 V1 N1) as (d1 & Hd1). destruct (dim_exists h2 V2 N2) as (d2 & Hd2). destruct (dim_exists (h1 ++ h2) VB ltac:(destruct h1; [congruence|discriminate])) as (d & Hd).
  destruct (dim_exists h2' V2' ltac:(unfold h2'; intros E; apply app_eq_nil in E; tauto)) as (d2' & Hd2'). destruct (dim_exists big VB' ltac:(unfold big; destruct h1; [congruence|discriminate])) as (d' & Hd').
  assert (LE : forall h g, (forall x, vertex_of h x -> vertex_of g x) -> length (skeleton eqb h) <= length (skeleton eqb g)).
  { intros h g H. apply NoDup_incl_length; [now apply skeleton_spec|]. intros x Hx. apply (skeleton_spec eqb _ He). apply H. now apply (skeleton_spec eqb _ He) in Hx. }
  assert (L1 : length (skeleton eqb h1) <= 64). { eapply Nat.le_trans; [apply LE|exact L]. intros x (s & Hs & Hx). exists s. split; [apply in_or_app; now left|exact Hx]. }
  assert (L2 : length (skeleton eqb h2) <= 64). { eapply Nat.le_trans; [apply LE|exact L]. intros x (s & Hs & Hx). exists s. split; [apply in_or_app; now right|exact Hx]. }
  assert (L2' : length (skeleton eqb h2') <= 64) by (eapply Nat.le_trans; [apply (LE h2' h2 VO)|exact L2]).
  assert (L' : length (skeleton eqb big) <= 64).
  { eapply Nat.le_trans; [apply LE|exact L]. intros x (s & Hs & Hx). apply in_app_iff in Hs. destruct Hs as [Hs|Hs]; [exists s; split; [apply in_or_app; now left|exact Hx]|]. destruct (VO x) as (t & Ht & Hx'); [now exists s|]. exists t. split; [apply in_or_app; now right|exact Hx']. }
  destruct (C140_reorder T eqb (h1 ++ h2) big d He VB VB' L Hd) as (K & bm & K' & bm' & EK & EB & EK' & EB' & R).
  { intros s Hs. apply in_app_iff in Hs. apply face_self, in_or_app. destruct Hs as [Hs|Hs]; [now left|right; apply in_or_app; now right]. }
  { intros s Hs. apply in_app_iff in Hs. destruct Hs as [Hs|Hs]; [apply face_self, in_or_app; now left|]. destruct (FA s Hs) as (t & Ht & I). exists t. split; [apply in_or_app; now right|exact I]. }
  destruct (C140_reorder T eqb h2 h2' d2 He V2 V2' L2 Hd2 FB FA) as (K2 & bm2 & K2' & bm2' & EK2 & EB2 & EK2' & EB2' & R2).
  destruct (facts_all eqb big d' He VB' L' Hd') as (Q & q & EQ & Eq & _ & CD & Z0 & LK & FK). rewrite EK' in EQ. injection EQ as <-. rewrite EB' in Eq. injection Eq as <-.
  destruct (facts_all eqb h2' d2' He V2' L2' Hd2') as (Q & q & EQ & Eq & _ & CD2 & Z2 & LK2 & FK2). rewrite EK2' in EQ. injection EQ as <-. rewrite EB2' in Eq. injection Eq as <-.
  destruct (facts_all eqb h1 d1 He V1 L1 Hd1) as (K1 & bm1 & EK1 & EB1 & _ & CD1 & Z1 & LK1 & FK1).
  exists K, bm, K1, bm1, K2, bm2. repeat (split; [assumption|]). intros cmp cmp1 cmp2 max_dim Ht Ht1 Ht2.
  destruct (R cmp cmp max_dim Ht Ht) as (out & out' & EO & EO' & S1). destruct (R2 cmp2 cmp2 max_dim Ht2 Ht2) as (out2 & out2' & EO2 & EO2' & S2).
  destruct (report_group cmp bm' max_dim Ht CD Z0) as (o & Eo & H). rewrite EO' in Eo. injection Eo as <-.
  destruct (report_group cmp2 bm2' max_dim Ht2 CD2 Z2) as (o & Eo & H2). rewrite EO2' in Eo. injection Eo as <-.
  destruct (report_group cmp1 bm1 max_dim Ht1 CD1 Z1) as (out1 & EO1 & H1).
  exists out, out1, out2. repeat (split; [assumption|]). intros k Hk.
  assert (G : group_iso (reported_group out k) (reported_group out1 k ++ reported_group out2 k)).
  { unfold reported_group. destruct (S1 k) as [-> ->]. destruct (S2 k) as [-> ->]. fold (reported_group out' k) (reported_group out1 k) (reported_group out2' k).
    destruct (H k) as (_ & A & A'). destruct (H1 k) as (_ & B & B'). destruct (H2 k) as (_ & C & C').
    assert (DM : {match max_dim with None => True | Some m => k <= m end} + {~ match max_dim with None => True | Some m => k <= m end}) by (destruct max_dim; [apply le_dec|left; exact I]). destruct DM as [Y|N].
    - destruct (A Y) as (ms & QA & IA). destruct (B Y) as (ms1 & QB & IB). destruct (C Y) as (ms2 & QC & ICC).
      assert (QU : quotient_is (cycl (en bm') (cnt_ bm') k) (bndl (en bm') (cnt_ bm') k) (ms1 ++ ms2)).
      { apply (two_quotient eqb h1 h2' He SH' OR bm' bm1 bm2' LK LK1 LK2 FK FK1 FK2); [|exact QB|exact QC]. destruct Hk as [Hk|Hk]; [now left|right]. intros x Hx Hy. exact (Hk x Hx (VO x Hy)). }
      eapply group_iso_trans; [apply group_iso_sym, IA|]. eapply group_iso_trans; [exact (cycl_unique _ _ _ _ _ _ QA QU)|]. now apply group_iso_app.
    - unfold reported_group. destruct (A' N) as [-> ->]. destruct (B' N) as [-> ->]. destruct (C' N) as [-> ->]. apply group_iso_refl. }
  split; [exact G|]. apply iso_rank; [apply H1| |rewrite (proj2 (S1 k)); apply H|exact G]. rewrite (proj2 (S2 k)). apply H2.
Qed.

(** A hollow triangle and a hollow square joined in the vertex 1; the same ones apart. *)
Example C145_nontrivial :
  valid_hist [[1; 2]; [2; 3]; [3; 1]] /\ valid_hist [[1; 4]; [4; 5]; [5; 6]; [6; 1]] /\ share_at_most_one [[1; 2]; [2; 3]; [3; 1]] [[1; 4]; [4; 5]; [5; 6]; [6; 1]] /\
  length (skeleton Nat.eqb ([[1; 2]; [2; 3]; [3; 1]] ++ [[1; 4]; [4; 5]; [5; 6]; [6; 1]])) <= 64 /\
  share_at_most_one [[1; 2]; [2; 3]; [3; 1]] [[4; 5]; [5; 6]; [6; 4]] /\ disjoint [[1; 2]; [2; 3]; [3; 1]] [[4; 5]; [5; 6]; [6; 4]].
Proof.
  assert (V : forall h x, @vertex_of nat h x -> In x (concat h)) by (intros h x (s & Hs & Hx); apply in_concat; now exists s).
  split; [repeat constructor; cbn; try discriminate; intuition discriminate|]. split; [repeat constructor; cbn; try discriminate; intuition discriminate|].
  split; [intros x y A B A' B'; apply V in A, B, A', B'; cbn in A, B, A', B'; lia|]. split; [cbn; lia|].
  split; [intros x y A B A' B'; apply V in A, B; cbn in A, B; lia|intros x A B; apply V in A, B; cbn in A, B; lia].
Qed.
Print Assumptions C145_union.
