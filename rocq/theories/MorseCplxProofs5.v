(** Critical cells with at most one edge: how they crowd the branches of the tree. *)
From Coq Require Import List Arith ZArith Bool Lia ZifyBool Sorted Permutation.
From Verif Require Import PidModel GraphModel GraphSpec GraphProofs GraphProofs7 GraphProofs8 CubeModel CubeSpec CubeProofs MorseModel MorseSpec MorseProofs MorseCplxSpec MorseCplxProofs3.
Import ListNotations.
Open Scope nat_scope.

Section Crowd.
Variable g : rawg.
Variable n : nat.
Hypothesis HS : spread g n.
Let HA := sp_AR g n HS.

Lemma stem_deep : forall l w, descends g 0 l w -> n <= w + 1 -> n <= length l + 1.
Proof.
  intros l w HD Hw. destruct (sp_stem g n HS) as (HN & St). unfold g_n_vertices in HN.
  assert (K : forall k, k < n -> k = 0 \/ In k l).
  { induction k as [|k IH]; intros Hk; [now left|right]. destruct (descends_next g HA 0 l w HD k) as (s & C & Hs); [apply IH; lia|lia|]. apply (te_child g HA) in C. specialize (St k s ltac:(lia) C). now replace (S k) with s by lia. }
  assert (L : length (seq 0 n) <= length (0 :: l)); [|rewrite seq_length in L; cbn [length] in L; lia]. apply NoDup_incl_length; [apply seq_NoDup|].
  intros k Hk. apply in_seq in Hk. destruct (K k ltac:(lia)) as [->|H]; [now left|now right].
Qed.
Lemma branching_deep w : branching g w -> n <= w + 1.
Proof.
  intros (i & j & Nij & Ti & Tj). destruct (Nat.le_gt_cases n (w + 1)) as [|G]; [assumption|]. exfalso. destruct (sp_stem g n HS) as (_ & St). pose proof (St w i ltac:(lia) Ti). pose proof (St w j ltac:(lia) Tj). lia.
Qed.
Lemma leaf_last w v : leaf g w -> child g v (w + 1) -> n <= w + 1.
Proof.
  intros (_ & LF) C. destruct (Nat.le_gt_cases n (w + 1)) as [|G]; [assumption|]. exfalso. destruct (child_lt g HA v (w + 1) C) as (Lv & _). apply (te_child g HA) in C. destruct (sp_stem g n HS) as (_ & St). pose proof (St v (w + 1) ltac:(lia) C). assert (v = w) by lia. subst v. now apply (LF (w + 1)).
Qed.
Lemma tree_dec x y : x < y -> tree_edge g x y \/ ~ tree_edge g x y.
Proof. intros L. destruct (childb g x y) eqn:E; [left; apply (te_child g HA); now apply childb_iff|right; intros T; apply (te_child g HA) in T; apply (childb_iff g x y L) in T; congruence]. Qed.
Lemma skip_special x y : x + 1 < y -> edge g x y = true -> special g x.
Proof.
  intros L E. destruct (tree_dec x y ltac:(lia)) as [T|NT]; [left|right; exists y; split; [lia|auto]]. exists (x + 1), y. split; [lia|]. split; [|exact T]. apply (te_child g HA). apply (child_next g HA x y); [lia|exact E].
Qed.
Lemma descends_trans a l b l' c : descends g a l b -> descends g b l' c -> descends g a (l' ++ l) c.
Proof. intros H1 H2. induction H2 as [|l' p c H2 IH T]; [exact H1|]. cbn [app]. now apply (d_out _ _ _ p). Qed.
Lemma no_child_leaf v : v < g_n g -> leaf g v \/ child g v (v + 1).
Proof.
  intros L. destruct (Nat.lt_ge_cases (v + 1) (g_n g)) as [L1|L1].
  - destruct (has_parent g HA (v + 1)) as (w & C); [lia|exact L1|]. destruct (Nat.eq_dec w v) as [->|Nw]; [now right|left]. split; [exact L|]. intros k T. apply (te_child g HA) in T. destruct (child_lt g HA v k T) as (Lk & _ & Ek).
    pose proof (child_next g HA v k Lk Ek) as C1. apply Nw. now apply (child_unique g _ _ (v + 1)).
  - left. split; [exact L|]. intros k T. apply (te_child g HA) in T. pose proof (child_lt g HA v k T). lia.
Qed.

Section Cell.
Variable c : list factor.
Hypothesis HC : configuration g n c.
Hypothesis Hone : forall x y x' y', In (FEdge x y) c -> In (FEdge x' y') c -> FEdge x y = FEdge x' y'.
Hypothesis Hskip : forall x y, In (FEdge x y) c -> x + 1 < y.
Hypothesis Hpaid : forall x y, In (FEdge x y) c -> tree_edge g x y -> exists t, In (FVertex t) c /\ x < t < y.

Lemma cell_edge x y : In (FEdge x y) c -> x < y /\ edge g x y = true.
Proof. intros H. destruct HC as (_ & HF & _). rewrite Forall_forall in HF. exact (HF _ H). Qed.
Lemma cell_count l : NoDup l -> incl l c -> length l <= n.
Proof. intros ND HI. destruct HC as (<- & _). now apply NoDup_incl_length. Qed.
(** Climbing towards the base point from a vertex of the cell. *)
Lemma climb : forall w, In (FVertex w) c -> (forall v, v <= w -> In (FVertex v) c -> blocked g c v) ->
  (exists l, descends g 0 l w /\ In (FVertex 0) c /\ forall t, In t l -> In (FVertex t) c) \/
  (exists x y z l, In (FEdge x y) c /\ (z = x \/ z = y) /\ descends g z l w /\ l <> [] /\ forall t, In t l -> In (FVertex t) c).
Proof.
  intros w. induction w as [w IH] using lt_wf_ind. intros Hw HB. destruct (HB w (Nat.le_refl _) Hw) as [->|(p & T & f & Hf & Hp)]; [left; exists []; split; [constructor|split; [exact Hw|intros t []]]|].
  pose proof T as C. apply (te_child g HA) in C. destruct (child_lt g HA p w C) as (Lp & _). destruct f as [x y|q]; cbn [verts In] in Hp.
  - right. exists x, y, p, [w]. split; [exact Hf|]. split; [destruct Hp as [->|[->|[]]]; auto|]. split; [apply (d_out _ _ _ p); [constructor|exact T]|]. split; [discriminate|]. intros t [<-|[]]. exact Hw.
  - destruct Hp as [->|[]]. destruct (IH p Lp Hf) as [(l & HD & H0 & Hl)|(x & y & z & l & He & Hz & HD & Nl & Hl)]; [intros v Hv; apply HB; lia| |].
    + left. exists (w :: l). split; [now apply (d_out _ _ _ p)|]. split; [exact H0|]. intros t [<-|Ht]; [exact Hw|now apply Hl].
    + right. exists x, y, z, (w :: l). split; [exact He|]. split; [exact Hz|]. split; [now apply (d_out _ _ _ p)|]. split; [discriminate|]. intros t [<-|Ht]; [exact Hw|now apply Hl].
Qed.
(** Below a vertex that is far from every special vertex there is no room for further vertices. *)
Lemma crowd w v : (forall u, u <= w -> In (FVertex u) c -> blocked g c u) -> n <= w + 1 ->
  (forall z l, special g z -> descends g z l w -> l <> [] -> n <= length l + 1) ->
  In (FVertex w) c \/ (exists x, In (FEdge x w) c /\ tree_edge g x w) -> In (FVertex v) c -> w < v -> False.
Proof.
  intros HB Hw HD Hin Hv Lwv.
  assert (INJ : forall l : list nat, NoDup l -> NoDup (map FVertex l)) by (intros l; apply FinFun.Injective_map_NoDup; intros a b K; congruence).
  assert (VV : forall l : list nat, NoDup l -> (forall t, In t l -> In (FVertex t) c /\ t <= w) -> length l + 1 <= n /\ (forall x y, In (FEdge x y) c -> length l + 2 <= n /\ (forall t, In (FVertex t) c -> t <= w -> ~ In t l -> length l + 3 <= n))).
  { intros l ND Hl. assert (N1 : NoDup (v :: l)) by (constructor; [intros K; apply Hl in K; lia|exact ND]). split; [|intros x y He; split; [|intros t Ht Lt Nt]].
    - pose proof (cell_count (map FVertex (v :: l)) (INJ _ N1)) as K. rewrite map_length in K. cbn [length] in K. rewrite Nat.add_comm. apply K. intros f Hf. apply in_map_iff in Hf as (t & <- & [<-|Ht]); [exact Hv|now apply Hl].
    - assert (N2 : NoDup (FEdge x y :: map FVertex (v :: l))) by (constructor; [intros K; apply in_map_iff in K as (? & K & _); discriminate|now apply INJ]).
      pose proof (cell_count _ N2) as K. cbn [length] in K. rewrite map_length in K. cbn [length] in K. rewrite Nat.add_comm. apply K. intros f [<-|Hf]; [exact He|]. apply in_map_iff in Hf as (t & <- & [<-|Ht]); [exact Hv|now apply Hl].
    - assert (N3 : NoDup (FEdge x y :: map FVertex (t :: v :: l))).
      { constructor; [intros K; apply in_map_iff in K as (? & K & _); discriminate|]. apply INJ. constructor; [|exact N1]. intros [->|K]; [lia|contradiction]. }
      pose proof (cell_count _ N3) as K. cbn [length] in K. rewrite map_length in K. cbn [length] in K. rewrite Nat.add_comm. apply K. intros f [<-|Hf]; [exact He|]. apply in_map_iff in Hf as (s & <- & [<-|[<-|Hs]]); [exact Ht|exact Hv|now apply Hl]. }
  destruct Hin as [Hin|(x & He & T)].
  - destruct (climb w Hin HB) as [(l & D & H0 & Hl)|(x & y & z & l & He & Hz & D & Nl & Hl)].
    + pose proof (stem_deep l w D Hw) as K. destruct (descends_lt g HA _ _ _ D) as (_ & B & _). destruct (VV (0 :: l)) as (K1 & _).
      * constructor; [intros H; specialize (B 0 H); lia|now apply (descends_NoDup g HA 0 l w)].
      * intros t [<-|Ht]; [split; [exact H0|lia]|split; [now apply Hl|apply (B t Ht)]].
      * cbn [length] in K1. lia.
    + destruct (descends_lt g HA _ _ _ D) as (_ & B & _). destruct (VV l (descends_NoDup g HA _ _ _ D)) as (_ & K2); [intros t Ht; split; [now apply Hl|apply (B t Ht)]|]. specialize (K2 x y He) as (K2 & K3).
      destruct (cell_edge x y He) as (Lxy & Exy). pose proof (skip_special x y (Hskip x y He) Exy) as SP. destruct Hz as [->| ->]; [pose proof (HD x l SP D Nl); lia|].
      destruct (tree_dec x y Lxy) as [T|NT].
      * destruct (Hpaid x y He T) as (t & Ht & Lt). assert (K : length l + 3 <= n) by (apply (K3 t Ht); [pose proof (descends_lt g HA _ _ _ D); lia|intros K; specialize (B t K); lia]).
        pose proof (HD x (l ++ [y]) SP) as K4. rewrite app_length in K4. cbn [length] in K4. assert (n <= length l + 1 + 1); [|lia]. apply K4; [|now destruct l].
        apply (descends_trans x [y] y l w); [apply (d_out _ _ _ x); [constructor|exact T]|exact D].
      * destruct (sp_nontree g n HS x y Lxy Exy NT) as (_ & LF). destruct (descends_next g HA _ _ _ D y) as (s & C & _); [now left| |apply (te_child g HA) in C; now apply (LF s)]. intros ->. pose proof (descends_lt g HA _ _ _ D) as (_ & _ & K). specialize (K Nl). lia.
  - destruct (cell_edge x w He) as (Lxy & Exy). pose proof (skip_special x w (Hskip x w He) Exy) as SP. destruct (Hpaid x w He T) as (t & Ht & Lt). destruct (VV [] ltac:(constructor)) as (_ & K2); [intros s []|]. specialize (K2 x w He) as (_ & K3).
    assert (K : length (@nil nat) + 3 <= n) by (apply (K3 t Ht); [lia|intros []]). cbn [length] in K. pose proof (HD x [w] SP (d_out _ _ _ x w (d_here _ _) T) ltac:(discriminate)). cbn [length] in *. lia.
Qed.
End Cell.

(** A critical cell with at most one edge: every vertex is the base point, follows the lower end of the edge, or follows its predecessor. *)
Section Crit.
Variable c : list factor.
Hypothesis HK : critical g n c.
Hypothesis Hdim : dimension c <= 1.
Lemma crit_one x y x' y' : In (FEdge x y) c -> In (FEdge x' y') c -> FEdge x y = FEdge x' y'.
Proof.
  intros H1 H2. destruct (f_dec (FEdge x y) (FEdge x' y')) as [|Ne]; [assumption|]. exfalso. assert (L : length [FEdge x y; FEdge x' y'] <= dimension c); [|cbn in L; lia]. unfold dimension. apply NoDup_incl_length.
  - constructor; [intros [K|[]]; congruence|constructor; [intros []|constructor]].
  - intros f [<-|[<-|[]]]; apply filter_In; auto.
Qed.
Lemma crit_skip x y : In (FEdge x y) c -> x + 1 < y.
Proof.
  intros H. destruct HK as ((_ & HF & _) & HM). rewrite Forall_forall in HF. destruct (HF _ H) as (L & E). destruct (Nat.eq_dec y (x + 1)) as [->|]; [|lia]. exfalso. apply (HM _ H). split.
  - apply (te_child g HA). apply (child_next g HA x (x + 1) L E).
  - intros v _. lia.
Qed.
Lemma crit_paid x y : In (FEdge x y) c -> tree_edge g x y -> exists t, In (FVertex t) c /\ x < t < y.
Proof.
  intros H T. destruct HK as (_ & HM). destruct (existsb (between x y) c) eqn:E.
  - apply existsb_exists in E as (f & Hf & B). destruct f as [a b|t]; [discriminate B|]. exists t. split; [exact Hf|]. unfold between in B. apply andb_true_iff in B as (B1 & B2). apply Nat.ltb_lt in B1, B2. lia.
  - exfalso. apply (HM _ H). split; [exact T|]. intros v Hv L. assert (existsb (between x y) c = true); [|congruence]. apply existsb_exists. exists (FVertex v). split; [exact Hv|]. unfold between. apply andb_true_iff. split; apply Nat.ltb_lt; lia.
Qed.
Lemma crit_blocked v : In (FVertex v) c -> blocked g c v.
Proof.
  intros H. destruct HK as ((_ & HF & _) & HM). rewrite Forall_forall in HF. pose proof (HF _ H) as L. destruct (blocked_dec g HA c v L) as [B|B]; [exact B|]. exfalso. exact (HM _ H B).
Qed.
Lemma crit_star v : In (FVertex v) c -> v <> 0 -> exists w, child g w v /\ occupied c w /\ (w + 1 = v \/ exists y, In (FEdge w y) c).
Proof.
  intros Hv Nv. destruct (crit_blocked v Hv) as [->|(w & T & O)]; [congruence|]. exists w. pose proof T as C. apply (te_child g HA) in C. split; [exact C|]. split; [exact O|]. destruct (child_lt g HA w v C) as (Lw & Lv & E).
  destruct (Nat.eq_dec (w + 1) v) as [|Ne]; [now left|]. destruct O as (f & Hf & Hw). destruct f as [x y|u]; cbn [verts In] in Hw.
  - destruct Hw as [->|[->|[]]]; [right; eauto|]. exfalso. assert (BR : branching g w). { exists (w + 1), v. split; [lia|]. split; [|exact T]. apply (te_child g HA). now apply (child_next g HA w v). }
    assert (TX : tree_edge g x w).
    { destruct (cell_edge c (proj1 HK) x w Hf) as (Lx & Ex). destruct (tree_dec x w Lx) as [|NT]; [assumption|]. destruct (sp_nontree g n HS x w Lx Ex NT) as (_ & LF). exfalso. now apply (LF v). }
    apply (crowd c (proj1 HK) crit_one crit_skip crit_paid w v); auto; [intros; now apply crit_blocked|now apply branching_deep|intros z l SP; now apply (sp_branch g n HS)|right; eauto].
  - destruct Hw as [->|[]]. exfalso. assert (BR : branching g w). { exists (w + 1), v. split; [lia|]. split; [|exact T]. apply (te_child g HA). now apply (child_next g HA w v). }
    apply (crowd c (proj1 HK) crit_one crit_skip crit_paid w v); auto; [intros; now apply crit_blocked|now apply branching_deep|intros z l SP; now apply (sp_branch g n HS)].
Qed.
End Crit.
End Crowd.
