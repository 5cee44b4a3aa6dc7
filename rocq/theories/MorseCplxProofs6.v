(** [UdnMorseCplx]: a possible factor that is needed later is not lost while earlier siblings are explored. *)
From Coq Require Import List Arith ZArith Bool Lia ZifyBool Sorted Permutation.
From Verif Require Import PidModel PermProofs SnfModel SnfProofs2 MatModel MatProofs GraphModel GraphSpec GraphProofs GraphProofs2 GraphProofs7 GraphProofs8 GraphProps UtilModel UtilSpec UtilProofs UtilProofs2 CubeModel CubeSpec CubeProofs CubeProofs2 CubeProofs3 MorseModel MorseSpec MorseProofs MorseCplxModel MorseCplxSpec MorseCplxProofs MorseCplxProofs2 MorseCplxProofs3 MorseCplxProofs4 MorseCplxProofs5.
Import ListNotations.
Open Scope nat_scope.

Lemma lt_vertex a b : f_lt (FVertex a) (FVertex b) = (a <? b).
Proof. destruct (Nat.eq_dec a b) as [->|Ne]; [unfold f_lt, f_partial_cmp; cbn [f_eqb]; rewrite Nat.eqb_refl; symmetry; apply Nat.ltb_irrefl|]. rewrite f_lt_disjoint; [reflexivity|]. apply disj_iff. cbn. lia. Qed.
Lemma FOP_in {A} (R : A -> A -> Prop) (l : list A) : ForallOrdPairs R l -> (forall a b, R a b -> R b a) -> forall a b, In a l -> In b l -> a = b \/ R a b.
Proof.
  intros H SY. induction H as [|c l H1 H2 IH]; intros a b; [intros []|]. rewrite Forall_forall in H1. intros [->|Ha] [->|Hb]; [now left|right; now apply H1|right; apply SY; now apply H1|now apply IH].
Qed.
Lemma disjoint_sym a b : disjoint a b -> disjoint b a.
Proof. intros H v H1 H2. now apply (H v). Qed.
Lemma pair_two {A} (l : list A) a b : a <> b -> In a l -> In b l -> length l <= 2 -> forall c, In c l -> c = a \/ c = b.
Proof.
  intros N Ha Hb L c Hc. destruct l as [|x [|y [|z l]]]; cbn in *; try lia.
  - destruct Ha as [->|[]], Hb as [->|[]]. congruence.
  - intuition subst; auto; congruence.
Qed.

Section Keep.
Variable g : rawg.
Variable n : nat.
Hypothesis HS : spread g n.
Let HA := sp_AR g n HS.
Variable labels : list factor.
Hypothesis HND : NoDup labels.
Hypothesis Hlab : forall f, In f labels <-> closed_cell g f.
Hypothesis Hord : exists es, labels = map FVertex (seq 0 (g_n g)) ++ map (fun e : nat * nat => FEdge (fst e) (snd e)) es.
Variable upper : option nat.
Notation N := (g_n g).
Notation enumS := (enumS g labels upper).
Notation stepS := (stepS g labels upper).
Notation nextS := (nextS g labels upper).
Notation good := (good g).
Notation okS := (okS labels).
Notation A := (addedS g).

(** The possible factors come from the branch. *)
Definition bound (p : list factor) (F : factor -> bool) : Prop := forall w, F (FVertex w) = true -> w = 0 \/ exists f, In f p /\ In (FVertex w) (A f).
Lemma bound_add p F F' f : bound p F -> (forall x, F' x = true -> F x = true) -> bound (f :: p) (addS F' (A f)).
Proof.
  intros HB HF w H. apply addS_true in H as [H|H]; [apply HF in H; destruct (HB w H) as [|(h & Hh & K)]; [now left|right; exists h; split; [now right|exact K]]|right; exists f; split; [now left|exact H]].
Qed.
(** The labels: vertices in increasing order, then edges. *)
Lemma after_vertex (P : factor -> bool) v a b : filter P labels = a ++ FVertex v :: b -> forall t, In (FVertex t) b -> v < t.
Proof.
  destruct Hord as (es & E). intros K t Ht.
  assert (SS : StronglySorted (fun f h => match f, h with FVertex s, FVertex t => s < t | FVertex _, FEdge _ _ => True | FEdge _ _, FEdge _ _ => True | FEdge _ _, FVertex _ => False end) (filter P labels)).
  { assert (ST : forall (R : factor -> factor -> Prop) l, StronglySorted R l -> StronglySorted R (filter P l)).
    { intros R l H. induction H as [|x l H IH F]; [constructor|]. cbn [filter]. destruct (P x); [|exact IH]. constructor; [exact IH|]. rewrite Forall_forall in *. intros y Hy. apply filter_In in Hy as (Hy & _). now apply F. }
    apply ST. rewrite E. clear. generalize 0. induction N as [|m IH]; intros k; cbn [seq map app].
    - induction es as [|e es' IHe]; cbn [map]; [constructor|]. constructor; [exact IHe|]. apply Forall_forall. intros h Hh. apply in_map_iff in Hh as (e' & <- & _). exact I.
    - constructor; [apply IH|]. apply Forall_forall. intros h Hh. apply in_app_or in Hh as [Hh|Hh]; apply in_map_iff in Hh as (s & <- & Hs); [apply in_seq in Hs; lia|exact I]. }
  rewrite K in SS. clear K. induction a as [|h a IH]; cbn [app] in SS.
  - apply StronglySorted_inv in SS as (_ & F). rewrite Forall_forall in F. exact (F _ Ht).
  - apply StronglySorted_inv in SS as (SS & _). now apply IH.
Qed.
Lemma next_after r p F v a b : nextS r p F = a ++ FVertex v :: b -> forall t, In (FVertex t) b -> v < t.
Proof.
  unfold MorseCplxProofs.nextS. destruct p as [|q p]; [apply after_vertex|]. intros K. apply (after_vertex (fun f => F f && (candS g (q :: p) (ubS g (q :: p) r) f && admS g upper (q :: p) r f)) v a b). rewrite <- K. clear.
  induction labels as [|f l IH]; [reflexivity|]. cbn [filter]. destruct (F f); cbn [andb filter]; [|exact IH]. destruct (candS g (q :: p) (ubS g (q :: p) r) f); cbn [andb filter]; [|exact IH]. destruct (admS g upper (q :: p) r f); [now rewrite IH|exact IH].
Qed.
Lemma branch_down v : v < N -> exists j, v + j < N /\ leaf g (v + j) /\ forall i, i < j -> child g (v + i) (v + i + 1).
Proof.
  remember (N - v) as k eqn:Ek. revert v Ek. induction k as [|k IH]; intros v Ek Lv; [lia|]. destruct (no_child_leaf g n HS v Lv) as [LF|C]; [exists 0; rewrite Nat.add_0_r; split; [exact Lv|split; [exact LF|intros; lia]]|].
  destruct (child_lt g HA _ _ C) as (_ & L1 & _). destruct (IH (v + 1) ltac:(lia) L1) as (j & Lj & LF & Ch). exists (S j). replace (v + S j) with (v + 1 + j) by lia. split; [exact Lj|]. split; [exact LF|]. intros [|i] Hi; [now rewrite Nat.add_0_r|]. replace (v + S i) with (v + 1 + i) by lia. apply Ch. lia.
Qed.
Lemma down_descends v : forall j, (forall i, i < j -> child g (v + i) (v + i + 1)) -> exists l, descends g v l (v + j) /\ length l = j.
Proof.
  induction j as [|j IH]; intros Ch; [exists []; rewrite Nat.add_0_r; split; [constructor|reflexivity]|]. destruct IH as (l & D & L); [intros i Hi; apply Ch; lia|]. exists (v + S j :: l). split; [|cbn; lia]. apply (d_out _ _ _ (v + j)); [exact D|]. apply (te_child g HA).
  replace (v + S j) with (v + j + 1) by lia. apply Ch. lia.
Qed.
(** Leaves next to a special vertex leave room for three points only. *)
Lemma leaf_near z w : special g z -> child g z w -> leaf g w -> n <= 3.
Proof. intros SP C LF. apply (te_child g HA) in C. pose proof (sp_leaf g n HS z [w] w SP LF (d_out _ _ _ z w (d_here _ _) C) ltac:(discriminate)) as K. cbn [length] in K. lia. Qed.

Section One.
Variables x y v pv u : nat.
Hypothesis Hskip : x + 1 < y.
Hypothesis Hedge : edge g x y = true.
Hypothesis Hpv : child g pv v.
Hypothesis Hstar : pv = x \/ pv + 1 = v.
Hypothesis Hvy : v <> y.
Hypothesis Hadj : v = u + 2 -> leaf g (u + 1) -> n <= 3.
Definition node (p : list factor) (F : factor -> bool) : Prop := good p /\ okS F /\ In (FEdge x y) p /\ In (FVertex u) p /\ occupied p pv /\ bound p F.
Lemma node_next r p F T f : node p F -> In f (nextS r p F) -> (forall h, T h = true -> F h = true) -> node (f :: p) (addS T (A f)).
Proof.
  intros (H1 & H2 & H3 & H4 & (h & Hh & Hv) & H6) Hf HT. split; [now apply (next_good g labels Hlab upper r p F)|]. split; [apply (okS_add g labels Hlab); [intros a b K; apply H2; now apply HT|apply (next_in g labels upper _ _ _ _ Hf)]|].
  split; [now right|]. split; [now right|]. split; [exists h; split; [now right|exact Hv]|]. now apply (bound_add p F).
Qed.
Lemma node_two p F : node p F -> 2 <= length p.
Proof.
  intros (_ & _ & H3 & H4 & _). apply (NoDup_incl_length (l := [FEdge x y; FVertex u])); [constructor; [intros [K|[]]; discriminate|constructor; [intros []|constructor]]|]. intros h [<-|[<-|[]]]; assumption.
Qed.
(** A factor whose choice makes [v] possible leaves [v] among the next factors. *)
Lemma lost r p F f : node p F -> length p + S (S r) = n -> F (FVertex v) = true -> In f (nextS (S r) p F) -> In (FVertex v) (A f) -> f = FVertex (v - 1) /\ 0 < v /\ In (FVertex v) (nextS (S r) p F).
Proof.
  intros HN HL HF Hf Hv. pose proof (node_two p F HN) as L2. destruct HN as (HG & HO & He & Hu & Occ & HB). assert (N4 : 4 <= n) by lia.
  pose proof (next_good g labels Hlab upper (S r) p F f HG HO Hf) as (GF1 & GF2 & GF3 & GF4). assert (Dis : Forall (disjoint f) p) by now inversion GF2. assert (Low : Forall (fun b => low b < low f) p) by now inversion GF3. rewrite Forall_forall in Dis, Low. clear GF2 GF3.
  destruct (next_in g labels upper _ _ _ _ Hf) as (Lf & _). destruct (added_vertex g labels Hlab f _ Lf Hv) as (v' & Ev & (Lv1 & Lv2) & M). injection Ev as <-.
  assert (NP : ~ In pv (verts f)). { intros K. destruct Occ as (h & Hh & K'). now apply (Dis h Hh pv). }
  assert (SPx : special g x) by now apply (skip_special g n HS x y).
  destruct f as [x' y'|u']; cbn [low verts] in *.
  - exfalso. destruct M as [C|(-> & C)]; [apply NP; left; now apply (child_unique g _ _ v)|]. apply Hlab in Lf. destruct Lf as (_ & E'). destruct (child_lt g HA _ _ C) as (_ & Ly' & _).
    assert (leaf g y') as LF. { destruct (no_child_leaf g n HS y' Ly') as [|C1]; [assumption|]. exfalso. apply NP. right. left. now apply (child_unique g _ _ (y' + 1)). }
    pose proof (leaf_near x' y' (skip_special g n HS x' y' (GF4 x' y' (or_introl eq_refl)) E') C LF). lia.
  - subst v. split; [f_equal; lia|]. split; [lia|]. assert (NU : pv <> u') by (intros ->; apply NP; now left). destruct Hstar as [->|K]; [|lia].
    assert (LFu : leaf g u'). { destruct (no_child_leaf g n HS u') as [|C1]; [lia|assumption|]. exfalso. apply NU. now apply (child_unique g _ _ (u' + 1)). }
    pose proof Hf as Hf'. apply (next_cand g labels upper) in Hf'; [|destruct p; [contradiction|discriminate]]. destruct Hf' as (_ & HFu & Cf & _). unfold candS in Cf. rewrite !andb_true_iff in Cf. destruct Cf as ((_ & Cf) & _). cbn [is_edge andb] in Cf. rewrite orb_false_r, lt_vertex in Cf. apply Nat.ltb_lt in Cf.
    pose proof HG as (G1 & G2 & G3 & G4). rewrite Forall_forall in G1.
    assert (Dv : forall q, In q p -> ~ In (u' + 1) (verts q)).
    { intros q Hq K. pose proof (Low q Hq) as Lq. destruct q as [x1 y1|t]; cbn [low verts In] in *; [|lia]. destruct K as [->|[->|[]]]; [lia|]. destruct (G1 _ Hq) as (L1 & E1). destruct (tree_dec g n HS x1 (u' + 1) L1) as [T|NT].
      - apply (te_child g HA) in T. assert (x1 = x) by now apply (child_unique g _ _ (u' + 1)). subst x1. destruct (FOP_in disjoint p G2 disjoint_sym _ _ He Hq) as [K|K]; [injection K as ->; congruence|]. apply (K x); cbn; auto.
      - pose proof (leaf_near x (u' + 1) SPx Hpv (sp_nontree g n HS _ _ L1 E1 NT)). lia. }
    apply (next_cand g labels upper); [destruct p; [contradiction|discriminate]|]. split; [apply Hlab; cbn; exact Lv2|]. split; [exact HF|]. split; [|unfold admS; reflexivity].
    unfold candS. rewrite !andb_true_iff. split; [split; [split|]|reflexivity].
    + apply forallb_forall. intros q Hq. apply disj_iff. intros t [<-|[]]. now apply Dv.
    + destruct p as [|q p']; [contradiction|]. cbn [hd]. apply f_gt_iff. split; [intros t [<-|[]]; apply Dv; now left|]. specialize (Low q (or_introl eq_refl)). cbn [low]. lia.
    + cbn [is_edge andb]. rewrite orb_false_r, lt_vertex. apply Nat.ltb_lt.
      destruct (top_N g n HS) as (_ & Nn). pose proof (room_ok g HA n (sp_high g n HS) p (S r) HG Nn HL) as RO. destruct (room_spec p (S r) N RO) as (u2 & E2 & _).
      assert (R2 : u' + 1 < u2).
      { apply (room_above p (S r) N u2 (u' + 1) E2 RO). split; [|exact Lv2].
        set (Y := flat_map (fun f => match f with FEdge _ b => if u' + 1 <? b then [b] else [] | FVertex _ => [] end) p).
        assert (InY : forall b, In b Y <-> exists a, In (FEdge a b) p /\ u' + 1 < b).
        { intros b. unfold Y. rewrite in_flat_map. split.
          - intros ([a b'|t] & Hq & K); [|contradiction]. destruct (Nat.ltb_spec (u' + 1) b'); [|contradiction]. destruct K as [->|[]]. eauto.
          - intros (a & Ha & Lb). exists (FEdge a b). split; [exact Ha|]. rewrite (proj2 (Nat.ltb_lt _ _) Lb). now left. }
        assert (NY : NoDup Y).
        { clear -G2. unfold Y. induction G2 as [|a p D PD IH]; [constructor|]. destruct a as [a b|a]; cbn [flat_map app]; [|exact IH]. destruct (u' + 1 <? b); [|exact IH]. cbn [app]. constructor; [|exact IH].
          intros H. apply in_flat_map in H as (f & Hf & Hy). destruct f as [a' b'|b']; [|contradiction]. destruct (u' + 1 <? b'); [|contradiction]. destruct Hy as [->|[]]. rewrite Forall_forall in D. apply (D _ Hf b); cbn; auto. }
        assert (LY : length Y + 1 <= length p).
        { assert (K : length Y <= dimension p). { clear. unfold Y, dimension. induction p as [|[a b|t] p IH]; [cbn; lia| |exact IH]. cbn [flat_map filter length]. rewrite app_length. destruct (u' + 1 <? b); cbn [length Nat.add]; [exact (le_n_S _ _ IH)|exact (le_S _ _ IH)]. }
          assert (K' : forall l, In (FVertex u) l -> dimension l + 1 <= length l). { clear. induction l as [|f l IH]; [intros []|]. pose proof (dimension_le l) as HD. intros [->|H]; [rewrite dimension_cons; cbn [is_edge length]; lia|]. specialize (IH H). rewrite dimension_cons. cbn [length]. destruct (is_edge f); lia. }
          specialize (K' p Hu). lia. }
        set (L := filter (fun t => negb (existsb (Nat.eqb t) Y)) (seq (S (u' + 1)) (N - S (u' + 1)))).
        assert (LL : N - S (u' + 1) <= length L + length Y).
        { rewrite <- (seq_length (N - S (u' + 1)) (S (u' + 1))) at 1. rewrite <- app_length. apply NoDup_incl_length; [apply seq_NoDup|]. intros t Ht. apply in_or_app. destruct (existsb (Nat.eqb t) Y) eqn:E; [right|left; apply filter_In; split; [exact Ht|now rewrite E]].
          apply existsb_exists in E as (s & Hs & E). apply Nat.eqb_eq in E. now subst s. }
        assert (NL : nfree p (S (u' + 1)) + length L <= nfree p N).
        { apply nfree_count; [lia|apply NoDup_filter, seq_NoDup|]. intros t Ht. apply filter_In in Ht as (Ht & Et). apply in_seq in Ht. split; [lia|]. apply freeb_iff. intros (q & Hq & K). pose proof (Low q Hq) as Lq. destruct q as [a b|s]; cbn [low verts In] in *; [|lia].
          destruct K as [->|[->|[]]]; [lia|]. apply negb_true_iff in Et. assert (existsb (Nat.eqb t) Y = true); [|congruence]. apply existsb_exists. exists t. split; [|apply Nat.eqb_refl]. apply InY. exists a. split; [exact Hq|lia]. }
        destruct (branch_down (u' + 1) Lv2) as (j & Lj & LFj & Ch). destruct (down_descends (u' + 1) j Ch) as (l & D & Ll).
        assert (K3 : n <= j + 3).
        { pose proof Hpv as Tv. apply (te_child g HA) in Tv. pose proof (descends_trans g x [u' + 1] (u' + 1) l (u' + 1 + j) (d_out _ _ _ x _ (d_here _ _) Tv) D) as D'. pose proof (sp_leaf g n HS x _ _ SPx LFj D' ltac:(now destruct l)) as K. rewrite app_length in K. cbn [length] in K. lia. }
        destruct (Nat.le_gt_cases (length Y + 2) (length p)) as [|LY2]; [lia|]. destruct (Nat.le_gt_cases (n - 1) (N - (u' + 1))) as [|LN]; [lia|]. exfalso.
        assert (EN : N = u' + 1 + j + 1) by lia.
        assert (YY : forall b, In b Y -> b = u' + 1 + j /\ exists a, In (FEdge a b) p /\ ~ tree_edge g a b).
        { intros b Hb. apply InY in Hb as (a & Ha & Lb). destruct (G1 _ Ha) as (Lab & Eab). pose proof (Low _ Ha) as La. cbn [low] in La. pose proof (edge_lt g a b (AR_GI g HA) Eab) as (_ & LbN & _).
          assert (Cb : child g (b - 1) b). { specialize (Ch (b - (u' + 1) - 1) ltac:(lia)). replace (u' + 1 + (b - (u' + 1) - 1)) with (b - 1) in Ch by lia. now replace (b - 1 + 1) with b in Ch by lia. }
          assert (NT : ~ tree_edge g a b). { intros T. apply (te_child g HA) in T. pose proof (child_unique g _ _ _ T Cb). lia. }
          split; [|eauto]. destruct (Nat.eq_dec b (u' + 1 + j)) as [|Nb]; [assumption|]. exfalso. destruct (sp_nontree g n HS a b Lab Eab NT) as (_ & K). apply (K (b + 1)). apply (te_child g HA).
          specialize (Ch (b - (u' + 1)) ltac:(lia)). now replace (u' + 1 + (b - (u' + 1))) with b in Ch by lia. }
        assert (LY1 : length Y <= 1). { destruct Y as [|b1 [|b2 Y']]; cbn [length]; try lia. exfalso. destruct (YY b1 ltac:(now left)) as (E1 & _). destruct (YY b2 ltac:(right; now left)) as (E3 & _). inversion NY as [|? ? K _]; subst. apply K. left. congruence. }
        assert (P2 : forall q, In q p -> q = FEdge x y \/ q = FVertex u) by (apply pair_two; auto; [discriminate|lia]).
        assert (EY : exists b, In b Y). { destruct Y as [|b Y']; [cbn [length] in *; lia|]. exists b. now left. } destruct EY as (b & Hb). destruct (YY b Hb) as (Eb & a & Ha & NT). destruct (P2 _ Ha) as [Ee|Ee]; [|discriminate Ee]. injection Ee as -> ->.
        destruct (HB u' HFu) as [->|(q & Hq & K)]; [destruct (child_lt g HA _ _ Hpv); lia|]. destruct (P2 q Hq) as [-> | ->].
        + destruct (added_vertex g labels Hlab (FEdge x y) (FVertex u')) as (w & Ew & _ & K'); [now apply Hlab, G1|exact K|]. injection Ew as <-. destruct K' as [C|(-> & _)]; [pose proof (leaf_near x u' SPx C LFu); lia|lia].
        + destruct (added_vertex g labels Hlab (FVertex u) (FVertex u')) as (w & Ew & _ & K'); [now apply Hlab, G1|exact K|]. injection Ew as <-. subst u'. specialize (Hadj ltac:(lia) LFu). lia. }
      unfold ubS in *. rewrite E2 in *. destruct (unpaidS g p) as [|[x1 y1|t] us] eqn:Eu; [exact R2| |exact R2]. assert (Hy1 : In (FEdge x1 y1) p).
      { assert (K : In (FEdge x1 y1) (unpaidS g p)) by (rewrite Eu; now left). unfold unpaidS in K. apply filter_In in K as (K & _). apply filter_In in K as (K & _). now apply filter_In in K as (K & _). }
      destruct (u2 <? y1); [exact R2|]. pose proof (Dv _ Hy1) as K. cbn [verts In] in K. lia.
Qed.
Lemma keep : forall r p F, node p F -> length p + S r = n -> F (FVertex v) = true -> snd (enumS r p F) (FVertex v) = true.
Proof.
  induction r as [|r IH]; intros p F HN HL HF; [exact HF|]. rewrite enumS_S. set (fs := nextS (S r) p F). 
  assert (IH' : forall f T, In f fs -> (forall h, T h = true -> F h = true) -> T (FVertex v) = true -> snd (enumS r (f :: p) (addS T (A f))) (FVertex v) = true).
  { intros f T Hf HT Tv. apply IH; [now apply (node_next (S r) p F)|cbn [length]; lia|]. apply addS_true. now left. }
  assert (MONO : forall f T, In f fs -> (forall h, T h = true -> F h = true) -> forall h, remS (addS (snd (enumS r (f :: p) (addS T (A f)))) [f]) (A f) h = true -> F h = true).
  { intros f T Hf HT h Hh. apply remS_true in Hh as (Hh & Nh). apply addS_true in Hh as [Hh|[<-|[]]]; [|apply (next_in g labels upper _ _ _ _ Hf)]. apply (enumS_mono g labels upper) in Hh. apply addS_true in Hh as [Hh|Hh]; [now apply HT|contradiction]. }
  assert (FK : forall fs' T acc, (forall f, In f fs' -> In f fs /\ ~ In (FVertex v) (A f)) -> (forall h, T h = true -> F h = true) -> T (FVertex v) = true -> snd (fold_left (stepS r p) fs' (acc, T)) (FVertex v) = true).
  { induction fs' as [|f fs' IHf]; intros T acc Hfs HT Tv; [exact Tv|]. cbn [fold_left]. unfold MorseCplxProofs.stepS at 2. cbn [fst snd]. destruct (Hfs f (or_introl eq_refl)) as (Hf & Nf). apply IHf; [intros; apply Hfs; now right|now apply MONO|].
    apply remS_true. split; [|exact Nf]. apply addS_true. left. now apply IH'. }
  destruct (existsb (fun f => existsb (f_eqb (FVertex v)) (A f)) fs) eqn:E.
  - apply existsb_exists in E as (f & Hf & Hv). apply existsb_in in Hv. destruct (lost r p F f HN HL HF Hf Hv) as (Ef & V0 & Hin). fold fs in Hin. apply in_split in Hin as (a & b & Efs). rewrite Efs, fold_left_app. cbn [fold_left].
    set (st := fold_left (stepS r p) a ([], F)). assert (ST : forall h, snd st h = true -> F h = true).
    { intros h. apply (fold_mono' g labels upper r p F a h). intros k Hk. apply (next_in g labels upper (S r) p F). fold fs. rewrite Efs. apply in_or_app. now left. }
    unfold MorseCplxProofs.stepS at 2. assert (Hvf : In (FVertex v) fs) by (rewrite Efs; apply in_or_app; right; now left). apply FK.
    + intros h Hh. split; [rewrite Efs; apply in_or_app; right; now right|]. intros K. destruct (lost r p F h HN HL HF) as (Eh & _); [fold fs; rewrite Efs; apply in_or_app; right; now right|exact K|]. subst h. pose proof (next_after (S r) p F v a b Efs _ Hh). lia.
    + now apply MONO.
    + apply remS_true. split; [apply addS_true; right; now left|]. intros K. destruct (next_in g labels upper _ _ _ _ Hvf) as (Lv & _). destruct (added_vertex g labels Hlab _ _ Lv K) as (w & Ew & (L1 & _) & _). injection Ew as <-. cbn [low] in L1. lia.
  - apply FK; auto. intros f Hf. split; [exact Hf|]. intros K. assert (existsb (fun f => existsb (f_eqb (FVertex v)) (A f)) fs = true); [|congruence]. apply existsb_exists. exists f. split; [exact Hf|]. now apply existsb_in.
Qed.
End One.
End Keep.
