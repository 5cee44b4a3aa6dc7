(** [UdnMorseCplx]: every critical cell with at most one edge is listed. *)
From Coq Require Import List Arith ZArith Bool Lia ZifyBool Sorted Permutation.
From Verif Require Import PidModel PermProofs SnfModel SnfProofs2 MatModel MatProofs GraphModel GraphSpec GraphProofs GraphProofs2 GraphProofs7 GraphProofs8 GraphProps UtilModel UtilSpec UtilProofs UtilProofs2 CubeModel CubeSpec CubeProofs CubeProofs2 CubeProofs3 MorseModel MorseSpec MorseProofs MorseCplxModel MorseCplxSpec MorseCplxProofs MorseCplxProofs2 MorseCplxProofs3 MorseCplxProofs4 MorseCplxProofs5 MorseCplxProofs6.
Import ListNotations.
Open Scope nat_scope.

Lemma SS_mid {T} (R : T -> T -> Prop) a f b : StronglySorted R (a ++ f :: b) -> (forall h, In h a -> R h f) /\ (forall h, In h b -> R f h).
Proof.
  induction a as [|x a IH]; cbn [app]; intros H; apply StronglySorted_inv in H as (S1 & F1); rewrite Forall_forall in F1.
  - split; [intros h []|exact F1].
  - destruct (IH S1) as (H1 & H2). split; [|exact H2]. intros h [<-|Hh]; [apply F1; apply in_or_app; right; now left|now apply H1].
Qed.
Lemma verts_low g f v : closed_cell g f -> In v (verts f) -> low f <= v.
Proof. destruct f as [x y|x]; cbn; [intros (L & _) [<-|[<-|[]]]; lia|intros _ [<-|[]]; lia]. Qed.
Lemma added_not_edge g x y f : ~ In (FEdge x y) (addedS g f).
Proof.
  destruct f as [a b|a]; cbn [addedS]; intros K; [apply in_app_or in K as [K|K]; [apply in_map_iff in K as (? & K & _); discriminate|]|].
  - destruct (childb g a b); [|contradiction]. destruct (b + 1 <? g_n g); [|contradiction]. destruct K as [K|[]]; discriminate.
  - destruct (a + 1 <? g_n g); [|contradiction]. destruct K as [K|[]]; discriminate.
Qed.

Section Complete.
Variable g : rawg.
Variable n : nat.
Hypothesis HS : spread g n.
Let HA := sp_AR g n HS.
Variable labels : list factor.
Hypothesis HND : NoDup labels.
Hypothesis Hlab : forall f, In f labels <-> closed_cell g f.
Hypothesis Hord : exists es, labels = map FVertex (seq 0 (g_n g)) ++ map (fun e : nat * nat => FEdge (fst e) (snd e)) es.
Variable upper : option nat.
Notation N := (g_n g).
Notation enumS := (enumS g labels upper).
Notation stepS := (stepS g labels upper).
Notation nextS := (nextS g labels upper).
Notation good := (good g).
Notation okS := (okS labels).
Notation A := (addedS g).

Lemma fold_edges r p x y : (forall q F, F (FEdge x y) = true -> snd (enumS r q F) (FEdge x y) = true) -> forall fs st, snd st (FEdge x y) = true -> snd (fold_left (stepS r p) fs st) (FEdge x y) = true.
Proof.
  intros IH. induction fs as [|f fs IHf]; intros st H; [exact H|]. cbn [fold_left]. apply IHf. unfold MorseCplxProofs.stepS. cbn [snd]. apply remS_true. split; [|apply added_not_edge]. apply addS_true. left. apply IH. apply addS_true. now left.
Qed.
Lemma enum_edges : forall r p F x y, F (FEdge x y) = true -> snd (enumS r p F) (FEdge x y) = true.
Proof. induction r as [|r IH]; intros p F x y H; [exact H|]. rewrite enumS_S. apply fold_edges; [|exact H]. intros q F'. apply IH. Qed.
Lemma before_vertex r p F v a b : nextS r p F = a ++ FVertex v :: b -> forall h, In h a -> exists t, h = FVertex t /\ t < v.
Proof.
  intros E h Hh. assert (ND : NoDup (nextS r p F)) by now apply next_NoDup. apply in_split in Hh as (a1 & a2 & ->). destruct h as [x y|t].
  - exfalso. assert (G : forall l : list factor, incl l labels -> (exists a b c, l = a ++ FEdge x y :: b ++ FVertex v :: c) -> (exists P, l = filter P labels) -> False).
    { clear E ND. destruct Hord as (es & El). intros l _ (a0 & b0 & c0 & ->) (P & EP). rewrite El, filter_app in EP.
      assert (K : forall l1 l2 m1 m2 : list factor, (forall z, In z l1 -> exists t, z = FVertex t) -> (forall z, In z l2 -> exists c d, z = FEdge c d) -> m1 ++ FEdge x y :: m2 = l1 ++ l2 -> forall z, In z m2 -> exists c d, z = FEdge c d).
      { clear. induction l1 as [|z l1 IH]; intros l2 m1 m2 H1 H2 E w Hw; cbn [app] in E.
        - apply H2. rewrite <- E. apply in_or_app. right. now right.
        - destruct m1 as [|z' m1]; cbn [app] in E; injection E as E0 E; [destruct (H1 z (or_introl eq_refl)) as (t & K); congruence|]. apply (IH l2 m1 m2); auto. intros; apply H1; now right. }
      destruct (K (filter P (map FVertex (seq 0 N))) (filter P (map (fun e : nat * nat => FEdge (fst e) (snd e)) es)) a0 (b0 ++ FVertex v :: c0)) with (z := FVertex v) as (c1 & d1 & K1).
      - intros z Hz. apply filter_In in Hz as (Hz & _). apply in_map_iff in Hz as (t & <- & _). eauto.
      - intros z Hz. apply filter_In in Hz as (Hz & _). apply in_map_iff in Hz as (t & <- & _). eauto.
      - exact EP.
      - apply in_or_app. right. now left.
      - discriminate. }
    apply (G (nextS r p F)).
    + intros z Hz. apply (next_in g labels upper _ _ _ _ Hz).
    + exists a1, a2, b. rewrite E. rewrite <- app_assoc. reflexivity.
    + unfold MorseCplxProofs.nextS. destruct p as [|q p]; [eauto|]. exists (fun f => F f && (candS g (q :: p) (ubS g (q :: p) r) f && admS g upper (q :: p) r f)). clear.
      induction labels as [|f l IH]; [reflexivity|]. cbn [filter]. destruct (F f); cbn [andb filter]; [|exact IH]. destruct (candS g (q :: p) (ubS g (q :: p) r) f); cbn [andb filter]; [|exact IH]. destruct (admS g upper (q :: p) r f); [now rewrite IH|exact IH].
  - exists t. split; [reflexivity|]. apply (next_after g labels Hord upper r p F t a1 (a2 ++ FVertex v :: b)); [rewrite E, <- app_assoc; reflexivity|]. apply in_or_app. right. now left.
Qed.

Section Cell.
Variable c : list factor.
Hypothesis HK : critical g n c.
Hypothesis Hdim : dimension c <= 1.
Hypothesis HL : listed c.
Hypothesis Hup : upper <> Some 0.
Definition state (p rest : list factor) (F : factor -> bool) : Prop :=
  good p /\ okS F /\ bound g p F /\ (forall x y, x + 1 < y -> edge g x y = true -> F (FEdge x y) = true) /\
  (forall v, In (FVertex v) rest -> v = 0 \/ (exists w, child g w v /\ occupied p w) -> F (FVertex v) = true).
Lemma c_closed f : In f c -> closed_cell g f.
Proof. destruct HK as ((_ & HF & _) & _). rewrite Forall_forall in HF. apply HF. Qed.
Lemma c_disjoint a b v : In a c -> In b c -> In v (verts a) -> In v (verts b) -> a = b.
Proof. intros Ha Hb Va Vb. destruct HK as ((_ & _ & PD) & _). destruct (FOP_in disjoint c PD disjoint_sym a b Ha Hb) as [|D]; [assumption|]. now destruct (D v Va). Qed.
Section Step.
Variables (p rest : list factor) (f : factor).
Hypothesis Hc : c = rev p ++ f :: rest.
Lemma in_c h : In h c <-> In h p \/ h = f \/ In h rest.
Proof. rewrite Hc, in_app_iff, <- in_rev. cbn [In]. intuition. Qed.
Lemma lows : (forall h, In h p -> low h < low f) /\ (forall h, In h rest -> low f < low h).
Proof. pose proof HL as K. unfold listed in K. rewrite Hc in K. apply SS_mid in K as (K1 & K2). split; [intros h Hh; apply K1; now apply -> in_rev|exact K2]. Qed.
End Step.
Lemma step_next p rest f (Hc : c = rev p ++ f :: rest) r F : length rest = r -> state p (f :: rest) F -> In f (nextS r p F).
Proof.
  intros Lr (HG & HO & HB & HE & HN). pose proof (in_c p rest f Hc) as INC. destruct (lows p rest f Hc) as (Low1 & Low2). assert (Hf : In f c) by (apply INC; auto). pose proof (c_closed f Hf) as CF.
  assert (HF : F f = true).
  { destruct f as [x y|v]; [apply HE; [now apply (crit_skip g n HS c HK)|apply CF]|]. apply HN; [now left|]. destruct (Nat.eq_dec v 0) as [|Nv]; [now left|right]. destruct (crit_star g n HS c HK Hdim v Hf Nv) as (w & C & (h & Hh & Hw) & _). exists w. split; [exact C|].
    destruct (child_lt g HA w v C) as (Lw & _). exists h. split; [|exact Hw]. pose proof (verts_low g h w (c_closed h Hh) Hw) as K. apply INC in Hh as [Hh|[->|Hh]]; [exact Hh|cbn in K; lia|specialize (Low2 h Hh); cbn [low] in Low2; lia]. }
  destruct (list_eq_dec f_dec p []) as [Ep|Ep]; [rewrite Ep; apply filter_In; split; [now apply Hlab|exact HF]|].
  assert (Lp : length p + S r = n). { destruct HK as ((Ln & _) & _). rewrite Hc, app_length, rev_length in Ln. cbn [length] in Ln. lia. }
  assert (Dp : forall h, In h p -> disjoint f h). { intros h Hh v H1 H2. assert (Eh : f = h) by (apply (c_disjoint f h v); auto; apply INC; auto). subst h. specialize (Low1 f Hh). lia. }
  apply (next_cand g labels upper); [exact Ep|]. split; [now apply Hlab|]. split; [exact HF|].
  assert (UB : low f < ubS g p r).
  { destruct (top_N g n HS) as (_ & Nn). pose proof (room_ok g HA n (sp_high g n HS) p r HG Nn Lp) as RO. destruct (room_spec p r N RO) as (u2 & E2 & _).
    assert (R2 : low f < u2).
    { apply (room_above p r N u2 (low f) E2 RO). assert (LN : forall h, In h c -> low h < N). { intros h Hh. pose proof (c_closed h Hh) as K. destruct h as [x y|x]; cbn in *; [destruct K as (K1 & K2); apply (edge_lt g x y (AR_GI g HA) K2)|exact K]. }
      split; [|now apply LN]. rewrite <- Lr, <- (map_length low rest). apply nfree_count; [apply LN in Hf; lia| |].
      - assert (SS : StronglySorted (fun a b => low a < low b) rest). { pose proof HL as K. unfold listed in K. rewrite Hc in K. clear -K. induction (rev p) as [|h l IH]; cbn [app] in K; apply StronglySorted_inv in K as (K & _); auto. }
        clear -SS. induction SS as [|h l S1 IH F1]; [constructor|]. cbn [map]. constructor; [|exact IH]. rewrite Forall_forall in F1. intros K. apply in_map_iff in K as (k & E & Hk). specialize (F1 k Hk). lia.
      - intros v Hv. apply in_map_iff in Hv as (h & <- & Hh). assert (Hhc : In h c) by (apply INC; auto). split; [specialize (Low2 h Hh); apply LN in Hhc; lia|]. apply freeb_iff. intros (k & Hk & Kv). assert (Vh : In (low h) (verts h)) by (destruct h; cbn; auto).
        assert (k = h) by (apply (c_disjoint k h (low h)); auto; apply INC; auto). subst k. specialize (Low1 h Hk). specialize (Low2 h Hh). lia. }
    unfold ubS. rewrite E2. destruct (unpaidS g p) as [|[x1 y1|t] us] eqn:Eu; [exact R2| |exact R2]. assert (K : In (FEdge x1 y1) (unpaidS g p)) by (rewrite Eu; now left). unfold unpaidS in K. apply filter_In in K as (K & NP). apply filter_In in K as (K & KT). apply filter_In in K as (K & _).
    assert (Hc1 : In (FEdge x1 y1) c) by (apply INC; auto). cbn [treeb] in KT. destruct (c_closed _ Hc1) as (L1 & _). apply (childb_iff g x1 y1 L1) in KT. apply (te_child g HA) in KT. destruct (crit_paid g n c HK Hdim x1 y1 Hc1 KT) as (t & Ht & Lt).
    assert (low f <= t). { apply INC in Ht as [Ht|[Ht|Ht]]; [|subst f; cbn; lia|specialize (Low2 _ Ht); cbn [low] in Low2; lia]. exfalso. apply negb_true_iff in NP. assert (existsb (paysb (FEdge x1 y1)) (filter is_vertex p) = true); [|congruence].
      apply existsb_exists. exists (FVertex t). split; [apply filter_In; auto|]. unfold paysb. apply andb_true_iff. split; apply Nat.ltb_lt; lia. }
    destruct (u2 <? y1); [exact R2|lia]. }
  assert (NE : forall x y, f = FEdge x y -> forall h, In h p -> is_edge h = false).
  { intros x y Ef [a b|t] Hh; [|reflexivity]. exfalso. assert (FEdge a b = FEdge x y) as Eh by (apply (crit_one c Hdim); apply INC; auto). rewrite Eh, <- Ef in Hh. specialize (Low1 _ Hh). lia. }
  split.
  - unfold candS. rewrite !andb_true_iff. split; [split; [split|]|].
    + apply forallb_forall. intros h Hh. apply disj_iff. now apply Dp.
    + apply f_gt_iff. destruct p as [|q p']; [congruence|]. cbn [hd]. split; [apply Dp|apply Low1]; now left.
    + apply orb_true_iff. destruct f as [x y|v]; [right; cbn [is_edge andb]; now apply Nat.ltb_lt|left; rewrite lt_vertex; now apply Nat.ltb_lt].
    + destruct f as [x y|v] eqn:Ef; [|reflexivity]. destruct CF as (Lxy & Exy). destruct (childb g x y) eqn:C; [|reflexivity]. apply (childb_iff g x y Lxy) in C. apply (te_child g HA) in C. destruct (crit_paid g n c HK Hdim x y Hf C) as (t & Ht & Lt).
      apply existsb_exists. exists t. split; [apply rng_in; lia|]. apply freeb_iff. intros (k & Hk & Kv). assert (k = FVertex t) as -> by (apply (c_disjoint k (FVertex t) t); auto; [apply INC; auto|cbn; auto]). specialize (Low1 _ Hk). cbn [low] in Low1. lia.
  - unfold admS. destruct f as [x y|v] eqn:Ef; [|reflexivity]. cbn [is_vertex]. rewrite <- Ef in *. assert (filter is_edge p = []) as FE. { destruct (filter is_edge p) as [|h t] eqn:E; [reflexivity|]. assert (K : In h (filter is_edge p)) by (rewrite E; now left). apply filter_In in K as (K1 & K2). rewrite (NE x y Ef h K1) in K2. discriminate. }
    unfold unpaidS. rewrite FE. cbn [filter length]. replace (r + 1 =? 0) with false by (symmetry; apply Nat.eqb_neq; lia).
    assert ((r =? 0) && treeb g f = false) as ->.
    { destruct (Nat.eqb_spec r 0) as [Er|]; [|reflexivity]. cbn [andb]. rewrite Ef. cbn [treeb]. destruct (childb g x y) eqn:C; [|reflexivity]. exfalso. rewrite Ef in CF. destruct CF as (Lxy & _). apply (childb_iff g x y Lxy) in C. apply (te_child g HA) in C. rewrite Ef in Hf. destruct (crit_paid g n c HK Hdim x y Hf C) as (t & Ht & Lt).
      apply INC in Ht as [Ht|[Ht|Ht]]; [specialize (Low1 _ Ht); rewrite Ef in Low1; cbn [low] in Low1; lia|congruence|]. rewrite Er in Lr. apply length_zero_iff_nil in Lr. rewrite Lr in Ht. contradiction. }
    assert (dimension p = 0) as ->. { unfold dimension. replace (fun f => match f with FEdge _ _ => true | FVertex _ => false end) with is_edge by reflexivity. now rewrite FE. }
    rewrite Ef; cbn [is_vertex]. destruct upper as [u|]; [|reflexivity]. destruct (Nat.eqb_spec 0 u) as [<-|]; [congruence|reflexivity].
Qed.
Lemma step_state p rest f (Hc : c = rev p ++ f :: rest) r F a b : length rest = S r -> state p (f :: rest) F -> nextS (S r) p F = a ++ f :: b -> state (f :: p) rest (addS (snd (fold_left (stepS r p) a ([], F))) (A f)).
Proof.
  intros Lr HST Efs. pose proof HST as (HG & HO & HB & HE & HN). pose proof (in_c p rest f Hc) as INC. destruct (lows p rest f Hc) as (Low1 & Low2). assert (Hf : In f c) by (apply INC; auto). pose proof (c_closed f Hf) as CF.
  assert (Hnf : In f (nextS (S r) p F)) by (rewrite Efs; apply in_or_app; right; now left). assert (Ha : forall h, In h a -> In h (nextS (S r) p F)) by (intros h Hh; rewrite Efs; apply in_or_app; now left).
  set (T := snd (fold_left (stepS r p) a ([], F))). assert (HT : forall h, T h = true -> F h = true) by (intros h; apply (fold_mono' g labels upper r p F a h); intros k Hk; apply (next_in g labels upper (S r) p F k (Ha k Hk))).
  assert (Lp : length p + S (S r) = n). { destruct HK as ((Ln & _) & _). rewrite Hc, app_length, rev_length in Ln. cbn [length] in Ln. lia. }
  split; [now apply (next_good g labels Hlab upper (S r) p F)|]. split; [apply (okS_add g labels Hlab); [intros x y K; apply HO; now apply HT|now apply Hlab]|]. split; [now apply (bound_add g p F)|].
  split; [intros x y L E; apply addS_true; left; apply fold_edges; [intros; now apply enum_edges|now apply HE]|].
  intros v Hv Hbl. assert (Hvc : In (FVertex v) c) by (apply INC; auto). pose proof (Low2 _ Hv) as Lv. cbn [low] in Lv. destruct Hbl as [->|(w & C & (h & Hh & Hw))]; [lia|].
  destruct (crit_star g n HS c HK Hdim v Hvc ltac:(lia)) as (w' & C' & _ & ST). assert (w' = w) by now apply (child_unique g _ _ v). subst w'. clear C'. destruct (child_lt g HA w v C) as (Lw & LvN & _). apply addS_true.
  assert (Hhc : In h c) by (apply INC; destruct Hh as [->|Hh]; auto). pose proof (c_closed h Hhc) as CH.
  assert (STh : forall y, In (FEdge w y) c -> h = FEdge w y) by (intros y Hy; apply (c_disjoint h (FEdge w y) w); auto; now left).
  destruct Hh as [<-|Hh].
  - right. destruct f as [x y|t]; cbn [verts In] in Hw.
    + destruct CF as (Lxy & Exy). destruct Hw as [->|[->|[]]]; [now apply (added_child g HA)|]. destruct ST as [<-|(y' & Hy')]; [|specialize (STh y' Hy'); injection STh as -> ->; lia].
      apply (added_after g); auto. destruct (tree_dec g n HS x w Lxy) as [K|NT]; [now apply (te_child g HA)|]. exfalso. destruct (sp_nontree g n HS x w Lxy Exy NT) as (_ & K). apply (K (w + 1)). now apply (te_child g HA).
    + destruct Hw as [->|[]]. destruct ST as [<-|(y' & Hy')]; [now apply (added_next g)|]. specialize (STh y' Hy'). discriminate.
  - left. assert (EX : exists x y, In (FEdge x y) p).
    { destruct h as [x y|t]; [eauto|]. exfalso. destruct Hw as [->|[]]. destruct ST as [<-|(y' & Hy')]; [specialize (Low1 _ Hh); cbn [low] in Low1; lia|specialize (STh y' Hy'); discriminate]. }
    destruct EX as (x & y & He). assert (Hec : In (FEdge x y) c) by (apply INC; auto). destruct (c_closed _ Hec) as (Lxy & Exy).
    assert (Ef : exists fs, f = FVertex fs). { destruct f as [x' y'|fs]; [|eauto]. exfalso. assert (FEdge x y = FEdge x' y') as K by (apply (crit_one c Hdim); auto). rewrite K in He. specialize (Low1 _ He). lia. } destruct Ef as (fs & Ef).
    assert (STx : w = x \/ w + 1 = v). { destruct ST as [|(y' & Hy')]; [now right|left]. assert (FEdge w y' = FEdge x y) as K by (apply (crit_one c Hdim); auto). congruence. }
    assert (VY : v <> y). { intros ->. assert (FVertex y = FEdge x y) as K by (apply (c_disjoint (FVertex y) (FEdge x y) y); auto; cbn; auto). discriminate. }
    assert (FV : F (FVertex v) = true). { apply HN; [now right|]. right. exists w. split; [exact C|]. exists h. split; assumption. }
    assert (REST : forall k, In k rest -> exists t, k = FVertex t /\ fs < t). { intros k Hk. specialize (Low2 k Hk). destruct k as [x' y'|t]; [|exists t; rewrite Ef in Low2; cbn in Low2; auto]. exfalso. assert (FEdge x y = FEdge x' y') as K by (apply (crit_one c Hdim); auto; apply INC; auto). specialize (Low1 _ He). rewrite K in Low1. lia. }
    unfold T. assert (FK : forall a' T' acc, (forall k, In k a' -> In k a) -> (forall k, T' k = true -> F k = true) -> T' (FVertex v) = true -> snd (fold_left (stepS r p) a' (acc, T')) (FVertex v) = true).
    { induction a' as [|k a' IH]; intros T' acc Hk HT' Tv; [exact Tv|]. cbn [fold_left]. unfold MorseCplxProofs.stepS at 2. cbn [fst snd]. pose proof (Hk k (or_introl eq_refl)) as Hka. rewrite Ef in Efs. destruct (before_vertex (S r) p F fs a b Efs k Hka) as (u & -> & Lu).
      pose proof (Ha _ Hka) as Hun. apply IH; [intros; apply Hk; now right| |].
      - intros q Hq. apply remS_true in Hq as (Hq & Nq). apply addS_true in Hq as [Hq|[<-|[]]]; [|apply (next_in g labels upper _ _ _ _ Hun)]. apply (enumS_mono g labels upper) in Hq. apply addS_true in Hq as [Hq|Hq]; [now apply HT'|contradiction].
      - rewrite Ef in Lv. cbn [low] in Lv. apply remS_true. split.
        + apply addS_true. left. apply (keep g n HS labels Hlab Hord upper x y v w u); auto.
          * now apply (crit_skip g n HS c HK).
          * intros Ev LF. assert (fs = u + 1) by lia. subst fs. rewrite Ef in Hf. destruct (crit_star g n HS c HK Hdim (u + 1) Hf ltac:(lia)) as (w2 & C2 & (k & Hkc & Kw) & ST2).
            destruct ST2 as [E2|(y2 & Hy2)].
            -- exfalso. assert (w2 = u) by lia. subst w2. pose proof (next_good g labels Hlab upper (S r) p F _ HG HO Hun) as (_ & G2 & _). apply INC in Hkc as [Hkc|[->|Hkc]].
               ++ inversion G2 as [|? ? D _]; subst. rewrite Forall_forall in D. apply (D k Hkc u); [now left|exact Kw].
               ++ rewrite Ef in Kw. cbn in Kw. lia.
               ++ destruct (REST k Hkc) as (t & -> & Lt). cbn in Kw. lia.
            -- assert (FEdge w2 y2 = FEdge x y) as K by (apply (crit_one c Hdim); auto). injection K as -> ->. apply (leaf_near g n HS x (u + 1)); auto. apply (skip_special g n HS x y); [now apply (crit_skip g n HS c HK)|exact Exy].
          * split; [now apply (next_good g labels Hlab upper (S r) p F)|]. split; [apply (okS_add g labels Hlab); [intros q1 q2 K; apply HO; now apply HT'|apply (next_in g labels upper _ _ _ _ Hun)]|]. split; [now right|]. split; [now left|]. split; [exists h; split; [now right|exact Hw]|]. now apply (bound_add g p F).
          * cbn [length]. lia.
          * apply addS_true. now left.
        + intros K. destruct (added_vertex g labels Hlab (FVertex u) _ (proj1 (next_in g labels upper _ _ _ _ Hun)) K) as (v' & Ev' & _ & M). injection Ev' as <-. lia. }
    apply FK; auto.
Qed.
Lemma complete : forall r p rest F, c = rev p ++ rest -> length rest = S r -> state p rest F -> In (rev rest ++ p) (fst (enumS r p F)).
Proof.
  induction r as [|r IH]; intros p rest F Hc Lr HST; (destruct rest as [|f rest]; [discriminate Lr|]); injection Lr as Lr.
  - apply length_zero_iff_nil in Lr. subst rest. cbn [rev app enumS fst]. apply in_map_iff. exists f. split; [reflexivity|]. apply (step_next p [] f Hc 0 F eq_refl HST).
  - rewrite enumS_S. pose proof (step_next p rest f Hc (S r) F Lr HST) as Hf. apply in_split in Hf as (a & b & Efs). apply fold_in. right. exists a, f, b. split; [exact Efs|]. cbn [rev]. rewrite <- app_assoc. cbn [app]. apply IH; [rewrite Hc; cbn [rev]; now rewrite <- app_assoc|exact Lr|].
    now apply (step_state p rest f Hc r F a b).
Qed.
Lemma complete_top r F : n = S r -> initS g labels F -> In (rev c) (fst (enumS r [] F)).
Proof.
  intros En (HF1 & HF2). rewrite <- (app_nil_r (rev c)). apply complete; [reflexivity|rewrite <- En; apply HK|]. split; [split; [constructor|]; split; [constructor|]; split; [constructor|]; intros x y []|]. split; [intros x y K _; now apply HF2 in K|].
  split; [intros w K; left; now apply HF1|]. split; [intros x y L E; now apply HF2|]. intros v Hv [->|(w & _ & (h & [] & _))]. now apply HF1.
Qed.
End Cell.
End Complete.
