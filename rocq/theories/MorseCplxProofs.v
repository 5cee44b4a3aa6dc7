(** [UdnMorseCplx]: the enumeration as a pure function, and [m_expand] computes it. *)
From Coq Require Import List Arith ZArith Bool Lia ZifyBool Sorted Permutation.
From Verif Require Import PidModel SnfModel SnfProofs2 MatModel MatProofs GraphModel GraphSpec GraphProofs GraphProofs7 GraphProofs8 UtilModel UtilSpec UtilProofs UtilProofs2 CubeModel CubeSpec CubeProofs CubeProofs2 CubeProofs3 MorseModel MorseSpec MorseProofs MorseCplxModel.
Import ListNotations.
Open Scope nat_scope.

(** Free vertices and [room]. *)
Definition freeb (p : list factor) (v : nat) : bool := forallb (fun f => is_disjoint_from f (FVertex v)) p.
Lemma freeb_iff p v : freeb p v = true <-> ~ occupied p v.
Proof.
  unfold freeb, occupied. rewrite forallb_forall. split.
  - intros H (f & Hf & Hv). specialize (H f Hf). rewrite disj_iff in H. apply (H v Hv). now left.
  - intros H f Hf. apply disj_iff. intros w Hw [<-|[]]. apply H. now exists f.
Qed.
Lemma freeb_exists p v : existsb (fun f => negb (is_disjoint_from f (FVertex v))) p = negb (freeb p v).
Proof. unfold freeb. induction p as [|f p IH]; [reflexivity|]. cbn [existsb forallb]. rewrite IH. now destruct (is_disjoint_from f (FVertex v)). Qed.
Definition nfree (p : list factor) (v : nat) : nat := length (filter (freeb p) (seq 0 v)).
Lemma nfree_S p v : nfree p (S v) = nfree p v + (if freeb p v then 1 else 0).
Proof. unfold nfree. rewrite seq_S, filter_app, app_length. cbn. now destruct (freeb p v). Qed.
Lemma nfree_mono p a b : a <= b -> nfree p a <= nfree p b.
Proof. induction 1 as [|b H IH]; [lia|]. rewrite nfree_S. lia. Qed.
Lemma down_free_spec p : forall v, 0 < nfree p v -> exists w, down_free p v = Some w /\ w < v /\ freeb p w = true /\ nfree p w + 1 = nfree p v.
Proof.
  induction v as [|v IH]; intros H; [cbn in H; lia|]. cbn [down_free]. rewrite freeb_exists. rewrite nfree_S in H. rewrite nfree_S. destruct (freeb p v) eqn:E; cbn [negb].
  - exists v. split; [reflexivity|]. split; [lia|]. split; [exact E|lia].
  - destruct IH as (w & A & B & C & D); [lia|]. exists w. split; [exact A|]. split; [lia|]. split; [exact C|lia].
Qed.
Lemma room_spec p : forall k v, k <= nfree p v -> exists w, room p k v = Some w /\ w <= v /\ nfree p w + k = nfree p v /\ (k = 0 -> w = v) /\ (0 < k -> freeb p w = true).
Proof.
  induction k as [|k IH]; intros v H; cbn [room].
  - exists v. split; [reflexivity|]. split; [lia|]. split; [lia|]. split; [reflexivity|lia].
  - destruct (down_free_spec p v ltac:(lia)) as (w & -> & A & B & C). cbn [obind]. destruct (IH w ltac:(lia)) as (u & -> & A' & B' & C' & D'). exists u. split; [reflexivity|]. split; [lia|]. split; [lia|]. split; [lia|].
    intros _. destruct k; [rewrite C' by reflexivity; exact B|apply D'; lia].
Qed.
(** [t] is below the bound exactly when enough free vertices are above it. *)
Lemma room_above p k v w t : room p k v = Some w -> k <= nfree p v -> (nfree p (S t) + k <= nfree p v /\ t < v <-> t < w).
Proof.
  intros E H. destruct (room_spec p k v H) as (w' & E' & A & B & C & D). rewrite E in E'. injection E' as <-. split.
  - intros (H1 & H2). destruct (Nat.eq_dec k 0) as [K|K]; [rewrite (C K); lia|]. specialize (D ltac:(lia)). destruct (Nat.lt_ge_cases t w) as [|L]; [assumption|]. exfalso.
    pose proof (nfree_mono p (S w) (S t) ltac:(lia)) as M. rewrite nfree_S, D in M. lia.
  - intros L. split; [|lia]. pose proof (nfree_mono p (S t) w L). lia.
Qed.
(** Free vertices are counted by lists. *)
Lemma nfree_count p a b l : a <= b -> NoDup l -> (forall v, In v l -> a <= v < b /\ freeb p v = true) -> nfree p a + length l <= nfree p b.
Proof.
  intros L ND H. unfold nfree. replace b with (a + (b - a)) by lia. rewrite seq_app, filter_app, app_length. cbn [Nat.add]. apply Nat.add_le_mono_l. apply NoDup_incl_length; [exact ND|].
  intros v Hv. apply filter_In. specialize (H v Hv). split; [apply in_seq; lia|apply H].
Qed.
Lemma verts_length p : length (flat_map verts p) = length p + dimension p.
Proof. unfold dimension. induction p as [|[x y|x] p IH]; [reflexivity| |]; cbn [flat_map verts app length filter]; rewrite ?IH; cbn [length]; lia. Qed.
Lemma nfree_lower p v : v <= nfree p v + length p + dimension p.
Proof.
  rewrite <- Nat.add_assoc, <- verts_length. unfold nfree. rewrite <- (seq_length v 0) at 1. rewrite <- app_length. apply NoDup_incl_length; [apply seq_NoDup|].
  intros w Hw. apply in_or_app. destruct (freeb p w) eqn:E; [left; now apply filter_In|right]. apply in_flat_map. destruct (in_dec Nat.eq_dec w (flat_map verts p)) as [K|K]; [now apply in_flat_map|]. exfalso.
  assert (freeb p w = true); [|congruence]. apply freeb_iff. intros (f & Hf & Hv). apply K. apply in_flat_map. eauto.
Qed.

(** Sets. *)
Definition addS (F : factor -> bool) (A : list factor) : factor -> bool := fun x => F x || existsb (f_eqb x) A.
Definition remS (F : factor -> bool) (A : list factor) : factor -> bool := fun x => F x && negb (existsb (f_eqb x) A).
Lemma existsb_in x A : existsb (f_eqb x) A = true <-> In x A.
Proof. rewrite existsb_exists. split; [intros (y & Hy & E); apply f_eqb_eq in E; now subst|intros H; exists x; split; [exact H|apply f_eqb_refl]]. Qed.
Lemma addS_true F A x : addS F A x = true <-> F x = true \/ In x A.
Proof. unfold addS. now rewrite orb_true_iff, existsb_in. Qed.
Lemma remS_true F A x : remS F A x = true <-> F x = true /\ ~ In x A.
Proof. unfold remS. rewrite andb_true_iff, negb_true_iff. rewrite <- existsb_in. destruct (existsb (f_eqb x) A); split; intros (H1 & H2); split; congruence. Qed.
Lemma p_add_spec labels F s x : NoDup labels -> LRel labels F s -> In x labels -> exists s', p_add s x = Some s' /\ LRel labels (addS F [x]) s'.
Proof.
  intros ND HR Hx. destruct (lstep_rel f_eqb f_eqb_eq labels F s (LAdd x) ND HR Hx) as (s' & E & HR'). exists s'. split; [exact E|]. eapply LRel_ext; [|exact HR']. intros y. unfold addS. cbn [existsb].
  rewrite orb_false_r. destruct (f_eqb x y) eqn:E1.
  - apply f_eqb_eq in E1. subst y. rewrite f_eqb_refl. now rewrite orb_true_r.
  - destruct (f_eqb y x) eqn:E2; [apply f_eqb_eq in E2; subst y; rewrite f_eqb_refl in E1; discriminate E1|]. now rewrite orb_false_r.
Qed.
Lemma p_remove_spec labels F s x : NoDup labels -> LRel labels F s -> In x labels -> exists s', p_remove s x = Some s' /\ LRel labels (remS F [x]) s'.
Proof.
  intros ND HR Hx. destruct (lstep_rel f_eqb f_eqb_eq labels F s (LRemove x) ND HR Hx) as (s' & E & HR'). exists s'. split; [exact E|]. eapply LRel_ext; [|exact HR']. intros y. unfold remS. cbn [existsb].
  rewrite orb_false_r. destruct (f_eqb x y) eqn:E1.
  - apply f_eqb_eq in E1. subst y. rewrite f_eqb_refl. now rewrite andb_false_r.
  - destruct (f_eqb y x) eqn:E2; [apply f_eqb_eq in E2; subst y; rewrite f_eqb_refl in E1; discriminate E1|]. now rewrite andb_true_r.
Qed.
Lemma p_adds labels : NoDup labels -> forall A F s, LRel labels F s -> incl A labels -> exists s', foldM p_add A s = Some s' /\ LRel labels (addS F A) s'.
Proof.
  intros ND. induction A as [|a A IH]; intros F s HR HI.
  - exists s. split; [reflexivity|]. eapply LRel_ext; [|exact HR]. intros x. unfold addS. cbn. now rewrite orb_false_r.
  - cbn [foldM]. destruct (p_add_spec labels F s a ND HR) as (s1 & -> & HR1); [apply HI; now left|]. cbn [obind]. destruct (IH _ s1 HR1) as (s2 & -> & HR2); [intros x Hx; apply HI; now right|]. exists s2. split; [reflexivity|].
    eapply LRel_ext; [|exact HR2]. intros x. unfold addS. cbn [existsb]. now rewrite orb_false_r, orb_assoc.
Qed.
Lemma p_removes labels : NoDup labels -> forall A F s, LRel labels F s -> incl A labels -> exists s', foldM p_remove A s = Some s' /\ LRel labels (remS F A) s'.
Proof.
  intros ND. induction A as [|a A IH]; intros F s HR HI.
  - exists s. split; [reflexivity|]. eapply LRel_ext; [|exact HR]. intros x. unfold remS. cbn. now rewrite andb_true_r.
  - cbn [foldM]. destruct (p_remove_spec labels F s a ND HR) as (s1 & -> & HR1); [apply HI; now left|]. cbn [obind]. destruct (IH _ s1 HR1) as (s2 & -> & HR2); [intros x Hx; apply HI; now right|]. exists s2. split; [reflexivity|].
    eapply LRel_ext; [|exact HR2]. intros x. unfold remS. cbn [existsb]. rewrite orb_false_r. rewrite negb_orb. now rewrite andb_assoc.
Qed.

(** The pure functions. *)
Section Pure.
Variable g : rawg.
Variable labels : list factor.
Variable upper : option nat.
Definition treeb (f : factor) : bool := match f with FEdge x y => childb g x y | FVertex _ => true end.
Definition paysb (e v : factor) : bool := match e, v with FEdge x y, FVertex k => (x <? k) && (k <? y) | _, _ => false end.
Definition unpaidS (p : list factor) : list factor :=
  filter (fun e => negb (existsb (paysb e) (filter is_vertex p))) (filter treeb (filter is_edge p)).
Definition ubS (p : list factor) (r : nat) : nat :=
  match room p r (g_n g) with
  | None => 0
  | Some u2 => match unpaidS p with FEdge _ y :: _ => if u2 <? y then u2 else y | _ => u2 end
  end.
Definition candS (p : list factor) (ub : nat) (f : factor) : bool :=
  forallb (fun q => is_disjoint_from f q) p && f_gt f (hd (FVertex 0) p) && (f_lt f (FVertex ub) || is_edge f && (low f <? ub)) &&
  match f with FEdge x y => if childb g x y then existsb (freeb p) (rng (x + 1) y) else true | FVertex _ => true end.
Definition admS (p : list factor) (r : nat) (f : factor) : bool :=
  if is_vertex f then true else
  if r + 1 =? length (unpaidS p) then false else
  if (r =? 0) && treeb f then false else
  negb (match upper with Some u => dimension p =? u | None => false end).
Definition nextS (r : nat) (p : list factor) (F : factor -> bool) : list factor :=
  match p with [] => filter F labels | _ => filter (admS p r) (filter (candS p (ubS p r)) (filter F labels)) end.
Definition addedS (f : factor) : list factor :=
  match f with
  | FVertex v => if v + 1 <? g_n g then [FVertex (v + 1)] else []
  | FEdge x y => map FVertex (filter (fun v => childb g x v) (filter (fun v => x <? v) (seq 0 (g_n g)))) ++ (if childb g x y then if y + 1 <? g_n g then [FVertex (y + 1)] else [] else [])
  end.
Fixpoint enumS (r : nat) (p : list factor) (F : factor -> bool) : list (list factor) * (factor -> bool) :=
  let fs := nextS r p F in
  match r with
  | O => (map (fun f => f :: p) fs, F)
  | S r' => fold_left (fun st f => let res := enumS r' (f :: p) (addS (snd st) (addedS f)) in (fst st ++ fst res, remS (addS (snd res) [f]) (addedS f))) fs ([], F)
  end.
Definition stepS (r : nat) (p : list factor) (st : list (list factor) * (factor -> bool)) (f : factor) : list (list factor) * (factor -> bool) :=
  let res := enumS r (f :: p) (addS (snd st) (addedS f)) in (fst st ++ fst res, remS (addS (snd res) [f]) (addedS f)).
Lemma enumS_S r p F : enumS (S r) p F = fold_left (stepS r p) (nextS (S r) p F) ([], F).
Proof. reflexivity. Qed.
End Pure.

Section Expand.
Variable g : rawg.
Hypothesis HA : AR g.
Variable labels : list factor.
Hypothesis HND : NoDup labels.
Hypothesis Hlab : forall f, In f labels <-> closed_cell g f.
Variable upper : option nat.
Notation N := (g_n g).

Definition good (p : list factor) : Prop :=
  Forall (closed_cell g) p /\ ForallOrdPairs disjoint p /\ StronglySorted (fun a b => low b < low a) p /\ forall x y, In (FEdge x y) p -> x + 1 < y.
Definition okS (F : factor -> bool) : Prop := forall x y, F (FEdge x y) = true -> In (FEdge x y) labels -> x + 1 < y.
Lemma lab_vertex v : In (FVertex v) labels <-> v < N.
Proof. rewrite Hlab. reflexivity. Qed.
Lemma lab_edge x y : In (FEdge x y) labels <-> x < y /\ edge g x y = true.
Proof. rewrite Hlab. reflexivity. Qed.

Lemma in_tree f : closed_cell g f -> is_in_maximal_tree g f = Some (treeb g f).
Proof.
  destruct f as [x y|v]; [|reflexivity]. intros [H E]. pose proof (edge_lt g x y (AR_GI g HA) E) as (_ & Hy & _). cbn [is_in_maximal_tree treeb]. apply tree_contains_spec; auto; [apply AR_GI, HA|apply AR_tree, HA].
Qed.
Lemma unpaid_spec p : good p -> unpaid_edges g p = Some (unpaidS g p).
Proof.
  intros (HF & _). unfold unpaid_edges, unpaidS. rewrite (CubeProofs.filterM_filter _ (treeb g)).
  2:{ intros f Hf. apply filter_In in Hf as (Hf & _). apply in_tree. rewrite Forall_forall in HF. now apply HF. }
  cbn [obind]. apply CubeProofs.filterM_filter. intros e He. apply filter_In in He as (He & _). apply filter_In in He as (_ & He). destruct e as [x y|v]; [|discriminate He].
  rewrite (anyM_existsb _ (paysb (FEdge x y))); [reflexivity|]. intros v Hv. apply filter_In in Hv as (_ & Hv). destruct v as [a b|v]; [discriminate Hv|]. reflexivity.
Qed.
Lemma cand_spec p ub f : closed_cell g f -> candidate g p (hd (FVertex 0) p) (FVertex ub) f = Some (candS g p ub f).
Proof.
  intros Hf. unfold candidate, candS. destruct (forallb (fun q => is_disjoint_from f q) p); [|reflexivity]. cbn [negb andb]. destruct (f_gt f (hd (FVertex 0) p)); [|reflexivity]. cbn [negb andb].
  destruct (f_lt f (FVertex ub)) eqn:E1; cbn [obind negb orb andb].
  - destruct f as [x y|v]; [|reflexivity]. rewrite (in_tree _ Hf). cbn [obind treeb]. reflexivity.
  - destruct f as [x y|v]; cbn [is_edge andb]; [|reflexivity]. unfold terminal, f_edge. cbn [obind fst].
    assert (f_lt (FVertex x) (FVertex ub) = (x <? ub)) as ->.
    { destruct (Nat.eq_dec x ub) as [->|Ne]; [unfold f_lt, f_partial_cmp; cbn [f_eqb]; rewrite Nat.eqb_refl; symmetry; apply Nat.ltb_irrefl|]. rewrite f_lt_disjoint; [reflexivity|]. apply disj_iff. cbn. lia. }
    cbn [low]. destruct (x <? ub); cbn [negb]; [|reflexivity]. rewrite (in_tree _ Hf). reflexivity.
Qed.
Lemma adm_spec p r f : closed_cell g f -> admitted g upper (length (unpaidS g p)) (dimension p) r f = Some (admS g upper p r f).
Proof.
  intros Hf. unfold admitted, admS. destruct (is_vertex f); [reflexivity|]. destruct (r + 1 =? length (unpaidS g p)); [reflexivity|]. rewrite (in_tree f Hf). destruct (r =? 0); cbn [obind andb]; [|reflexivity]. now destruct (treeb g f).
Qed.
Lemma added_spec f : In f labels -> factors_added g f = Some (addedS g f).
Proof.
  intros Hf. apply Hlab in Hf. destruct f as [x y|v]; [|reflexivity]. unfold factors_added, addedS. rewrite (in_tree _ Hf). cbn [obind treeb].
  replace (filter (fun v => f_gt (FVertex v) (FVertex x)) (seq 0 N)) with (filter (fun v => x <? v) (seq 0 N)).
  2:{ apply filter_ext. intros v. destruct (Nat.ltb_spec x v) as [L|L]; symmetry.
      - apply f_gt_iff. split; [|exact L]. apply disj_iff. cbn. lia.
      - destruct (f_gt (FVertex v) (FVertex x)) eqn:E; [|reflexivity]. apply f_gt_iff in E as (_ & E). cbn in E. lia. }
  rewrite (CubeProofs.filterM_filter _ (fun v => childb g x v)); [reflexivity|]. intros v Hv. apply filter_In in Hv as (Hv & Lv). apply in_seq in Hv. apply Nat.ltb_lt in Lv.
  destruct (has_parent g HA v) as (w & C); [lia|lia|]. rewrite (f_flow_child g HA w v C). cbn [obind]. unfold terminal, f_edge. cbn [obind fst]. f_equal. cbn [f_eqb].
  destruct (childb g x v) eqn:E.
  - apply (childb_iff g x v Lv) in E. rewrite (child_unique g _ _ _ C E). apply Nat.eqb_refl.
  - apply Nat.eqb_neq. intros ->. apply (childb_iff g x v Lv) in C. congruence.
Qed.
Lemma added_vertex f a : In f labels -> In a (addedS g f) -> exists v, a = FVertex v /\ low f < v < N /\
  match f with FVertex u => v = u + 1 | FEdge x y => child g x v \/ (v = y + 1 /\ child g x y) end.
Proof.
  intros Hf. apply Hlab in Hf. destruct f as [x y|u]; cbn [addedS low].
  - destruct Hf as (Hxy & _). intros H. apply in_app_or in H as [H|H].
    + apply in_map_iff in H as (v & <- & H). apply filter_In in H as (H & C). apply filter_In in H as (H & L). apply in_seq in H. apply Nat.ltb_lt in L. exists v. split; [reflexivity|]. split; [lia|]. left. now apply childb_iff.
    + destruct (childb g x y) eqn:C; [|contradiction]. destruct (Nat.ltb_spec (y + 1) N); [|contradiction]. destruct H as [<-|[]]. exists (y + 1). split; [reflexivity|]. split; [lia|right; split; [reflexivity|now apply childb_iff]].
  - destruct (Nat.ltb_spec (u + 1) N); [|contradiction]. intros [<-|[]]. exists (u + 1). split; [reflexivity|]. split; [lia|reflexivity].
Qed.
Lemma added_child x y v : x < y -> child g x v -> In (FVertex v) (addedS g (FEdge x y)).
Proof.
  intros Hxy C. destruct (child_lt g HA x v C) as (L1 & L2 & _). cbn [addedS]. apply in_or_app. left. apply in_map, filter_In. split; [|now apply childb_iff]. apply filter_In. split; [apply in_seq; lia|now apply Nat.ltb_lt].
Qed.
Lemma added_after x y : x < y -> child g x y -> y + 1 < N -> In (FVertex (y + 1)) (addedS g (FEdge x y)).
Proof. intros Hxy C L. cbn [addedS]. apply in_or_app. right. rewrite (proj2 (childb_iff g x y Hxy) C), (proj2 (Nat.ltb_lt _ _) L). now left. Qed.
Lemma added_next v : v + 1 < N -> In (FVertex (v + 1)) (addedS g (FVertex v)).
Proof. intros L. cbn [addedS]. rewrite (proj2 (Nat.ltb_lt _ _) L). now left. Qed.
Lemma added_labels f : In f labels -> incl (addedS g f) labels.
Proof. intros Hf a Ha. destruct (added_vertex f a Hf Ha) as (v & -> & H & _). apply lab_vertex. lia. Qed.

Lemma next_in r p F f : In f (nextS g labels upper r p F) -> In f labels /\ F f = true.
Proof. unfold nextS. destruct p; [intros H; now apply filter_In in H|]. intros H. apply filter_In in H as (H & _). apply filter_In in H as (H & _). now apply filter_In in H. Qed.
Lemma next_cand r p F f : p <> [] -> In f (nextS g labels upper r p F) <-> In f labels /\ F f = true /\ candS g p (ubS g p r) f = true /\ admS g upper p r f = true.
Proof. intros Hp. unfold nextS. destruct p; [congruence|]. rewrite !filter_In. tauto. Qed.
Lemma next_good r p F f : good p -> okS F -> In f (nextS g labels upper r p F) -> good (f :: p).
Proof.
  intros (H1 & H2 & H3 & H4) HO Hf. pose proof (next_in _ _ _ _ Hf) as (Hl & HF). split; [constructor; [now apply Hlab|exact H1]|].
  assert (K : Forall (disjoint f) p /\ Forall (fun b => low b < low f) p).
  { destruct p as [|q p']; [split; constructor|]. apply next_cand in Hf; [|discriminate]. destruct Hf as (_ & _ & HC & _). unfold candS in HC. rewrite !andb_true_iff in HC. destruct HC as (((C1 & C2) & _) & _). split.
    - apply Forall_forall. intros x Hx. rewrite forallb_forall in C1. apply disj_iff. now apply C1.
    - cbn [hd] in C2. apply f_gt_iff in C2 as (_ & C2). constructor; [exact C2|]. apply StronglySorted_inv in H3 as (_ & H3). eapply Forall_impl; [|exact H3]. intros b Hb. cbn in Hb. lia. }
  destruct K as (K1 & K2). split; [constructor; assumption|]. split; [constructor; assumption|]. intros x y [->|Hin]; [|now apply H4]. now apply HO.
Qed.
Lemma okS_add F f : okS F -> In f labels -> okS (addS F (addedS g f)).
Proof. intros HO Hf x y H Hl. apply addS_true in H as [H|H]; [now apply HO|]. destruct (added_vertex f _ Hf H) as (v & K & _). discriminate K. Qed.
Lemma okS_rem F f A : okS F -> okS (fun x => f_eqb x f) -> okS (remS (addS F [f]) A).
Proof. intros HO Hf x y H Hl. apply remS_true in H as (H & _). apply addS_true in H as [H|[->|[]]]; [now apply HO|]. apply Hf; [apply f_eqb_refl|exact Hl]. Qed.
(** The set never grows over a call. *)
Lemma fold_mono r p (IH : forall q F x, snd (enumS g labels upper r q F) x = true -> F x = true) : forall fs ps F F0,
  (forall f, In f fs -> F0 f = true) -> (forall x, F x = true -> F0 x = true) -> forall x, snd (fold_left (stepS g labels upper r p) fs (ps, F)) x = true -> F0 x = true.
Proof.
  induction fs as [|f fs IHf]; intros ps F F0 H1 H2 x Hx; [now apply H2|]. cbn [fold_left] in Hx. unfold stepS in Hx at 2. cbn [fst snd] in Hx. eapply IHf; [| |exact Hx]; [intros; apply H1; now right|].
  intros y Hy. apply remS_true in Hy as (Hy & Ny). apply addS_true in Hy as [Hy|[<-|[]]]; [|apply H1; now left]. apply IH in Hy. apply addS_true in Hy as [Hy|Hy]; [now apply H2|contradiction].
Qed.
Lemma enumS_mono : forall r p F x, snd (enumS g labels upper r p F) x = true -> F x = true.
Proof.
  induction r as [|r IH]; intros p F x; [cbn; auto|]. rewrite enumS_S. apply (fold_mono r p IH); [|auto]. intros f Hf. apply (next_in _ _ _ _ Hf).
Qed.
Lemma enumS_ok r p F : okS F -> okS (snd (enumS g labels upper r p F)).
Proof. intros HO x y H. apply HO. now apply enumS_mono in H. Qed.

Variable n : nat.
(** Every edge that skips a vertex ends at n - 1 or later. *)
Hypothesis Hhigh : forall x y, edge g x y = true -> x + 1 < y -> n <= y + 1.
Lemma dim_high p : good p -> dimension p + (n - 1) <= N \/ dimension p = 0.
Proof.
  intros (HF & PD & _ & HE). rewrite Forall_forall in HF. destruct (Nat.eq_dec (dimension p) 0) as [|Nz]; [now right|left].
  set (ys := flat_map (fun f => match f with FEdge _ y => [y] | FVertex _ => [] end) p).
  assert (K : length ys = dimension p).
  { unfold ys, dimension. clear. induction p as [|[x y|x] p IH]; [reflexivity| |]; cbn; now rewrite ?IH. }
  assert (ND : NoDup ys).
  { clear -PD. unfold ys. induction PD as [|a p D PD IH]; [constructor|]. destruct a as [x y|x]; cbn [flat_map app]; [|exact IH]. constructor; [|exact IH].
    intros H. apply in_flat_map in H as (f & Hf & Hy). destruct f as [a b|b]; cbn in Hy; [|contradiction]. destruct Hy as [->|[]]. rewrite Forall_forall in D. apply (D _ Hf y); cbn; auto. }
  assert (IN : incl ys (seq (n - 1) (N - (n - 1)))).
  { intros y Hy. apply in_flat_map in Hy as (f & Hf & Hy). destruct f as [a b|b]; cbn in Hy; [|contradiction]. destruct Hy as [->|[]]. specialize (HF _ Hf). destruct HF as (_ & E). pose proof (Hhigh a y E (HE a y Hf)).
    pose proof (edge_lt g a y (AR_GI g HA) E). apply in_seq. lia. }
  pose proof (NoDup_incl_length ND IN) as L. rewrite seq_length in L. lia.
Qed.
Lemma room_ok p r : good p -> n <= N -> length p + S r = n -> r <= nfree p N.
Proof. intros HG HN HL. pose proof (nfree_lower p N). destruct (dim_high p HG); lia. Qed.
Lemma ub_spec p r : good p -> n <= N -> length p + S r = n -> upper_bound g p (unpaidS g p) r = Some (FVertex (ubS g p r)).
Proof.
  intros HG HN HL. unfold upper_bound, ubS. destruct (room_spec p r N (room_ok p r HG HN HL)) as (w & -> & _). destruct (unpaidS g p) as [|e t] eqn:E; [reflexivity|].
  assert (He : In e (unpaidS g p)) by (rewrite E; now left). unfold unpaidS in He. apply filter_In in He as (He & _). apply filter_In in He as (He & _). apply filter_In in He as (_ & He). destruct e as [x y|v]; [|discriminate He]. reflexivity.
Qed.
Lemma next_spec c s F i p r : up (c_data c) i p -> c_pool c = g -> good p -> n <= N -> length p + S r = n -> LRel labels F s ->
  next_factors upper c s i r = Some (nextS g labels upper r p F).
Proof.
  intros HU HP HG HN HL HR. unfold next_factors. rewrite HP. rewrite (factor_iter_up _ _ _ HU). cbn [obind]. rewrite (unpaid_spec p HG). cbn [obind]. rewrite (ub_spec p r HG HN HL). cbn [obind].
  destruct (up_val _ _ _ HU) as (b & -> & Hb). cbn [obind]. rewrite (proj1 (lset_obs f_eqb f_eqb_eq labels F s HR)). cbn [obind]. rewrite Hb.
  rewrite (CubeProofs.filterM_filter _ (candS g p (ubS g p r))). 2:{ intros f Hf. apply filter_In in Hf as (Hf & _). apply cand_spec. now apply Hlab. }
  cbn [obind]. rewrite (dim_of_up _ _ _ HU). cbn [obind]. rewrite (CubeProofs.filterM_filter _ (admS g upper p r)).
  2:{ intros f Hf. apply filter_In in Hf as (Hf & _). apply filter_In in Hf as (Hf & _). apply adm_spec. now apply Hlab. }
  unfold nextS. destruct p; [|reflexivity]. now apply up_nonnil in HU.
Qed.
Lemma Forall2_seq {A} (P : nat -> A -> Prop) : forall (l : list A) a, (forall k x, nth_error l k = Some x -> P (a + k) x) -> Forall2 P (seq a (length l)) l.
Proof.
  induction l as [|x l IH]; intros a H; [constructor|]. cbn [length seq]. constructor; [specialize (H 0 x eq_refl); now rewrite Nat.add_0_r in H|]. apply IH. intros k y Hy. replace (S a + k) with (a + S k) by lia. now apply H.
Qed.
Definition extends (d d' : list branch) : Prop := length d <= length d' /\ forall k p, up d k p -> up d' k p.
Lemma extends_trans a b c : extends a b -> extends b c -> extends a c.
Proof. intros (L1 & U1) (L2 & U2). split; [lia|auto]. Qed.
Definition at_node (d : list branch) (parent : option nat) (p : list factor) : Prop :=
  match parent with None => p = [] /\ d = [] | Some i => up d i p end.
Lemma grow_spec c parent p fs ps : Inv g n c ps -> at_node (c_data c) parent p ->
  exists c', grow c parent fs = Some c' /\ Inv g n c' ps /\ extends (c_data c) (c_data c') /\ length (c_data c') = length (c_data c) + length fs /\
    Forall2 (fun j f => up (c_data c') j (f :: p)) (seq (length (c_data c)) (length fs)) fs.
Proof.
  intros HI HN. unfold grow. set (d := c_data c) in *. destruct parent as [i|]; cbn [at_node] in HN.
  - destruct (up_val _ _ _ HN) as (b & E & Hb). fold d. rewrite E. cbn [obind]. set (d' := MatModel.lset d i _ ++ _).
    assert (Li : i < length d) by (apply nth_error_Some; congruence).
    assert (A : agree i d d').
    { split; [unfold d'; rewrite app_length, lset_length; lia|]. split.
      - intros k b' Hk Ek. assert (k < length d) by (apply nth_error_Some; congruence). unfold d'. rewrite nth_error_app1 by (rewrite lset_length; assumption). rewrite lset_nth_error. now rewrite (proj2 (Nat.eqb_neq _ _) Hk).
      - intros b' Eb'. assert (b' = b) by congruence. subst b'. eexists. unfold d'. rewrite nth_error_app1 by (rewrite lset_length; assumption). rewrite lset_nth_error, Nat.eqb_refl, (proj2 (Nat.ltb_lt _ _) Li). reflexivity. }
    eexists. split; [reflexivity|]. cbn [c_data]. fold d'. split; [now apply (Inv_agree g n c _ i)|]. split; [split; [apply A|intros k q; now apply (agree_up i)]|].
    split; [unfold d'; rewrite app_length, lset_length, map_length; reflexivity|].
    apply Forall2_seq. intros k f Hf. assert (Ef : nth_error d' (length d + k) = Some (Branch (Some i) [] f)).
    { unfold d'. rewrite nth_error_app2 by (rewrite lset_length; lia). rewrite lset_length. replace (length d + k - length d) with k by lia. now rewrite nth_error_map, Hf. }
    change f with (b_val (Branch (Some i) [] f)). apply (up_step _ _ i); [exact Ef|reflexivity|lia|]. now apply (agree_up i d).
  - destruct HN as (-> & E0). eexists. split; [reflexivity|]. cbn [c_data]. fold d. rewrite E0. cbn [app length]. split; [|split; [|split]].
    + destruct HI as [A B C D]. constructor; auto. cbn [c_final c_data]. fold d in B. rewrite E0 in B. eapply CubeProofs2.Forall2_impl; [|exact B]. intros k p U. apply up_lt in U. cbn in U. lia.
    + split; [cbn; lia|]. intros k p U. apply up_lt in U. cbn in U. lia.
    + now rewrite map_length.
    + apply Forall2_seq. intros k f Hf. change f with (b_val (Branch None [] f)). apply up_root; [|reflexivity]. cbn [Nat.add]. now rewrite nth_error_map, Hf.
Qed.
Definition tallied (c : cplx) (ps : list (list factor)) : Prop := c_ranks c = map (fun k => count k ps) (seq 0 (n + 1)) /\ c_dim c = top_dim ps.
Lemma count_spec c i p ps : tallied c ps -> up (c_data c) i p -> length p <= n ->
  exists c', count_cell c i = Some c' /\ c_pool c' = c_pool c /\ c_data c' = c_data c /\ c_final c' = c_final c /\ tallied c' (ps ++ [p]).
Proof.
  intros (T1 & T2) HU Hp. unfold count_cell. rewrite (dim_of_up c i p) by exact HU. cbn [obind]. rewrite T1. pose proof (dimension_le p) as Hd.
  rewrite nth_error_map, nth_error_nth' with (d := 0) by (rewrite seq_length; lia). rewrite seq_nth by lia. cbn [option_map obind Nat.add].
  eexists. split; [reflexivity|]. split; [reflexivity|]. split; [reflexivity|]. split; [reflexivity|]. split; cbn [c_ranks c_dim].
  - apply nth_error_ext. intros k. destruct (Nat.lt_ge_cases k (n + 1)) as [K|K].
    + rewrite lset_nth_error. rewrite !nth_error_map, map_length, seq_length, !nth_error_nth' with (d := 0) by (rewrite seq_length; lia). rewrite !seq_nth by lia. cbn [option_map Nat.add]. rewrite !count_app. assert (KC : count k [p] = if k =? dimension p then 1 else 0).
      { unfold count. cbn [filter]. rewrite (Nat.eqb_sym (dimension p) k). now destruct (k =? dimension p). }
      rewrite KC. destruct (Nat.eqb_spec k (dimension p)) as [->|Hk].
      * rewrite (proj2 (Nat.ltb_lt _ _)) by lia. reflexivity.
      * f_equal. lia.
    + rewrite !(proj2 (nth_error_None _ _)); [reflexivity| |]; rewrite ?lset_length, map_length, seq_length; lia.
  - rewrite T2. unfold top_dim. rewrite map_app, list_max_app. change (list_max (map dimension [p])) with (Nat.max (dimension p) 0). destruct (Nat.ltb_spec (list_max (map dimension ps)) (dimension p)); lia.
Qed.
Lemma counts_spec : forall js qs c ps, tallied c ps -> Forall2 (up (c_data c)) js qs -> (forall q, In q qs -> length q <= n) ->
  exists c', foldM count_cell js c = Some c' /\ c_pool c' = c_pool c /\ c_data c' = c_data c /\ c_final c' = c_final c /\ tallied c' (ps ++ qs).
Proof.
  induction js as [|j js IH]; intros qs c ps HT HF HL; inversion HF as [|? q ? qs' H1 H2]; subst.
  - exists c. rewrite app_nil_r. auto.
  - cbn [foldM]. destruct (count_spec c j q ps HT H1 (HL q (or_introl eq_refl))) as (c1 & -> & P1 & D1 & F1 & T1). cbn [obind].
    destruct (IH qs' c1 (ps ++ [q]) T1) as (c2 & E2 & P2 & D2 & F2 & T2); [rewrite D1; exact H2|intros; apply HL; now right|]. exists c2. rewrite <- app_assoc in T2. rewrite E2. repeat split; try congruence; apply T2.
Qed.
Lemma expand_ok : n <= N -> forall r c parent p s F ps, Inv g n c ps -> at_node (c_data c) parent p -> good p -> okS F -> LRel labels F s -> length p + S r = n ->
  exists c' s', m_expand upper (S r) c parent s = Some (c', s') /\ Inv g n c' (ps ++ fst (enumS g labels upper r p F)) /\ extends (c_data c) (c_data c') /\ LRel labels (snd (enumS g labels upper r p F)) s'.
Proof.
  intros HN.
  assert (EN' : forall r c parent p s F ps, Inv g n c ps -> at_node (c_data c) parent p -> good p -> LRel labels F s -> length p + S r = n ->
    match parent with None => lset_iter s | Some i => next_factors upper c s i r end = Some (nextS g labels upper r p F)).
  { intros r c parent p s F ps HI HP HG HR HL. destruct parent as [i|]; cbn [at_node] in HP; [apply next_spec; auto; apply HI|destruct HP as (-> & _); exact (proj1 (lset_obs f_eqb f_eqb_eq labels F s HR))]. }
  induction r as [|r IH]; intros c parent p s F ps HI HP HG HO HR HL; pose proof (EN' _ c parent p s F ps HI HP HG HR HL) as EN.
  - cbn [m_expand]. rewrite EN. cbn [obind]. set (fs := nextS g labels upper 0 p F) in *. cbn [enumS fst snd]. fold fs. destruct (Nat.eqb_spec (length fs) 0) as [E0|N0].
    + exists c, s. apply length_zero_iff_nil in E0. rewrite E0. cbn [map]. rewrite app_nil_r. split; [reflexivity|]. split; [exact HI|]. split; [split; auto|exact HR].
    + destruct (grow_spec c parent p fs ps HI HP) as (c1 & -> & I1 & X1 & L1 & U1). cbn [obind Nat.eqb]. set (js := seq (length (c_data c)) (length fs)) in *.
      assert (UU : Forall2 (up (c_data c1)) js (map (fun f => f :: p) fs)).
      { clear -U1. clearbody js. induction U1 as [|j f js fs H U IH]; cbn; constructor; auto. }
      destruct (counts_spec js (map (fun f => f :: p) fs) (Cplx (c_pool c1) (c_data c1) (c_first c1) (c_final c1 ++ js) (c_dim c1) (c_ranks c1)) ps) as (c2 & E2 & P2 & D2 & F2 & T2); cbn [c_data c_pool c_final] in *.
      * split; apply I1.
      * exact UU.
      * intros q Hq. apply in_map_iff in Hq as (f & <- & _). cbn. lia.
      * rewrite E2. cbn [obind]. exists c2, s. split; [reflexivity|]. split; [|split; [rewrite D2; exact X1|exact HR]]. destruct T2 as (T2 & T3). constructor; auto; [rewrite P2; apply I1|]. rewrite F2, D2. apply Forall2_app; [apply I1|exact UU].
  - cbn [m_expand]. rewrite EN. cbn [obind]. rewrite enumS_S. set (fs := nextS g labels upper (S r) p F) in *. destruct (Nat.eqb_spec (length fs) 0) as [E0|N0].
    + exists c, s. apply length_zero_iff_nil in E0. rewrite E0. cbn [fold_left fst snd]. rewrite app_nil_r. split; [reflexivity|]. split; [exact HI|]. split; [split; auto|exact HR].
    + destruct (grow_spec c parent p fs ps HI HP) as (c1 & -> & I1 & X1 & L1 & U1). cbn [obind]. replace (S r =? 0) with false by reflexivity.
      assert (GF : forall f, In f fs -> good (f :: p) /\ In f labels /\ (forall x y, f = FEdge x y -> x + 1 < y)).
      { intros f Hf. pose proof (next_good _ _ _ _ HG HO Hf) as K. split; [exact K|]. split; [apply (next_in _ _ _ _ Hf)|]. intros x y ->. apply K. now left. }
      set (js := seq (length (c_data c)) (length fs)) in *. clearbody js. clear EN N0 L1.
      assert (HL' : forall f : factor, length (f :: p) + S r = n) by (intros f; cbn [length]; lia). clear HL.
      assert (LOOP : forall fs js c1 s F acc, Inv g n c1 (ps ++ acc) -> extends (c_data c) (c_data c1) -> okS F -> LRel labels F s -> Forall2 (fun j f => up (c_data c1) j (f :: p)) js fs ->
        (forall f, In f fs -> good (f :: p) /\ In f labels /\ (forall x y, f = FEdge x y -> x + 1 < y)) ->
        exists c' s', foldM (fun (st : cplx * pool_t) (jf : nat * factor) => do added <- factors_added (c_pool (fst st)) (snd jf); do s <- foldM p_add added (snd st); do st <- m_expand upper (S r) (fst st) (Some (fst jf)) s;
            do s <- p_add (snd st) (snd jf); do s <- foldM p_remove added s; Some (fst st, s)) (combine js fs) (c1, s) = Some (c', s') /\
          Inv g n c' (ps ++ fst (fold_left (stepS g labels upper r p) fs (acc, F))) /\ extends (c_data c) (c_data c') /\ LRel labels (snd (fold_left (stepS g labels upper r p) fs (acc, F))) s').
      { clear I1 X1 U1 GF HO HR F s c1 fs js. intros fs js. revert js. induction fs as [|f fs IHf]; intros js c1 s F acc I1 X1 HO HR U1 GF; inversion U1 as [|j ? js' ? Uj Ujs]; subst; clear U1.
        - exists c1, s. auto.
        - cbn [combine foldM fst snd fold_left]. destruct (GF f (or_introl eq_refl)) as (G1 & G2 & G3). rewrite (I_pool _ _ _ _ I1). rewrite (added_spec f G2). cbn [obind].
          destruct (p_adds labels HND (addedS g f) F s HR (added_labels f G2)) as (s1 & -> & R1). cbn [obind].
          destruct (IH c1 (Some j) (f :: p) s1 _ (ps ++ acc) I1 Uj G1 (okS_add F f HO G2) R1 (HL' f)) as (c2 & s2 & -> & I2 & X2 & R2). cbn [obind fst snd].
          destruct (p_add_spec labels _ s2 f HND R2 G2) as (s3 & -> & R3). cbn [obind]. destruct (p_removes labels HND (addedS g f) _ s3 R3 (added_labels f G2)) as (s4 & -> & R4). cbn [obind].
          set (res := enumS g labels upper r (f :: p) (addS F (addedS g f))) in *.
          destruct (IHf js' c2 s4 (remS (addS (snd res) [f]) (addedS g f)) (acc ++ fst res)) as (c3 & s5 & E3 & I3 & X3 & R5).
          + rewrite app_assoc. exact I2.
          + now apply (extends_trans _ (c_data c1)).
          + apply okS_rem; [now apply enumS_ok, okS_add|]. intros x y E _. apply f_eqb_eq in E. now apply G3.
          + exact R4.
          + eapply CubeProofs2.Forall2_impl; [|exact Ujs]. intros a b. cbn. apply X2.
          + intros f' Hf'. apply GF. now right.
          + exists c3, s5. split; [exact E3|]. split; [exact I3|]. split; assumption. }
      destruct (LOOP fs js c1 s F []) as (c' & s' & E & R); auto; [now rewrite app_nil_r|]. exists c', s'. split; [exact E|exact R].
Qed.
End Expand.
