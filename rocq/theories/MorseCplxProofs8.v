(** [UdnMorseCplx]: listed cells with at most one edge are critical when the leaves are far enough; cells of edges only; two points. *)
From Coq Require Import List Arith ZArith Bool Lia ZifyBool Sorted Permutation.
From Verif Require Import PidModel PermProofs SnfModel SnfProofs2 MatModel MatProofs GraphModel GraphSpec GraphProofs GraphProofs2 GraphProofs7 GraphProofs8 GraphProps UtilModel UtilSpec UtilProofs UtilProofs2 CubeModel CubeSpec CubeProofs CubeProofs2 CubeProofs3 MorseModel MorseSpec MorseProofs MorseCplxModel MorseCplxSpec MorseCplxProofs MorseCplxProofs2 MorseCplxProofs3 MorseCplxProofs4 MorseCplxProofs5 MorseCplxProofs6 MorseCplxProofs7.
Import ListNotations.
Open Scope nat_scope.

Lemma one_edge_of (c : list factor) : dimension c <= 1 -> forall x y x' y', In (FEdge x y) c -> In (FEdge x' y') c -> FEdge x y = FEdge x' y'.
Proof. apply crit_one. Qed.

Lemma filter_le {T} (P : T -> bool) l : length (filter P l) <= length l.
Proof. induction l as [|h l IH]; cbn [filter]; [lia|]. destruct (P h); cbn [length]; lia. Qed.

Section Sound.
Variable g : rawg.
Variable n : nat.
Hypothesis HS : spread g n.
Let HA := sp_AR g n HS.
Variable labels : list factor.
Hypothesis Hlab : forall f, In f labels <-> closed_cell g f.
Variable upper : option nat.
Notation N := (g_n g).
Notation enumS := (enumS g labels upper).
Notation nextS := (nextS g labels upper).
Notation good := (good g).
Notation okS := (okS labels).
Notation A := (addedS g).

(** Where the vertices of a listed cell come from. *)
Definition origin (p : list factor) : Prop := forall v, In (FVertex v) p -> v = 0 \/ exists h, In h p /\ In (FVertex v) (A h).
Definition path_inv (p : list factor) (F : factor -> bool) : Prop := good p /\ okS F /\ bound g p F /\ origin p.
Lemma origin_next r p F f : path_inv p F -> In f (nextS r p F) -> origin (f :: p).
Proof.
  intros (HG & HO & HB & HR) Hf v [->|Hv].
  - destruct (HB v) as [|(h & Hh & K)]; [apply (next_in g labels upper _ _ _ _ Hf)|now left|right; exists h; split; [now right|exact K]].
  - destruct (HR v Hv) as [|(h & Hh & K)]; [now left|right; exists h; split; [now right|exact K]].
Qed.
Lemma inv_next r p F F' f : path_inv p F -> (forall x, F' x = true -> F x = true) -> In f (nextS r p F) -> path_inv (f :: p) (addS F' (A f)).
Proof.
  intros HP HF Hf. pose proof HP as (HG & HO & HB & HR). split; [now apply (next_good g labels Hlab upper r p F)|]. split; [apply (okS_add g labels Hlab); [intros x y K; apply HO; now apply HF|apply (next_in g labels upper _ _ _ _ Hf)]|].
  split; [now apply (bound_add g p F)|now apply (origin_next r p F)].
Qed.
Lemma inv_init F : initS g labels F -> path_inv [] F.
Proof.
  intros (H1 & H2). split; [split; [constructor|]; split; [constructor|]; split; [constructor|]; intros x y []|]. split; [intros x y K _; now apply H2 in K|]. split; [intros w K; left; now apply H1|intros v []].
Qed.
(** The last factor. *)
Lemma enum_last r F q : initS g labels F -> In q (fst (enumS r [] F)) -> exists f p F', q = f :: p /\ length p = r /\ path_inv p F' /\ In f (nextS 0 p F').
Proof.
  intros HF Hq. destruct (enum_inv g labels Hlab upper path_inv) with (r := r) (p := @nil factor) (F := F) (q := q) as (l & f & p' & F' & -> & -> & L & J & Hf); auto.
  - intros r' p F0 F' f. apply inv_next.
  - now apply inv_init.
  - exists f, (l ++ []), F'. rewrite app_length. cbn [length]. repeat split; auto; try apply J. lia.
Qed.
Lemma paid_last p F f x y : path_inv p F -> p <> [] -> In f (nextS 0 p F) -> dimension (f :: p) <= 1 -> In (FEdge x y) (f :: p) -> child g x y -> exists t, In (FVertex t) (f :: p) /\ x < t < y.
Proof.
  intros HP Np Hf Hd He C. pose proof HP as (HG & HO & _). pose proof (next_good g labels Hlab upper 0 p F f HG HO Hf) as (HC & HD & HSo & _).
  assert (Lxy : x < y) by apply (child_lt g HA x y C). pose proof (proj2 (childb_iff g x y Lxy) C) as CB.
  apply (next_cand g labels upper) in Hf; [|exact Np]. destruct Hf as (Hl & HF & HCa & HAd). destruct He as [->|He].
  { exfalso. unfold admS in HAd. cbn [is_vertex] in HAd. destruct (0 + 1 =? length (unpaidS g p)); [discriminate|]. cbn [Nat.eqb andb treeb] in HAd. rewrite CB in HAd. discriminate. }
  destruct (existsb (paysb (FEdge x y)) (filter is_vertex p)) eqn:EP.
  { apply existsb_exists in EP as (h & Hh & K). apply filter_In in Hh as (Hh & _). destruct h as [a b|t]; [discriminate K|]. exists t. split; [now right|]. unfold paysb in K. apply andb_true_iff in K as (K1 & K2). apply Nat.ltb_lt in K1, K2. lia. }
  destruct f as [a b|t]; [exfalso; assert (FEdge a b = FEdge x y) as K by (apply (one_edge_of (FEdge a b :: p) Hd); [now left|now right]); rewrite K in HD; apply StronglySorted_inv in HSo as (_ & HSo); rewrite K in HSo; rewrite Forall_forall in HSo; specialize (HSo _ He); lia|].
  exists t. split; [now left|]. apply StronglySorted_inv in HSo as (_ & HSo). rewrite Forall_forall in HSo. specialize (HSo _ He). cbn [low] in HSo. split; [exact HSo|].
  unfold candS in HCa. rewrite !andb_true_iff in HCa. destruct HCa as ((_ & UB) & _). rewrite lt_vertex in UB. cbn [is_edge andb] in UB. rewrite orb_false_r in UB. apply Nat.ltb_lt in UB.
  destruct (room_spec p 0 N (Nat.le_0_l _)) as (u2 & E2 & _). unfold ubS in UB. rewrite E2 in UB.
  assert (EU : In (FEdge x y) (unpaidS g p)). { unfold unpaidS. apply filter_In. split; [apply filter_In; split; [apply filter_In; auto|exact CB]|now rewrite EP]. }
  destruct (unpaidS g p) as [|e us] eqn:Eu; [contradiction|]. assert (He1 : In e (unpaidS g p)) by (rewrite Eu; now left). unfold unpaidS in He1. apply filter_In in He1 as (He1 & _). apply filter_In in He1 as (He1 & _). apply filter_In in He1 as (He1 & Ke).
  destruct e as [a b|]; [|discriminate Ke]. assert (FEdge a b = FEdge x y) as K by (apply (one_edge_of (FVertex t :: p) Hd); now right). injection K as -> ->. destruct (Nat.ltb_spec u2 y); lia.
Qed.
Lemma sound r F q : n = S r -> 2 <= n -> roomy g n -> initS g labels F -> In q (fst (enumS r [] F)) -> dimension q <= 1 -> critical g n (rev q).
Proof.
  intros En N2 HR HF Hq Hd. destruct (enum_last r F q HF Hq) as (f & p & F' & Eq & Lp & HP & Hf). pose proof HP as (HG & HO & _). pose proof (origin_next 0 p F' f HP Hf) as OR. rewrite <- Eq in OR.
  pose proof (next_good g labels Hlab upper 0 p F' f HG HO Hf) as HG'. assert (Lq : length q = n) by (rewrite Eq; cbn [length]; lia). rewrite <- Eq in HG'. destruct (good_rev g n q HG' Lq) as (HC & _ & Hskip).
  assert (Np : p <> []) by (intros ->; cbn in Lp; lia). set (c := rev q) in *. assert (INc : forall h, In h c <-> In h q) by (intros h; unfold c; symmetry; apply in_rev).
  assert (Hone : forall x y x' y', In (FEdge x y) c -> In (FEdge x' y') c -> FEdge x y = FEdge x' y') by (intros x y x' y' H1 H2; apply INc in H1, H2; now apply (one_edge_of q Hd)).
  assert (Hpaid : forall x y, In (FEdge x y) c -> tree_edge g x y -> exists t, In (FVertex t) c /\ x < t < y).
  { intros x y H T. apply INc in H. apply (te_child g HA) in T. rewrite Eq in Hd, H. destruct (paid_last p F' f x y HP Np Hf Hd H T) as (t & Ht & Lt). exists t. split; [apply INc; now rewrite Eq|exact Lt]. }
  assert (HCl : forall h, In h c -> closed_cell g h) by (destruct HC as (_ & K & _); now rewrite Forall_forall in K).
  assert (HB : forall v, In (FVertex v) c -> blocked g c v).
  { intros v. induction v as [v IH] using lt_wf_ind. intros Hv. destruct (OR v) as [->|(h & Hh & K)]; [now apply INc|now left|]. apply INc in Hh. pose proof (HCl h Hh) as Ch. destruct (added_vertex g labels Hlab h _ (proj2 (Hlab h) Ch) K) as (v' & Ev & Lv & M). injection Ev as <-.
    assert (NEAR : forall w, v = w + 1 -> (In (FVertex w) c \/ (exists x, In (FEdge x w) c /\ tree_edge g x w)) -> blocked g c v).
    { intros w -> Hw. destruct (no_child_leaf g n HS w ltac:(lia)) as [LF|C].
      - exfalso. destruct (has_parent g HA (w + 1)) as (z & Cz); [lia|lia|]. apply (crowd g n HS c HC Hone Hskip Hpaid w (w + 1)); auto; [intros u Lu; apply IH; lia|now apply (leaf_last g n HS w z)|intros z' l SP D Nl; now apply (HR z' l w)|lia].
      - right. exists w. split; [now apply (te_child g HA)|]. destruct Hw as [Hw|(x & Hw & _)]; [exists (FVertex w); split; [exact Hw|now left]|exists (FEdge x w); split; [exact Hw|right; now left]]. }
    destruct h as [x y|u]; [|apply (NEAR u M); now left]. destruct M as [C|(-> & C)].
    - right. exists x. split; [now apply (te_child g HA)|]. exists (FEdge x y). split; [exact Hh|now left].
    - apply (NEAR y eq_refl). right. exists x. split; [exact Hh|now apply (te_child g HA)]. }
  split; [exact HC|]. intros [x y|v] Hh; cbn [mobile].
  - intros (T & K). destruct (Hpaid x y Hh T) as (t & Ht & Lt). now apply (K t Ht).
  - intros K. apply K. now apply HB.
Qed.
Lemma roomy_two : n <= 2 -> roomy g n.
Proof. intros L z l w _ _ Nl _. destruct l; [congruence|cbn [length]; lia]. Qed.

(** Cells of edges only. *)
Lemma dim_all (p : list factor) : dimension p = length p -> forall f, In f p -> is_edge f = true.
Proof.
  unfold dimension. induction p as [|h p IH]; intros E f; [intros []|]. cbn [filter] in E. destruct h as [x y|v]; cbn [length] in E.
  - intros [<-|Hf]; [reflexivity|]. apply IH; [lia|exact Hf].
  - exfalso. revert E. generalize (filter_le (fun f => match f with FEdge _ _ => true | FVertex _ => false end) p). intros; lia.
Qed.
Section Edges.
Hypothesis HND : NoDup labels.
Variable c : list factor.
Hypothesis HK : critical g n c.
Hypothesis Hall : dimension c = n.
Hypothesis HL : listed c.
Hypothesis Hup : forall u, upper = Some u -> n <= u.
Lemma all_edges f : In f c -> exists x y, f = FEdge x y /\ x + 1 < y /\ edge g x y = true /\ childb g x y = false.
Proof.
  intros Hf. assert (E : is_edge f = true) by (apply (dim_all c); [rewrite Hall; symmetry; apply HK|exact Hf]). destruct f as [x y|v]; [|discriminate E]. destruct (c_closed g n c HK _ Hf) as (Lxy & Exy). exists x, y. split; [reflexivity|]. split; [|split; [exact Exy|]].
  { destruct (Nat.eq_dec y (x + 1)) as [Ey|]; [|lia]. exfalso. destruct HK as (_ & HM). apply (HM _ Hf). split; [apply (te_child g HA); rewrite Ey in *; apply (child_next g HA x (x + 1) Lxy Exy)|]. intros v _. lia. }
  destruct (childb g x y) eqn:C; [|reflexivity]. exfalso. apply (childb_iff g x y Lxy) in C. apply (te_child g HA) in C. destruct HK as (_ & HM). apply (HM _ Hf). split; [exact C|]. intros v Hv. exfalso. assert (K : is_edge (FVertex v) = true); [|discriminate K]. apply (dim_all c); [rewrite Hall; symmetry; apply HK|exact Hv].
Qed.
Lemma low_room p rest f r : c = rev p ++ f :: rest -> length rest = r -> good p -> exists u2, room p r N = Some u2 /\ low f < u2.
Proof.
  intros Hc Lr HG. pose proof (in_c c p rest f Hc) as INC. destruct (lows c HL p rest f Hc) as (Low1 & Low2). assert (Hf : In f c) by (apply INC; auto).
  assert (Lp : length p + S r = n). { destruct HK as ((Ln & _) & _). rewrite Hc, app_length, rev_length in Ln. cbn [length] in Ln. lia. }
  destruct (top_N g n HS) as (_ & Nn). pose proof (room_ok g HA n (sp_high g n HS) p r HG Nn Lp) as RO. destruct (room_spec p r N RO) as (u2 & E2 & _). exists u2. split; [exact E2|].
  apply (room_above p r N u2 (low f) E2 RO). assert (LN : forall h, In h c -> low h < N). { intros h Hh. pose proof (c_closed g n c HK h Hh) as K. destruct h as [x y|x]; cbn in *; [destruct K as (K1 & K2); apply (edge_lt g x y (AR_GI g HA) K2)|exact K]. }
  split; [|now apply LN]. rewrite <- Lr, <- (map_length low rest). apply nfree_count; [apply LN in Hf; lia| |].
  - assert (SS : StronglySorted (fun a b => low a < low b) rest). { pose proof HL as K. unfold listed in K. rewrite Hc in K. clear -K. induction (rev p) as [|h l IH]; cbn [app] in K; apply StronglySorted_inv in K as (K & _); auto. }
    clear -SS. induction SS as [|h l S1 IH F1]; [constructor|]. cbn [map]. constructor; [|exact IH]. rewrite Forall_forall in F1. intros K. apply in_map_iff in K as (k & E & Hk). specialize (F1 k Hk). lia.
  - intros v Hv. apply in_map_iff in Hv as (h & <- & Hh). assert (Hhc : In h c) by (apply INC; auto). split; [specialize (Low2 h Hh); apply LN in Hhc; lia|]. apply freeb_iff. intros (k & Hk & Kv). assert (Vh : In (low h) (verts h)) by (destruct h; cbn; auto).
    assert (k = h) by (apply (c_disjoint g n c HK k h (low h)); auto; apply INC; auto). subst k. specialize (Low1 h Hk). specialize (Low2 h Hh). lia.
Qed.
Lemma edges_next p rest f (Hc : c = rev p ++ f :: rest) r F : length rest = r -> good p -> (forall x y, x + 1 < y -> edge g x y = true -> F (FEdge x y) = true) -> In f (nextS r p F).
Proof.
  intros Lr HG HE. pose proof (in_c c p rest f Hc) as INC. destruct (lows c HL p rest f Hc) as (Low1 & Low2). assert (Hf : In f c) by (apply INC; auto). pose proof (c_closed g n c HK f Hf) as CF.
  destruct (all_edges f Hf) as (x & y & Ef & Lxy & Exy & NT). assert (HF : F f = true) by (rewrite Ef; now apply HE). destruct (list_eq_dec f_dec p []) as [Ep|Ep]; [rewrite Ep; apply filter_In; split; [now apply Hlab|exact HF]|].
  assert (Lp : length p + S r = n). { destruct HK as ((Ln & _) & _). rewrite Hc, app_length, rev_length in Ln. cbn [length] in Ln. lia. }
  assert (Dp : forall h, In h p -> disjoint f h). { intros h Hh v H1 H2. assert (Eh : f = h) by (apply (c_disjoint g n c HK f h v); auto; apply INC; auto). subst h. specialize (Low1 f Hh). lia. }
  assert (UP : unpaidS g p = []).
  { destruct (unpaidS g p) as [|e us] eqn:Eu; [reflexivity|]. assert (K : In e (unpaidS g p)) by (rewrite Eu; now left). unfold unpaidS in K. apply filter_In in K as (K & _). apply filter_In in K as (K & KT). apply filter_In in K as (K & _).
    destruct (all_edges e) as (a & b & -> & _ & _ & K2); [apply INC; auto|]. cbn [treeb] in KT. congruence. }
  destruct (low_room p rest f r Hc Lr HG) as (u2 & E2 & R2). apply (next_cand g labels upper); [exact Ep|]. split; [now apply Hlab|]. split; [exact HF|]. split.
  - unfold candS. rewrite !andb_true_iff. split; [split; [split|]|].
    + apply forallb_forall. intros h Hh. apply disj_iff. now apply Dp.
    + apply f_gt_iff. destruct p as [|q p']; [congruence|]. cbn [hd]. split; [apply Dp|apply Low1]; now left.
    + apply orb_true_iff. right. unfold ubS. rewrite E2, UP. apply andb_true_iff. split; [now rewrite Ef|now apply Nat.ltb_lt].
    + rewrite Ef, NT. reflexivity.
  - unfold admS. rewrite Ef. cbn [is_vertex]. rewrite UP. cbn [length treeb]. rewrite NT, andb_false_r. replace (r + 1 =? 0) with false by (symmetry; apply Nat.eqb_neq; lia).
    destruct upper as [u|] eqn:Eu; [|reflexivity]. specialize (Hup u eq_refl). apply negb_true_iff, Nat.eqb_neq. pose proof (filter_le (fun f => match f with FEdge _ _ => true | FVertex _ => false end) p) as K. unfold dimension. lia.
Qed.
Lemma edges_complete : forall r p rest F, c = rev p ++ rest -> length rest = S r -> good p -> okS F -> (forall x y, x + 1 < y -> edge g x y = true -> F (FEdge x y) = true) -> In (rev rest ++ p) (fst (enumS r p F)).
Proof.
  induction r as [|r IH]; intros p rest F Hc Lr HG HO HE; (destruct rest as [|f rest]; [discriminate Lr|]); injection Lr as Lr.
  - apply length_zero_iff_nil in Lr. subst rest. cbn [rev app MorseCplxProofs.enumS fst]. apply in_map_iff. exists f. split; [reflexivity|]. apply (edges_next p [] f Hc 0 F eq_refl HG HE).
  - rewrite enumS_S. pose proof (edges_next p rest f Hc (S r) F Lr HG HE) as Hf. pose proof Hf as Hnf. apply in_split in Hf as (a & b & Efs). apply fold_in. right. exists a, f, b. split; [exact Efs|]. cbn [rev]. rewrite <- app_assoc. cbn [app]. apply IH; [rewrite Hc; cbn [rev]; now rewrite <- app_assoc|exact Lr|now apply (next_good g labels Hlab upper (S r) p F)| |].
    + apply (okS_add g labels Hlab); [|apply (next_in g labels upper _ _ _ _ Hnf)]. intros x y K. apply HO. apply (fold_mono' g labels upper r p F a) in K; [exact K|]. intros h Hh. apply (next_in g labels upper (S r) p F). rewrite Efs. apply in_or_app. now left.
    + intros x y L E. apply addS_true. left. apply fold_edges; [intros; now apply enum_edges|now apply HE].
Qed.
Lemma edges_complete_top r F : n = S r -> initS g labels F -> In (rev c) (fst (enumS r [] F)).
Proof.
  intros En (HF1 & HF2). rewrite <- (app_nil_r (rev c)). apply edges_complete; [reflexivity|rewrite <- En; apply HK| | |].
  - split; [constructor|]; split; [constructor|]; split; [constructor|]; intros x y [].
  - intros x y K _. now apply HF2 in K.
  - intros x y L E. now apply HF2.
Qed.
End Edges.
(** Two edges. *)
Lemma sound_two F q : n = 2 -> initS g labels F -> In q (fst (enumS 1 [] F)) -> dimension q = 2 -> critical g n (rev q).
Proof.
  intros N2 HF Hq Hd. destruct (enum_last 1 F q HF Hq) as (f & p & F' & Eq & Lp & HP & Hf). pose proof HP as (HG & HO & _).
  pose proof (next_good g labels Hlab upper 0 p F' f HG HO Hf) as HG'. assert (Lq : length q = n) by (rewrite Eq; cbn [length]; lia). rewrite <- Eq in HG'. destruct (good_rev g n q HG' Lq) as (HC & _ & Hskip).
  destruct p as [|e [|]]; try discriminate Lp. subst q. assert (Ef : is_edge f = true) by (apply (dim_all _ Hd); now left). assert (Ee : is_edge e = true) by (apply (dim_all _ Hd); right; now left).
  destruct f as [a b|]; [|discriminate Ef]. destruct e as [x y|]; [|discriminate Ee]. apply (next_cand g labels upper) in Hf; [|discriminate]. destruct Hf as (_ & _ & _ & HAd). unfold admS in HAd. cbn [is_vertex] in HAd.
  assert (Hn : childb g x y = false /\ childb g a b = false).
  { unfold unpaidS in HAd. cbn [filter is_edge treeb is_vertex] in HAd. destruct (childb g x y); [cbn in HAd; discriminate|]. split; [reflexivity|]. cbn [filter length] in HAd. cbn in HAd. destruct (childb g a b); [discriminate|reflexivity]. }
  destruct Hn as (NT1 & NT2). split; [exact HC|]. pose proof HC as (_ & HCl & _). rewrite Forall_forall in HCl. intros h Hh. pose proof (HCl h Hh) as Ch. cbn [rev app In] in Hh. destruct Hh as [<-|[<-|[]]]; intros (T & _); apply (te_child g HA) in T; destruct Ch as (L & _); apply (childb_iff g _ _ L) in T; congruence.
Qed.
End Sound.
