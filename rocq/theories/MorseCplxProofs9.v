(** [UdnMorseCplx]: the single 0-cell, and the boundary map. *)
From Coq Require Import List Arith ZArith Bool Lia ZifyBool Sorted Permutation.
From Verif Require Import PidModel PermProofs SnfModel SnfProofs2 MatModel MatProofs LinModel LinSpec LinProofs LinProofs2 GraphModel GraphSpec GraphProofs GraphProofs2 GraphProofs7 GraphProofs8 GraphProps UtilModel UtilSpec UtilProofs UtilProofs2 CubeModel CubeSpec CubeProofs CubeProofs2 CubeProofs3 CubeProofs4 CubeProofs5 CubePartialModel CubeProofs6 MorseModel MorseSpec MorseProofs MorseProofs2 MorseProofs5 MorseProps MorseCplxModel MorseCplxSpec MorseCplxProofs MorseCplxProofs2 MorseCplxProofs3 MorseCplxProofs4 MorseCplxProofs5 MorseCplxProofs6 MorseCplxProofs7 MorseCplxProofs8.
Import ListNotations.
Open Scope nat_scope.

Section Base.
Variable g : rawg.
Variable n : nat.
Hypothesis HS : spread g n.
Let HA := sp_AR g n HS.
Definition base_cell : list factor := map FVertex (seq 0 n).
Lemma base_critical : critical g n base_cell /\ dimension base_cell = 0 /\ listed base_cell.
Proof.
  destruct (sp_stem g n HS) as (HN & St). unfold base_cell. split; [split|split].
  - split; [now rewrite map_length, seq_length|]. split; [apply Forall_forall; intros f Hf; apply in_map_iff in Hf as (v & <- & Hv); apply in_seq in Hv; cbn; lia|]. apply (V_pd (seq 0 n)). apply seq_NoDup.
  - intros f Hf. apply in_map_iff in Hf as (v & <- & Hv). apply in_seq in Hv. cbn [mobile]. intros K. apply K. destruct (Nat.eq_dec v 0) as [->|Nv]; [now left|right]. unfold g_n_vertices in HN. destruct (has_parent g HA v) as (w & C); [lia|lia|]. destruct (child_lt g HA w v C) as (Lw & _). pose proof C as T. apply (te_child g HA) in T.
    exists w. split; [exact T|]. exists (FVertex w). split; [apply in_map, in_seq; lia|now left].
  - unfold dimension. clear. generalize 0 at 1. induction n as [|m IH]; intros k; [reflexivity|]. cbn [seq map filter]. apply IH.
  - unfold listed. clear. generalize 0. induction n as [|m IH]; intros k; cbn [seq map]; constructor; [apply IH|]. apply Forall_forall. intros f Hf. apply in_map_iff in Hf as (v & <- & Hv). apply in_seq in Hv. cbn. lia.
Qed.
Variable labels : list factor.
Hypothesis Hlab : forall f, In f labels <-> closed_cell g f.
Variable upper : option nat.
Lemma zero_cells r F q : n = S r -> initS g labels F -> In q (fst (enumS g labels upper r [] F)) -> dimension q = 0 -> rev q = base_cell.
Proof.
  intros En HF Hq Hd. destruct (enum_last g labels Hlab upper r F q HF Hq) as (f & p & F' & Eq & Lp & HP & Hf). pose proof HP as (HG & HO & _). pose proof (origin_next g labels upper 0 p F' f HP Hf) as OR. rewrite <- Eq in OR.
  pose proof (next_good g labels Hlab upper 0 p F' f HG HO Hf) as HG'. rewrite <- Eq in HG'. assert (Lq : length q = n) by (rewrite Eq; cbn [length]; lia). destruct (good_rev g n q HG' Lq) as (HC & HLi & _).
  assert (V0 : forall h, In h q -> exists v, h = FVertex v). { intros [x y|v] Hh; [|eauto]. exfalso. assert (In (FEdge x y) (filter (fun f => match f with FEdge _ _ => true | FVertex _ => false end) q)) as K by (apply filter_In; auto). unfold dimension in Hd. apply length_zero_iff_nil in Hd. rewrite Hd in K. contradiction. }
  assert (EL : exists l, rev q = map FVertex l).
  { assert (V1 : forall h, In h (rev q) -> exists v, h = FVertex v) by (intros h Hh; apply V0; now apply in_rev). clear -V1. induction (rev q) as [|h t IH]; [exists []; reflexivity|]. destruct (V1 h (or_introl eq_refl)) as (v & ->). destruct IH as (l & ->); [intros; apply V1; now right|]. exists (v :: l). reflexivity. }
  destruct EL as (l & El). assert (INl : forall v, In v l <-> In (FVertex v) q). { intros v. rewrite (in_rev q), El. rewrite in_map_iff. split; [intros H; exists v; auto|]. intros (w & [= ->] & H). exact H. }
  assert (DC : forall v, In (S v) l -> In v l).
  { intros v Hv. apply INl in Hv. destruct (OR _ Hv) as [|(h & Hh & K)]; [discriminate|]. destruct (V0 h Hh) as (u & ->). assert (Hu : In (FVertex u) labels) by (apply Hlab; destruct HG' as (K1 & _); rewrite Forall_forall in K1; now apply K1). destruct (added_vertex g labels Hlab _ _ Hu K) as (v' & [= <-] & _ & M). apply INl. replace v with u by lia. exact Hh. }
  assert (SL : StronglySorted lt l). { unfold listed in HLi. rewrite El in HLi. clear -HLi. induction l as [|v l IH]; [constructor|]. cbn [map] in HLi. apply StronglySorted_inv in HLi as (H1 & H2). constructor; [now apply IH|]. rewrite Forall_forall in *. intros w Hw. apply (H2 (FVertex w)). now apply in_map. }
  assert (LL : length l = n) by (rewrite <- (map_length FVertex l), <- El, rev_length; exact Lq).
  rewrite El. unfold base_cell. f_equal. apply sorted_unique; [exact SL|apply SS_seq0|]. assert (DC2 : forall k v, In (v + k) l -> In v l) by (induction k as [|k IH]; intros v H; [now rewrite Nat.add_0_r in H|apply IH; apply DC; now rewrite <- Nat.add_succ_r]).
  assert (INC : incl l (seq 0 n)).
  { intros v Hv. apply in_seq. destruct (Nat.lt_ge_cases v n) as [|G]; [lia|]. exfalso. assert (K : length (seq 0 (S n)) <= length l). { apply NoDup_incl_length; [apply seq_NoDup|]. intros w Hw. apply in_seq in Hw. apply (DC2 (v - w)). now replace (w + (v - w)) with v by lia. } rewrite seq_length in K. lia. }
  intros x. split; [apply INC|]. intros Hx. exact (@NoDup_length_incl nat l (seq 0 n) (sorted_NoDup l SL) ltac:(rewrite seq_length; lia) INC x Hx).
Qed.
End Base.

Lemma cancel (b : list factor) : vsum ideal cube_cmp [[(1%Z, b)]; [((-1)%Z, b)]] = Some [].
Proof.
  destruct (vsum_ideal cube_cmp cube_total [[(1%Z, b)]; [((-1)%Z, b)]]) as (u & E). rewrite E. f_equal. apply (canonical_ext cube_cmp cube_total).
  - apply (vsum_single cube_cmp cube_total ideal _ _) with (2 := E). repeat constructor.
  - split; constructor.
  - intros x. rewrite (vsum_total ideal cube_cmp exact_ideal cube_total _ _ x E). cbn. destruct (cube_cmp b x); reflexivity.
Qed.
Lemma empty_sum : vsum ideal cube_cmp [] = Some [].
Proof. reflexivity. Qed.
Lemma flat_boundary g n fuel c i p : arranged g -> stem g n -> c_pool c = g -> up (c_data c) i p -> configuration g n (rev p) -> listed (rev p) -> dimension p = 1 -> n * g_n_vertices g < fuel ->
  get_boundary_of get_boundary_p fuel c i = Some [].
Proof.
  intros Hg St EP U HC HL Hd Hf. unfold get_boundary_of, cube_at. rewrite (factor_iter_up _ _ _ U). cbn [obind]. pose proof (arranged_AR g Hg) as HA.
  assert (Hd' : dimension (rev p) = 1) by now rewrite dimension_rev. destruct (one_edge (rev p) Hd') as (l & r & a & b & Ec). pose proof HC as (Ln & _ & PD). rewrite Ec in HC. destruct (cut_ok g HA l r a b n HC) as (OK1 & OK2 & Lab & _).
  rewrite (boundary_p_one (rev p) (V l) a b (V r) PD HL Ec Lab Hd'). cbn [obind].
  assert (E1 : V l ++ FVertex a :: V r = V (l ++ a :: r)) by (unfold V; now rewrite map_app). assert (E2 : V l ++ FVertex b :: V r = V (l ++ b :: r)) by (unfold V; now rewrite map_app). rewrite E1, E2.
  assert (L1 : length (l ++ a :: r) = n) by (rewrite <- Ln, Ec; unfold V; rewrite !app_length; cbn [length]; now rewrite !map_length). assert (L2 : length (l ++ b :: r) = n) by (rewrite app_length in *; cbn [length] in *; lia).
  assert (S1 : StronglySorted lt (l ++ a :: r)).
  { unfold listed in HL. rewrite Ec in HL. clear -HL. induction l as [|v l IH]; cbn [app map V] in *.
    - apply StronglySorted_inv in HL as (H1 & H2). constructor.
      + clear -H1. induction r as [|w r IH]; [constructor|]. cbn [V map] in H1. apply StronglySorted_inv in H1 as (H1 & H2). constructor; [now apply IH|]. rewrite Forall_forall in *. intros z Hz. apply (H2 (FVertex z)). now apply in_map.
      + rewrite Forall_forall in *. intros z Hz. apply (H2 (FVertex z)). now apply in_map.
    - apply StronglySorted_inv in HL as (H1 & H2). constructor; [now apply IH|]. rewrite Forall_forall in *. intros z Hz. apply in_app_or in Hz as [Hz|[<-|Hz]]; [apply (H2 (FVertex z)); apply in_or_app; left; now apply in_map|apply (H2 (FEdge a b)); apply in_or_app; right; now left|apply (H2 (FVertex z)); apply in_or_app; right; right; now apply in_map]. }
  destruct (sort_V (l ++ b :: r) (proj1 OK2)) as (l2 & Es & P2 & S2). rewrite Es. cbn [omapM fst snd]. rewrite EP. unfold V.
  assert (PT1 : points g (l ++ a :: r)) by exact OK1. assert (PT2 : points g l2) by (destruct OK2 as (K1 & K2); split; [apply (Permutation_NoDup (Permutation_sym P2) K1)|intros v Hv; apply K2; apply (Permutation_in _ P2 Hv)]).
  rewrite (C95_settles g _ n get_boundary_p Hg St PT1 S1 L1 fuel Hf). rewrite (C95_settles g l2 n get_boundary_p Hg St PT2 S2 ltac:(rewrite (Permutation_length P2); exact L2) fuel Hf).
  cbn [obind]. unfold vmul. cbn [Z.eqb scale]. unfold ideal at 1 2. cbn [obind]. change (1 * 1)%Z with 1%Z. change (1 * -1)%Z with (-1)%Z. rewrite cancel. reflexivity.
Qed.

Section Map.
Variable g : rawg.
Variable n : nat.
Variable c : cplx.
Variable ps : list (list factor).
Hypothesis Hg : arranged g.
Hypothesis St : stem g n.
Hypothesis HI : Inv g n c ps.
Hypothesis HG : forall p, In p ps -> good g p /\ length p = n.
Lemma F2_in {A B} (R : A -> B -> Prop) l l' : Forall2 R l l' -> forall x, In x l -> exists y, In y l' /\ R x y.
Proof. induction 1 as [|a b l l' H F IH]; intros x; [intros []|]. intros [<-|Hx]; [exists b; split; [now left|exact H]|]. destruct (IH x Hx) as (y & Hy & R1). exists y. split; [now right|exact R1]. Qed.
Lemma F2_in_r {A B} (R : A -> B -> Prop) l l' : Forall2 R l l' -> forall y, In y l' -> exists x, In x l /\ R x y.
Proof. induction 1 as [|a b l l' H F IH]; intros y; [intros []|]. intros [<-|Hx]; [exists a; split; [now left|exact H]|]. destruct (IH y Hx) as (x & Hy & R1). exists x. split; [now right|exact R1]. Qed.
Lemma final_up i : In i (c_final c) -> exists p, In p ps /\ up (c_data c) i p.
Proof. intros Hi. apply (F2_in _ _ _ (I_final _ _ _ _ HI) i Hi). Qed.
Lemma dims_le p : In p ps -> dimension p <= c_dim c.
Proof. intros Hp. rewrite (I_dim _ _ _ _ HI). unfold top_dim. pose proof (proj1 (list_max_le (map dimension ps) _) (Nat.le_refl _)) as LM. rewrite Forall_forall in LM. apply (LM (dimension p) (in_map _ _ _ Hp)). Qed.
Lemma foldM_none {A S} (f : S -> A -> option S) l x : In x l -> (forall s, f s x = None) -> forall s, foldM f l s = None.
Proof. induction l as [|y l IH]; intros Hx H s; [contradiction|]. cbn [foldM]. destruct Hx as [->|Hx]; [now rewrite H|]. destruct (f s y); [now apply IH|reflexivity]. Qed.
(** Cells of dimension two and more: panic. *)
Lemma map_none fuel : 2 <= c_dim c -> morse_boundary_map get_boundary_p fuel c = None.
Proof.
  intros Hd. unfold morse_boundary_map. destruct (numbering c) as [num|]; [|reflexivity]. cbn [obind]. destruct (zero_maps c) as [ms|]; [|reflexivity]. cbn [obind]. destruct (filterM _ (c_final c)) as [zs|]; [|reflexivity]. cbn [obind]. destruct (hd_error zs) as [z|]; [|reflexivity]. cbn [obind]. destruct (cube_at c z) as [b|]; [|reflexivity]. cbn [obind].
  assert (exists p, In p ps /\ 2 <= dimension p) as (p & Hp & Dp).
  { assert (K : 2 <= list_max (map dimension ps)) by (rewrite (I_dim _ _ _ _ HI) in Hd; exact Hd). clear -K. induction ps as [|p l IH]; [cbn in K; lia|]. cbn [map] in K. change (list_max (dimension p :: map dimension l)) with (Nat.max (dimension p) (list_max (map dimension l))) in K.
    destruct (Nat.le_gt_cases 2 (dimension p)) as [|G]; [exists p; split; [now left|assumption]|]. destruct IH as (q & Hq & Dq); [lia|]. exists q. split; [now right|exact Dq]. }
  destruct (F2_in_r _ _ _ (I_final _ _ _ _ HI) p Hp) as (i & Hi & U).
  rewrite (CubeProofs.filterM_filter _ (fun i => match dim_of c i with Some d => 0 <? d | None => false end)) by (intros j Hj; destruct (final_up j Hj) as (q & _ & Uq); now rewrite (dim_of_up _ _ _ Uq)). cbn [obind].
  rewrite (foldM_none _ _ i); [reflexivity|apply filter_In; split; [exact Hi|rewrite (dim_of_up _ _ _ U); apply Nat.ltb_lt; lia]|]. intros st. unfold put_cell, get_boundary_of, cube_at. rewrite (factor_iter_up _ _ _ U). cbn [obind].
  destruct (HG p Hp) as (Gp & Lp). destruct (good_rev g n p Gp Lp) as ((_ & _ & PD) & HL & SK). rewrite boundary_p_none; auto; [intros x y K; specialize (SK x y K); lia|now rewrite dimension_rev].
Qed.
Lemma numbering_some : exists num, numbering c = Some num.
Proof.
  unfold numbering. assert (K : forall l st, incl l (c_final c) -> length (fst st) = length (c_data c) -> length (snd st) = c_dim c + 1 -> exists st', foldM (number_step c) l st = Some st').
  { induction l as [|i l IH]; intros st HIn L1 L2; [exists st; reflexivity|]. cbn [foldM]. destruct (final_up i (HIn i (or_introl eq_refl))) as (p & Hp & U). unfold number_step at 1. rewrite (dim_of_up _ _ _ U). cbn [obind]. pose proof (dims_le p Hp) as D.
    destruct (nth_error (snd st) (dimension p)) as [k|] eqn:Ek; [|apply nth_error_None in Ek; lia]. cbn [obind].
    assert (Li : i < length (c_data c)). { pose proof (dim_of_up _ _ _ U) as K. unfold dim_of in K. cbn [dim_up] in K. destruct (nth_error (c_data c) i) eqn:E; [|discriminate]. apply nth_error_Some. congruence. }
    rewrite L1, (proj2 (Nat.ltb_lt _ _) Li). cbn [obind]. apply IH; [intros j Hj; apply HIn; now right| |]; cbn [fst snd]; rewrite MatProofs.lset_length; assumption. }
  destruct (K (c_final c) (repeat 0 (length (c_data c)), repeat 0 (c_dim c + 1))) as (st & ->); [apply incl_refl|apply repeat_length|apply repeat_length|]. cbn [obind]. eauto.
Qed.
Definition cells_at (d : nat) : list (list factor) := map (@rev factor) (filter (fun p => dimension p =? d) ps).
Lemma fold_cells fuel num ms b : n * g_n_vertices g < fuel -> forall is qs bs, Forall2 (up (c_data c)) is qs -> incl qs ps -> (forall q, In q qs -> dimension q = 1) ->
  foldM (put_cell get_boundary_p fuel c num) is (ms, [b; bs]) = Some (ms, [b; bs ++ map (@rev factor) qs]).
Proof.
  intros Hf. induction is as [|i is IH]; intros qs bs H HI' Hd; [assert (qs = []) as -> by (now inversion H); cbn [foldM map]; now rewrite app_nil_r|]. destruct qs as [|q qs]; [exfalso; inversion H|]. assert (U : up (c_data c) i q) by now inversion H. assert (H2 : Forall2 (up (c_data c)) is qs) by now inversion H. clear H.
  cbn [foldM]. unfold put_cell at 1. destruct (HG q (HI' q (or_introl eq_refl))) as (Gq & Lq). destruct (good_rev g n q Gq Lq) as (HC & HL & _). rewrite (flat_boundary g n fuel c i q Hg St (I_pool _ _ _ _ HI) U HC HL (Hd q (or_introl eq_refl)) Hf). cbn [obind]. rewrite (dim_of_up _ _ _ U), (Hd q (or_introl eq_refl)). cbn [obind foldM fst snd nth_error]. unfold cube_at. rewrite (factor_iter_up _ _ _ U). cbn [obind MatModel.lset].
  rewrite IH with (qs := qs); [cbn [map]; now rewrite <- app_assoc|exact H2|intros k Hk; apply HI'; now right|intros k Hk; apply Hd; now right].
Qed.
Lemma pos_spec : c_dim c <= 1 -> forall is qs, Forall2 (up (c_data c)) is qs -> incl qs ps -> exists js, filterM (fun i => do d <- dim_of c i; Some (0 <? d)) is = Some js /\ Forall2 (up (c_data c)) js (filter (fun p => dimension p =? 1) qs).
Proof.
  intros Hd. induction 1 as [|i q is qs U H IH]; intros HIn; [exists []; split; [reflexivity|constructor]|]. destruct IH as (js & E & F2); [intros k Hk; apply HIn; now right|]. cbn [filterM filter]. rewrite (dim_of_up _ _ _ U). cbn [obind]. rewrite E. cbn [obind]. pose proof (dims_le q (HIn q (or_introl eq_refl))) as D.
  destruct (Nat.ltb_spec 0 (dimension q)), (Nat.eqb_spec (dimension q) 1); try lia; eexists; (split; [reflexivity|]); auto.
Qed.
Lemma map_flat fuel b : 1 <= n -> c_dim c <= 1 -> cells_at 0 = [b] -> n * g_n_vertices g < fuel ->
  morse_boundary_map get_boundary_p fuel c = Some (map (fun d => (mk 1 (length (cells_at d)) (fun _ _ => 0%Z), cells_at d)) (seq 0 (c_dim c + 1))).
Proof.
  intros Hn Hd H0 Hf. unfold morse_boundary_map. destruct numbering_some as (num & ->). cbn [obind].
  assert (RK : forall d, d <= n -> nth_error (c_ranks c) d = Some (length (cells_at d))). { intros d L. rewrite (I_ranks _ _ _ _ HI). rewrite nth_error_map, nth_error_nth' with (d := 0) by (rewrite seq_length; lia). rewrite seq_nth by lia. cbn [option_map Nat.add]. unfold cells_at. now rewrite map_length. }
  destruct (final_dim c 0 _ _ (I_final _ _ _ _ HI)) as (zs & Ez & Uz). assert (exists p0, filter (fun p => dimension p =? 0) ps = [p0] /\ rev p0 = b) as (p0 & Ep & Eb). { unfold cells_at in H0. destruct (filter _ ps) as [|p0 [|]]; try discriminate H0. exists p0. split; [reflexivity|]. now injection H0. }
  rewrite Ep in Uz. destruct zs as [|z zs]; [exfalso; inversion Uz|]. assert (U0 : up (c_data c) z p0) by now inversion Uz. 
  destruct (pos_spec Hd _ _ (I_final _ _ _ _ HI) (incl_refl _)) as (js & Ej & Uj). set (q1 := filter (fun p => dimension p =? 1) ps) in *.
  assert (C1 : c_dim c = 0 \/ c_dim c = 1) by lia. assert (E0 : length (cells_at 0) = 1) by now rewrite H0. unfold zero_maps. rewrite (RK 0 ltac:(lia)). cbn [obind]. rewrite E0. rewrite mzero_mk by lia. cbn [obind]. destruct C1 as [C1|C1]; rewrite C1.
  - cbn [seq omapM obind]. rewrite Ez. cbn [obind hd_error]. unfold cube_at at 1. rewrite (factor_iter_up _ _ _ U0). cbn [obind]. rewrite Ej. cbn [obind]. assert (q1 = []) as Eq1. { destruct q1 as [|q t] eqn:E; [reflexivity|]. exfalso. assert (K : In q q1) by (rewrite E; now left). unfold q1 in K. apply filter_In in K as (K & K1). apply dims_le in K. apply Nat.eqb_eq in K1. lia. }
    rewrite Eq1 in Uj. destruct js as [|]; [|exfalso; inversion Uj]. cbn [foldM obind repeat fst snd combine forallb length]. rewrite nc_mk. cbn [Nat.eqb andb Nat.add seq map]. rewrite H0, Eb. reflexivity.
  - cbn [seq omapM obind]. change (1 - 1) with 0. rewrite (RK 0 ltac:(lia)), (RK 1 ltac:(lia)). cbn [obind]. rewrite E0.
    assert (N1 : 0 < length (cells_at 1)). { unfold cells_at. fold q1. rewrite map_length. destruct q1 as [|q t] eqn:E; [|cbn; lia]. exfalso. assert (K : forall p, In p ps -> dimension p = 0). { intros p Hp. pose proof (dims_le p Hp). destruct (Nat.eq_dec (dimension p) 1) as [D|]; [|lia]. assert (In p q1) by (apply filter_In; split; [exact Hp|now apply Nat.eqb_eq]). rewrite E in H1. contradiction. }
      rewrite (I_dim _ _ _ _ HI) in C1. unfold top_dim in C1. assert (list_max (map dimension ps) <= 0); [|lia]. apply list_max_le, Forall_forall. intros k Hk. apply in_map_iff in Hk as (p & <- & Hp). rewrite (K p Hp). lia. }
    rewrite mzero_mk by lia. cbn [obind]. rewrite Ez. cbn [obind hd_error]. unfold cube_at at 1. rewrite (factor_iter_up _ _ _ U0). cbn [obind]. rewrite Ej. cbn [obind repeat].
    rewrite (fold_cells fuel num _ [rev p0] Hf js q1 [] Uj); [|intros p Hp; apply filter_In in Hp; apply Hp|intros p Hp; apply filter_In in Hp as (_ & Hp); now apply Nat.eqb_eq]. cbn [obind fst snd app combine forallb length]. rewrite !nc_mk.
    change (map (@rev factor) q1) with (cells_at 1). rewrite !Nat.eqb_refl. cbn [Nat.eqb andb Nat.add seq map]. rewrite ?Nat.eqb_refl. cbn [andb]. rewrite H0, Eb. reflexivity.
Qed.
End Map.
