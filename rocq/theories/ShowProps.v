(** Property theorems for printed texts (C111-C119). *)
From Coq Require Import String Ascii DecimalString List ZArith QArith Bool Lia.
From Verif Require Import PidModel MatModel MatSpec MatProofs RationalModel RationalSpec RationalProps PermModel PermSpec PermProofs PermProps LinModel LinProps UtilModel UtilSpec UtilProps GraphModel GraphSpec GraphProofs GraphProofs4 GraphProps
  LabGraphModel LabGraphSpec SubdivSpec SubdivProps CubeModel CompProofs HomModel ShowModel ShowSpec ShowProofs ShowProofs2 ShowProofs3 ShowProofs4.
Import ListNotations.
Open Scope nat_scope.
Open Scope list_scope.

(** C111: a module prints as the usual direct sum, and the printed homology determines all the modules. *)
Theorem C111_module_text : forall r ds, show_module (module_new r ds) = group_text r (filter (fun d => negb (fst d =? 1)%Z) ds).
Proof. exact show_module_text. Qed.
Print Assumptions C111_module_text.
Theorem C111_modules : forall r ds s es,
  show_module (module_new r ds) = show_module (module_new s es) <-> is_isomorphic_to (module_new r ds) (module_new s es) = true.
Proof.
  intros r ds s es. set (a := module_new r ds). set (b := module_new s es). clearbody a b. clear.
  assert (D : forall x y, divs_eqb x y = true <-> x = y).
  { induction x as [|[d m] x IH]; intros [|[e n] y]; cbn; split; intros H; try discriminate H; try reflexivity.
    - apply andb_prop in H. destruct H as [H H3]. apply andb_prop in H. destruct H as [H1 H2]. apply Z.eqb_eq in H1. apply Nat.eqb_eq in H2. apply IH in H3. congruence.
    - injection H as -> -> ->. rewrite Z.eqb_refl, Nat.eqb_refl. now apply IH. }
  unfold is_isomorphic_to. rewrite andb_true_iff, Nat.eqb_eq, D. split.
  - intros H. apply show_module_inj in H. now subst b.
  - destruct a as [f1 d1], b as [f2 d2]. cbn. intros [-> ->]. reflexivity.
Qed.
Print Assumptions C111_modules.
Theorem C111_homology : forall g h, show_homology g = show_homology h -> g = h.
Proof. exact show_homology_inj. Qed.
Print Assumptions C111_homology.
Theorem C111_lines : forall h, exists lines, show_homology h = unlines lines /\ length lines = length h /\
  forall i m, nth_error h i = Some m -> nth_error lines i = Some (lit "dim " ++ show_nat i ++ lit ": " ++ show_module m ++ lit ",").
Proof.
  intros h. exists (map (fun im => lit "dim " ++ show_nat (fst im) ++ lit ": " ++ show_module (snd im) ++ lit ",") (combine (seq 0 (length h)) h)). split; [|split].
  - unfold show_homology, unlines. rewrite map_map. f_equal. apply map_ext. intros a. now rewrite <- !app_assoc.
  - rewrite map_length, combine_length, seq_length. lia.
  - intros i m E. rewrite nth_error_map. assert (K : forall (l : list module_) k i m, nth_error l i = Some m -> nth_error (combine (seq k (length l)) l) i = Some (k + i, m)).
    { clear. induction l as [|a l IH]; intros k [|i] m E; cbn in E; try discriminate E; [injection E as ->; cbn; now rewrite Nat.add_0_r|]. cbn. rewrite (IH (S k) i m E). do 2 f_equal. lia. }
    rewrite (K h 0 i m E). reflexivity.
Qed.
Print Assumptions C111_lines.
(** Texts as string literals, for the examples. *)
Definition str := string_of_list_ascii.
Open Scope string_scope.
Example C111_nontrivial : str (show_homology [module_new 1 []; module_new 12 [(1%Z, 2%nat); (2%Z, 1%nat); (6%Z, 3%nat)]; module_new 0 [((-1)%Z, 1%nat)]; module_new 0 []]) =
  "dim 0: Z,
dim 1: Z^12 + Z_2 + (Z_6)^3,
dim 2: Z_-1,
dim 3: 0,
".
Proof. vm_compute. reflexivity. Qed.
Close Scope string_scope.

(** C112: permutations print in cycle notation; printed alike = act alike. *)
Theorem C112_text : forall p, show_perm p = concat (map cycle_text p).
Proof. intros p. unfold show_perm. f_equal. apply map_ext. exact show_cycle_text. Qed.
Print Assumptions C112_text.
Lemma cmap_norm c n : cmap (norm_cycle c) n = cmap c n.
Proof. destruct c as [|x l]; [|reflexivity]. cbn. destruct n as [|[|n]]; reflexivity. Qed.
Lemma pmap_norm p n : pmap (map norm_cycle p) n = pmap p n.
Proof. unfold pmap. rewrite map_map. now rewrite (map_ext (fun x => cmap (norm_cycle x) n) (fun c => cmap c n)) by (intros c; apply cmap_norm). Qed.
Theorem C112_printed_alike : forall p q, show_perm p = show_perm q -> forall n, pmap p n = pmap q n.
Proof. intros p q H n. apply show_perm_inj in H. rewrite <- (pmap_norm p), <- (pmap_norm q). now rewrite H. Qed.
Print Assumptions C112_printed_alike.
Theorem C112_exact : forall p q, built p -> built q -> (show_perm p = show_perm q <-> forall n, pmap p n = pmap q n).
Proof. intros p q Hp Hq. split; [apply C112_printed_alike|]. intros H. f_equal. now apply C19_equality_extensional. Qed.
Print Assumptions C112_exact.
Open Scope string_scope.
Example C112_nontrivial : (do a <- transposition 3 7; do b <- cycle_from [12; 10; 11]; do c <- pmul a (from_cycle b); do i <- pmul a a; Some (str (show_perm c), str (show_perm i))) = Some ("(3, 7)(10, 11, 12)", "(1)").
Proof. vm_compute. reflexivity. Qed.
Close Scope string_scope.

(** C113: rationals. *)
Theorem C113_text_partial : forall e f r s, neg_safe e -> neg_safe f -> run nonneg e = Some r -> run nonneg f = Some s ->
  (show_rational r = show_rational s <-> (toQ r == toQ s)%Q).
Proof.
  intros e f r s Se Sf Er Es. pose proof (C13_canonical_partial e r Se Er) as Cr. pose proof (C13_canonical_partial f s Sf Es) as Cs.
  rewrite <- (C13_eq_is_numeric_equality r s Cr Cs). unfold req. rewrite !andb_true_iff, !Z.eqb_eq, Bool.eqb_true_iff. destruct Cr as (N1 & _), Cs as (N2 & _). split.
  - intros H. apply show_rational_inj in H; try assumption. subst s. auto.
  - destruct r, s. cbn. intros [[-> ->] ->]. reflexivity.
Qed.
Print Assumptions C113_text_partial.
Theorem C113_refuted : exists e f r s, run u64 e = Some r /\ run u64 f = Some s /\ (toQ r == toQ s)%Q /\ str (show_rational r) = "-0"%string /\ str (show_rational s) = "0"%string.
Proof. exists (RNeg (RNew 0 1)), (RNew 0 1), (mkR 0 1 false), (mkR 0 1 true). repeat split. Qed.
Print Assumptions C113_refuted.
Example C113_nontrivial : (do r <- run u64 (RSub (RNew 1 6) (RNew 5 4)); do s <- run u64 (RMul (RNew 6 4) (RNew 2 1)); Some (str (show_rational r), str (show_rational s))) = Some ("-13/12"%string, "3"%string).
Proof. vm_compute. reflexivity. Qed.

(** C114: the description of the cycles (boundaries) of a complex whose cells are cubes. *)
Theorem C114_cube_text : forall c, show_cube c = match c with [] => None | _ => Some (cube_text c) end.
Proof. exact show_cube_text. Qed.
Print Assumptions C114_cube_text.
Theorem C114_sum_text : forall v bs, omapM (fun t => show_cube (snd t)) v = Some bs -> show_vector show_cube v = Some (sum_text (combine (map fst v) bs)).
Proof.
  intros [|[i x] v] bs E; cbn in E; [injection E as <-; reflexivity|]. destruct (show_cube x) as [b|] eqn:Ex; cbn in E; [|discriminate E]. destruct (omapM _ v) as [bs'|] eqn:Ev; cbn in E; [|discriminate E]. injection E as <-.
  cbn [map combine show_vector]. unfold show_first. cbn [fst snd]. rewrite Ex. cbn [obind].
  assert (K : omapM (show_other show_cube) v = Some (map (fun t => lit " + " ++ term_text false (fst t) (snd t)) (combine (map fst v) bs'))).
  { clear -Ev. revert bs' Ev. induction v as [|[j y] v IH]; intros bs' E; cbn in E; [injection E as <-; reflexivity|]. destruct (show_cube y) as [c|] eqn:Ey; cbn in E; [|discriminate E]. destruct (omapM _ v) as [cs|]; cbn in E; [|discriminate E]. injection E as <-.
    cbn [omapM map combine fst snd]. rewrite (IH cs eq_refl). unfold show_other. cbn [fst snd]. rewrite Ey. reflexivity. }
  rewrite K. cbn [obind]. unfold sum_text. rewrite join_cons, map_map. reflexivity.
Qed.
Print Assumptions C114_sum_text.
Theorem C114_lines : forall what cs, (forall x, In x (concat (concat cs)) -> snd x <> []) ->
  exists dims, describe show_cube what cs = Some (concat (map unlines dims)) /\ length dims = length cs /\
    forall i c, nth_error cs i = Some c -> exists l, nth_error dims i = Some ((show_nat i ++ what) :: l) /\
      Forall2 (fun v line => exists t, show_vector show_cube v = Some t /\ line = ["009"%char] ++ t ++ lit ", ") c l.
Proof.
  intros what cs HE. unfold describe.
  assert (V : forall v, (forall x, In x v -> snd x <> []) -> exists t, show_vector show_cube v = Some t).
  { intros v K. destruct (omapM_total (fun t => show_cube (snd t)) v) as [bs Eb]; [apply Forall_forall; intros x Hx; apply show_cube_total; auto|]. eexists. eapply C114_sum_text. exact Eb. }
  assert (D : forall i c, (forall v x, In v c -> In x v -> snd x <> []) -> exists l, describe_dim show_cube what (i, c) = Some (unlines ((show_nat i ++ what) :: l)) /\
    Forall2 (fun v line => exists t, show_vector show_cube v = Some t /\ line = ["009"%char] ++ t ++ lit ", ") c l).
  { intros i c K. rewrite describe_dim_eq. cbn [fst snd].
    assert (W : exists l, omapM (show_item show_cube) c = Some (map (fun x => x ++ ["010"%char]) l) /\ Forall2 (fun v line => exists t, show_vector show_cube v = Some t /\ line = ["009"%char] ++ t ++ lit ", ") c l).
    { induction c as [|v c IH]; [exists []; split; [reflexivity|constructor]|]. destruct IH as (l & El & Fl); [intros w x Hw; apply K; now right|]. destruct (V v) as [t Et]; [intros x; apply K; now left|].
      exists ((["009"%char] ++ t ++ lit ", ") :: l). split; [|constructor; [eauto|exact Fl]]. cbn [omapM]. rewrite El. unfold show_item. rewrite Et. cbn [obind map]. now rewrite <- !app_assoc. }
    destruct W as (l & El & Fl). exists l. split; [|exact Fl]. rewrite El. cbn [obind]. unfold unlines. cbn [map concat]. now rewrite <- !app_assoc. }
  assert (G : forall cs k, (forall x, In x (concat (concat cs)) -> snd x <> []) -> exists dims, omapM (describe_dim show_cube what) (combine (seq k (length cs)) cs) = Some (map unlines dims) /\ length dims = length cs /\
    forall i c, nth_error cs i = Some c -> exists l, nth_error dims i = Some ((show_nat (k + i) ++ what) :: l) /\
      Forall2 (fun v line => exists t, show_vector show_cube v = Some t /\ line = ["009"%char] ++ t ++ lit ", ") c l).
  { clear HE cs. induction cs as [|c cs IH]; intros k HE; [exists []; split; [reflexivity|split; [reflexivity|]]; intros [|i] c E; discriminate E|].
    destruct (IH (S k)) as (dims & Ed & Ld & Hd); [intros x Hx; apply HE; cbn; rewrite concat_app; apply in_or_app; now right|].
    destruct (D k c) as (l & El & Fl); [intros v x Hv Hx; apply HE; cbn; rewrite concat_app; apply in_or_app; left; apply in_concat; eauto|].
    exists (((show_nat k ++ what) :: l) :: dims). split; [|split; [cbn; now rewrite Ld|]].
    - cbn [length seq combine omapM]. rewrite El. cbn [obind]. rewrite Ed. reflexivity.
    - intros [|i] d E; cbn in E; [injection E as <-; exists l; rewrite Nat.add_0_r; auto|]. destruct (Hd i d E) as (l' & E' & F'). exists l'. split; [cbn; rewrite E'; do 4 f_equal; lia|exact F']. }
  destruct (G cs 0 HE) as (dims & Ed & Ld & Hd). exists dims. rewrite Ed. auto.
Qed.
Print Assumptions C114_lines.
Theorem C114_total : forall cs, (forall x, In x (concat (concat cs)) -> snd x <> []) ->
  (exists t, describe_cycles show_cube cs = Some t) /\ exists t, describe_boundaries show_cube cs = Some t.
Proof. intros cs H. split; apply describe_total; intros x Hx; apply show_cube_total; auto. Qed.
Print Assumptions C114_total.
Theorem C114_determined : forall cs ds t,
  (describe_cycles show_cube cs = Some t -> describe_cycles show_cube ds = Some t -> cs = ds) /\
  (describe_boundaries show_cube cs = Some t -> describe_boundaries show_cube ds = Some t -> cs = ds).
Proof. intros cs ds t. split; eapply describe_inj; try exact cubes_readable; reflexivity. Qed.
Print Assumptions C114_determined.
(** For a basis of integers (allowed by the same generic code) two different formal sums print alike, and a sum prints like zero. *)
Theorem C114_integer_basis_ambiguous : let sh := show_vector (fun z => Some (show_Z z)) in
  sh [(1, -5)%Z] = sh [(-1, 5)%Z] /\ sh [(1, 0)%Z] = sh [].
Proof. split; reflexivity. Qed.
Print Assumptions C114_integer_basis_ambiguous.
Example C114_nontrivial : option_map str (describe_cycles show_cube [[[(1%Z, [FVertex 0; FVertex 12])]]; [[((-1)%Z, [FEdge 0 3; FVertex 2]); (2%Z, [FVertex 1; FEdge 2 3])]; []]]) = Some
  ("0-cycles: " ++ "
	{0, 12}, 
1-cycles: 
	-{[0 3], 2} + (2)·{1, [2 3]}, 
	0, 
")%string.
Proof. vm_compute. reflexivity. Qed.

(** C115: a simple graph prints as the rows of its adjacency table below the diagonal. *)
Theorem C115_graphs : forall g h, made g -> made h ->
  exists tg th, show_rawg g = Some tg /\ show_rawg h = Some th /\ (tg = th <-> g_n_vertices g = g_n_vertices h /\ forall i j, edge g i j = edge h i j).
Proof.
  intros g h Mg Mh. pose proof (made_GI g Mg) as HG. pose proof (made_GI h Mh) as HH. pose proof (GI_pos _ HG) as Pg. pose proof (GI_pos _ HH) as Ph.
  eexists. eexists. split; [now apply show_rawg_rows|]. split; [now apply show_rawg_rows|]. unfold g_n_vertices. split.
  - intros H. apply bit_rows_inj in H. apply graph_rows_inj in H; try lia. destruct H as [N E]. split; [exact N|]. intros i j.
    assert (K : forall i j, i < j -> edge g i j = edge h i j).
    { intros a b Hab. destruct (Nat.lt_ge_cases b (g_n g)) as [L|L]; [now apply E|]. destruct (edge g a b) eqn:A; [apply edge_lt in A; [lia|exact HG]|]. destruct (edge h a b) eqn:B; [apply edge_lt in B; [lia|exact HH]|]. reflexivity. }
    destruct (Nat.lt_trichotomy i j) as [L|[->|L]]; [now apply K| |rewrite (edge_sym g), (edge_sym h); now apply K].
    destruct (edge g j j) eqn:A; [apply edge_lt in A; [lia|exact HG]|]. destruct (edge h j j) eqn:B; [apply edge_lt in B; [lia|exact HH]|]. reflexivity.
  - intros [N E]. unfold graph_rows. rewrite N. do 2 f_equal. apply map_ext. intros j. apply map_ext. intros i. apply E.
Qed.
Print Assumptions C115_graphs.
Theorem C115_lines : forall g, made g -> exists lines, show_rawg g = Some (unlines lines) /\ length lines = g_n_vertices g - 1 /\
  forall j, 0 < j < g_n_vertices g -> exists line, nth_error lines (j - 1) = Some line /\ length line = j /\
    forall i, i < j -> nth_error line i = Some (if edge g i j then "1"%char else "0"%char).
Proof.
  intros g Mg. pose proof (made_GI g Mg) as HG. exists (map (fun l => concat (map show_bit l)) (graph_rows g)). rewrite show_rawg_rows by exact HG. split; [|split].
  - unfold unlines. rewrite map_map. reflexivity.
  - unfold graph_rows. now rewrite !map_length, seq_length.
  - unfold g_n_vertices. intros j Hj. exists (concat (map show_bit (map (fun i => edge g i j) (seq 0 j)))).
    assert (B : forall l, concat (map show_bit l) = map (fun b : bool => if b then "1"%char else "0"%char) l) by (induction l as [|[] l IH]; [reflexivity| |]; cbn; now rewrite IH).
    split; [|split].
    + unfold graph_rows. rewrite map_map, nth_error_map. rewrite (nth_error_nth' _ 0) by (rewrite seq_length; lia). rewrite seq_nth by lia. cbn [option_map]. replace (1 + (j - 1)) with j by lia. reflexivity.
    + now rewrite B, !map_length, seq_length.
    + intros i Hi. rewrite B, !nth_error_map, (nth_error_nth' _ 0) by (rewrite seq_length; lia). rewrite seq_nth by lia. reflexivity.
Qed.
Print Assumptions C115_lines.
Example C115_nontrivial : (do g <- run_graph 4 [OpAdd 0 2; OpAdd 1 3; OpAdd 2 3]; option_map str (show_rawg g)) = Some "0
10
011
"%string.
Proof. vm_compute. reflexivity. Qed.

(** C116: the text of a subdivided graph lists every vertex and every edge once. *)
Lemma vertex_named es m u : 2 <= m -> SubdivSpec.is_vertex es m u -> exists t, show_svertex u = Some t.
Proof.
  intros Hm [s Hs|s t k l Hst Hk Hl]; [eexists; reflexivity|]. cbn [show_svertex inner_vertex]. unfold inner_vertex, show_svertex.
  destruct (rnew_total l (denom m s t)) as [r ->]; [unfold denom; destruct (String.eqb s t); lia|]. cbn -[show_rational show_nat]. eauto.
Qed.
Lemma omapM_inv {A C} (f : A -> option C) l m : omapM f l = Some m -> length m = length l /\ forall i x, nth_error l i = Some x -> exists y, f x = Some y /\ nth_error m i = Some y.
Proof.
  revert m. induction l as [|a l IH]; intros m E; cbn in E; [injection E as <-; split; [reflexivity|]; intros [|i] x K; discriminate K|].
  destruct (f a) as [b|] eqn:Ea; cbn in E; [|discriminate E]. destruct (omapM f l) as [m'|]; cbn in E; [|discriminate E]. injection E as <-. destruct (IH m' eq_refl) as [L H]. split; [cbn; now rewrite L|].
  intros [|i] x K; cbn in K; [injection K as <-; exists b; auto|now apply H].
Qed.
Lemma omapM_named {A} (f : A -> option text) (sep : text) (l : list A) (m : list text) e k : omapM f l = Some m ->
  omapM (fun iv => do t <- f (snd iv); Some (t ++ if fst iv =? e then [] else sep)) (combine (seq k (length l)) l) = Some (map (fun iv => snd iv ++ (if fst iv =? e then [] else sep)) (combine (seq k (length m)) m)).
Proof.
  revert m k. induction l as [|a l IH]; intros m k E; cbn in E; [injection E as <-; reflexivity|].
  destruct (f a) as [b|] eqn:Ea; cbn in E; [|discriminate E]. destruct (omapM f l) as [m'|]; cbn in E; [|discriminate E]. injection E as <-.
  cbn [length seq combine omapM map fst snd]. rewrite Ea. cbn [obind]. rewrite (IH m' (S k) eq_refl). reflexivity.
Qed.
Theorem C116_text : forall es gr marked sg, graph_from es = Some gr -> subdivided_graph_from gr marked = Some sg ->
  connected (g_n_vertices (sg_data sg)) (edge (sg_data sg)) ->
  exists names l, omapM show_svertex (sg_list sg) = Some names /\ NoDup l /\ (forall i j, In (i, j) l <-> i < j /\ edge (sg_data sg) i j = true) /\
    show_sgraph sg = Some (graph_text names (map (fun e => (nth (fst e) names [], nth (snd e) names [])) l)).
Proof.
  intros es gr marked sg E ES HC. pose proof (C66_subdivision es gr marked sg E ES) as H. cbn zeta in H. set (m := Nat.max marked 2) in *. assert (Hm : 2 <= m) by (unfold m; lia).
  destruct H as ((D1 & D2 & D3) & _ & LL & NN & TR). specialize (TR HC).
  pose proof (from_nil_not _ _ _ _ E ES) as Hes. pose proof (sub_spec es gr marked E Hes) as HS. cbn zeta in HS. fold m in HS. destruct HS as (g & HG0 & _ & _ & _ & HT).
  assert (HG : GI (sg_data sg)).
  { pose proof (GraphProofs8.maximal_tree_spec g HG0) as HM. destruct (choose_maximal_tree g) as [[h p]|]; [|congruence]. destruct HT as (L & EL & _). rewrite EL in ES. injection ES as <-. cbn. destruct HM as (_ & R & _). apply R. }
  destruct (omapM_total show_svertex (sg_list sg)) as [names En]; [apply Forall_forall; intros u Hu; apply D2 in Hu; eapply vertex_named; eassumption|].
  assert (N2 : 2 <= g_n (sg_data sg)).
  { unfold g_n_vertices in NN. destruct es as [|[s t] es']; [now destruct Hes|]. destruct (String.eqb_spec s t) as [->|Nst].
    - assert (K : In (t, t) (loops ((t, t) :: es'))) by (apply filter_In; split; [now left|apply String.eqb_refl]). rewrite NN. destruct (loops ((t, t) :: es')) as [|a q]; [destruct K|]. cbn [length]. nia.
    - assert (K : In (Essential s) (sg_list sg) /\ In (Essential t) (sg_list sg)) by (split; apply D2; constructor; exists (s, t); cbn; auto).
      destruct K as [Ks Kt]. unfold g_n_vertices in LL. rewrite <- LL. destruct (sg_list sg) as [|a [|b q]]; cbn in Ks, Kt; [tauto| |cbn; lia]. exfalso. destruct Ks as [->|[]], Kt as [K|[]]. congruence. }
  assert (E01 : edge (sg_data sg) 0 1 = true).
  { destruct (TR 1 ltac:(unfold g_n_vertices; lia)) as (i & TE & Hi & _). assert (i = 0) by lia. subst i. unfold tree_edge, tree_contains in TE. destruct (negb (g_tree (sg_data sg))); [discriminate TE|].
    rewrite contains_edge in TE by (assumption || lia). cbn [obind] in TE. destruct (edge (sg_data sg) 0 1); [reflexivity|discriminate TE]. }
  destruct (edge_iter_spec (sg_data sg) HG N2) as (l & El & ND & HI). exists names, ((0, 1) :: l).
  destruct (omapM_inv _ _ _ En) as [Ln Hn].
  assert (Gl : forall i j, In (i, j) ((0, 1) :: l) <-> i < j /\ edge (sg_data sg) i j = true).
  { intros i j. split.
    - intros [[= <- <-]|K]; [split; [lia|exact E01]|]. apply HI in K. tauto.
    - intros [A B]. pose proof (edge_lt _ _ _ HG B) as (_ & K & _). destruct (Nat.eq_dec i 0) as [Ei|Ei], (Nat.eq_dec j 1) as [Ej|Ej]; [left; congruence| | |]; right; apply HI; (split; [exact A|]; split; [exact K|]; split; [exact B|]; congruence). }
  assert (Nl : NoDup ((0, 1) :: l)) by (constructor; [intros K; apply HI in K; destruct K as (_ & _ & _ & K); congruence|exact ND]).
  split; [exact En|]. split; [exact Nl|]. split; [exact Gl|].
  assert (CE : g_n_edges (sg_data sg) = length ((0, 1) :: l)).
  { rewrite n_edges_spec by exact HG. apply Nat.le_antisymm; apply NoDup_incl_length.
    - apply NoDup_filter, pairs_NoDup.
    - intros [i j] K. apply filter_In in K. destruct K as [K1 K2]. apply Gl. split; [|exact K2]. unfold pairs in K1. apply in_flat_map in K1. destruct K1 as (j' & _ & K1). apply in_map_iff in K1. destruct K1 as (i' & [= -> ->] & K1). apply in_seq in K1. lia.
    - exact Nl.
    - intros [i j] K. apply Gl in K. destruct K as [K1 K2]. apply filter_In. split; [|exact K2]. pose proof (edge_lt _ _ _ HG K2) as (_ & K3 & _). unfold pairs. apply in_flat_map. exists j. split; [apply in_seq; lia|]. apply in_map_iff. exists i. split; [reflexivity|apply in_seq; lia]. }
  unfold show_sgraph. rewrite (omapM_named show_svertex (lit ", ") (sg_list sg) names _ 0 En). cbn [obind]. rewrite El. cbn [obind].
  set (es2 := (0, 1) :: l) in *.
  match goal with |- (do _ <- omapM ?f _; _) = _ => rewrite (omapM_ok f (fun ie => (lit "[" ++ nth (fst (snd ie)) names [] ++ lit ", " ++ nth (snd (snd ie)) names [] ++ lit "]") ++ (if fst ie =? length es2 - 1 then [] else lit ", "))) end.
  - cbn [obind]. unfold graph_text. f_equal. f_equal. rewrite <- Ln.
    pose proof (join_idx (lit ", ") names 0) as J1. cbn [Nat.add] in J1. match goal with |- context [concat (map ?f (combine (seq 0 (length names)) names))] => replace (concat (map f (combine (seq 0 (length names)) names))) with (join (lit ", ") names) by (symmetry; exact J1) end. f_equal. f_equal. f_equal. f_equal.
    rewrite map_map. cbn [fst snd]. rewrite <- (join_idx (lit ", ") _ 0). rewrite map_length. cbn [Nat.add]. f_equal.
    assert (G : forall (F : nat * nat -> text) e (l : list (nat * nat)) k, map (fun ie => F (snd ie) ++ (if fst ie =? e then [] else lit ", ")) (combine (seq k (length l)) l) =
      map (fun iv : nat * text => snd iv ++ (if fst iv =? e then [] else lit ", ")) (combine (seq k (length l)) (map F l))).
    { clear. intros F e l. induction l as [|a l IH]; intros k; [reflexivity|]. cbn [length seq combine map fst snd]. rewrite IH. reflexivity. }
    exact (G (fun p => lit "[" ++ nth (fst p) names [] ++ lit ", " ++ nth (snd p) names [] ++ lit "]") _ es2 0).
  - intros [k [i j]] Hk. apply in_combine_r in Hk. apply Gl in Hk. destruct Hk as [A B]. pose proof (edge_lt _ _ _ HG B) as (Hi & Hj & _). cbn [fst snd].
    assert (G : forall i, i < g_n (sg_data sg) -> exists v t, nth_error (sg_list sg) i = Some v /\ show_svertex v = Some t /\ nth i names [] = t).
    { intros x Hx. unfold g_n_vertices in LL. destruct (nth_error (sg_list sg) x) as [v|] eqn:Ev; [|apply nth_error_None in Ev; lia]. destruct (Hn x v Ev) as (t & Et & Nt). exists v, t. split; [reflexivity|]. split; [exact Et|]. now apply nth_error_nth. }
    destruct (G i Hi) as (v & tv & Ev & Tv & Nv), (G j Hj) as (w & tw & Ew & Tw & Nw). rewrite Ev. cbn [obind]. rewrite Ew. cbn [obind]. rewrite Tv. cbn [obind]. rewrite Tw. cbn [obind]. rewrite Nv, Nw.
    unfold csub. rewrite CE. fold es2. replace (1 <=? length es2) with true by (unfold es2; reflexivity). cbn [obind]. rewrite <- !app_assoc. reflexivity.
Qed.
Print Assumptions C116_text.
Example C116_nontrivial : (do gr <- graph_from [("a"%string, "b"%string); ("b"%string, "c"%string); ("b"%string, "d"%string)]; do sg <- subdivided_graph_from gr 3; option_map str (show_sgraph sg)) = Some
"vertices: a, (1/2)(a, b), b, (1/2)(b, c), c, (1/2)(b, d), d
edges: [a, (1/2)(a, b)], [(1/2)(a, b), b], [b, (1/2)(b, c)], [(1/2)(b, c), c], [b, (1/2)(b, d)], [(1/2)(b, d), d]
"%string.
Proof. vm_compute. reflexivity. Qed.

(** C117: the vertices of a subdivided graph have different names, if no label contains a parenthesis or a comma. *)
Lemma registered_mentions es s i : nth_error (registered es) i = Some s -> mentions es s.
Proof.
  intros H. apply nth_error_In in H. unfold registered in H.
  assert (G : forall es l s, In s (fold_left (fun l e => register (register l (fst e)) (snd e)) es l) -> In s l \/ mentions es s).
  { clear. induction es as [|[a b] es IH]; intros l s H; cbn in H; [now left|]. apply IH in H. destruct H as [H|(e & He & K)]; [|right; exists e; split; [now right|exact K]].
    unfold register in H. cbn [fst snd] in H. destruct (has b _) in H; destruct (has a l) in H; try (now left); repeat (apply in_app_or in H; destruct H as [H|H]); try (now left);
      destruct H as [<-|[]]; right; exists (a, b); cbn; auto. }
  apply G in H. destruct H as [[]|H]. exact H.
Qed.
Theorem C117_names_partial : forall es gr marked sg, graph_from es = Some gr -> subdivided_graph_from gr marked = Some sg -> (forall s, mentions es s -> plain_label s) ->
  exists names, omapM show_svertex (sg_list sg) = Some names /\ NoDup names.
Proof.
  intros es gr marked sg E ES HP. pose proof (C66_subdivision es gr marked sg E ES) as H. cbn zeta in H. set (m := Nat.max marked 2) in *. assert (Hm : 2 <= m) by (unfold m; lia).
  destruct H as ((D1 & D2 & _) & _).
  destruct (omapM_total show_svertex (sg_list sg)) as [names En]; [apply Forall_forall; intros u Hu; apply D2 in Hu; eapply vertex_named; eassumption|].
  exists names. split; [exact En|]. destruct (omapM_inv _ _ _ En) as [Ln Hn].
  assert (P : forall s, mentions es s -> plain s) by (intros s Hs; apply Forall_forall; intros c Hc; now apply (HP s Hs)).
  assert (OK : forall u, SubdivSpec.is_vertex es m u -> vertex_ok u).
  { intros u [s Hs|s t k l Hst Hk Hl]; [now apply P|]. destruct Hst as (i & j & _ & Ei & Ej). cbn. split; [apply P; eapply registered_mentions; eassumption|]. split; [apply P; eapply registered_mentions; eassumption|]. unfold denom. destruct (String.eqb s t); lia. }
  apply NoDup_nth_error. intros x y Hx Exy. rewrite Ln in Hx. destruct (nth_error (sg_list sg) x) as [u|] eqn:Eu; [|apply nth_error_None in Eu; lia].
  destruct (Hn x u Eu) as (t & Tu & Nu). rewrite Nu in Exy. assert (Hy : y < length names) by (apply nth_error_Some; congruence). rewrite Ln in Hy. destruct (nth_error (sg_list sg) y) as [v|] eqn:Ev; [|apply nth_error_None in Ev; lia].
  destruct (Hn y v Ev) as (t' & Tv & Nv). assert (t' = t) by congruence. subst t'.
  assert (Vu : SubdivSpec.is_vertex es m u) by (apply D2; eapply nth_error_In; eassumption). assert (Vv : SubdivSpec.is_vertex es m v) by (apply D2; eapply nth_error_In; eassumption).
  pose proof (svertex_inj u v t (OK u Vu) (OK v Vv) Tu Tv) as SV.
  assert (UV : u = v).
  { destruct Vu as [s Hs|s s2 k l Hst Hk Hl], Vv as [s' Hs'|s' s2' k' l' Hst' Hk' Hl']; cbn in SV; try contradiction; [now subst|].
    destruct SV as (-> & -> & -> & V). assert (0 < denom m s' s2') by (unfold denom; destruct (String.eqb s' s2'); lia). assert (l = l') by nia. now subst. }
  subst v. apply (proj1 (NoDup_nth_error _) D1); [lia|congruence].
Qed.
Print Assumptions C117_names_partial.
Theorem C117_refuted : exists es gr sg names, graph_from es = Some gr /\ subdivided_graph_from gr 3 = Some sg /\ omapM show_svertex (sg_list sg) = Some names /\ ~ NoDup names.
Proof.
  exists [("a"%string, "b"%string); ("b"%string, "(1/2)(a, b)"%string)]. do 3 eexists. split; [vm_compute; reflexivity|]. split; [vm_compute; reflexivity|]. split; [vm_compute; reflexivity|].
  intros H. inversion H as [|? ? ? H1]; subst. inversion H1 as [|? ? K H2]; subst. apply K. cbn. auto.
Qed.
Print Assumptions C117_refuted.
Example C117_nontrivial : (do gr <- graph_from [("u"%string, "v1"%string); ("v1"%string, "u"%string); ("v1"%string, "w"%string)]; do sg <- subdivided_graph_from gr 4; option_map (map str) (omapM show_svertex (sg_list sg))) =
  Some ["w"; "(2/3)(v1, w)"; "(1/3)(v1, w)"; "v1"; "(2/3)(u, v1)"; "(1/3)(u, v1)"; "u"; "(1/3)(u, v1)1"; "(2/3)(u, v1)1"]%string.
Proof. vm_compute. reflexivity. Qed.

(** C118: integer matrices with at least one row. *)
Theorem C118_matrices_partial : forall M N : mat Z, wf M -> wf N -> 0 < nr M -> 0 < nr N ->
  exists tm tn, show_mat M = Some tm /\ show_mat N = Some tn /\ (tm = tn <-> M = N).
Proof.
  intros M N WM WN HM HN. eexists. eexists. split; [now apply show_mat_rows|]. split; [now apply show_mat_rows|]. split; [|now intros ->].
  intros H. injection H as H. apply rows_inj in H. destruct M as [n m R], N as [n' m' R']. destruct WM as [A B], WN as [C D]. cbn in *. subst R'. f_equal; [lia|].
  destruct R as [|r R]; [cbn in A; lia|]. inversion B; inversion D; subst. congruence.
Qed.
Print Assumptions C118_matrices_partial.
Theorem C118_lines : forall M : mat Z, wf M -> show_mat M = Some (["010"%char] ++ unlines (map (fun r => lit "| " ++ join ["009"%char] (map show_Z r) ++ lit " |") (rws M))).
Proof. intros M W. rewrite show_mat_rows by exact W. do 2 f_equal. unfold unlines. rewrite map_map. f_equal. apply map_ext. intros r. unfold row_text. now rewrite <- !app_assoc. Qed.
Print Assumptions C118_lines.
(** Without rows, the number of columns does not show. *)
Theorem C118_refuted : exists M N : mat Z, wf M /\ wf N /\ M <> N /\ show_mat M = show_mat N.
Proof. exists (Mat 0 1 []), (Mat 0 2 []). repeat split; try constructor. discriminate. Qed.
Print Assumptions C118_refuted.
Example C118_nontrivial : option_map str (show_mat (Mat 2 3 [[1; -20; 0]; [7; 8; 9]]%Z)) = Some "
| 1	-20	0 |
| 7	8	9 |
"%string.
Proof. vm_compute. reflexivity. Qed.

(** C119: pools. *)
Theorem C119_pools : forall e f p q, run_pool e = Some p -> run_pool f = Some q ->
  exists tp tq, show_pool p = Some tp /\ show_pool q = Some tq /\ (tp = tq <-> pool_eqb p q = true).
Proof.
  intros e f p q Ep Eq.
  assert (G : forall e p, run_pool e = Some p -> exists b, (forall i, pool_contains p i = if i <? p_len p then Some (b i) else None) /\
    show_pool p = Some (lit "len = " ++ show_nat (p_len p) ++ lit ", " ++ lit "n_elements = " ++ show_nat (p_n p) ++ lit ", " ++ lit "data = [" ++ concat (map (fun i => show_bit (b i) ++ (if i =? p_len p - 1 then [] else lit ", ")) (seq 0 (p_len p))) ++ lit "]")).
  { clear. intros e p E. pose proof (C01_pool_is_a_set e) as H. rewrite E in H. destruct (run_set e) as [s|]; [|destruct H]. destruct H as (L & _ & C & _). exists (fun i => mem i (a_mem s)). rewrite L. split; [exact C|].
    unfold show_pool. rewrite L. rewrite (omapM_ok _ (fun i => show_bit (mem i (a_mem s)) ++ (if i =? a_len s - 1 then [] else lit ", "))); [reflexivity|].
    intros i Hi. apply in_seq in Hi. rewrite C. replace (i <? a_len s) with true by (symmetry; apply Nat.ltb_lt; lia). reflexivity. }
  destruct (G e p Ep) as (b & Cb & Tp), (G f q Eq) as (c & Cc & Tq). rewrite Tp, Tq. eexists. eexists. split; [reflexivity|]. split; [reflexivity|].
  split.
  - intros H. apply (C03_equality_extensional e f p q Ep Eq). apply app_inv_head in H. apply show_nat_split in H; [|st|st]. destruct H as [HL H]. apply app_inv_head in H. apply app_inv_head in H. apply show_nat_split in H; [|st|st]. destruct H as [_ H].
    apply app_inv_head in H. apply app_inv_head in H. rewrite HL in H. apply app_inv_tail in H. split; [exact HL|]. intros i. rewrite Cb, Cc, HL. destruct (Nat.ltb_spec i (p_len q)) as [K|K]; [|reflexivity].
    f_equal. eapply (pool_bits_inj b c); [exact H|lia].
  - intros H. enough (p = q) by (subst q; congruence). clear -H. unfold pool_eqb in H. rewrite !andb_true_iff, !Nat.eqb_eq in H. destruct H as [[H1 H2] H3], p as [a1 a2 a3], q as [b1 b2 b3]. cbn in *. subst. f_equal.
    revert b3 H3. induction a3 as [|x a IH]; intros [|y b] H; cbn in H; try discriminate H; [reflexivity|]. apply andb_prop in H. destruct H as [H1 H2]. apply N.eqb_eq in H1. subst. f_equal. auto.
Qed.
Print Assumptions C119_pools.
Theorem C119_text : forall e p, run_pool e = Some p -> exists bits, length bits = p_len p /\ (forall i, i < p_len p -> pool_contains p i = nth_error bits i) /\
  show_pool p = Some (lit "len = " ++ show_nat (p_len p) ++ lit ", n_elements = " ++ show_nat (pool_n_elements p) ++ lit ", data = [" ++ join (lit ", ") (map (fun b : bool => if b then lit "1" else lit "0") bits) ++ lit "]").
Proof.
  intros e p E. pose proof (C01_pool_is_a_set e) as H. rewrite E in H. destruct (run_set e) as [s|]; [|destruct H]. destruct H as (L & _ & C & _). exists (map (fun i => mem i (a_mem s)) (seq 0 (p_len p))).
  split; [now rewrite map_length, seq_length|]. split.
  - intros i Hi. rewrite C, <- L, nth_error_map, (nth_error_nth' _ 0) by (rewrite seq_length; exact Hi). rewrite seq_nth by exact Hi. cbn [option_map Nat.add]. apply Nat.ltb_lt in Hi. now rewrite Hi.
  - unfold show_pool. rewrite (omapM_ok _ (fun i => show_bit (mem i (a_mem s)) ++ (if i =? p_len p - 1 then [] else lit ", "))).
    + cbn [obind]. f_equal. change (lit ", n_elements = ") with (lit ", " ++ lit "n_elements = "). change (lit ", data = [") with (lit ", " ++ lit "data = ["). rewrite <- !app_assoc. do 8 f_equal.
      rewrite map_map. rewrite <- (join_idx (lit ", ") _ 0). rewrite map_length, seq_length. cbn [Nat.add]. f_equal. generalize (p_len p - 1). intros n1. generalize (p_len p). intros n. generalize 0. induction n as [|n IH]; intros k; [reflexivity|].
      cbn [seq map combine fst snd]. f_equal. apply IH.
    + intros i Hi. apply in_seq in Hi. rewrite C, <- L. replace (i <? p_len p) with true by (symmetry; apply Nat.ltb_lt; lia). reflexivity.
Qed.
Print Assumptions C119_text.
Example C119_nontrivial : (do p <- run_pool (EFrom 4 [2; 0]); option_map str (show_pool p)) = Some "len = 4, n_elements = 2, data = [1, 0, 1, 0]"%string.
Proof. vm_compute. reflexivity. Qed.
