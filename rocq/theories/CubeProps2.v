(** C55: boundaries of cubes. *)
From Coq Require Import List Arith ZArith NArith Bool Lia ZifyBool ZifyNat ZifyN Permutation Sorted String.
From Verif Require Import UtilModel PidModel LinModel LinSpec LinProofs LinProofs2 MatModel MatSpec MatProofs GraphModel GraphSpec GraphProofs GraphProofs2 GraphProps LabGraphModel SnfModel HomModel HomSpec CubeModel CubeSpec CubeProofs CubeProofs2 CubeProofs4 CubeProofs5 CubeProps CubePartialModel CubeProofs6 CubeProofs7.
Import ListNotations.
Open Scope nat_scope.

(** [Cube::get_boundary], cubes being compared by the derived total order: the coefficient of every cell is its incidence number. *)
Theorem C55_cube_boundary : forall c, ForallOrdPairs disjoint c -> exists v, get_boundary c = Some v /\ canonical_vec cube_cmp v /\
  (forall z f, In (z, f) v -> ForallOrdPairs disjoint f /\ listed f /\ S (dimension f) = dimension c /\ z = incidence c f /\ z <> 0%Z) /\
  (forall f, ForallOrdPairs disjoint f -> listed f -> coeff cube_cmp v f = incidence c f).
Proof.
  intros c HD. destruct (get_boundary_spec c) as (v & E & C & H). exists v. split; [exact E|]. split; [exact C|].
  assert (I : forall f, ForallOrdPairs disjoint f -> listed f -> coeff cube_cmp v f = incidence c f) by (intros f Hf Lf; rewrite H; symmetry; now apply incidence_Bd).
  split; [|exact I]. intros z f Hin. pose proof (coeff_in cube_cmp cube_total v z f (proj1 C) Hin) as Ez.
  assert (Nz : z <> 0%Z) by (destruct C as [_ C]; rewrite Forall_forall in C; apply (C _ Hin)).
  assert (K : exists sf, In sf (faces true [] c) /\ f_sort (snd sf) = f).
  { rewrite <- Ez, H in Nz. unfold Bd, ev in Nz. revert Nz. generalize (faces true [] c). clear. induction l as [|sf l IH]; intros Nz; [cbn in Nz; lia|]. rewrite zsum_cons in Nz. unfold dirac in Nz at 1.
    destruct (list_eq_dec f_dec (f_sort (snd sf)) f) as [e|]; [exists sf; split; [now left|exact e]|]. destruct IH as (sf' & A & B); [lia|]. exists sf'. split; [now right|exact B]. }
  destruct K as (sf & Hsf & <-). pose proof (faces_shape c true []) as FS. rewrite Forall_forall in FS. destruct (FS sf Hsf) as (x & y & w & q & r & E1 & E2 & Hw). cbn [app] in E2. rewrite E1 in *.
  assert (PF : ForallOrdPairs disjoint (q ++ FVertex w :: r)).
  { subst c. apply (pd_perm (FVertex w :: q ++ r)); [apply Permutation_middle|]. apply (pd_perm _ (FEdge x y :: q ++ r)) in HD; [|symmetry; apply Permutation_middle]. apply pd_cons in HD. apply pd_cons. split; [|apply HD].
    eapply Forall_impl; [|apply HD]. intros f D v' [<-|[]]. apply D. cbn. destruct Hw as [-> | ->]; auto. }
  split; [now apply f_sort_pd|]. split; [now apply f_sort_listed|]. split; [|split; [|exact Nz]].
  - rewrite (dimension_perm _ _ (f_sort_perm _)), E2, !dimension_app. change (dimension (FVertex w :: r)) with (dimension r). change (dimension (FEdge x y :: r)) with (S (dimension r)). lia.
  - rewrite <- Ez. apply I; [now apply f_sort_pd|now apply f_sort_listed].
Qed.
Print Assumptions C55_cube_boundary.

(** The boundary of the boundary: the sum of the multiples of the boundaries of its terms, as the library computes it, has no coefficient. *)
Theorem C55_square_zero : forall c, ForallOrdPairs disjoint c -> listed c -> exists v ws u, get_boundary c = Some v /\
  omapM (fun zf => do w <- get_boundary (snd zf); vmul ideal w (fst zf)) v = Some ws /\ vsum ideal cube_cmp ws = Some u /\ forall x, coeff cube_cmp u x = 0%Z.
Proof.
  intros c HD HL. destruct (get_boundary_spec c) as (v & E & C & H).
  assert (W : exists ws, omapM (fun zf => do w <- get_boundary (snd zf); vmul ideal w (fst zf)) v = Some ws /\ forall x, coeff cube_cmp (List.concat ws) x = zsum (fun zf => (fst zf * Bd (dirac x) (snd zf))%Z) v).
  { clear -v. induction v as [|[z f] v (ws & E & IH)]; [exists []; split; reflexivity|]. destruct (get_boundary_spec f) as (w & Ew & Cw & Hw).
    assert (M : exists w', vmul ideal w z = Some w' /\ forall x, coeff cube_cmp w' x = (z * coeff cube_cmp w x)%Z).
    { unfold vmul. destruct (Z.eqb_spec z 0) as [->|]; [exists []; split; [reflexivity|intros; cbn; lia]|]. destruct (scale_ideal z w) as (w' & E'). exists w'. split; [exact E'|]. now destruct (scale_spec cube_cmp ideal exact_ideal _ _ _ E') as (_ & K & _). }
    destruct M as (w' & E' & H'). exists (w' :: ws). cbn [omapM snd fst]. rewrite Ew. cbn [obind]. rewrite E'. cbn [obind]. rewrite E. cbn [obind]. split; [reflexivity|]. intros x. cbn [List.concat]. rewrite coeff_app, zsum_cons, IH, H', Hw. reflexivity. }
  destruct W as (ws & EW & HW). destruct (vsum_ideal cube_cmp cube_total ws) as (u & Eu). exists v, ws, u. split; [exact E|]. split; [exact EW|]. split; [exact Eu|].
  intros x. rewrite (vsum_total ideal cube_cmp exact_ideal cube_total _ _ x Eu), HW. rewrite (eval_vec v c (Bd (dirac x)) H). now apply Bd_Bd.
Qed.
Print Assumptions C55_square_zero.

(** With the comparison the derived [PartialOrd] gives, computing the boundary of any cube of dimension two or more stops the program. *)
Theorem C55_refuted_partial_order : forall c, ForallOrdPairs disjoint c -> listed c -> (forall x y, In (FEdge x y) c -> x < y) ->
  (get_boundary_p c = None <-> 2 <= dimension c).
Proof.
  intros c HD HL HO. split; [|now apply boundary_p_none]. intros E. destruct (dimension c) as [|[|k]] eqn:D; [|exfalso|lia].
  - exfalso. rewrite (boundary_p_zero c D) in E. discriminate.
  - destruct (split_edge c) as (P & x & y & Q & Ec & _); [lia|]. rewrite (boundary_p_one c P x y Q HD HL Ec) in E; [discriminate| |exact D]. apply HO. rewrite Ec. apply in_or_app. right. now left.
Qed.
Print Assumptions C55_refuted_partial_order.
(** ... whereas up to dimension one the result is the first end minus the second. *)
Theorem C55_partial_order_dim1 : forall P x y l, ForallOrdPairs disjoint (P ++ FEdge x y :: l) -> listed (P ++ FEdge x y :: l) -> x < y -> dimension (P ++ FEdge x y :: l) = 1 ->
  get_boundary_p (P ++ FEdge x y :: l) = Some [(1%Z, P ++ FVertex x :: l); ((-1)%Z, f_sort (P ++ FVertex y :: l))].
Proof. intros P x y l HD HL Hxy D. now apply boundary_p_one. Qed.
Print Assumptions C55_partial_order_dim1.
(** The two models of addition agree when the comparison is total. *)
Theorem C55_padd_total : forall B (cmp : B -> B -> comparison) v w, total_order cmp -> padd (fun a b => Some (cmp a b)) (fun a b => match cmp a b with Eq => true | _ => false end) v w = vadd ideal cmp v w.
Proof. intros B cmp v w H. apply (padd_vadd cmp H). Qed.
Print Assumptions C55_padd_total.

(** [CubicalCplx::boundary_map]. *)
Lemma cells_Lk g n c k : enumerates g n c -> cells_of_dim c k = map (cellof c) (Lk c k).
Proof.
  intros HE. unfold cells_of_dim, Lk. pose proof (fun i H => F_cell g n c HE i H) as FC. revert FC. generalize (c_final c). induction l as [|i l IH]; intros FC; [reflexivity|]. cbn [flat_map filter].
  destruct (FC i (or_introl eq_refl)) as (E & _ & _ & _ & D). rewrite E. cbn [app filter]. rewrite <- D. rewrite IH by (intros; apply FC; now right). destruct (dimo c i =? k); reflexivity.
Qed.
Lemma final_nonempty g n c : enumerates g n c -> n <= g_n_vertices g -> c_final c <> [].
Proof.
  intros HE Hn. destruct HE as (_ & _ & H & _). destruct (H (map FVertex (seq 0 n))) as (i & _ & Hi & _); [|intros K; rewrite K in Hi; destruct Hi].
  split; [now rewrite map_length, seq_length|]. split.
  - apply Forall_forall. intros f Hf. apply in_map_iff in Hf. destruct Hf as (x & <- & Hx). apply in_seq in Hx. cbn. lia.
  - generalize 0. clear. induction n as [|n IH]; intros a; cbn; [constructor|]. constructor; [|apply IH]. apply Forall_forall. intros f Hf. apply in_map_iff in Hf. destruct Hf as (x & <- & Hx). apply in_seq in Hx. intros v [<-|[]] [K|[]]. lia.
Qed.
Definition incidence_matrices (c : cplx) (bm : list (mat Z * list (list factor))) : Prop :=
  List.length bm = c_dim c + 1 /\
  (forall k, k <= c_dim c -> exists D, nth_error bm k = Some (D, []) /\ wf D /\ nc D = List.length (cells_of_dim c k) /\
     (k = 0 -> nr D = 1 /\ forall j, j < nc D -> ent D 0 j = 0%Z) /\
     (0 < k -> nr D = List.length (cells_of_dim c (k - 1)) /\
        forall i j a b, nth_error (cells_of_dim c (k - 1)) i = Some a -> nth_error (cells_of_dim c k) j = Some b -> ent D i j = incidence b a)) /\
  conforming (map fst bm).
Lemma boundary_map_incidence g n c : GI g -> enumerates g n c -> n <= g_n_vertices g -> exists bm, boundary_map c = Some bm /\ incidence_matrices c bm.
Proof.
  intros HG HE Hn. assert (HB : forall x y, edge g x y = true -> x < y -> y < g_n_vertices g) by (intros x y Hxy _; now destruct (edge_lt g x y HG Hxy) as (_ & ? & _)).
  pose proof (final_nonempty g n c HE Hn) as Hne. rewrite (boundary_map_spec g n c HB HE Hne). eexists. split; [reflexivity|].
  assert (LM : List.length (mats c (entry c)) = c_dim c + 1) by (unfold mats; now rewrite map_length, seq_length).
  assert (NC : forall {A B} (l : list A) (l' : list B) k, nth_error (combine l l') k = match nth_error l k, nth_error l' k with Some a, Some b => Some (a, b) | _, _ => None end).
  { clear. intros A B l. induction l as [|a l IH]; intros [|b l'] [|k]; cbn; try reflexivity; [destruct (nth_error l k); reflexivity|apply IH]. }
  split; [rewrite combine_length, repeat_length, LM; lia|]. split.
  - intros k Hk. exists (mk (rows c k) (rk c k) (entry c k)). split; [|split; [apply wf_mk|split; [|split]]].
    + rewrite NC, nth_error_repeat by lia. unfold mats. now rewrite map_seq_nth_error by lia.
    + rewrite nc_mk, (cells_Lk g n c k HE), map_length. reflexivity.
    + intros ->. split; [reflexivity|]. intros j Hj. rewrite nc_mk in Hj. rewrite ent_mk by (cbn [rows]; lia). reflexivity.
    + intros Hpos. destruct k as [|k]; [lia|]. replace (S k - 1) with k by lia. rewrite !(cells_Lk g n c _ HE), map_length. split; [reflexivity|]. intros i j a b Ha Hb.
      assert (Hi : i < rk c k) by (unfold rk; rewrite <- (map_length (cellof c)); apply nth_error_Some; congruence). assert (Hj : j < rk c (S k)) by (unfold rk; rewrite <- (map_length (cellof c)); apply nth_error_Some; congruence).
      rewrite ent_mk by (cbn [rows]; assumption). unfold entry. rewrite nth_error_map, (nth_error_nth' _ 0) in Ha by exact Hi. rewrite nth_error_map, (nth_error_nth' _ 0) in Hb by exact Hj. cbn [option_map] in Ha, Hb. injection Ha as <-. injection Hb as <-.
      pose proof (proj1 (Lk_in c _ _) (nth_In (Lk c k) 0 Hi)) as [Fi _]. pose proof (proj1 (Lk_in c _ _) (nth_In (Lk c (S k)) 0 Hj)) as [Fj _].
      destruct (F_cell g n c HE _ Fi) as (_ & (_ & _ & Pi) & Li & _). destruct (F_cell g n c HE _ Fj) as (_ & (_ & _ & Pj) & _). symmetry. now apply incidence_Bd.
  - assert (EM : map fst (combine (mats c (entry c)) (repeat (@nil (list factor)) (c_dim c + 1))) = mats c (entry c)).
    { rewrite <- LM. generalize (mats c (entry c)). clear. induction l as [|a l IH]; [reflexivity|]. cbn. now rewrite IH. }
    rewrite EM. exact (entry_conforming g n c HB HE Hne).
Qed.
Theorem C55_boundary_map : forall g n, made g -> edge g 0 1 = true -> 1 <= n <= g_n_vertices g ->
  exists c bm, udc_of g n = Some c /\ enumerates g n c /\ boundary_map c = Some bm /\ incidence_matrices c bm.
Proof.
  intros g n Mg E01 Hn. destruct (C56_cells_enumerated g n Mg E01 ltac:(lia)) as (c & Ec & HE). destruct (boundary_map_incidence g n c (made_GI g Mg) HE ltac:(lia)) as (bm & Eb & HI). exists c, bm. auto.
Qed.
Print Assumptions C55_boundary_map.
(** Without any cell (one more point than vertices) it stops the program. *)
Theorem C55_panics : forall g, made g -> edge g 0 1 = true -> exists c, udc_of g (g_n_vertices g + 1) = Some c /\ c_final c = [] /\ boundary_map c = None.
Proof.
  intros g Mg E01. destruct (C56_cells_enumerated g (g_n_vertices g + 1) Mg E01 ltac:(lia)) as (c & Ec & HE). exists c. split; [exact Ec|].
  assert (FE : c_final c = []).
  { destruct (c_final c) as [|i F] eqn:EF; [reflexivity|exfalso]. destruct HE as (_ & H & _). rewrite EF in H. destruct (H i (or_introl eq_refl)) as (l & _ & (L & CC & PD) & _).
    assert (K : List.length l <= g_n_vertices g).
    { assert (ND : NoDup (map low l)). { clear -PD. induction PD as [|f l F PD IH]; cbn; constructor; [|exact IH]. intros K. apply in_map_iff in K. destruct K as (f' & E & Hf'). rewrite Forall_forall in F. apply (disjoint_low f f' (F _ Hf')). congruence. }
      rewrite <- (map_length low), <- (seq_length (g_n_vertices g) 0). apply NoDup_incl_length; [exact ND|]. intros x Hx. apply in_map_iff in Hx. destruct Hx as (f & <- & Hf). rewrite Forall_forall in CC. specialize (CC f Hf). apply in_seq.
      destruct f as [x y|x]; cbn in *; [|lia]. destruct (edge_lt g x y (made_GI g Mg) (proj2 CC)) as (? & ? & _). unfold g_n_vertices in *. lia. }
    lia. }
  split; [exact FE|]. unfold boundary_map, numbering. rewrite FE. cbn [foldM obind fst]. unfold zero_maps. destruct HE as (_ & _ & _ & _ & _ & R & _). rewrite R. cbn [Nat.leb]. rewrite FE. reflexivity.
Qed.
Print Assumptions C55_panics.
(** The lists of cells returned with the matrices are empty, so the integral homology of the complex always stops the program. *)
Theorem C55_refuted_integral_homology : forall g n max_dim, made g -> edge g 0 1 = true -> 1 <= n <= g_n_vertices g ->
  exists c bm, udc_of g n = Some c /\ boundary_map c = Some bm /\ integral_homology cube_cmp bm max_dim = None.
Proof.
  intros g n md Mg E01 Hn. destruct (C55_boundary_map g n Mg E01 Hn) as (c & bm & Ec & HE & Eb & (L & H & CF)). exists c, bm. split; [exact Ec|]. split; [exact Eb|].
  destruct (H (c_dim c) (le_n _)) as (D & ED & WD & _ & _).
  assert (ER : exists t, rev bm = (D, []) :: t).
  { destruct (rev bm) as [|x t] eqn:R. - apply (f_equal (@List.length _)) in R. rewrite rev_length in R. cbn in R. lia.
    - exists t. assert (EB : bm = rev t ++ [x]) by (rewrite <- (rev_involutive bm), R; reflexivity). assert (LT : List.length (rev t) = c_dim c) by (rewrite EB, app_length in L; cbn in L; lia).
      rewrite EB, nth_error_app2, LT, Nat.sub_diag in ED by lia. cbn in ED. congruence. }
  destruct ER as (t & ER). unfold integral_homology. rewrite ER. cbn [fst].
  assert (P : 0 < nc D). { destruct CF as (CF & _). eapply CF. rewrite nth_error_map, ED. reflexivity. }
  rewrite midentity_mk by exact P. cbn [obind hom_run]. unfold hom_step at 1. cbn [fst snd h_row h_rank h_divs].
  destruct (smith_normal_form D) as [[[[[? ?] D'] co] ?]|]; [|reflexivity]. cbn [obind]. destruct (rank_of_diag D') as [rl|]; [|reflexivity]. cbn [obind].
  destruct (subM (nc D') rl) as [f1|]; [|reflexivity]. cbn [obind]. destruct (subM f1 0) as [fr|]; [|reflexivity]. cbn [obind]. destruct (mtranspose co) as [ct|]; [|reflexivity]. cbn [obind].
  destruct (change_basis cube_cmp ct []); [|reflexivity]. cbn [obind]. rewrite mtranspose_mk. cbn [obind]. unfold change_basis at 1. rewrite nc_mk. cbn [List.length]. replace (nc D =? 0) with false by lia. reflexivity.
Qed.
Print Assumptions C55_refuted_integral_homology.

(** The boundary of a square, and the boundary maps of three points on an edge with a loop. *)
Open Scope string_scope.
Example C55_nontrivial :
  get_boundary [FEdge 0 8; FVertex 1; FEdge 6 9; FVertex 7] =
    Some [((-1)%Z, [FEdge 0 8; FVertex 1; FVertex 6; FVertex 7]); (1%Z, [FEdge 0 8; FVertex 1; FVertex 7; FVertex 9]);
          (1%Z, [FVertex 0; FVertex 1; FEdge 6 9; FVertex 7]); ((-1)%Z, [FVertex 1; FEdge 6 9; FVertex 7; FVertex 8])] /\
  get_boundary_p [FEdge 0 8; FVertex 1; FEdge 6 9; FVertex 7] = None /\
  exists gr c bm, graph_from [("v0","v1"); ("v1","v1")] = Some gr /\ udc gr 3 = Some c /\ boundary_map c = Some bm /\
    map (fun b => (nr (fst b), nc (fst b))) bm = [(1, 20); (20, 36); (36, 16); (16, 2)].
Proof.
  split; [vm_compute; reflexivity|]. split; [vm_compute; reflexivity|].
  do 3 eexists. split; [vm_compute; reflexivity|]. split; [vm_compute; reflexivity|]. split; [vm_compute; reflexivity|]. vm_compute. reflexivity.
Qed.
Close Scope string_scope.
