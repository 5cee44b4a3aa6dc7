(** C137: the homology of the configuration complex, from the matrices of [boundary_map]. *)
From Coq Require Import List Arith ZArith Bool Lia ZifyBool ZifyNat Permutation Sorted String Relations.
From Verif Require Import UtilModel PidModel LinModel LinSpec MatModel MatSpec MatProofs MatProofs2 SnfModel SnfProofs SnfProofs2 SnfProofs3 SnfProps RankSpec HomModel HomSpec HomProofs HomProofs2 HomProofs3 HomProofs4 HomProps EulerProps.
From Verif Require Import GraphModel GraphSpec GraphProofs GraphProofs5 GraphProofs8 GraphProps LabGraphModel LabGraphSpec LabGraphProofs LabGraphProofs2 LabGraphProps SubdivSpec SubdivProofs SubdivProofs2 SubdivProps CubeModel CubeSpec CubeProofs CubeProofs2 CubeProofs3 CubeProps CubeProofs4 CubeProofs5 CubePartialModel CubeProofs6 CubeProofs7 CubeProps2 MorseProps ConfConnProps CompProofs CompProps.
From Verif Require Import GalSpec GalProps GalProps2 FvecSpec FvecProofs FvecProps FvecProofs2.
Import ListNotations.
Open Scope nat_scope.

(** The first boundary matrix: its Smith form has one entry less than there are 0-cells, and these are 1 or -1. *)
Theorem C137_first_boundary : forall es gr n sg c bm D bs, graph_from es = Some gr -> subdivided_graph_from gr n = Some sg -> connected (g_n_vertices (sg_data sg)) (edge (sg_data sg)) -> 1 <= n -> udc gr n = Some c ->
  boundary_map c = Some bm -> nth_error bm 1 = Some (D, bs) ->
  exists Ri R S C Ci, smith_normal_form D = Some (Ri, R, S, C, Ci) /\ nr S = List.length (cells_of_dim c 0) /\ nc S = List.length (cells_of_dim c 1) /\ smith_diagonal (nr S - 1) S /\
    forall i, i < nr S - 1 -> ent S i i = 1%Z \/ ent S i i = (-1)%Z.
Proof.
  intros es gr n sg c bm D bs E ES HC Hn EU EB ED. destruct (C127_H0 es gr n sg c bm D bs E ES HC Hn EU EB ED) as (NR & H0).
  destruct (C56_udc es gr n sg E ES HC Hn) as (c' & EU' & HE). rewrite EU in EU'. injection EU' as <-. destruct (C95_subdivided es gr n sg E ES HC) as ((Hsz & _) & _).
  destruct (sub_made gr n sg es E ES) as (g0 & p0 & HG0 & ET). pose proof (maximal_tree_spec g0 HG0) as HM. rewrite ET in HM. destruct HM as (_ & R & _). pose proof (GraphProofs5.L_GI _ _ _ R) as HG. clear R.
  destruct (boundary_map_incidence (sg_data sg) n c HG HE Hsz) as (bm' & EB' & (LM & HB & HCF)). rewrite EB in EB'. injection EB' as <-.
  assert (H1 : 1 <= c_dim c) by (assert (K : 1 < List.length bm) by (apply nth_error_Some; congruence); lia).
  destruct (HB 1 H1) as (D' & ED' & WD & NC & _). rewrite ED in ED'. injection ED' as <- ->.
  assert (EDm : nth_error (map fst bm) 1 = Some D) by (rewrite nth_error_map, ED; reflexivity). destruct (proj1 HCF 1 D EDm) as (_ & PR & PC).
  destruct (snf_ok (nr D) (nc D) (ent D) PR PC) as (S & Ri & R & C & Ci & Cg & rk & EQ & F1 & F2 & F3 & F4 & F5 & _). rewrite <- (wf_eq_mk D WD) in EQ.
  assert (HS : smith (nr D) (nc D) (ent D) S Ri R C Cg rk) by (repeat split; try apply F2; try apply F3; try apply F4; assumption).
  assert (HI : forall x : nat -> Z, (exists y, forall i, i < nr D -> x i = ap (nc D) (ent D) y i) <-> sum (nr D) x = 0%Z).
  { intros x. rewrite <- H0. split; intros (y & Hy); exists y; intros i Hi; symmetry; now apply Hy. }
  pose proof (zs_rank _ _ _ _ _ _ _ _ _ HS PR HI) as Erk. pose proof (zs_units _ _ _ _ _ _ _ _ _ HS PR HI) as HU.
  destruct (C35_diagonal D _ _ _ _ _ WD PR PC EQ) as (rk' & HD). assert (rk' = rk).
  { destruct HD as (A1 & A2 & _ & A4 & _). cbn [nr nc mk] in *. destruct F4 as (B1 & B2 & B3 & B4). destruct (Nat.lt_trichotomy rk rk') as [L|[L|L]]; [|lia|]; exfalso.
    - assert (K : ent (mk (nr D) (nc D) S) rk rk <> 0%Z) by (apply A4; lia). rewrite ent_mk in K by lia. apply K. apply B4; lia.
    - assert (K : ent (mk (nr D) (nc D) S) rk' rk' <> 0%Z) by (rewrite ent_mk by lia; apply B3; lia). apply A4 in K; lia. }
  subst rk'. exists (mk (nr D) (nr D) Ri), (mk (nr D) (nr D) R), (mk (nr D) (nc D) S), (mk (nc D) (nc D) C), (mk (nc D) (nc D) Ci). split; [exact EQ|]. cbn [nr nc mk]. split; [exact NR|]. split; [exact NC|]. split; [rewrite <- Erk; exact HD|].
  intros i Hi. destruct F4 as (B1 & B2 & _). rewrite ent_mk by lia. apply HU. lia.
Qed.
Print Assumptions C137_first_boundary.

(** The rank that is reported in degree [k] (0 above the last reported degree). *)
Definition reported {B} (out : list (module_ * list (list (Z * B)) * list (list (Z * B)))) (k : nat) : nat :=
  nth k (map (fun x => free_rank (fst (fst x))) out) 0.

Lemma alternating_same l : EulerProps.alternating l = alternating l.
Proof. induction l as [|x l IH]; [reflexivity|]. cbn [EulerProps.alternating]. rewrite IH. reflexivity. Qed.

Lemma cells_above g n c k : enumerates g n c -> c_dim c < k -> cells_of_dim c k = [].
Proof.
  intros HE Hk. rewrite (cells_cellof g n c k HE). destruct (filter _ _) as [|l r] eqn:EF; [reflexivity|]. exfalso. assert (K : In l (filter (fun l => dimension l =? k) (map (cellof c) (c_final c)))) by (rewrite EF; now left).
  apply filter_In in K as [K1 K2]. apply in_map_iff in K1 as (i & <- & Hi). destruct (F_cell g n c HE i Hi) as (_ & _ & _ & _ & D). pose proof (F_dim g n c HE i Hi). lia.
Qed.

Section Facts.
  Variables (es : list (string * string)) (gr : lgraph) (n : nat) (sg : sgraph) (c : cplx) (bm : list (mat Z * list (list factor))).
  Hypothesis E : graph_from es = Some gr.
  Hypothesis ES : subdivided_graph_from gr n = Some sg.
  Hypothesis HC : connected (g_n_vertices (sg_data sg)) (edge (sg_data sg)).
  Hypothesis Hn : 1 <= n.
  Hypothesis EU : udc gr n = Some c.
  Hypothesis EB : boundary_map c = Some bm.
  Notation N := (List.length (cells_of_dim c 0)).
  Lemma cf_basic : enumerates (sg_data sg) n c /\ incidence_matrices c bm /\ c_dim c <= n.
  Proof.
    destruct (C56_udc es gr n sg E ES HC Hn) as (c' & EU' & HE). rewrite EU in EU'. injection EU' as <-. destruct (C95_subdivided es gr n sg E ES HC) as ((Hsz & _) & _).
    destruct (sub_made gr n sg es E ES) as (g0 & p0 & HG0 & ET). pose proof (maximal_tree_spec g0 HG0) as HM. rewrite ET in HM. destruct HM as (_ & R & _). pose proof (GraphProofs5.L_GI _ _ _ R) as HG.
    destruct (boundary_map_incidence (sg_data sg) n c HG HE Hsz) as (bm' & EB' & HI). rewrite EB in EB'. injection EB' as <-. split; [exact HE|]. split; [exact HI|].
    apply (dim_le_n (sg_data sg) n c HE). exact (final_nonempty (sg_data sg) n c HE Hsz).
  Qed.
  Lemma cf_single : c_dim c = 0 -> N = 1.
  Proof.
    intros D0. destruct cf_basic as (HE & _ & _). destruct (C127_connected es gr n sg c E ES HC Hn EU) as (NE & CN). pose proof (cells_NoDup (sg_data sg) n c HE 0) as ND. set (C0 := cells_of_dim c 0) in *.
    assert (EQ : forall a b, In a C0 -> In b C0 -> a = b).
    { intros a b Ha Hb. pose proof (CN a b Ha Hb) as K. clear Ha Hb. induction K as [a b (_ & _ & e & He & _)|a|a b d K1 IH1 K2 IH2]; [|reflexivity|congruence]. rewrite (cells_above (sg_data sg) n c 1 HE ltac:(lia)) in He. destruct He. }
    destruct C0 as [|a [|b l]]; [congruence|reflexivity|]. exfalso. inversion ND as [|? ? Na _]; subst. apply Na. left. apply EQ; [right; now left|now left].
  Qed.
  Lemma cf_d0 : exists d0, nth_error (map fst bm) 0 = Some d0 /\ nr d0 = 1 /\ nc d0 = N /\ forall i j, i < nr d0 -> j < nc d0 -> ent d0 i j = 0%Z.
  Proof.
    destruct cf_basic as (HE & (LM & HB & _) & _). destruct (HB 0 ltac:(lia)) as (d0 & E0 & _ & NC & Z0 & _). destruct (Z0 eq_refl) as (NR & ZZ). exists d0. rewrite nth_error_map, E0. split; [reflexivity|]. split; [exact NR|]. split; [exact NC|]. intros i j Hi Hj. replace i with 0 by lia. now apply ZZ.
  Qed.
  Lemma cf_bnd x : List.length x = N -> (boundaries_of (map fst bm) 0 x <-> sum N (fun i => nth i x 0%Z) = 0%Z).
  Proof.
    intros Lx. destruct cf_basic as (HE & (LM & HB & HCF) & _). unfold boundaries_of. destruct (nth_error (map fst bm) (0 + 1)) as [D|] eqn:ED; cbn [Nat.add] in ED.
    - rewrite nth_error_map in ED. destruct (nth_error bm 1) as [[D' bs]|] eqn:ED'; [|discriminate]. cbn in ED. injection ED as ->. destruct (C127_H0 es gr n sg c bm D bs E ES HC Hn EU EB ED') as (NR & H0). rewrite <- NR, <- H0. unfold in_image, apply_at. split.
      + intros (_ & y & Ly & Hy). exists (fun j => nth j y 0%Z). intros i Hi. now rewrite (Hy i Hi).
      + intros (y & Hy). split; [lia|]. exists (map y (seq 0 (nc D))). rewrite map_length, seq_length. split; [reflexivity|]. intros i Hi. rewrite <- (Hy i Hi). apply sum_ext. intros j Hj. rewrite (nth_error_nth _ _ 0%Z (map_seq_nth_error _ _ _ Hj)). reflexivity.
    - assert (D0 : c_dim c = 0). { apply nth_error_None in ED. rewrite map_length in ED. lia. } pose proof (cf_single D0) as N1. destruct cf_d0 as (d0 & E0 & _ & NC & _). rewrite E0. rewrite N1 in *. destruct x as [|a [|? ?]]; try discriminate Lx. cbn [sum nth tadd t0 ops_Z]. split.
      + intros (d & [= <-] & K). rewrite NC in K. cbn in K. injection K as ->. reflexivity.
      + intros K. exists d0. split; [reflexivity|]. rewrite NC. cbn. f_equal. lia.
  Qed.
  Lemma cf_ranks : rank_of (map fst bm) 0 0 /\ rank_of (map fst bm) 1 (N - 1).
  Proof.
    destruct cf_basic as (HE & (LM & HB & HCF) & _). split.
    - destruct cf_d0 as (d0 & E0 & _ & _ & ZZ). unfold rank_of. rewrite E0. split; [exists (fun _ _ => 0%Z); intros a _ i Hi; lia|]. intros s Hs. apply (zero_rank RZ) in Hs; [lia|discriminate|exact ZZ].
    - unfold rank_of. destruct (nth_error (map fst bm) 1) as [D|] eqn:ED.
      + pose proof (proj1 HCF 1 D ED) as (WD & PR & PC). rewrite nth_error_map in ED. destruct (nth_error bm 1) as [[D' bs]|] eqn:ED'; [|discriminate]. cbn in ED. injection ED as ->. destruct (C127_H0 es gr n sg c bm D bs E ES HC Hn EU EB ED') as (NR & H0).
        destruct (snf_ok (nr D) (nc D) (ent D) PR PC) as (S & Ri & R & C & Ci & Cg & rk & EQ & F1 & F2 & F3 & F4 & F5 & _).
        assert (HS : smith (nr D) (nc D) (ent D) S Ri R C Cg rk) by (repeat split; try apply F2; try apply F3; try apply F4; assumption).
        assert (HI : forall x : nat -> Z, (exists y, forall i, i < nr D -> x i = ap (nc D) (ent D) y i) <-> sum (nr D) x = 0%Z).
        { intros x. rewrite <- H0. split; intros (y & Hy); exists y; intros i Hi; symmetry; now apply Hy. }
        rewrite <- NR, <- (zs_rank _ _ _ _ _ _ _ _ _ HS PR HI). exact (smith_rank _ _ _ _ _ _ _ _ _ HS).
      + assert (D0 : c_dim c = 0) by (apply nth_error_None in ED; rewrite map_length in ED; lia). rewrite (cf_single D0). reflexivity.
  Qed.
End Facts.

(** The matrices of [boundary_map] with lists of names of the right lengths for the cells ([boundary_map] itself gives empty lists): the first
    module reported is free of rank 1 (up to divisors -1, see C43), and the alternating sum of the reported ranks is Gal's number. *)
Theorem C137_homology : forall es gr n sg c bm, graph_from es = Some gr -> subdivided_graph_from gr n = Some sg -> connected (g_n_vertices (sg_data sg)) (edge (sg_data sg)) -> 1 <= n -> udc gr n = Some c ->
  boundary_map c = Some bm -> forall B cmp (bms : list (mat Z * list B)), total_order cmp -> map fst bms = map fst bm -> Forall (fun b => List.length (snd b) = nc (fst b)) bms ->
  exists h cyc bnd rest, integral_homology cmp bms None = Some ((h, cyc, bnd) :: rest) /\ free_rank h = 1 /\ Forall (fun e => fst e = (-1)%Z) (elementary_divisors h) /\
    alternating (map (fun x => free_rank (fst (fst x))) ((h, cyc, bnd) :: rest)) = gal es n.
Proof.
  intros es gr n sg c bm E ES HC Hn EU EB B cmp bms Ht EM HL. destruct (cf_basic es gr n sg c bm E ES HC Hn EU EB) as (HE & (LM & HB & HCF) & HD).
  assert (CD : complex_data bms). { split; [intros ->; destruct bm; cbn in *; [lia|discriminate EM]|]. rewrite EM. split; assumption. }
  destruct (cf_d0 es gr n sg c bm E ES HC Hn EU EB) as (d0 & Ed0 & NR0 & Nd0 & ZZ). destruct (cf_ranks es gr n sg c bm E ES HC Hn EU EB) as (R0 & R1). pose proof (cf_bnd es gr n sg c bm E ES HC Hn EU EB) as BT. set (N := List.length (cells_of_dim c 0)) in *.
  assert (HN : 0 < N). { destruct (C127_connected es gr n sg c E ES HC Hn EU) as (NE & _). unfold N. destruct (cells_of_dim c 0); [congruence|cbn; lia]. }
  assert (KER : forall x, in_kernel d0 x <-> List.length x = N).
  { intros x. unfold in_kernel. rewrite Nd0. split; [tauto|]. intros Lx. split; [exact Lx|]. intros i Hi. unfold apply_at. apply (sum_zero RZ). intros j Hj. rewrite (ZZ i j Hi) by lia. reflexivity. }
  destruct (C43_homology_partial _ cmp bms None Ht CD) as (out & Eo & Lo & HO & HEE). rewrite EM in *.
  assert (AL : EulerProps.alternating (map (fun x => free_rank (fst (fst x))) out) = gal es n).
  { assert (AZ : augmentation_zero (map fst bms)) by (rewrite EM; intros d Hd i j Hi Hj; rewrite Ed0 in Hd; injection Hd as <-; now apply ZZ).
    rewrite (C108_integral B cmp bms out Ht CD AZ Eo).
    - rewrite <- (C126_euler es gr n sg c E ES HC Hn EU), alternating_same. assert (LR : forall k, nth_error (c_ranks c) k = if k <=? n then Some (List.length (cells_of_dim c k)) else None) by (intros k; now apply (ranks_cells (sg_data sg) n)).
      assert (EC : map (fun b => List.length (snd b)) bms = map (fun k => List.length (cells_of_dim c k)) (seq 0 (c_dim c + 1))).
      { replace (map (fun b => List.length (snd b)) bms) with (map nc (map fst bms)) by (rewrite map_map; clear -HL; induction HL as [|b l H HL IH]; [reflexivity|cbn; now rewrite H, IH]). rewrite EM.
        apply nth_error_ext. intros k. rewrite !nth_error_map. destruct (le_lt_dec k (c_dim c)) as [Hk|Hk].
        - destruct (HB k Hk) as (D & EDk & _ & NC & _). rewrite EDk. rewrite (nth_error_nth' _ 0) by (rewrite seq_length; lia). rewrite seq_nth by lia. cbn. now rewrite NC.
        - rewrite (proj2 (nth_error_None bm k)) by lia. rewrite (proj2 (nth_error_None (seq 0 _) k)) by (rewrite seq_length; lia). reflexivity. }
      rewrite EC. assert (ER : c_ranks c = map (fun k => List.length (cells_of_dim c k)) (seq 0 (c_dim c + 1)) ++ repeat 0 (n - c_dim c)).
      { apply nth_error_ext. intros k. rewrite LR. destruct (le_lt_dec k (c_dim c)) as [Hk|Hk].
        - replace (k <=? n) with true by lia. rewrite nth_error_app1 by (rewrite map_length, seq_length; lia). rewrite nth_error_map, (nth_error_nth' _ 0) by (rewrite seq_length; lia). rewrite seq_nth by lia. reflexivity.
        - rewrite nth_error_app2 by (rewrite map_length, seq_length; lia). rewrite map_length, seq_length. destruct (Nat.leb_spec k n).
          + rewrite (cells_above (sg_data sg) n c k HE Hk). symmetry. apply nth_error_repeat. lia.
          + symmetry. apply nth_error_None. rewrite repeat_length. lia. }
      rewrite ER, <- !alternating_same. symmetry. apply alternating_app_zero. clear. induction (n - c_dim c); constructor; auto.
  }
  assert (CA : forall x y, in_kernel d0 x -> in_kernel d0 y -> in_kernel d0 (gadd x y)) by (intros x y Hx Hy; apply KER in Hx, Hy; apply KER; rewrite gadd_length; congruence).
  assert (PU : forall x q, in_kernel d0 x -> q <> 0%Z -> boundaries_of (map fst bm) 0 (times_list q x) -> boundaries_of (map fst bm) 0 x).
  { intros x q Hx Hq. apply KER in Hx. assert (Lq : List.length (times_list q x) = N) by (unfold times_list; now rewrite map_length). rewrite (BT _ Lq), (BT _ Hx). intros H.
    rewrite (sum_extZ N _ (fun i => q * nth i x 0)%Z) in H by (intros i _; apply nth_times). rewrite sum_mulZ in H. apply Z.mul_eq_0 in H. destruct H; [contradiction|assumption]. }
  destruct out as [|[[h cyc] bnd] rest].
  - exfalso. destruct (HEE 0) as (d0' & Ed & (phi & Q1 & _ & Q3 & _)); [cbn [List.length]; destruct CD as (Hne & _); destruct bms; cbn [List.length]; try congruence; lia|].
    rewrite Ed0 in Ed. injection Ed as <-. set (x := map (unit_v 0) (seq 0 N)). assert (Lx : List.length x = N) by (unfold x; now rewrite map_length, seq_length).
    assert (Kx : in_kernel d0 x) by now apply KER. assert (Bx : boundaries_of (map fst bm) 0 x). { apply (Q3 x Kx). specialize (Q1 x Kx). repeat split; [exact Q1|]. intros i Hi. cbn in Hi. lia. }
    apply (BT x Lx) in Bx. rewrite (sum_extZ N _ (unit_v 0)) in Bx by (intros i Hi; unfold x; now rewrite (nth_error_nth _ _ 0%Z (map_seq_nth_error _ _ _ Hi))). rewrite sum_unit_v in Bx by exact HN. discriminate Bx.
  - exists h, cyc, bnd, rest. split; [exact Eo|]. destruct (HO 0 h cyc bnd eq_refl) as (d0' & Ed & Q & (r & r' & A & B' & C) & FF & _). rewrite Ed0 in Ed. injection Ed as <-. split; [|split].
    + assert (RU : forall k r s, rank_of (map fst bm) k r -> rank_of (map fst bm) k s -> r = s) by (intros k s t; unfold rank_of; destruct (nth_error _ k); [apply is_rank_unique|congruence]).
      assert (r = 0) by (eapply RU; eassumption). assert (r' = N - 1) by (eapply RU; eassumption). lia.
    + apply Forall_forall. intros [e k] Hin. rewrite Forall_forall in FF. destruct (FF _ Hin) as (E0 & E1 & E2). cbn [fst snd] in *.
      assert (Hms : In e (group_of (free_rank h) (elementary_divisors h))). { unfold group_of. apply in_or_app. right. apply in_flat_map. exists (e, k). split; [exact Hin|]. cbn [fst snd]. destruct k; [lia|]. now left. }
      pose proof (pure_quotient _ _ _ Q CA PU e Hms E0) as DV. apply Z.divide_1_r in DV. lia.
    + rewrite <- AL. symmetry. apply alternating_same.
Qed.
Print Assumptions C137_homology.

(** Without 2-cells (no two disjoint edges and a place for the other points): the first Betti number is reported as 1 minus Gal's number. *)
Theorem C137_one_dimensional : forall es gr n sg c bm, graph_from es = Some gr -> subdivided_graph_from gr n = Some sg -> connected (g_n_vertices (sg_data sg)) (edge (sg_data sg)) -> 1 <= n -> udc gr n = Some c ->
  boundary_map c = Some bm -> cells_of_dim c 2 = [] -> forall B cmp (bms : list (mat Z * list B)) out, total_order cmp -> map fst bms = map fst bm -> Forall (fun b => List.length (snd b) = nc (fst b)) bms ->
  integral_homology cmp bms None = Some out -> reported out 0 = 1 /\ Z.of_nat (reported out 1) = (1 - gal es n)%Z /\ forall k, 2 <= k -> reported out k = 0.
Proof.
  intros es gr n sg c bm E ES HC Hn EU EB H2 B cmp bms out Ht EM HL EO. destruct (C137_homology es gr n sg c bm E ES HC Hn EU EB B cmp bms Ht EM HL) as (h & cyc & bnd & rest & EO' & FR & _ & AL). rewrite EO in EO'. injection EO' as ->.
  destruct (cf_basic es gr n sg c bm E ES HC Hn EU EB) as (HE & (LM & HB & HCF) & HD).
  assert (D1 : c_dim c <= 1).
  { destruct (le_lt_dec (c_dim c) 1) as [|L]; [assumption|]. exfalso. destruct (HB 2 ltac:(lia)) as (D & ED & _ & NC & _). destruct (proj1 HCF 2 D) as (_ & _ & K); [now rewrite nth_error_map, ED|]. rewrite H2 in NC. cbn in NC. lia. }
  assert (CD : complex_data bms). { split; [intros ->; destruct bm; cbn in *; [lia|discriminate EM]|]. rewrite EM. split; assumption. }
  destruct (C43_homology_partial _ cmp bms None Ht CD) as (out' & EO' & Lo & _). rewrite EO in EO'. injection EO' as <-. cbn [List.length] in Lo. apply (f_equal (@List.length _)) in EM. rewrite !map_length in EM.
  split; [exact FR|]. unfold alternating in AL. generalize dependent (gal es n). intros G AL. cbn [map fold_right fst] in AL. rewrite FR in AL. destruct rest as [|x [|? ?]]; [| |cbn [List.length] in Lo; lia]; unfold reported; cbn [map nth fst fold_right] in *; (split; [lia|]); intros k Hk; destruct k as [|[|k]]; try lia; now destruct k.
Qed.
Print Assumptions C137_one_dimensional.

(** One point: the homology of the graph itself, a free group of rank (edges) - (vertices) + 1 in degree one. *)
Theorem C137_one_point : forall es gr sg c bm, graph_from es = Some gr -> subdivided_graph_from gr 1 = Some sg -> connected (g_n_vertices (sg_data sg)) (edge (sg_data sg)) -> udc gr 1 = Some c ->
  boundary_map c = Some bm -> forall B cmp (bms : list (mat Z * list B)) out, total_order cmp -> map fst bms = map fst bm -> Forall (fun b => List.length (snd b) = nc (fst b)) bms ->
  integral_homology cmp bms None = Some out -> reported out 0 = 1 /\ reported out 1 + List.length (graph_vertices es) = List.length es + 1 /\ forall k, 2 <= k -> reported out k = 0.
Proof.
  intros es gr sg c bm E ES HC EU EB B cmp bms out Ht EM HL EO. destruct (cf_basic es gr 1 sg c bm E ES HC (le_n _) EU EB) as (HE & _ & HD).
  destruct (C137_one_dimensional es gr 1 sg c bm E ES HC (le_n _) EU EB (cells_above (sg_data sg) 1 c 2 HE ltac:(lia)) B cmp bms out Ht EM HL EO) as (A & A1 & A2). split; [exact A|]. split; [|exact A2].
  destruct (C136_cell_counts es gr 1 sg c E ES HC (le_n _) EU) as (CC & CR). pose proof (C126_euler es gr 1 sg c E ES HC (le_n _) EU) as G. pose proof (C136_edges es gr 1 sg E ES) as EE.
  assert (ER : c_ranks c = [List.length (cells_of_dim c 0); List.length (cells_of_dim c 1)]) by (apply nth_error_ext; intros k; rewrite CR; destruct k as [|[|k]]; [reflexivity..|]; cbn; now destruct k).
  rewrite ER in G. rewrite (CC 0 ltac:(lia)), (CC 1 ltac:(lia)), matchings_0, matchings_1, binom_0 in G.
  destruct (C50_from es gr E) as (ND & HI & LV & _).
  assert (Ev : lg_n_vertices gr = List.length (graph_vertices es)).
  { rewrite LV. apply Permutation_length. apply NoDup_Permutation; [exact ND|apply NoDup_nodup|]. intros x. rewrite HI. unfold graph_vertices. rewrite nodup_In, in_flat_map. unfold mentions. split.
    - intros (e & He & K). exists e. split; [exact He|]. cbn. destruct K as [K|K]; auto.
    - intros (e & He & [K|[K|[]]]); exists e; auto. }
  assert (B1 : forall v, binom v 1 = v) by (induction v as [|v IH]; [reflexivity|cbn [binom]; rewrite IH, binom_0; lia]). change (1 - 0) with 1 in G. rewrite B1 in G. unfold alternating in G. generalize dependent (gal es 1). intros G0 A1 G. cbn [fold_right] in G. lia.
Qed.
Print Assumptions C137_one_point.

(** One point on a graph with a leaf, a double edge and a loop (3 vertices, 4 edges): ranks 1 and 2. Two points on a star with three legs: 21, 30, 9 cells, ranks 1 and 1. *)
Definition looped : list (string * string) := [("l", "a"); ("a", "b"); ("a", "b"); ("b", "b")]%string.
Definition tripod : list (string * string) := [("o", "x"); ("o", "y"); ("o", "z")]%string.
Definition named (bm : list (mat Z * list (list factor))) : list (mat Z * list nat) := map (fun b => (fst b, seq 0 (nc (fst b)))) bm.
Definition run_named (es : list (string * string)) (n : nat) : option (list nat * list nat) :=
  do gr <- graph_from es; do c <- udc gr n; do bm <- boundary_map c; do out <- integral_homology Nat.compare (named bm) None; Some (c_ranks c, map (fun x => free_rank (fst (fst x))) out).
Lemma named_ok bm : map fst (named bm) = map fst bm /\ Forall (fun b => List.length (snd b) = nc (fst b)) (named bm).
Proof. unfold named. split; [now rewrite map_map|]. apply Forall_map, Forall_forall. intros b _. apply seq_length. Qed.
Lemma run_case es n gr sg rs : graph_from es = Some gr -> subdivided_graph_from gr n = Some sg -> g_is_connected (sg_data sg) = Some true -> run_named es n = Some rs ->
  connected (g_n_vertices (sg_data sg)) (edge (sg_data sg)) /\ exists c bm out, udc gr n = Some c /\ boundary_map c = Some bm /\ integral_homology Nat.compare (named bm) None = Some out /\ rs = (c_ranks c, map (fun x => free_rank (fst (fst x))) out).
Proof.
  intros E ES G R. split; [now apply (subdivided_connected es gr n sg)|]. unfold run_named in R. rewrite E in R. cbn [obind] in R. destruct (udc gr n) as [c|]; [|discriminate R]. cbn [obind] in R. destruct (boundary_map c) as [bm|] eqn:EB; [|discriminate R]. cbn [obind] in R.
  destruct (integral_homology Nat.compare (named bm) None) as [out|] eqn:EO; [|discriminate R]. cbn [obind] in R. injection R as <-. exists c, bm, out. auto.
Qed.
Example C137_nontrivial : (exists gr sg c bm out, graph_from looped = Some gr /\ subdivided_graph_from gr 1 = Some sg /\ connected (g_n_vertices (sg_data sg)) (edge (sg_data sg)) /\ udc gr 1 = Some c /\ boundary_map c = Some bm /\
    integral_homology Nat.compare (named bm) None = Some out /\ reported out 0 = 1 /\ reported out 1 = 2) /\
  exists gr sg c bm out, graph_from tripod = Some gr /\ subdivided_graph_from gr 2 = Some sg /\ connected (g_n_vertices (sg_data sg)) (edge (sg_data sg)) /\ udc gr 2 = Some c /\ boundary_map c = Some bm /\
    integral_homology Nat.compare (named bm) None = Some out /\ c_ranks c = [21; 30; 9] /\ map (fun x => free_rank (fst (fst x))) out = [1; 1] /\ gal tripod 2 = 0%Z.
Proof.
  split.
  - destruct (graph_from looped) as [gr|] eqn:E; [|vm_compute in E; discriminate E]. destruct (subdivided_graph_from gr 1) as [sg|] eqn:ES; [|vm_compute in E; injection E as <-; vm_compute in ES; discriminate ES].
    assert (G : g_is_connected (sg_data sg) = Some true) by (clear -E ES; vm_compute in E; injection E as <-; vm_compute in ES; injection ES as <-; vm_compute; reflexivity).
    assert (R : exists rs, run_named looped 1 = Some (rs, [1; 2])) by (eexists; vm_compute; reflexivity). destruct R as (rs & R).
    destruct (run_case looped 1 gr sg _ E ES G R) as (C & c & bm & out & EU & EB & EO & K). injection K as _ K. exists gr, sg, c, bm, out. unfold reported. rewrite <- K. repeat split; assumption.
  - destruct (graph_from tripod) as [gr|] eqn:E; [|vm_compute in E; discriminate E]. destruct (subdivided_graph_from gr 2) as [sg|] eqn:ES; [|vm_compute in E; injection E as <-; vm_compute in ES; discriminate ES].
    assert (G : g_is_connected (sg_data sg) = Some true) by (clear -E ES; vm_compute in E; injection E as <-; vm_compute in ES; injection ES as <-; vm_compute; reflexivity).
    assert (R : run_named tripod 2 = Some ([21; 30; 9], [1; 1])) by (vm_compute; reflexivity).
    destruct (run_case tripod 2 gr sg _ E ES G R) as (C & c & bm & out & EU & EB & EO & K). apply (f_equal fst) in K as K1. apply (f_equal snd) in K. cbn [fst snd] in K, K1. exists gr, sg, c, bm, out. rewrite <- K, <- K1. repeat split; assumption.
Qed.
