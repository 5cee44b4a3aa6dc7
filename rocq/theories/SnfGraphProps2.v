(** C139, continued: the first boundary matrix of the configuration complex. *)
From Coq Require Import List Arith ZArith Bool Lia ZifyBool ZifyNat Permutation Sorted String Relations.
From Verif Require Import UtilModel PidModel LinModel LinSpec MatModel MatSpec MatProofs MatProofs2 SnfModel SnfProofs SnfProofs2 SnfProofs3 SnfProps RankSpec HomModel HomSpec HomProofs HomProofs2 HomProofs3 HomProofs4 HomProps EulerProps.
From Verif Require Import GraphModel GraphSpec GraphProofs GraphProofs5 GraphProofs8 GraphProps LabGraphModel LabGraphSpec LabGraphProofs LabGraphProofs2 LabGraphProps SubdivSpec SubdivProofs SubdivProofs2 SubdivProps CubeModel CubeSpec CubeProofs CubeProofs2 CubeProofs3 CubeProps CubeProofs4 CubeProofs5 CubePartialModel CubeProofs6 CubeProofs7 CubeProps2 MorseProps ConfConnProps CompProofs CompProps.
From Verif Require Import GalSpec GalProps GalProps2 FvecSpec FvecProofs FvecProps FvecProofs2 FvecProps2 SnfChkModel SnfChkProofs SnfChkProps SnfGraphProofs SnfGraphProps.
Import ListNotations.
Open Scope nat_scope.

Lemma conf_network g n c bm D bs : GI g -> enumerates g n c -> n <= g_n_vertices g -> boundary_map c = Some bm -> nth_error bm 1 = Some (D, bs) -> network D.
Proof.
  intros HG HE Hsz EB ED. destruct (boundary_map_incidence g n c HG HE Hsz) as (bm' & EB' & (LM & HB & _)). rewrite EB in EB'. injection EB' as <-.
  assert (H1 : 1 <= c_dim c) by (assert (K : 1 < List.length bm) by (apply nth_error_Some; congruence); lia).
  destruct (HB 1 H1) as (D' & ED' & _ & NC & _ & HD). rewrite ED in ED'. injection ED' as <- ->. destruct (HD ltac:(lia)) as (NR & HI). cbn [Nat.sub] in *. clear HD HB.
  pose proof (cells_NoDup g n c HE 0) as ND0. intros j Hj. destruct (nth_error (cells_of_dim c 1) j) as [e|] eqn:Ee0; [|apply nth_error_None in Ee0; lia].
  pose proof (nth_error_In _ _ Ee0) as He. apply (cell_in g n c HE) in He as ((Le & Fe & PDe) & LIe & De). destruct (split_edge e ltac:(lia)) as (P & x & y & Q & Ee & VP).
  assert (DQ : dimension Q = 0). { pose proof (f_equal dimension Ee) as K. rewrite dimension_app, (dimension_vertices P VP) in K. change (dimension (FEdge x y :: Q)) with (S (dimension Q)) in K. lia. }
  assert (V : forall i a, nth_error (cells_of_dim c 0) i = Some a -> ent D i j = (eqc (f_sort (P ++ FVertex x :: Q)) a - eqc (f_sort (P ++ FVertex y :: Q)) a)%Z).
  { intros i a Ha. rewrite (HI i j a e Ha Ee0). pose proof (nth_error_In _ _ Ha) as Hi0. apply (cell_in g n c HE) in Hi0 as ((_ & _ & PDi) & LIi & _). apply (edge_incidence e P x y Q a PDe Ee VP (all_vertices Q DQ) PDi LIi). }
  set (A := f_sort (P ++ FVertex x :: Q)) in *. set (B := f_sort (P ++ FVertex y :: Q)) in *. unfold eqc in V. split.
  - intros i Hi. destruct (nth_error (cells_of_dim c 0) i) as [a|] eqn:Ea; [|apply nth_error_None in Ea; lia]. rewrite (V i a Ea). destruct (list_eq_dec f_dec A a), (list_eq_dec f_dec B a); cbn; tauto.
  - intros i i' Hi Hi' Q1 Q2. destruct (nth_error (cells_of_dim c 0) i) as [a|] eqn:Ea; [|apply nth_error_None in Ea; lia]. destruct (nth_error (cells_of_dim c 0) i') as [a'|] eqn:Ea'; [|apply nth_error_None in Ea'; lia].
    rewrite (V i a Ea) in *. rewrite (V i' a' Ea') in *. apply (proj1 (NoDup_nth_error _) ND0); [lia|]. rewrite Ea, Ea'. f_equal.
    destruct (list_eq_dec f_dec A a), (list_eq_dec f_dec B a), (list_eq_dec f_dec A a'), (list_eq_dec f_dec B a'); congruence || lia.
Qed.

(** n points on a connected graph: the Smith form of the first boundary matrix is exact in every build and made of 0, 1 and -1. *)
Theorem C139_configurations : forall es gr n sg c bm D bs w, graph_from es = Some gr -> subdivided_graph_from gr n = Some sg -> connected (g_n_vertices (sg_data sg)) (edge (sg_data sg)) -> 1 <= n -> udc gr n = Some c ->
  boundary_map c = Some bm -> nth_error bm 1 = Some (D, bs) -> (2 <= w)%Z ->
  exists Ri R S C Ci, smith_normal_form D = Some (Ri, R, S, C, Ci) /\ smith_normal_form_p (debug w) D = Some (Ri, R, S, C, Ci) /\ smith_normal_form_p (release w) D = Some (Ri, R, S, C, Ci) /\
    small Ri /\ small R /\ small S /\ small C /\ small Ci /\ inverses (nr D) R Ri /\ inverses (nc D) C Ci.
Proof.
  intros es gr n sg c bm D bs w E ES HC Hn EU EB ED Hw. destruct (C56_udc es gr n sg E ES HC Hn) as (c' & EU' & HE). rewrite EU in EU'. injection EU' as <-. destruct (C95_subdivided es gr n sg E ES HC) as ((Hsz & _) & _).
  destruct (sub_made gr n sg es E ES) as (g0 & p0 & HG0 & ET). pose proof (maximal_tree_spec g0 HG0) as HM. rewrite ET in HM. destruct HM as (_ & R & _). pose proof (GraphProofs5.L_GI _ _ _ R) as HG. clear R.
  pose proof (conf_network _ _ _ _ _ _ HG HE Hsz EB ED) as HN. destruct (cf_basic es gr n sg c bm E ES HC Hn EU EB) as (_ & (_ & _ & HCF) & _).
  destruct (proj1 HCF 1 D) as (WD & PR & PC); [now rewrite nth_error_map, ED|]. destruct (C139_snf w D Hw WD PR PC HN) as (Ri & R & S & C & Ci & H1 & H2 & H3 & H4 & H5 & H6 & H7 & H8 & H9 & H10 & _).
  exists Ri, R, S, C, Ci. tauto.
Qed.
Print Assumptions C139_configurations.

(** Configurations without 2-cells (for one point: the graph itself): the homology is exact in every build. *)
Theorem C139_configurations_homology : forall es gr n sg c bm w, graph_from es = Some gr -> subdivided_graph_from gr n = Some sg -> connected (g_n_vertices (sg_data sg)) (edge (sg_data sg)) -> 1 <= n -> udc gr n = Some c ->
  boundary_map c = Some bm -> cells_of_dim c 2 = [] -> (2 <= w)%Z ->
  forall B cmp (bms : list (mat Z * list B)) max_dim, total_order cmp -> map fst bms = map fst bm -> Forall (fun b => List.length (snd b) = nc (fst b) /\ NoDup (snd b)) bms ->
  exists out, integral_homology cmp bms max_dim = Some out /\ integral_homology_p (debug w) cmp bms max_dim = Some out /\ integral_homology_p (release w) cmp bms max_dim = Some out /\
    forall h cyc bnd, In (h, cyc, bnd) out -> (forall v c b, In v (cyc ++ bnd) -> In (c, b) v -> In c [1; -1]%Z) /\ forall d n, In (d, n) (elementary_divisors h) -> d = (-1)%Z.
Proof.
  intros es gr n sg c bm w E ES HC Hn EU EB H2 Hw B cmp bms max_dim Ht EM HL. destruct (cf_basic es gr n sg c bm E ES HC Hn EU EB) as (HE & (LM & HB & HCF) & HD).
  destruct (C95_subdivided es gr n sg E ES HC) as ((Hsz & _) & _).
  destruct (sub_made gr n sg es E ES) as (g0 & p0 & HG0 & ET). pose proof (maximal_tree_spec g0 HG0) as HM. rewrite ET in HM. destruct HM as (_ & R & _). pose proof (GraphProofs5.L_GI _ _ _ R) as HG. clear R.
  assert (D1 : c_dim c <= 1).
  { destruct (le_lt_dec (c_dim c) 1) as [|L]; [assumption|]. exfalso. destruct (HB 2 ltac:(lia)) as (D & ED & _ & NC & _). destruct (proj1 HCF 2 D) as (_ & _ & PC); [now rewrite nth_error_map, ED|]. rewrite NC, H2 in PC. cbn in PC. lia. }
  assert (CD : complex_data bms).
  { split; [intros ->; destruct bm; cbn in *; [lia|discriminate EM]|]. rewrite EM. split; [assumption|]. eapply Forall_impl; [|exact HL]. cbn. tauto. }
  apply C139_homology; [exact Ht|exact CD|exact Hw|]. rewrite Forall_forall in HL |- *. intros b Hb. split; [|apply HL, Hb]. destruct (In_nth_error _ _ Hb) as [k Hk].
  assert (Ek : nth_error (map fst bm) k = Some (fst b)) by (rewrite <- EM, nth_error_map, Hk; reflexivity). rewrite nth_error_map in Ek. destruct (nth_error bm k) as [[D bs]|] eqn:EDk; [|discriminate]. cbn in Ek. injection Ek as Ek. rewrite <- Ek.
  assert (Lk : k < c_dim c + 1) by (rewrite <- LM; apply nth_error_Some; congruence). destruct k as [|[|k]]; [| |lia].
  - destruct (HB 0 ltac:(lia)) as (D' & ED' & _ & _ & Z0 & _). rewrite EDk in ED'. injection ED' as <- _. destruct (Z0 eq_refl) as (NR & ZZ). intros j Hj. split.
    + intros i Hi. replace i with 0 by lia. rewrite ZZ by exact Hj. now left.
    + intros i i' Hi Hi'. lia.
  - exact (conf_network _ _ _ _ _ _ HG HE Hsz EB EDk).
Qed.
Print Assumptions C139_configurations_homology.

(** Two points on a tripod (first boundary matrix 21 x 30), and one point on a graph with a double edge and a loop, on 2-bit integers. *)
Example C139_configurations_nontrivial :
  (do gr <- graph_from tripod; do c <- udc gr 2; do bm <- boundary_map c; do D <- nth_error bm 1; do s <- smith_normal_form_p (debug 2) (fst D); Some (nr (fst D), nc (fst D), nr (snd (fst (fst s))))) = Some (21, 30, 21) /\
  (do gr <- graph_from looped; do c <- udc gr 1; do bm <- boundary_map c; do out <- integral_homology_p (debug 2) Nat.compare (named bm) None; Some (List.length (cells_of_dim c 2), reported out 0, reported out 1)) = Some (0, 1, 2).
Proof. split; vm_compute; reflexivity. Qed.
