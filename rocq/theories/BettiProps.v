(** C138: Euler characteristic and Betti numbers of simplicial complexes and graphs, as reported. *)
From Coq Require Import List Arith ZArith Bool Lia ZifyBool ZifyNat Permutation.
From Verif Require Import UtilModel PidModel LinModel LinSpec MatModel MatSpec MatProofs MatProofs2 HomModel HomSpec HomProps SimpModel SimpSpec SimpProps EulerProps CompSpec CompProps SimpProofs4 CubeProofs2.
Import ListNotations.
Open Scope nat_scope.

(** The rank that is reported in degree [k] (0 above the last reported degree). *)
Definition reported {B} (out : list (module_ * list (list (Z * B)) * list (list (Z * B)))) (k : nat) : nat :=
  nth k (map (fun x => free_rank (fst (fst x))) out) 0.

(** The alternating sum of the reported ranks is that of the numbers of cells, counted by any lists of the cells of each dimension. *)
Theorem C138_euler : forall T (eqb : T -> T -> bool) hist d (cells : nat -> list (list T)), (forall x y, eqb x y = true <-> x = y) ->
  valid_hist hist -> length (skeleton eqb hist) <= 64 -> has_dim hist d -> (forall k, k <= d -> lists_cells eqb hist k (cells k)) ->
  exists K bm, attach_all eqb hist = Some K /\ boundary_map K = Some bm /\ forall cmp, total_order cmp -> exists out, integral_homology cmp bm None = Some out /\ length out <= S d /\
    alternating (map (fun x => free_rank (fst (fst x))) out) = alternating (map (fun k => length (cells k)) (seq 0 (S d))).
Proof.
  intros T eqb hist d cells He HV HL Hd Hc. destruct (C45_cells_partial T eqb hist d He HV HL Hd) as (K & bm & EK & _ & _ & _ & EB & LB & HC).
  destruct (C46_entries_partial T eqb hist d He HV HL Hd) as (K' & bm' & EK' & EB' & _ & (D0 & rows & E0 & EZ) & _). rewrite EK in EK'. injection EK' as <-. rewrite EB in EB'. injection EB' as <-.
  destruct (C46_homology_input_partial T eqb hist d He HV HL Hd) as (K' & bm' & EK' & EB' & _ & CD & _). rewrite EK in EK'. injection EK' as <-. rewrite EB in EB'. injection EB' as <-.
  exists K, bm. split; [exact EK|]. split; [exact EB|]. intros cmp Ht. destruct (C43_homology_partial _ cmp bm None Ht CD) as (out & EO & Lo & _). exists out. split; [exact EO|]. split; [lia|].
  assert (AZ : augmentation_zero (map fst bm)).
  { intros D HD i j Hi Hj. rewrite nth_error_map, E0 in HD. cbn in HD. injection HD as <-. destruct (HC 0 ltac:(lia)) as (D0' & bs & E0' & _). rewrite E0 in E0'. injection E0' as <- <-.
    assert (0 < length rows) by (destruct rows; [discriminate EZ|cbn; lia]). rewrite mzero_mk in EZ by lia. injection EZ as <-. now rewrite ent_mk. }
  rewrite (C108_integral _ cmp bm out Ht CD AZ EO). f_equal. apply nth_error_ext. intros k. rewrite !nth_error_map. destruct (le_lt_dec k d) as [Hk|Hk].
  - destruct (HC k Hk) as (D & bs & ED & (ND & IC) & _). rewrite ED, (nth_error_nth' _ 0) by (rewrite seq_length; lia). rewrite seq_nth by lia. cbn. f_equal. destruct (Hc k Hk) as (ND' & IC'). rewrite <- (map_length s_labels bs). apply Permutation_length, NoDup_Permutation; [exact ND|exact ND'|]. intros x. now rewrite IC, IC'.
  - rewrite (proj2 (nth_error_None bm k)) by lia. rewrite (proj2 (nth_error_None (seq 0 _) k)) by (rewrite seq_length; lia). reflexivity.
Qed.
Print Assumptions C138_euler.

(** A graph (complex of dimension 1) with [c] components: degree 0 has rank [c], degree 1 rank (edges) - (vertices) + [c]. *)
Theorem C138_graph : forall T (eqb : T -> T -> bool) hist c edges, (forall x y, eqb x y = true <-> x = y) ->
  valid_hist hist -> length (skeleton eqb hist) <= 64 -> has_dim hist 1 -> n_components eqb hist c -> lists_cells eqb hist 1 edges ->
  exists K bm, attach_all eqb hist = Some K /\ boundary_map K = Some bm /\ forall cmp, total_order cmp -> exists out, integral_homology cmp bm None = Some out /\
    reported out 0 = c /\ reported out 1 + length (skeleton eqb hist) = length edges + c /\ forall k, 2 <= k -> reported out k = 0.
Proof.
  intros T eqb hist c edges He HV HL Hd Hc Hes.
  assert (HV0 : lists_cells eqb hist 0 (map (fun x => [x]) (skeleton eqb hist))).
  { split; [apply FinFun.Injective_map_NoDup; [intros x y Q; now injection Q|apply skeleton_nodup; assumption]|]. intros x. rewrite in_map_iff. split.
    - intros (y & <- & Hy). split; [now apply subseq_one|]. split; [reflexivity|]. apply (skeleton_iff eqb He hist HV HL) in Hy. destruct Hy as (s & Hs & Hy). exists s. split; [exact Hs|]. intros z [<-|[]]. exact Hy.
    - intros (S1 & S2 & _). destruct x as [|y [|z x]]; try discriminate. exists y. split; [reflexivity|]. apply (subseq_incl _ _ S1). now left. }
  destruct (C138_euler T eqb hist 1 (fun k => match k with 0 => map (fun x => [x]) (skeleton eqb hist) | _ => edges end) He HV HL Hd) as (K & bm & EK & EB & HO).
  { intros [|[|k]] Hk; [exact HV0|exact Hes|lia]. }
  exists K, bm. split; [exact EK|]. split; [exact EB|]. intros cmp Ht. destruct (HO cmp Ht) as (out & EO & Lo & AL). exists out. split; [exact EO|].
  destruct (C110_components_partial T eqb hist 1 c He HV HL Hd Hc) as (K' & bm' & d0 & EK' & EB' & _ & _ & H0). rewrite EK in EK'. injection EK' as <-. rewrite EB in EB'. injection EB' as <-.
  destruct (H0 cmp None Ht) as (h & cyc & bnd & rest & EO' & FR & _). rewrite EO in EO'. injection EO' as ->. split; [exact FR|].
  cbn [map seq alternating fst] in AL. rewrite map_length, FR in AL. cbn [length] in Lo. destruct rest as [|x [|? ?]]; [| |cbn [length] in Lo; lia]; unfold reported; cbn [map nth fst alternating] in *; (split; [lia|]); intros k Hk; destruct k as [|[|k]]; try lia; now destruct k.
Qed.
Print Assumptions C138_graph.

(** A triangle (its three edges) and a separate vertex: 4 vertices, 3 edges, 2 components; ranks 2 and 1. *)
Definition circle_point : list (list nat) := [[0; 1]; [1; 2]; [0; 2]; [3]].
Lemma circle_hyps : valid_hist circle_point /\ length (skeleton Nat.eqb circle_point) <= 64 /\ has_dim circle_point 1.
Proof.
  split; [repeat (apply Forall_cons; [split; [discriminate|repeat (constructor; [cbn; intuition discriminate|]); constructor]|]); constructor|]. split; [vm_compute; lia|].
  split; [exists [0; 1]; split; [cbn; tauto|reflexivity]|intros s Hs; cbn in Hs; repeat destruct Hs as [<-|Hs]; cbn; try lia; destruct Hs].
Qed.
Lemma circle_edges : lists_cells Nat.eqb circle_point 1 [[0; 1]; [1; 2]; [0; 2]].
Proof.
  destruct circle_hyps as (HV & HL & Hd). destruct (C45_cells_partial nat Nat.eqb circle_point 1 Nat.eqb_eq HV HL Hd) as (K & bm & EK & _ & _ & _ & Eb & _ & H). destruct (H 1) as (D & bs & Hn & Hc & _); [lia|].
  assert (EV : (do K <- attach_all Nat.eqb circle_point; do bm <- boundary_map K; Some (map (fun p => map s_labels (snd p)) bm)) = Some [[[0]; [1]; [2]; [3]]; [[0; 1]; [1; 2]; [0; 2]]]) by (vm_compute; reflexivity).
  rewrite EK in EV. cbn [obind] in EV. rewrite Eb in EV. cbn [obind] in EV. injection EV as EV. apply (f_equal (fun l => nth_error l 1)) in EV. rewrite nth_error_map, Hn in EV. cbn [option_map snd nth_error] in EV. injection EV as EV. rewrite EV in Hc.
  destruct Hc as (ND & IC). split; [repeat (constructor; [cbn; intuition discriminate|]); constructor|]. intros x. rewrite <- IC. cbn. tauto.
Qed.
Example C138_nontrivial : valid_hist circle_point /\ length (skeleton Nat.eqb circle_point) = 4 /\ has_dim circle_point 1 /\ n_components Nat.eqb circle_point 2 /\ lists_cells Nat.eqb circle_point 1 [[0; 1]; [1; 2]; [0; 2]] /\
  (do K <- attach_all Nat.eqb circle_point; do bm <- boundary_map K; do out <- integral_homology simplex_cmp bm None; Some (reported out 0, reported out 1)) = Some (2, 1).
Proof.
  split; [apply circle_hyps|]. split; [reflexivity|]. split; [apply circle_hyps|]. split; [|split; [exact circle_edges|vm_compute; reflexivity]].
  exists (fun x => if x =? 3 then 1 else 0). change (skeleton Nat.eqb circle_point) with [0; 1; 2; 3]. split; [|split].
  - intros x y Hx Hy. split.
    + intros P. assert (I1 : In [0; 1] circle_point) by (cbn; tauto). assert (I2 : In [1; 2] circle_point) by (cbn; tauto). assert (I3 : In [0; 2] circle_point) by (cbn; tauto).
      cbn in Hx, Hy. destruct Hx as [<-|[<-|[<-|[<-|[]]]]], Hy as [<-|[<-|[<-|[<-|[]]]]]; try discriminate P; try apply j_refl;
        (apply (j_step _ _ _ _ [0; 1] (j_refl _ _) I1); cbn; tauto) || (apply (j_step _ _ _ _ [1; 2] (j_refl _ _) I2); cbn; tauto) || (apply (j_step _ _ _ _ [0; 2] (j_refl _ _) I3); cbn; tauto).
    + intros J. clear Hx Hy. induction J as [|a b z s J IH Hs Ha Hz]; [reflexivity|]. rewrite IH. cbn in Hs. destruct Hs as [<-|[<-|[<-|[<-|[]]]]]; cbn in Ha, Hz; repeat (destruct Ha as [<-|Ha]); repeat (destruct Hz as [<-|Hz]); try destruct Ha; try destruct Hz; reflexivity.
  - intros x Hx. destruct (x =? 3); lia.
  - intros k Hk. destruct k as [|[|k]]; [exists 0|exists 3|lia]; cbn; tauto.
Qed.
