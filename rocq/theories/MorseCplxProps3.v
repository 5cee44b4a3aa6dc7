(** C105: for two points the complex of critical cells has the Euler characteristic of the configuration space. *)
From Coq Require Import String List Arith ZArith Bool Lia Sorted Permutation.
From Verif Require Import PidModel GraphModel GraphSpec GraphProofs GraphProps LabGraphModel LabGraphProofs2 SubdivProps
  CubeModel CubeSpec CubeProofs CubeProofs2 CubeProofs7 CubeProps MorseModel MorseSpec MorseProofs MorseProofs4 MorseProps MorseCplxModel MorseCplxSpec MorseCplxProofs11 MorseCplxProps MorseCplxProps2.
Import ListNotations.
Open Scope nat_scope.
Open Scope list_scope.

(** r0 - r1 + r2 - ... *)
Fixpoint euler (ranks : list nat) : Z := match ranks with [] => 0%Z | r :: t => (Z.of_nat r - euler t)%Z end.

Lemma three {A} (l : list A) (x : nat -> A) : (forall k, nth_error l k = if k <=? 2 then Some (x k) else None) -> l = [x 0; x 1; x 2].
Proof. intros H. pose proof (H 0) as H0. pose proof (H 1) as H1. pose proof (H 2) as H2. pose proof (H 3) as H3. cbn in *. destruct l as [|a [|b [|c [|d t]]]]; cbn in *; congruence. Qed.
Lemma dim_count (L : list (list factor)) {A} (f : A -> list factor) (is : list A) k : L = map f is -> List.length (filter (fun l => dimension l =? k) L) = List.length (filter (fun i => dimension (f i) =? k) is).
Proof. intros ->. induction is as [|i is IH]; [reflexivity|]. cbn [map filter]. destruct (dimension (f i) =? k); cbn [List.length]; now rewrite IH. Qed.

Lemma map_NoDup_in {A B} (f : A -> B) l : (forall x y, In x l -> In y l -> f x = f y -> x = y) -> NoDup l -> NoDup (map f l).
Proof.
  intros H ND. induction ND as [|x l N ND IH]; cbn [map]; constructor.
  - intros K. apply in_map_iff in K as (y & E & Hy). apply N. now rewrite <- (H y x (or_intror Hy) (or_introl eq_refl) E).
  - apply IH. intros a b Ha Hb. apply H; now right.
Qed.
Theorem C105_euler_two_points : forall es gr sg upper c k, graph_from es = Some gr -> subdivided_graph_from gr 2 = Some sg -> connected (g_n_vertices (sg_data sg)) (edge (sg_data sg)) ->
  (forall u, upper = Some u -> 2 <= u) -> morse_cplx gr 2 upper = Some c -> udc gr 2 = Some k -> euler (c_ranks c) = euler (c_ranks k).
Proof.
  intros es gr sg upper c k E ES HC HU EM EU. pose proof (arranged_AR _ (ar_sub es gr 2 sg E ES HC)) as HA. set (g := sg_data sg) in *.
  destruct (C98_cells es gr 2 sg upper E ES HC ltac:(lia)) as (c' & cells & EM' & EC & HCells & (LR & HR) & _). rewrite EM in EM'. injection EM' as <-.
  destruct (C56_udc es gr 2 sg E ES HC ltac:(lia)) as (k' & EU' & HE). rewrite EU in EU'. injection EU' as <-.
  assert (R1 : c_ranks c = [List.length (cells 0); List.length (cells 1); List.length (cells 2)]).
  { apply (three _ (fun d => List.length (cells d))). intros d. destruct (Nat.leb_spec d 2) as [L|L]; [now apply HR|]. apply nth_error_None. lia. }
  assert (R2 : c_ranks k = [rk k 0; rk k 1; rk k 2]) by (apply (three _ (rk k)); intros d; apply (ranks_rk g 2 k HE)).
  rewrite R1, R2. cbn [euler]. rewrite !Z.sub_0_r.
  set (M := cells 0 ++ cells 1 ++ cells 2). set (L := map (cellof k) (c_final k)).
  assert (IM : forall l d, In l (cells d) <-> critical g 2 l /\ listed l /\ dimension l = d) by (intros l d; apply (C102_two_points es gr sg upper c d (cells d) l E ES HC HU EM (EC d))).
  assert (D2 : forall l, configuration g 2 l -> dimension l <= 2) by (intros l (Len & _); rewrite <- Len; apply dimension_le).
  assert (W : total weight L = total weight M).
  { apply (weights_two g HA).
    - apply map_NoDup_in; [intros i j; apply (cell_inj g 2 k HE)|apply (F_NoDup g 2 k HE)].
    - intros l. unfold L. rewrite in_map_iff. split.
      + intros (i & <- & Hi). destruct (F_cell g 2 k HE i Hi) as (_ & A & B & _). now split.
      + intros (A & B). destruct HE as (_ & _ & _ & IX & _). destruct (IX l A B) as (i & _ & Ei). exists i. unfold cellof. rewrite Ei. split; [reflexivity|]. unfold get_cell_from_idx in Ei. destruct (existsb (Nat.eqb i) (c_final k)) eqn:X; [|discriminate Ei]. apply existsb_exists in X as (j & Hj & X). apply Nat.eqb_eq in X. now subst j.
    - assert (DJ : forall d d' l, In l (cells d) -> In l (cells d') -> d = d') by (intros d d' l H1 H2; apply IM in H1 as (_ & _ & H1); apply IM in H2 as (_ & _ & H2); congruence).
      assert (ND : forall d, NoDup (cells d)) by (intros d; apply (HCells d)). unfold M. apply LabGraphProofs2.NoDup_app_disj; [apply ND|apply LabGraphProofs2.NoDup_app_disj; [apply ND|apply ND|]|].
      + intros l H1 H2. pose proof (DJ _ _ _ H1 H2). discriminate.
      + intros l H1 H2. apply in_app_or in H2 as [H2|H2]; pose proof (DJ _ _ _ H1 H2); discriminate.
    - intros l. unfold M. rewrite !in_app_iff, !IM. split; [tauto|]. intros (A & B). pose proof (D2 l (proj1 A)). destruct (dimension l) as [|[|[|]]] eqn:D; auto; lia. }
  rewrite (weights_dims L), (weights_dims M) in W.
  - assert (CL : forall d, List.length (filter (fun l => dimension l =? d) L) = rk k d).
    { intros d. rewrite (dim_count L (cellof k) (c_final k) d eq_refl). unfold rk, Lk. f_equal. apply filter_ext_in. intros i Hi. destruct (F_cell g 2 k HE i Hi) as (_ & _ & _ & _ & D). now rewrite D. }
    assert (CM : forall d, d <= 2 -> List.length (filter (fun l => dimension l =? d) M) = List.length (cells d)).
    { assert (CF : forall d e, filter (fun l => dimension l =? d) (cells e) = if e =? d then cells e else []).
      { intros d e. assert (FE : forall l, In l (cells e) -> dimension l = e) by (intros l Hl; now apply IM in Hl). revert FE. generalize (cells e). induction l as [|a t IH]; intros FE; [now destruct (e =? d)|]. cbn [filter]. rewrite IH, (FE a (or_introl eq_refl)) by (intros; apply FE; now right). now destruct (e =? d). }
      intros d Hd. unfold M. rewrite !filter_app, !app_length, !CF. destruct d as [|[|[|]]]; cbn; lia. }
    rewrite !CL, !CM in W by lia. lia.
  - unfold M. intros l Hl. rewrite !in_app_iff, !IM in Hl. apply D2. intuition (unfold critical in *; tauto).
  - intros l Hl. unfold L in Hl. apply in_map_iff in Hl as (i & <- & Hi). destruct (F_cell g 2 k HE i Hi) as (_ & A & _). now apply D2.
Qed.
Print Assumptions C105_euler_two_points.
(** Both complexes have 1 - 6 + 1 = 36 - 70 + 30 = -4 on the graph with two loops. *)
Example C105_nontrivial : exists gr sg c k, graph_from two_loops = Some gr /\ subdivided_graph_from gr 2 = Some sg /\ connected (g_n_vertices (sg_data sg)) (edge (sg_data sg)) /\ morse_cplx gr 2 None = Some c /\ udc gr 2 = Some k /\
  c_ranks c = [1; 6; 1] /\ c_ranks k = [36; 70; 30] /\ euler (c_ranks c) = (-4)%Z /\ euler (c_ranks k) = (-4)%Z.
Proof.
  destruct (both two_loops 2 None) as [(g & c)|] eqn:E; [|vm_compute in E; discriminate E].
  assert (HC : g_is_connected g = Some true) by (vm_compute in E; injection E as <- _; vm_compute; reflexivity).
  destruct (both_spec _ _ _ _ _ E HC) as (gr & sg & E1 & E2 & Eg & C & Ar & EM). rewrite Eg in C. destruct (C56_udc two_loops gr 2 sg E1 E2 C ltac:(lia)) as (k & EU & _). exists gr, sg, c, k. repeat (split; [assumption|]).
  assert (R1 : c_ranks c = [1; 6; 1]) by (clear -E; vm_compute in E; injection E as _ <-; reflexivity).
  assert (R2 : (do gr <- graph_from two_loops; do k <- udc gr 2; Some (c_ranks k)) = Some [36; 70; 30]) by (vm_compute; reflexivity). rewrite E1 in R2. cbn [obind] in R2. rewrite EU in R2. cbn [obind] in R2. injection R2 as R2.
  rewrite R1, R2. repeat split.
Qed.
