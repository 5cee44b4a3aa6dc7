(** Theorems about counting cells (C47), connectedness (C64) and complexes built from a vertex list (C65). *)
From Coq Require Import List Arith ZArith NArith Bool Lia ZifyBool ZifyNat ZifyN Permutation Sorted.
From Verif Require Import UtilModel UtilSpec UtilProofs PidModel LinModel LinSpec LinProofs MatModel MatSpec MatProofs SnfModel.
From Verif Require Import SimpModel SimpSpec SimpProofs SimpProofs2 SimpProofs3 SimpProofs4 SimpProofs5 SimpProofs6 SimpProofs7 SimpProofs8 SimpProofs9 SimpProofs10 SimpProps.
Import ListNotations.
Open Scope nat_scope.

(** Debug-build [usize] and [i64] arithmetic: an out-of-range result panics. *)
Definition chk_u64 (z : Z) : option Z := if (0 <=? z)%Z && (z <? 2 ^ 64)%Z then Some z else None.
Definition chk_i64 (z : Z) : option Z := if (- 2 ^ 63 <=? z)%Z && (z <? 2 ^ 63)%Z then Some z else None.

Lemma count_main T (eqb : T -> T -> bool) hist dim L : (forall x y, eqb x y = true <-> x = y) -> valid_hist hist -> length (skeleton eqb hist) <= 64 -> lists_cells eqb hist dim L ->
  exists K f0, attach_all eqb hist = Some K /\ forall fuel, f0 <= fuel -> ncells_loop ideal ideal fuel K dim (seq 1 (length (k_max K))) true 0%Z = Some (Z.of_nat (length L)) /\ (Z.of_nat (length L) < 2 ^ 64)%Z.
Proof.
  intros He HV HL HLs. destruct (attach_all_Inv eqb He hist HV HL) as (K & E & HI). destruct (fuel_exists _ _ K HI) as (f0 & Hf). exists K, f0. split; [exact E|]. intros fuel Hfu.
  rewrite (count_spec _ _ _ HI dim fuel (Hf fuel Hfu)). rewrite (count_cells _ _ _ HI dim eqb He L eq_refl HLs). split; [reflexivity|].
  rewrite <- (count_cells _ _ _ HI dim eqb He L eq_refl HLs). apply (count_bound _ _ _ HI).
Qed.

(** C47. With unbounded arithmetic [n_cells_of_dim] returns the number of [dim]-cells. *)
Theorem C47_count_partial : forall T (eqb : T -> T -> bool) hist dim L, (forall x y, eqb x y = true <-> x = y) ->
  valid_hist hist -> length (skeleton eqb hist) <= 64 -> lists_cells eqb hist dim L ->
  exists K f0, attach_all eqb hist = Some K /\ forall fuel, f0 <= fuel -> n_cells_of_dim ideal ideal fuel K dim = Some (Z.of_nat (length L)).
Proof.
  intros T eqb hist dim L He HV HL HLs. destruct (count_main T eqb hist dim L He HV HL HLs) as (K & f0 & E & H). exists K, f0. split; [exact E|]. intros fuel Hf.
  destruct (H fuel Hf) as [H1 H2]. unfold n_cells_of_dim. rewrite H1. cbn [obind]. f_equal. apply Z.mod_small. lia.
Qed.

(** With checked machine arithmetic the value, if one is returned at all (no overflow panic), is the number of cells. *)
Theorem C47_checked_partial : forall T (eqb : T -> T -> bool) hist dim L, (forall x y, eqb x y = true <-> x = y) ->
  valid_hist hist -> length (skeleton eqb hist) <= 64 -> lists_cells eqb hist dim L ->
  exists K f0, attach_all eqb hist = Some K /\ forall fuel v, f0 <= fuel -> n_cells_of_dim chk_u64 chk_i64 fuel K dim = Some v -> v = Z.of_nat (length L).
Proof.
  intros T eqb hist dim L He HV HL HLs. destruct (count_main T eqb hist dim L He HV HL HLs) as (K & f0 & E & H). exists K, f0. split; [exact E|]. intros fuel v Hf Hv.
  destruct (H fuel Hf) as [H1 H2]. unfold n_cells_of_dim in Hv. destruct (ncells_loop chk_u64 chk_i64 fuel K dim (seq 1 (length (k_max K))) true 0%Z) as [r|] eqn:Er; [|discriminate Hv].
  cbn [obind] in Hv. apply ncells_pol in Er.
  - rewrite H1 in Er. injection Er as <-. injection Hv as <-. apply Z.mod_small. lia.
  - intros x y Hx. unfold chk_u64 in Hx. destruct (_ && _); [now injection Hx|discriminate Hx].
  - intros x y Hx. unfold chk_i64 in Hx. destruct (_ && _); [now injection Hx|discriminate Hx].
Qed.

(** Up to 20 vertices nothing overflows, as long as the numbers of vertices and of maximal cells add up to at most 63: then the checked program returns the number. *)
Theorem C47_small_partial : forall T (eqb : T -> T -> bool) hist dim L, (forall x y, eqb x y = true <-> x = y) ->
  valid_hist hist -> length (skeleton eqb hist) <= 20 -> lists_cells eqb hist dim L ->
  exists K f0, attach_all eqb hist = Some K /\ (length (skeleton eqb hist) + length (k_max K) <= 63 ->
    forall fuel, f0 <= fuel -> n_cells_of_dim chk_u64 chk_i64 fuel K dim = Some (Z.of_nat (length L))).
Proof.
  intros T eqb hist dim L He HV HL HLs. assert (HL' : length (skeleton eqb hist) <= 64) by lia.
  destruct (attach_all_Inv eqb He hist HV HL') as (K & E & HI). destruct (fuel_exists _ _ K HI) as (f0 & Hf). exists K, f0. split; [exact E|]. intros HM fuel Hfu.
  pose proof (count_spec _ _ _ HI dim fuel (Hf fuel Hfu)) as C. rewrite (count_cells _ _ _ HI dim eqb He L eq_refl HLs) in C.
  pose proof (count_bound _ _ _ HI dim) as B. rewrite (count_cells _ _ _ HI dim eqb He L eq_refl HLs) in B.
  pose proof (Esums_bound _ _ _ HI dim HL HM) as S.
  rewrite (loop_spec _ _ _ HI) in C by (try lia; try reflexivity; intros j Hj; apply (Hf fuel Hfu); lia).
  unfold n_cells_of_dim. rewrite (loop_chk chk_u64 chk_i64) with (labels := skeleton eqb hist) (hist := hist).
  - rewrite C. cbn [obind]. f_equal. apply Z.mod_small. lia.
  - intros x Hx. unfold chk_u64. replace ((0 <=? x)%Z && (x <? 2 ^ 64)%Z) with true by (symmetry; apply andb_true_iff; lia). reflexivity.
  - intros x Hx. unfold chk_i64. replace ((- 2 ^ 63 <=? x)%Z && (x <? 2 ^ 63)%Z) with true by (symmetry; apply andb_true_iff; lia). reflexivity.
  - exact HI.
  - exact HL.
  - lia.
  - reflexivity.
  - intros j Hj. apply (Hf fuel Hfu). lia.
  - rewrite Z.abs_0, Z.add_0_l. exact S.
Qed.
(** The bound 20 cannot be raised: a single simplex on 21 vertices has one 20-cell, but 21! exceeds 2^64. *)
Theorem C47_refuted_at_21 : exists hist K, valid_hist hist /\ length (skeleton Nat.eqb hist) = 21 /\ attach_all Nat.eqb hist = Some K /\ length (k_max K) = 1 /\
  (forall fuel, n_cells_of_dim chk_u64 chk_i64 fuel K 20 = None) /\ n_cells_of_dim ideal ideal 200 K 20 = Some 1%Z.
Proof.
  exists [seq 0 21]. destruct (attach_all Nat.eqb [seq 0 21]) as [K|] eqn:E; [|exfalso; revert E; vm_compute; discriminate].
  exists K. split.
  { constructor; [|constructor]. split; [discriminate|apply seq_NoDup]. }
  split; [vm_compute; reflexivity|]. split; [reflexivity|].
  assert (EK : attach_all Nat.eqb [seq 0 21] = Some (Cplx 21 [Cell [2097151%N] 21 (Some 20)] (seq 0 21))) by (vm_compute; reflexivity).
  rewrite E in EK. injection EK as ->. clear E. split; [reflexivity|]. split; [|vm_compute; reflexivity].
  intros [|[|[|fuel]]]; vm_compute; reflexivity.
Qed.
(** A non-trivial instance of [C47_small_partial]: the boundary of a tetrahedron with an edge attached; 7 edges. *)
Example C47_small_example : valid_hist [[0;1;2];[0;1;3];[0;2;3];[1;2;3];[3;4]] /\ length (skeleton Nat.eqb [[0;1;2];[0;1;3];[0;2;3];[1;2;3];[3;4]]) <= 20 /\
  obind (attach_all Nat.eqb [[0;1;2];[0;1;3];[0;2;3];[1;2;3];[3;4]]) (fun K => if length (k_max K) <=? 43 then n_cells_of_dim chk_u64 chk_i64 200 K 1 else None) = Some 7%Z.
Proof.
  split; [repeat (constructor; [split; [discriminate|repeat (constructor; [cbn; intuition discriminate|]); constructor]|]); constructor|].
  split; [vm_compute; lia|]. vm_compute. reflexivity.
Qed.

(** The full claim (a value for every complex) fails: on one 30-vertex simplex the 14-cells are C(30,15) = 155117520 in number, but the product 16*...*30
    computed on the way exceeds 2^64. *)
Theorem C47_refuted_overflow : exists hist K, valid_hist hist /\ length (skeleton Nat.eqb hist) = 30 /\ attach_all Nat.eqb hist = Some K /\
  (forall fuel, n_cells_of_dim chk_u64 chk_i64 fuel K 14 = None) /\ n_cells_of_dim ideal ideal 200 K 14 = Some 155117520%Z.
Proof.
  exists [seq 0 30]. destruct (attach_all Nat.eqb [seq 0 30]) as [K|] eqn:E; [|exfalso; revert E; vm_compute; discriminate].
  exists K. split.
  { constructor; [|constructor]. split; [discriminate|apply seq_NoDup]. }
  split; [vm_compute; reflexivity|]. split; [reflexivity|].
  assert (EK : attach_all Nat.eqb [seq 0 30] = Some (Cplx 30 [Cell [1073741823%N] 30 (Some 29)] (seq 0 30))) by (vm_compute; reflexivity).
  rewrite E in EK. injection EK as ->. clear E. split; [|vm_compute; reflexivity].
  intros [|[|[|fuel]]]; vm_compute; reflexivity.
Qed.

(** C64. [is_connected] decides connectedness: any two vertices are linked by a chain of attached simplices. *)
Theorem C64_is_connected_partial : forall T (eqb : T -> T -> bool) hist, (forall x y, eqb x y = true <-> x = y) ->
  valid_hist hist -> length (skeleton eqb hist) <= 64 ->
  exists K b, attach_all eqb hist = Some K /\ cplx_is_connected K = Some b /\
    (b = true <-> forall s t x y, In s hist -> In t hist -> In x s -> In y t -> joined hist x y).
Proof.
  intros T eqb hist He HV HL. destruct (attach_all_Inv eqb He hist HV HL) as (K & E & HI). destruct (is_connected_spec _ _ _ HI) as (b & Eb & Hb). exists K, b.
  split; [exact E|]. split; [exact Eb|]. rewrite Hb. clear E Eb Hb b. split.
  - intros H s t x y Hs Ht Hx Hy. apply H.
    + destruct (I_cov _ _ _ _ HI s Hs) as (w & _ & A). destruct (A x Hx) as (i & Hi & _). eapply nth_error_In. exact Hi.
    + destruct (I_cov _ _ _ _ HI t Ht) as (w & _ & A). destruct (A y Hy) as (i & Hi & _). eapply nth_error_In. exact Hi.
  - intros H x y Hx Hy. destruct (I_lab _ _ _ _ HI x Hx) as (s & Hs & Hxs). destruct (I_lab _ _ _ _ HI y Hy) as (t & Ht & Hyt). exact (H s t x y Hs Ht Hxs Hyt).
Qed.

(** The bound is met: 64 vertices, the star with centre 0 and leaves 1, ..., 63 (its last edge carries an unused second word). *)
Definition star64 : list (list nat) := map (fun i => [0; i]) (seq 1 63).
Example C64_at_64 : valid_hist star64 /\ length (skeleton Nat.eqb star64) = 64 /\ obind (attach_all Nat.eqb star64) (cplx_is_connected (T := nat)) = Some true /\
  option_map (fun K => map (fun c => length (c_v c)) (k_max K)) (attach_all Nat.eqb star64) = Some (repeat 1 62 ++ [2]).
Proof.
  split; [apply Forall_forall; intros s Hs; apply in_map_iff in Hs as (i & <- & Hi); apply in_seq in Hi; split; [discriminate|]; constructor; [intros [H|[]]; lia|constructor; [intros []|constructor]]|].
  split; [vm_compute; reflexivity|]. split; vm_compute; reflexivity.
Qed.
(** With 65 vertices the claim fails: on the star with centre 0 and leaves 1, ..., 64 the edge to the last leaf is taken for a part of another edge. *)
Definition star65 : list (list nat) := map (fun i => [0; i]) (seq 1 64).
Theorem C64_refuted : exists hist K, valid_hist hist /\ length (skeleton Nat.eqb hist) = 65 /\ (forall s t x y, In s hist -> In t hist -> In x s -> In y t -> joined hist x y) /\
  attach_all Nat.eqb hist = Some K /\ cplx_is_connected K = Some false.
Proof.
  exists star65. destruct (attach_all Nat.eqb star65) as [K|] eqn:E; [|exfalso; revert E; vm_compute; discriminate]. exists K.
  split; [apply Forall_forall; intros s Hs; apply in_map_iff in Hs as (i & <- & Hi); apply in_seq in Hi; split; [discriminate|]; constructor; [intros [H|[]]; lia|constructor; [intros []|constructor]]|].
  split; [vm_compute; reflexivity|]. split.
  - intros s t x y Hs Ht Hx Hy. assert (H0 : forall u, In u star65 -> In 0 u) by (intros u Hu; apply in_map_iff in Hu as (i & <- & _); now left).
    apply (j_step _ x 0 y t); [|exact Ht|now apply H0|exact Hy]. apply (j_step _ x x 0 s); [constructor|exact Hs|exact Hx|now apply H0].
  - split; [reflexivity|]. assert (EO : match attach_all Nat.eqb star65 with Some K => cplx_is_connected K | None => None end = Some false) by (vm_compute; reflexivity). now rewrite E in EO.
Qed.

(** C65. [new_from_zero_skeleton] works for at most two vertices and panics for every longer list. *)
Theorem C65_zero_skeleton_refuted : forall T (labels : list T), 3 <= length labels -> new_from_zero_skeleton labels = None.
Proof.
  intros T labels H. unfold new_from_zero_skeleton. destruct (length labels) as [|[|[|n]]]; [lia|lia|lia|]. reflexivity.
Qed.
Theorem C65_zero_skeleton_partial : forall T (labels : list T), length labels <= 2 ->
  exists K, new_from_zero_skeleton labels = Some K /\ zero_skeleton K = labels.
Proof.
  intros T [|x [|y [|z l]]] H; [| | |cbn in H; lia]; eexists; (split; [vm_compute; reflexivity|reflexivity]).
Qed.

(** The triangle with an edge attached: 4 vertices, 4 edges, 1 triangle, connected; adding a separate point disconnects it. *)
Example ex_edges : lists_cells Nat.eqb ex_hist 1 [[5; 3]; [5; 9]; [3; 9]; [9; 7]].
Proof.
  destruct ex_hyps as (HV & HL & Hd). destruct (C45_cells_partial nat Nat.eqb ex_hist 2 Nat.eqb_eq HV HL Hd) as (K & bm & EK & _ & _ & _ & Eb & _ & H).
  destruct (H 1) as (D & bs & Hn & Hc & _); [lia|]. pose proof ex_values as EV. rewrite EK in EV. cbn [obind] in EV. rewrite Eb in EV. cbn [obind] in EV. clear EK Eb H.
  assert (EV' : map (fun p => map s_labels (snd p)) bm = [[[5]; [3]; [9]; [7]]; [[5; 3]; [5; 9]; [3; 9]; [9; 7]]; [[5; 3; 9]]]).
  { injection EV as EV. apply (f_equal (map snd)) in EV. rewrite map_map in EV. exact EV. }
  apply (f_equal (fun l => nth_error l 1)) in EV'. rewrite nth_error_map, Hn in EV'. cbn [option_map snd nth_error] in EV'. injection EV' as <-. exact Hc.
Qed.
Example ex_counts : (do K <- attach_all Nat.eqb ex_hist; omapM (n_cells_of_dim chk_u64 chk_i64 50 K) [0; 1; 2; 3]) = Some [4; 4; 1; 0]%Z.
Proof. vm_compute. reflexivity. Qed.
Example ex_connected : (do K <- attach_all Nat.eqb ex_hist; cplx_is_connected K) = Some true /\ (do K <- attach_all Nat.eqb (ex_hist ++ [[1]; [2; 7]]); cplx_is_connected K) = Some false.
Proof. vm_compute. split; reflexivity. Qed.
Example ex_zero_skeleton : new_from_zero_skeleton [4; 5; 6] = None.
Proof. apply C65_zero_skeleton_refuted. cbn. lia. Qed.

Print Assumptions C47_count_partial.
Print Assumptions C47_checked_partial.
Print Assumptions C47_small_partial.
Print Assumptions C47_refuted_at_21.
Print Assumptions C47_refuted_overflow.
Print Assumptions C64_is_connected_partial.
Print Assumptions C64_refuted.
Print Assumptions C65_zero_skeleton_refuted.
Print Assumptions C65_zero_skeleton_partial.
