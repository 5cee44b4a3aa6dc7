(** Theorems C30, C31. *)
From Coq Require Import List Arith NArith Bool Lia ZifyBool ZifyNat ZifyN.
From Verif Require Import PidModel ViewModel ViewSpec ViewProofs.
Import ListNotations.
Open Scope nat_scope.

(** C30 *)
Theorem C30_lossless : forall a b c d : N, (a < 2 ^ 16 -> b < 2 ^ 16 -> c < 2 ^ 16 -> d < 2 ^ 16 ->
  extract (compress (a, b) (c, d)) = ((a, b), (c, d)))%N.
Proof. exact extract_compress. Qed.
Print Assumptions C30_lossless.
Theorem C30_view_roundtrip : forall addr s o, small s -> small o ->
  v_addr (from_raw_parts addr s o) = addr /\ v_size (from_raw_parts addr s o) = s /\ v_offsets (from_raw_parts addr s o) = o.
Proof. intros. split; [reflexivity|]. split; [now apply raw_size|now apply raw_offsets]. Qed.
Print Assumptions C30_view_roundtrip.
(** There is no check on sizes: one row of 2^16 columns is seen as a 1x1 matrix. *)
Theorem C30_large_refuted : exists n m : N, (n < 2 ^ 64 /\ m < 2 ^ 64 /\ fst (extract (compress (n, m) (m, 1))) <> (n, m))%N /\
  fst (extract (compress (n, m) (m, 1%N))) = (1%N, 1%N).
Proof. exists 1%N, 65536%N. vm_compute. repeat split; discriminate. Qed.
Print Assumptions C30_large_refuted.
Example C30_nontrivial : extract (compress (3, 65535) (65535, 1))%N = ((3, 65535), (65535, 1))%N. Proof. reflexivity. Qed.

(** C31.  The entry in row [i], column [j] of an [n x m] matrix stored row by row. *)
Definition entry {T} (m : nat) (mem : list T) (p : nat * nat) : option T := nth_error mem (fst p * m + snd p).
(** The owner of the allocation, possibly after [Matrix::transpose]. *)
Definition the_owner (tr : bool) (n m : nat) : owner := if tr then owner_transpose (owner_new n m) else owner_new n m.
Definition the_rview (tr : bool) (n m : nat) : rview := if tr then rv_transpose (rv_full n m) else rv_full n m.

Lemma shows_owner tr n m : 0 < m -> small (n, m) -> shows m (owner_view (the_owner tr n m)) (the_rview tr n m).
Proof. destruct tr; [apply shows_owner_transpose|apply shows_full]. Qed.
Lemma inside_owner tr n m : inside n m (the_rview tr n m).
Proof. destruct tr; intros i j; cbn; lia. Qed.

(** Every chain of range-indexing and transposing succeeds exactly when the reference semantics says so, and then shows exactly
    the reference entries: in-range reads return that entry, out-of-range reads panic. *)
Theorem C31_reads : forall T tr n m ops (mem : list T), 0 < m -> small (n, m) -> length mem = n * m ->
  match run_vops (owner_view (the_owner tr n m)) ops, rv_run (the_rview tr n m) ops with
  | Some v, Some r => v_size v = (rv_h r, rv_w r) /\
      forall i j, (i < rv_h r /\ j < rv_w r -> v_read mem v i j = entry m mem (rv_at r i j) /\ v_read mem v i j <> None) /\
                  (~ (i < rv_h r /\ j < rv_w r) -> v_cell v i j = None)
  | None, None => True
  | _, _ => False
  end.
Proof.
  intros T tr n m ops mem Hm Hs Hl. pose proof (shows_run m ops _ _ (shows_owner tr n m Hm Hs)) as H.
  destruct (run_vops _ ops) as [v|] eqn:Ev; [|exact H]. destruct (rv_run _ ops) as [r|] eqn:Er; [|exact H].
  split; [apply H|]. intros i j. pose proof (shows_cell m v r i j H) as Hc. split.
  - intros [Hi Hj]. replace ((i <? rv_h r) && (j <? rv_w r)) with true in Hc by lia.
    unfold v_read. rewrite Hc. cbn [obind]. split; [reflexivity|]. unfold load. apply nth_error_Some.
    destruct (run_inside n m ops _ r (inside_owner tr n m) Er i j Hi Hj). nia.
  - intros Hn. rewrite Hc. now replace ((i <? rv_h r) && (j <? rv_w r)) with false by lia.
Qed.
Print Assumptions C31_reads.

(** In-range accesses through any view stay inside the allocation. *)
Theorem C31_in_allocation : forall tr n m ops v i j a, 0 < m -> small (n, m) ->
  run_vops (owner_view (the_owner tr n m)) ops = Some v -> v_cell v i j = Some a -> a < n * m.
Proof.
  intros tr n m ops v i j a Hm Hs Ev Ha. pose proof (shows_run m ops _ _ (shows_owner tr n m Hm Hs)) as H. rewrite Ev in H.
  destruct (rv_run _ ops) as [r|] eqn:Er; [|contradiction]. rewrite (shows_cell m v r i j H) in Ha.
  destruct (_ && _) eqn:B; [|discriminate]. injection Ha as <-.
  destruct (run_inside n m ops _ r (inside_owner tr n m) Er i j); nia.
Qed.
Print Assumptions C31_in_allocation.

(** A write through a view sets the viewed entry and leaves every other entry of the matrix as it was. *)
Theorem C31_writes : forall T tr n m ops v r (mem : list T) i j x, 0 < m -> small (n, m) -> length mem = n * m ->
  run_vops (owner_view (the_owner tr n m)) ops = Some v -> rv_run (the_rview tr n m) ops = Some r -> i < rv_h r -> j < rv_w r ->
  exists mem', v_write mem v i j x = Some mem' /\ length mem' = length mem /\
    entry m mem' (rv_at r i j) = Some x /\
    forall p, snd p < m -> p <> rv_at r i j -> entry m mem' p = entry m mem p.
Proof.
  intros T tr n m ops v r mem i j x Hm Hs Hl Ev Er Hi Hj.
  pose proof (shows_run m ops _ _ (shows_owner tr n m Hm Hs)) as H. rewrite Ev, Er in H.
  pose proof (shows_cell m v r i j H) as Hc. replace ((i <? rv_h r) && (j <? rv_w r)) with true in Hc by lia.
  destruct (run_inside n m ops _ r (inside_owner tr n m) Er i j Hi Hj) as [H1 H2].
  assert (Ha : fst (rv_at r i j) * m + snd (rv_at r i j) < length mem) by nia.
  unfold v_write. rewrite Hc. cbn [obind].
  destruct (load_store mem _ x 0 Ha) as (mem' & E & L & _). exists mem'. split; [exact E|]. split; [exact L|].
  assert (G : forall b, load mem' b = if b =? fst (rv_at r i j) * m + snd (rv_at r i j) then Some x else load mem b).
  { intros b. destruct (load_store mem _ x b Ha) as (mem2 & E2 & _ & G). rewrite E in E2. now injection E2 as <-. }
  unfold entry. unfold load in G. split.
  - rewrite G, Nat.eqb_refl. reflexivity.
  - intros [p1 p2] Hp Hne. cbn [fst snd] in *. rewrite G.
    destruct (Nat.eqb_spec (p1 * m + p2) (fst (rv_at r i j) * m + snd (rv_at r i j))) as [E2|]; [|reflexivity].
    exfalso. apply Hne. destruct (addr_inj m _ _ _ _ Hp H2 E2) as [-> ->]. now destruct (rv_at r i j).
Qed.
Print Assumptions C31_writes.
(** Distinct positions of a view are distinct entries (writes through one position never show at another). *)
Theorem C31_no_aliasing : forall tr n m ops r i j i' j', rv_run (the_rview tr n m) ops = Some r ->
  i < rv_h r -> j < rv_w r -> i' < rv_h r -> j' < rv_w r -> rv_at r i j = rv_at r i' j' -> i = i' /\ j = j'.
Proof.
  intros tr n m ops r i j i' j' Er. apply (run_injective ops (the_rview tr n m)); [|exact Er].
  destruct tr; intros a b c d; cbn; intros _ _ _ _ [= -> ->]; auto.
Qed.
Print Assumptions C31_no_aliasing.

(** The intermediate slice reference spans more cells than the allocation has, for every matrix with at least two columns. *)
Theorem C31_slice_refuted : forall n m, 1 <= n -> 2 <= m -> small (n, m) ->
  exists len, slice_len (owner_view (owner_new n m)) = Some len /\ len > n * m.
Proof.
  intros n m Hn Hm Hs. unfold slice_len, owner_view, owner_new. cbn [o_size o_offsets].
  assert (Ho : small (m, 1)) by (destruct Hs; split; cbn [fst snd] in *; [assumption|reflexivity]).
  rewrite raw_size, raw_offsets by assumption. cbn [fst snd].
  replace (n * m =? 0) with false by (symmetry; apply Nat.eqb_neq; nia). replace (m * 1 =? 0) with false by (symmetry; apply Nat.eqb_neq; lia).
  eexists. split; [reflexivity|]. assert (1 <= n * m) by nia. lia.
Qed.
Print Assumptions C31_slice_refuted.
(** Taking the empty view past the last row computes a pointer beyond the end of the allocation. *)
Theorem C31_empty_view_refuted : forall n m, 1 <= n -> 2 <= m -> small (n, m) ->
  exists v, run_vops (owner_view (owner_new n m)) [VSub (RFrom n) (RFrom 1)] = Some v /\ v_addr v > n * m.
Proof.
  intros n m Hn Hm Hs. cbn [run_vops]. unfold v_sub, owner_view, owner_new. cbn [o_size o_offsets].
  assert (Ho : small (m, 1)) by (destruct Hs; split; cbn [fst snd] in *; [assumption|reflexivity]).
  unfold as_ptr, slice_len. rewrite raw_size, raw_offsets by assumption. cbn [fst snd unpack_bounds start_bound end_bound obind].
  unfold check_bounds. replace (n <? n) with false by lia. replace ((n - n <=? n) && (n <=? n)) with true by lia.
  replace (m <? 1) with false by lia. replace ((m - 1 <=? m) && (m <=? m)) with true by lia.
  replace (n * m =? 0) with false by (symmetry; apply Nat.eqb_neq; nia). replace (m * 1 =? 0) with false by (symmetry; apply Nat.eqb_neq; lia).
  cbn [orb obind]. eexists. split; [reflexivity|]. cbn [v_addr from_raw_parts]. nia.
Qed.
Print Assumptions C31_empty_view_refuted.

Example C31_nontrivial :
  let ops := [VSub (RFrom 1) (RRange 1 4); VTranspose; VSub (RToIncl 1) (RIndex 1)] in
  match run_vops (owner_view (owner_new 3 4)) ops with
  | Some v => v_size v = (2, 1) /\ v_read [0;1;2;3; 10;11;12;13; 20;21;22;23] v 1 0 = Some 22 /\
              v_write [0;1;2;3; 10;11;12;13; 20;21;22;23] v 0 0 99 = Some [0;1;2;3; 10;11;12;13; 20;99;22;23]
  | None => False
  end.
Proof. vm_compute. repeat split. Qed.
