(** Lemmas for C131, C132: cells of a block seen through logical coordinates. *)
From Coq Require Import List Arith NArith Bool Lia ZifyBool ZifyNat ZifyN.
From Verif Require Import PidModel MatModel ViewModel ViewSpec ViewProofs HeapModel HeapSpec.
Import ListNotations.
Open Scope nat_scope.

Lemma nth_lset_same {A} (l : list A) i x : i < length l -> nth_error (lset l i x) i = Some x.
Proof. revert i. induction l as [|a l IH]; intros [|i] H; cbn in *; try lia; [reflexivity|]. apply IH; lia. Qed.
Lemma nth_lset_other {A} (l : list A) i k x : i <> k -> nth_error (lset l i x) k = nth_error l k.
Proof. revert i k. induction l as [|a l IH]; intros [|i] [|k] H; cbn in *; try reflexivity; try lia. apply IH; lia. Qed.
Lemma lset_length {A} (l : list A) i x : length (lset l i x) = length l.
Proof. revert i. induction l as [|a l IH]; intros [|i]; cbn; [reflexivity..|]. now rewrite IH. Qed.

(** How the cells of a matrix lie in its block. *)
Record layout := Layout { l_tr : bool; l_n : nat; l_m : nat }.
Definition lh L := if l_tr L then l_m L else l_n L.
Definition lw L := if l_tr L then l_n L else l_m L.
Definition laddr L (p : nat * nat) := if l_tr L then snd p * l_m L + fst p else fst p * l_m L + snd p.
Definition good L := 0 < l_n L /\ 0 < l_m L /\ small (l_n L, l_m L).
Definition shape L : owner := if l_tr L then owner_transpose (owner_new (l_n L) (l_m L)) else owner_new (l_n L) (l_m L).
Definition turn L (p : nat * nat) := if l_tr L then (snd p, fst p) else p.

Lemma shape_size L : o_size (shape L) = (lh L, lw L).
Proof. unfold shape, lh, lw. destruct (l_tr L); reflexivity. Qed.
Lemma laddr_turn L p : laddr L p = fst (turn L p) * l_m L + snd (turn L p).
Proof. unfold laddr, turn. destruct (l_tr L); reflexivity. Qed.
Lemma turn_bound L p : fst p < lh L -> snd p < lw L -> fst (turn L p) < l_n L /\ snd (turn L p) < l_m L.
Proof. unfold lh, lw, turn. destruct (l_tr L); cbn; lia. Qed.
Lemma laddr_lt L p : fst p < lh L -> snd p < lw L -> laddr L p < l_n L * l_m L.
Proof. intros H1 H2. rewrite laddr_turn. destruct (turn_bound L p H1 H2). nia. Qed.
Lemma laddr_inj L p q : fst p < lh L -> snd p < lw L -> fst q < lh L -> snd q < lw L -> laddr L p = laddr L q -> p = q.
Proof.
  intros H1 H2 H3 H4. rewrite !laddr_turn. destruct (turn_bound L p H1 H2), (turn_bound L q H3 H4). intros E.
  apply addr_inj in E; [|assumption..]. destruct E as [E1 E2]. destruct p, q. unfold turn in *. destruct (l_tr L); cbn in *; congruence.
Qed.
Lemma laddr_surj L a : a < l_n L * l_m L -> exists p, fst p < lh L /\ snd p < lw L /\ laddr L p = a.
Proof.
  intros H. assert (l_m L <> 0) by nia. pose proof (Nat.div_mod a (l_m L) H0). pose proof (Nat.mod_upper_bound a (l_m L) H0).
  assert (a / l_m L < l_n L) by (apply Nat.div_lt_upper_bound; lia).
  unfold lh, lw, laddr. destruct (l_tr L); [exists (a mod l_m L, a / l_m L)|exists (a / l_m L, a mod l_m L)]; cbn [fst snd]; repeat split; lia.
Qed.

(** Two reference views that show corresponding positions. *)
Definition same (phi : nat * nat -> nat * nat) (r r' : rview) : Prop := rv_h r' = rv_h r /\ rv_w r' = rv_w r /\ forall i j, rv_at r' i j = phi (rv_at r i j).
Lemma same_sub phi r r' a b : same phi r r' -> match rv_sub r a b, rv_sub r' a b with Some s, Some s' => same phi s s' | None, None => True | _, _ => False end.
Proof.
  intros (E1 & E2 & E3). unfold rv_sub. rewrite E1, E2. destruct (interval a _) as [r0 r1]. destruct (interval b _) as [c0 c1].
  destruct (_ && _); [|exact I]. split; [reflexivity|]. split; [reflexivity|]. intros i j. cbn. apply E3.
Qed.
Lemma same_run phi ops : forall r r', same phi r r' -> match rv_run r ops, rv_run r' ops with Some s, Some s' => same phi s s' | None, None => True | _, _ => False end.
Proof.
  induction ops as [|[a b|] ops IH]; intros r r' H; cbn [rv_run]; [exact H| |].
  - pose proof (same_sub phi r r' a b H) as K. destruct (rv_sub r a b), (rv_sub r' a b); try contradiction; [now apply IH|exact I].
  - apply IH. destruct H as (E1 & E2 & E3). split; [exact E2|]. split; [exact E1|]. intros i j. cbn. apply E3.
Qed.

(** The view [v] shows the logical positions [r] of a matrix with layout [L]. *)
Definition sees L (v : view) (r : rview) : Prop :=
  (exists r', shows (l_m L) v r' /\ same (turn L) r r') /\ inside (lh L) (lw L) r /\ injective_at r.
Lemma sees_full L : good L -> sees L (owner_view (shape L)) (rv_full (lh L) (lw L)).
Proof.
  intros (Hn & Hm & Hs). split.
  - unfold shape, lh, lw, turn. destruct (l_tr L).
    + exists (rv_transpose (rv_full (l_n L) (l_m L))). split; [now apply shows_owner_transpose|]. repeat split; unfold same; cbn; auto.
    + exists (rv_full (l_n L) (l_m L)). split; [now apply shows_full|]. repeat split; auto.
  - split; [intros i j; cbn; lia|]. intros i j i' j' _ _ _ _ E. cbn in E. injection E. lia.
Qed.
Lemma sees_size L v r : sees L v r -> v_size v = (rv_h r, rv_w r).
Proof. intros [(r' & Hs & E1 & E2 & _) _]. destruct Hs as (E & _). rewrite E. now rewrite E1, E2. Qed.
Lemma sees_cell L v r i j : sees L v r -> v_cell v i j = if (i <? rv_h r) && (j <? rv_w r) then Some (laddr L (rv_at r i j)) else None.
Proof. intros [(r' & Hs & E1 & E2 & E3) _]. rewrite (shows_cell _ _ _ i j Hs), E1, E2. destruct (_ && _); [|reflexivity]. now rewrite laddr_turn, E3. Qed.
Lemma sees_inside L v r i j : sees L v r -> i < rv_h r -> j < rv_w r -> fst (rv_at r i j) < lh L /\ snd (rv_at r i j) < lw L.
Proof. intros (_ & H & _). apply H. Qed.
Lemma sub_inside n m r a b r' : inside n m r -> rv_sub r a b = Some r' -> inside n m r'.
Proof. intros H E. apply (run_inside n m [VSub a b] r); [exact H|]. cbn. now rewrite E. Qed.
Lemma sub_injective r a b r' : injective_at r -> rv_sub r a b = Some r' -> injective_at r'.
Proof. intros H E. apply (run_injective [VSub a b] r); [exact H|]. cbn. now rewrite E. Qed.
Lemma sees_run L v r ops : sees L v r -> match run_vops v ops, rv_run r ops with Some v', Some r' => sees L v' r' | None, None => True | _, _ => False end.
Proof.
  intros [(r' & Hs & E) [Hi Hj]]. pose proof (shows_run (l_m L) ops v r' Hs) as K1. pose proof (same_run (turn L) ops r r' E) as K2.
  pose proof (run_inside (lh L) (lw L) ops r) as K3. pose proof (run_injective ops r) as K4.
  destruct (run_vops v ops) as [v'|], (rv_run r' ops) as [q'|], (rv_run r ops) as [q|]; try contradiction; try exact I.
  split; [exists q'; auto|]. split; [apply K3|apply K4]; auto.
Qed.
Lemma sees_sub L v r a b : sees L v r -> match v_sub v a b, rv_sub r a b with Some v', Some r' => sees L v' r' | None, None => True | _, _ => False end.
Proof.
  intros H. pose proof (sees_run L v r [VSub a b] H) as K. cbn [run_vops rv_run] in K.
  destruct (v_sub v a b), (rv_sub r a b); exact K.
Qed.

Section H.
  Context {T : Type} {O : Ops T}.
  Variable nd : bool.
  Implicit Types (h : heap T) (F : nat * nat -> option T).

  (** Block [b] holds [F], in logical coordinates. *)
  Definition blk h b L F : Prop := exists c, nth_error (h_blocks h) b = Some (Some c) /\ length c = l_n L * l_m L /\
    forall p, fst p < lh L -> snd p < lw L -> nth_error c (laddr L p) = Some (F p).
  (** Only block [b] differs. *)
  Definition frame b h h' : Prop := length (h_blocks h') = length (h_blocks h) /\ (forall b', b' <> b -> nth_error (h_blocks h') b' = nth_error (h_blocks h) b') /\
    h_lost h' = h_lost h /\ (forall c, nth_error (h_blocks h) b = Some (Some c) -> exists c', nth_error (h_blocks h') b = Some (Some c')).
  Lemma frame_refl b h : frame b h h. Proof. repeat split. intros c E. now exists c. Qed.
  Lemma frame_trans b h1 h2 h3 : frame b h1 h2 -> frame b h2 h3 -> frame b h1 h3.
  Proof.
    intros (A1 & A2 & A3 & A4) (B1 & B2 & B3 & B4). split; [congruence|]. split; [intros b' H; rewrite B2, A2 by assumption; reflexivity|]. split; [congruence|].
    intros c E. destruct (A4 c E) as (c' & E'). exact (B4 c' E').
  Qed.
  Lemma blk_frame b h h' b' L F : frame b h h' -> b' <> b -> blk h b' L F -> blk h' b' L F.
  Proof. intros (_ & H & _) NE (c & E & R). exists c. split; [rewrite H by assumption; exact E|exact R]. Qed.
  Lemma blk_lt h b L F : blk h b L F -> b < length (h_blocks h).
  Proof. intros (c & E & _). apply nth_error_Some. congruence. Qed.
  Lemma blk_ext h b L F G : (forall p, fst p < lh L -> snd p < lw L -> F p = G p) -> blk h b L F -> blk h b L G.
  Proof. intros H (c & E & EL & R). exists c. split; [exact E|]. split; [exact EL|]. intros p H1 H2. rewrite R, H by assumption. reflexivity. Qed.

  Definition upd F (p : nat * nat) (x : T) : nat * nat -> option T := fun q => if (fst q =? fst p) && (snd q =? snd p) then Some x else F q.
  Lemma pair_eqb (p q : nat * nat) : (fst q =? fst p) && (snd q =? snd p) = true <-> q = p.
  Proof. destruct p, q. cbn. split; [intros E; f_equal; lia|intros [= -> ->]; lia]. Qed.

  Lemma rd_ok h b L F v r i j : blk h b L F -> sees L v r ->
    rd h (b, v) i j = if (i <? rv_h r) && (j <? rv_w r) then match F (rv_at r i j) with Some x => Ok x | None => Undef end else Panic.
  Proof.
    intros (c & E & EL & R) S. unfold rd. cbn [fst snd]. rewrite (sees_cell L v r i j S). destruct (_ && _) eqn:B; [|reflexivity].
    cbn [or_panic rbind]. unfold block. rewrite E. cbn [rbind]. destruct (sees_inside L v r i j S) as [H1 H2]; [lia..|]. rewrite R by assumption.
    destruct (F (rv_at r i j)); reflexivity.
  Qed.
  Lemma blk_set h b L F c p x k : nth_error (h_blocks h) b = Some (Some c) -> length c = l_n L * l_m L ->
    (forall p, fst p < lh L -> snd p < lw L -> nth_error c (laddr L p) = Some (F p)) -> fst p < lh L -> snd p < lw L ->
    blk (set_block h b (Some (lset c (laddr L p) (Some x))) k) b L (upd F p x).
  Proof.
    intros E EL R H1 H2. exists (lset c (laddr L p) (Some x)). unfold set_block. cbn [h_blocks].
    assert (b < length (h_blocks h)) by (apply nth_error_Some; congruence).
    split; [now apply nth_lset_same|]. split; [now rewrite lset_length|]. intros q H3 H4. unfold upd.
    destruct ((fst q =? fst p) && (snd q =? snd p)) eqn:B.
    - apply pair_eqb in B. subst q. apply nth_lset_same. rewrite EL. now apply laddr_lt.
    - rewrite nth_lset_other; [now apply R|]. intros K. apply laddr_inj in K; [|assumption..]. subst q. rewrite !Nat.eqb_refl in B. discriminate.
  Qed.
  Lemma frame_set h b c k : k = 0 -> b < length (h_blocks h) -> frame b h (set_block h b (Some c) k).
  Proof.
    intros -> Hb. unfold set_block, frame. cbn [h_blocks h_lost]. rewrite lset_length. split; [reflexivity|]. split; [intros b' NE; now rewrite nth_lset_other by congruence|].
    split; [lia|]. intros c0 _. exists c. now apply nth_lset_same.
  Qed.
  Lemma assign_ok h b L F v r i j x : blk h b L F -> sees L v r -> i < rv_h r -> j < rv_w r -> nd = false \/ F (rv_at r i j) <> None ->
    exists h', assign nd h (b, v) i j x = Ok h' /\ blk h' b L (upd F (rv_at r i j) x) /\ frame b h h'.
  Proof.
    intros HB S Hi Hj HN. pose proof (blk_lt _ _ _ _ HB) as Lb. destruct HB as (c & E & EL & R). unfold assign. cbn [fst snd]. rewrite (sees_cell L v r i j S).
    replace ((i <? rv_h r) && (j <? rv_w r)) with true by lia. cbn [or_panic rbind]. unfold block. rewrite E. cbn [rbind].
    destruct (sees_inside L v r i j S Hi Hj) as [H1 H2]. rewrite R by assumption.
    destruct (F (rv_at r i j)) eqn:EF; [|destruct HN as [->|HN]; [|now elim HN]].
    all: eexists; split; [reflexivity|]; split; [now apply blk_set|now apply frame_set].
  Qed.
  Lemma assign_panic h b L F v r i j x : blk h b L F -> sees L v r -> (i <? rv_h r) && (j <? rv_w r) = false -> assign nd h (b, v) i j x = Panic.
  Proof. intros _ S B. unfold assign. cbn [fst snd]. now rewrite (sees_cell L v r i j S), B. Qed.
  Lemma assign_undef h b L F v r i j x : blk h b L F -> sees L v r -> i < rv_h r -> j < rv_w r -> nd = true -> F (rv_at r i j) = None -> assign nd h (b, v) i j x = Undef.
  Proof.
    intros (c & E & EL & R) S Hi Hj -> HN. unfold assign. cbn [fst snd]. rewrite (sees_cell L v r i j S).
    replace ((i <? rv_h r) && (j <? rv_w r)) with true by lia. cbn [or_panic rbind]. unfold block. rewrite E. cbn [rbind].
    destruct (sees_inside L v r i j S Hi Hj) as [H1 H2]. rewrite R by assumption. now rewrite HN.
  Qed.
  (** [ptr::write] on a matrix that is not transposed, to a cell never written. *)
  Lemma write_ok h b n m F i j x : blk h b (Layout false n m) F -> i < n -> j < m -> F (i, j) = None ->
    exists h', write nd h (Owned b (owner_new n m)) i j x = Ok h' /\ blk h' b (Layout false n m) (upd F (i, j) x) /\ frame b h h'.
  Proof.
    intros HB Hi Hj HN. pose proof (blk_lt _ _ _ _ HB) as Lb. destruct HB as (c & E & EL & R). unfold write. cbn [o_block o_shape owner_new o_offsets fst snd].
    unfold block. rewrite E. cbn [rbind]. replace (i * m + j * 1) with (laddr (Layout false n m) (i, j)) by (unfold laddr; cbn; lia).
    rewrite R by assumption. rewrite HN. eexists. split; [reflexivity|]. split; [now apply blk_set|now apply frame_set].
  Qed.
End H.
