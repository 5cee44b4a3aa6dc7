(** Lemmas for C131, C132: row and column operations, freeing, and the invariant of a program. *)
From Coq Require Import List Arith NArith Bool Lia ZifyBool ZifyNat ZifyN.
From Verif Require Import PidModel MatModel ViewModel ViewSpec ViewProofs HeapModel HeapSpec HeapProofs HeapProofs2 HeapProofs3 HeapProofs4.
Import ListNotations.
Open Scope nat_scope.

Lemma filter_all {A} (p : A -> bool) l : (forall x, In x l -> p x = true) -> filter p l = l.
Proof. induction l as [|x l IH]; intros H; [reflexivity|]. cbn. rewrite H by now left. f_equal. apply IH. intros y Hy. apply H. now right. Qed.
Lemma living_app {A} (l k : list (option A)) : living (l ++ k) = living l + living k.
Proof. unfold living. rewrite filter_app, app_length. reflexivity. Qed.
(** [living] depends only on which places are occupied. *)
Definition live {A} (l : list (option A)) i : bool := match nth_error l i with Some (Some _) => true | _ => false end.
Lemma living_ext {A B} : forall (l : list (option A)) (k : list (option B)), length l = length k -> (forall i, live l i = live k i) -> living l = living k.
Proof.
  induction l as [|x l IH]; intros [|y k] E H; cbn in E; try lia; [reflexivity|]. injection E as E.
  pose proof (H 0) as H0. unfold live in H0. cbn in H0. assert (K : living l = living k) by (apply IH; [exact E|intros i; exact (H (S i))]).
  unfold living in *. cbn. destruct x, y; cbn; try discriminate H0; lia.
Qed.
Lemma living_drop {A} (l : list (option A)) : forall i x, nth_error l i = Some (Some x) -> S (living (lset l i None)) = living l.
Proof.
  induction l as [|y l IH]; intros [|i] x E; cbn in E; try discriminate.
  - injection E as ->. reflexivity.
  - specialize (IH i x E). unfold living in *. cbn. destruct y; cbn; lia.
Qed.

Section H.
  Context {T : Type} {O : Ops T}.
  Variable nd : bool.
  Implicit Types (h : heap T) (A B M : smat T) (q : href).

  Lemma free_ok h b L f : blk h b L (entries f) -> free nd h (Owned b (shape L)) = Ok (set_block h b None (if nd then lh L * lw L else 0)).
  Proof.
    intros (c & E & EL & R). unfold free. cbn [o_block o_shape]. unfold block. rewrite E. cbn [rbind]. rewrite shape_size. cbn [fst snd].
    assert (EE : lh L * lw L = length c) by (rewrite EL; unfold lh, lw; destruct (l_tr L); lia). rewrite EE, Nat.eqb_refl. do 2 f_equal. destruct nd; [|reflexivity].
    rewrite filter_all; [reflexivity|]. intros x Hx. apply In_nth_error in Hx. destruct Hx as (a & Ea).
    assert (Ha : a < l_n L * l_m L) by (rewrite <- EL; apply nth_error_Some; congruence).
    destruct (laddr_surj L a Ha) as (p & H1 & H2 & <-). rewrite R in Ea by assumption. injection Ea as <-. reflexivity.
  Qed.
  Lemma opnd_owned h b L f : good L -> blk h b L (entries f) -> opnd h (deref (Owned b (shape L))) (SMat (lh L) (lw L) f).
  Proof.
    intros G HB. exists L, (rv_full (lh L) (lw L)), f. split; [exact HB|]. split; [now apply sees_full|]. repeat split.
  Qed.

  (** Block [b] has changed and a freed block was added. *)
  Definition settled b h h' : Prop := length (h_blocks h') = S (length (h_blocks h)) /\
    (forall b', b' < length (h_blocks h) -> b' <> b -> nth_error (h_blocks h') b' = nth_error (h_blocks h) b') /\
    nth_error (h_blocks h') (length (h_blocks h)) = Some None /\ h_lost h' = h_lost h.
  (** The common part of the row and the column operation. *)
  Lemma rank1_ok h q L r M n m (tf : nat -> nat -> T) h1 o (c t : nat -> nat * nat) k g : nd = false -> n * m <> 0 -> small (n, m) ->
    placed h q L r M -> created h n m tf (Ok (h1, o)) -> (forall x y, c x = c y -> x = y) ->
    (forall x, x < k -> fst (c x) < rv_h r /\ snd (c x) < rv_w r) -> (forall x, x < k -> fst (t x) < n /\ snd (t x) < m) ->
    (forall x, x < k -> g (fst (c x)) (snd (c x)) = tadd (sm_f (look M r) (fst (c x)) (snd (c x))) (tf (fst (t x)) (snd (t x)))) ->
    (forall i j, i < rv_h r -> j < rv_w r -> (forall x, x < k -> c x <> (i, j)) -> g i j = sm_f (look M r) i j) ->
    exists h', (dr h <- foldR (fun h x => dr y <- rd h (deref o) (fst (t x)) (snd (t x)); modify nd h q (fst (c x)) (snd (c x)) (fun z => tadd z y)) (seq 0 k) h1; free nd h o) = Ok h' /\
      blk h' (fst q) L (entries (sm_f (paste M r g))) /\ settled (fst q) h h'.
  Proof.
    intros Hnd Hnm Hs [HB S] (h1' & [= <- ->] & HT & X) Hcc Hc Ht Hg Hoff.
    pose proof (blk_lt _ _ _ _ HB) as Lb. pose proof (extended_blk h h1 _ _ _ X HB) as HB1.
    pose proof (opnd_owned h1 _ _ _ (good_new n m Hnm Hs) HT) as HO. unfold shape in HO. cbn [l_tr l_n l_m lh lw] in HO. cbn in HO.
    assert (NE : length (h_blocks h) <> fst q) by lia.
    destruct (change_loop nd (fun h0 x => dr y <- rd h0 (deref (Owned (length (h_blocks h)) (owner_new n m))) (fst (t x)) (snd (t x)); modify nd h0 q (fst (c x)) (snd (c x)) (fun z => tadd z y)) c (seq 0 k) h1 q L r M g) as (h2 & E2 & B2 & Fr).
    - now split.
    - apply seq_NoDup.
    - intros x y _ _. apply Hcc.
    - intros x Hx. apply in_seq in Hx. apply Hc. lia.
    - intros x h' Hx Fr Erd. apply in_seq in Hx.
      rewrite (opnd_rd h' _ _ (fst (t x)) (snd (t x)) (opnd_frame h1 h' (fst q) (deref (Owned (length (h_blocks h)) (owner_new n m))) _ Fr NE HO)). cbn [sm_h sm_w sm_f lh lw l_tr l_n l_m].
      destruct (Ht x) as [T1 T2]; [lia|]. replace ((fst (t x) <? n) && (snd (t x) <? m)) with true by lia. cbn [rbind]. unfold modify. rewrite Erd. cbn [rbind].
      rewrite Hg by lia. reflexivity.
    - intros i j Hi Hj K. apply Hoff; [exact Hi|exact Hj|]. intros x Hx. apply K. apply in_seq. lia.
    - rewrite E2. cbn [rbind]. pose proof (blk_frame (fst q) h1 h2 _ _ _ Fr NE HT) as HT2. change (owner_new n m) with (shape (Layout false n m)). rewrite (free_ok h2 _ (Layout false n m) tf HT2).
      eexists. split; [reflexivity|]. rewrite Hnd. destruct X as (X1 & X2 & X3). destruct Fr as (F1 & F2 & F3 & F4). split.
      + destruct B2 as (cc & Ec & R). exists cc. split; [|exact R]. unfold set_block. cbn [h_blocks]. rewrite nth_lset_other by exact NE. exact Ec.
      + unfold settled, set_block. cbn [h_blocks h_lost]. rewrite lset_length. split; [lia|]. split; [|split; [|lia]].
        * intros b' H1 H2. rewrite nth_lset_other by lia. rewrite F2 by exact H2. now apply X2.
        * apply nth_lset_same. lia.
  Qed.
  Lemma row_operation_ok h q L r M p k c : placed h q L r M ->
    if (k <? rv_h r) && (0 <? rv_w r) then if nd then row_operation nd h q p k c = Undef else
      if p <? rv_h r then exists h', row_operation nd h q p k c = Ok h' /\ settled (fst q) h h' /\
        blk h' (fst q) L (entries (sm_f (paste M r (fun i j => if i =? p then tadd (sm_f (look M r) i j) (tmul (sm_f (look M r) k j) c) else sm_f (look M r) i j))))
      else row_operation nd h q p k c = Panic
    else row_operation nd h q p k c = Panic.
  Proof.
    intros H. pose proof (placed_opnd h q L r M H) as HA. pose proof (opnd_row h q _ k HA) as K. cbn [look sm_h sm_w] in K. unfold row_operation.
    destruct ((k <? rv_h r) && (0 <? rv_w r)) eqn:C; [|now rewrite K]. destruct K as (q' & E & Eb & HQ). rewrite E. cbn [rbind].
    pose proof (scale_ok nd h q' _ c HQ) as KS. cbn [sm_h sm_w sm_f] in KS. pose proof (opnd_small _ _ _ HQ) as Hs. cbn [sm_h sm_w] in Hs. unfold made in KS.
    replace (1 * rv_w r =? 0) with false in KS by lia. specialize (KS Hs). cbn [andb] in KS. destruct nd eqn:Hnd; [now rewrite KS|].
    destruct KS as (h1 & E1 & HT & X). rewrite E1. cbn [rbind]. rewrite (opnd_size h q _ HA). cbn [fst snd look sm_h sm_w]. destruct (p <? rv_h r) eqn:P.
    - destruct (rank1_ok h q L r M 1 (rv_w r) (fun i j => tmul (sm_f (look M r) k j) c) h1 (Owned (length (h_blocks h)) (owner_new 1 (rv_w r))) (fun j => (p, j)) (fun j => (0, j)) (rv_w r)
        (fun i j => if i =? p then tadd (sm_f (look M r) i j) (tmul (sm_f (look M r) k j) c) else sm_f (look M r) i j)) as (h' & E' & B' & S'); try assumption.
      + lia. + exists h1. split; [reflexivity|]. split; [exact HT|exact X]. + intros x y [= ->]. reflexivity. + cbn. lia. + cbn. lia.
      + intros x Hx. cbn [fst snd]. now rewrite Nat.eqb_refl.
      + intros i j Hi Hj Kx. destruct (i =? p) eqn:Ei; [|reflexivity]. elim (Kx j Hj). f_equal. lia.
      + cbn [fst snd] in E'. rewrite Hnd in E'. exists h'. split; [exact E'|]. now split.
    - rewrite foldR_first_panic; [reflexivity|destruct (rv_w r); [cbn in C; lia|discriminate]|]. intros j Hj. apply in_seq in Hj.
      pose proof (opnd_owned h1 _ _ _ (good_new 1 (rv_w r) ltac:(lia) Hs) HT) as HO. unfold shape in HO. cbn [l_tr l_n l_m lh lw] in HO. cbn in HO.
      rewrite (opnd_rd h1 _ _ 0 j HO). cbn [sm_h sm_w lh lw l_tr l_n l_m]. replace ((0 <? 1) && (j <? rv_w r)) with true by lia. cbn [rbind]. unfold modify.
      rewrite (opnd_rd h1 q _ p j (opnd_extended h h1 q _ X HA)). cbn [sm_h sm_w look]. now replace ((p <? rv_h r) && (j <? rv_w r)) with false by lia.
  Qed.
  Lemma col_operation_ok h q L r M p k c : placed h q L r M ->
    if (k <? rv_w r) && (0 <? rv_h r) then if nd then col_operation nd h q p k c = Undef else
      if p <? rv_w r then exists h', col_operation nd h q p k c = Ok h' /\ settled (fst q) h h' /\
        blk h' (fst q) L (entries (sm_f (paste M r (fun i j => if j =? p then tadd (sm_f (look M r) i j) (tmul (sm_f (look M r) i k) c) else sm_f (look M r) i j))))
      else col_operation nd h q p k c = Panic
    else col_operation nd h q p k c = Panic.
  Proof.
    intros H. pose proof (placed_opnd h q L r M H) as HA. pose proof (opnd_col h q _ k HA) as K. cbn [look sm_h sm_w] in K. unfold col_operation.
    destruct ((k <? rv_w r) && (0 <? rv_h r)) eqn:C; [|now rewrite K]. destruct K as (q' & E & Eb & HQ). rewrite E. cbn [rbind].
    pose proof (scale_ok nd h q' _ c HQ) as KS. cbn [sm_h sm_w sm_f] in KS. pose proof (opnd_small _ _ _ HQ) as Hs. cbn [sm_h sm_w] in Hs. unfold made in KS.
    replace (rv_h r * 1 =? 0) with false in KS by lia. specialize (KS Hs). cbn [andb] in KS. destruct nd eqn:Hnd; [now rewrite KS|].
    destruct KS as (h1 & E1 & HT & X). rewrite E1. cbn [rbind]. rewrite (opnd_size h q _ HA). cbn [fst snd look sm_h sm_w]. destruct (p <? rv_w r) eqn:P.
    - destruct (rank1_ok h q L r M (rv_h r) 1 (fun i j => tmul (sm_f (look M r) i k) c) h1 (Owned (length (h_blocks h)) (owner_new (rv_h r) 1)) (fun i => (i, p)) (fun i => (i, 0)) (rv_h r)
        (fun i j => if j =? p then tadd (sm_f (look M r) i j) (tmul (sm_f (look M r) i k) c) else sm_f (look M r) i j)) as (h' & E' & B' & S'); try assumption.
      + lia. + exists h1. split; [reflexivity|]. split; [exact HT|exact X]. + intros x y [= ->]. reflexivity. + cbn. lia. + cbn. lia.
      + intros x Hx. cbn [fst snd]. now rewrite Nat.eqb_refl.
      + intros i j Hi Hj Kx. destruct (j =? p) eqn:Ei; [|reflexivity]. elim (Kx i Hi). f_equal. lia.
      + cbn [fst snd] in E'. rewrite Hnd in E'. exists h'. split; [exact E'|]. now split.
    - rewrite foldR_first_panic; [reflexivity|destruct (rv_h r); [cbn in C; lia|discriminate]|]. intros j Hj. apply in_seq in Hj.
      pose proof (opnd_owned h1 _ _ _ (good_new (rv_h r) 1 ltac:(lia) Hs) HT) as HO. unfold shape in HO. cbn [l_tr l_n l_m lh lw] in HO. cbn in HO.
      rewrite (opnd_rd h1 _ _ j 0 HO). cbn [sm_h sm_w lh lw l_tr l_n l_m]. replace ((j <? rv_h r) && (0 <? 1)) with true by lia. cbn [rbind]. unfold modify.
      rewrite (opnd_rd h1 q _ j p (opnd_extended h h1 q _ X HA)). cbn [sm_h sm_w look]. now replace ((j <? rv_h r) && (p <? rv_w r)) with false by lia.
  Qed.
End H.
