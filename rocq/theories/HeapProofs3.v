(** Lemmas for C131, C132: the operations on matrices. *)
From Coq Require Import List Arith NArith Bool Lia ZifyBool ZifyNat ZifyN.
From Verif Require Import PidModel MatModel ViewModel ViewSpec ViewProofs HeapModel HeapSpec HeapProofs HeapProofs2.
Import ListNotations.
Open Scope nat_scope.

Section H.
  Context {T : Type} {O : Ops T}.
  Variable nd : bool.
  Implicit Types (h : heap T) (A B M : smat T) (q : href).

  (** The reference [q] shows the matrix [A]. *)
  Definition opnd h q A : Prop := exists L r f, blk h (fst q) L (entries f) /\ sees L (snd q) r /\ sm_h A = rv_h r /\ sm_w A = rv_w r /\
    forall i j, i < rv_h r -> j < rv_w r -> sm_f A i j = f (fst (rv_at r i j)) (snd (rv_at r i j)).
  Lemma opnd_rd h q A i j : opnd h q A -> rd h q i j = if (i <? sm_h A) && (j <? sm_w A) then Ok (sm_f A i j) else Panic.
  Proof.
    intros (L & r & f & HB & S & E1 & E2 & E3). destruct q as [b v]. rewrite (rd_ok h b L _ v r i j HB S), E1, E2.
    destruct (_ && _) eqn:C; [|reflexivity]. rewrite E3 by lia. reflexivity.
  Qed.
  Lemma opnd_size h q A : opnd h q A -> v_size (snd q) = (sm_h A, sm_w A).
  Proof. intros (L & r & f & HB & S & E1 & E2 & E3). rewrite E1, E2. now apply (sees_size L). Qed.
  Lemma opnd_small h q A : opnd h q A -> small (sm_h A, sm_w A).
  Proof. intros H. rewrite <- (opnd_size h q A H). destruct H as (L & r & f & HB & [(r' & (_ & K & _) & _) _] & _). exact K. Qed.
  Lemma opnd_frame h h' b q A : frame b h h' -> fst q <> b -> opnd h q A -> opnd h' q A.
  Proof. intros Fr NE (L & r & f & HB & R). exists L, r, f. split; [|exact R]. now apply (blk_frame b h). Qed.
  Lemma opnd_extended h h' q A : extended h h' -> opnd h q A -> opnd h' q A.
  Proof. intros Fr (L & r & f & HB & R). exists L, r, f. split; [|exact R]. now apply (extended_blk h). Qed.
  Lemma opnd_lt h q A : opnd h q A -> fst q < length (h_blocks h).
  Proof. intros (L & r & f & HB & R). now apply (blk_lt h _ L (entries f)). Qed.
  Lemma opnd_row h q A i : opnd h q A -> if (i <? sm_h A) && (0 <? sm_w A) then
      exists q', sub q (RIndex i) RFull = Ok q' /\ fst q' = fst q /\ opnd h q' (SMat 1 (sm_w A) (fun _ j => sm_f A i j))
    else sub q (RIndex i) RFull = Panic.
  Proof.
    intros (L & r & f & HB & S & E1 & E2 & E3). pose proof (sees_sub L (snd q) r (RIndex i) RFull S) as K. unfold sub. unfold rv_sub in K. cbn [interval] in K.
    rewrite E1, E2. match type of K with context [if ?c then Some ?w else None] => destruct c eqn:C; [set (r' := w) in K|] end.
    - replace ((i <? rv_h r) && (0 <? rv_w r)) with true by lia. destruct (v_sub (snd q) (RIndex i) RFull) as [v'|]; [|contradiction].
      exists (fst q, v'). split; [reflexivity|]. split; [reflexivity|]. exists L, r', f. split; [exact HB|]. split; [exact K|].
      split; [cbn; lia|]. split; [cbn; lia|]. cbn [rv_h rv_w rv_at r' sm_f]. intros k j Hk Hj. replace (i + k) with i by lia. rewrite !Nat.add_0_l. apply E3; lia.
    - replace ((i <? rv_h r) && (0 <? rv_w r)) with false by lia. destruct (v_sub (snd q) (RIndex i) RFull); [contradiction|reflexivity].
  Qed.
  Lemma opnd_col h q A j : opnd h q A -> if (j <? sm_w A) && (0 <? sm_h A) then
      exists q', sub q RFull (RIndex j) = Ok q' /\ fst q' = fst q /\ opnd h q' (SMat (sm_h A) 1 (fun i _ => sm_f A i j))
    else sub q RFull (RIndex j) = Panic.
  Proof.
    intros (L & r & f & HB & S & E1 & E2 & E3). pose proof (sees_sub L (snd q) r RFull (RIndex j) S) as K. unfold sub. unfold rv_sub in K. cbn [interval] in K.
    rewrite E1, E2. match type of K with context [if ?c then Some ?w else None] => destruct c eqn:C; [set (r' := w) in K|] end.
    - replace ((j <? rv_w r) && (0 <? rv_h r)) with true by lia. destruct (v_sub (snd q) RFull (RIndex j)) as [v'|]; [|contradiction].
      exists (fst q, v'). split; [reflexivity|]. split; [reflexivity|]. exists L, r', f. split; [exact HB|]. split; [exact K|].
      split; [cbn; lia|]. split; [cbn; lia|]. cbn [rv_h rv_w rv_at r' sm_f]. intros i k Hi Hk. replace (j + k) with j by lia. rewrite !Nat.add_0_l. apply E3; lia.
    - replace ((j <? rv_w r) && (0 <? rv_h r)) with false by lia. destruct (v_sub (snd q) RFull (RIndex j)); [contradiction|reflexivity].
  Qed.

  (** [r] is a new matrix with the entries [f]. *)
  Definition created h n m (f : nat -> nat -> T) (r : res (heap T * owned)) : Prop := exists h', r = Ok (h', Owned (length (h_blocks h)) (owner_new n m)) /\
    blk h' (length (h_blocks h)) (Layout false n m) (entries f) /\ extended h h'.
  Lemma created_ext h n m f g r : (forall i j, i < n -> j < m -> f i j = g i j) -> created h n m f r -> created h n m g r.
  Proof.
    intros H (h' & E & HB & X). exists h'. split; [exact E|]. split; [|exact X]. apply (blk_ext h' _ _ (entries f)); [|exact HB].
    intros p H1 H2. unfold entries. now rewrite H by assumption.
  Qed.
  Lemma build_write h n m f g : n * m <> 0 -> (forall h' i j, extended h h' -> i < n -> j < m -> f h' i j = Ok (g i j)) ->
    created h n m g (dr (h, o) <- new h n m; dr h <- fill_write nd h o n m f; Ok (h, o)).
  Proof.
    intros Hnm Hf. destruct (new_ok h n m Hnm) as (h1 & E1 & B1 & X1). rewrite E1. cbn [rbind].
    destruct (fill_write_ok nd h1 (length (h_blocks h)) n m f g B1) as (h2 & E2 & B2 & Fr).
    - intros h' i j Fr Hi Hj. apply Hf; [|exact Hi|exact Hj]. now apply (extended_frame h h1).
    - rewrite E2. exists h2. split; [reflexivity|]. split; [exact B2|]. now apply (extended_frame h h1).
  Qed.
  Lemma build_assign h n m f g : n * m <> 0 -> small (n, m) -> (forall h' i j, extended h h' -> i < n -> j < m -> f h' i j = Ok (g i j)) ->
    let r := dr (h, o) <- new h n m; dr h <- fill_assign nd h o n m f; Ok (h, o) in if nd then r = Undef else created h n m g r.
  Proof.
    intros Hnm Hs Hf. cbv zeta. destruct (new_ok h n m Hnm) as (h1 & E1 & B1 & X1). rewrite E1. cbn [rbind]. destruct nd eqn:Hnd.
    - rewrite (fill_assign_undef true h1 _ n m f eq_refl Hnm Hs B1); [reflexivity|]. exists (g 0 0). apply Hf; [exact X1|nia..].
    - destruct (fill_assign_ok false h1 (length (h_blocks h)) n m f g eq_refl Hnm Hs B1) as (h2 & E2 & B2 & Fr).
      + intros h' i j Fr Hi Hj. apply Hf; [|exact Hi|exact Hj]. now apply (extended_frame h h1).
      + rewrite E2. exists h2. split; [reflexivity|]. split; [exact B2|]. now apply (extended_frame h h1).
  Qed.
  (** What the reference semantics says about a new matrix. *)
  Definition made (asg : bool) h n m f (r : res (heap T * owned)) : Prop :=
    if n * m =? 0 then r = Undef else small (n, m) -> if asg && nd then r = Undef else created h n m f r.
  Lemma made_write h n m f g : (forall h' i j, extended h h' -> i < n -> j < m -> f h' i j = Ok (g i j)) ->
    made false h n m g (dr (h, o) <- new h n m; dr h <- fill_write nd h o n m f; Ok (h, o)).
  Proof. intros H. unfold made. destruct (n * m =? 0) eqn:E; [unfold new; now rewrite E|]. intros _. cbn [andb]. apply build_write; [lia|exact H]. Qed.
  Lemma made_assign h n m f g : (forall h' i j, extended h h' -> i < n -> j < m -> f h' i j = Ok (g i j)) ->
    made true h n m g (dr (h, o) <- new h n m; dr h <- fill_assign nd h o n m f; Ok (h, o)).
  Proof. intros H. unfold made. destruct (n * m =? 0) eqn:E; [unfold new; now rewrite E|]. intros Hs. cbn [andb]. apply build_assign; [lia|exact Hs|exact H]. Qed.

  Lemma zero_ok h n m : if (0 <? n) && (0 <? m) then made false h n m (fun _ _ => t0) (zero nd h n m) else zero nd h n m = Panic.
  Proof. unfold zero. destruct (_ && _); [|reflexivity]. apply made_write. reflexivity. Qed.
  Lemma as_matrix_ok h q A : opnd h q A -> made false h (sm_h A) (sm_w A) (sm_f A) (as_matrix nd h q).
  Proof.
    intros H. unfold as_matrix. rewrite (opnd_size h q A H). cbn [fst snd]. apply made_write. intros h' i j X Hi Hj.
    rewrite (opnd_rd h' q A i j (opnd_extended h h' q A X H)). now replace ((i <? sm_h A) && (j <? sm_w A)) with true by lia.
  Qed.
  Lemma zip_with_ok op h a b A B : opnd h a A -> opnd h b B ->
    if same_size A B then made true h (sm_h A) (sm_w A) (fun i j => op (sm_f A i j) (sm_f B i j)) (zip_with nd op h a b) else zip_with nd op h a b = Panic.
  Proof.
    intros HA HB. unfold zip_with, same_size. rewrite (opnd_size h a A HA), (opnd_size h b B HB). cbn [fst snd]. destruct (_ && _) eqn:C; [|reflexivity].
    apply made_assign. intros h' i j X Hi Hj.
    rewrite (opnd_rd h' a A i j (opnd_extended h h' a A X HA)), (opnd_rd h' b B i j (opnd_extended h h' b B X HB)).
    replace ((i <? sm_h A) && (j <? sm_w A)) with true by lia. replace ((i <? sm_h B) && (j <? sm_w B)) with true by lia. reflexivity.
  Qed.
  Lemma scale_ok h a A c : opnd h a A -> made true h (sm_h A) (sm_w A) (fun i j => tmul (sm_f A i j) c) (scale nd h a c).
  Proof.
    intros HA. unfold scale. rewrite (opnd_size h a A HA). cbn [fst snd]. apply made_assign. intros h' i j X Hi Hj.
    rewrite (opnd_rd h' a A i j (opnd_extended h h' a A X HA)). replace ((i <? sm_h A) && (j <? sm_w A)) with true by lia. reflexivity.
  Qed.
  Lemma dot_ok h a b n (f g : nat -> nat -> T) : opnd h a (SMat 1 n f) -> opnd h b (SMat n 1 g) ->
    dot h a b = Ok (fold_left tadd (map (fun k => tmul (f 0 k) (g k 0)) (seq 0 n)) t0).
  Proof.
    intros HA HB. unfold dot. rewrite (opnd_size h a _ HA), (opnd_size h b _ HB). cbn [fst snd sm_h sm_w]. rewrite !Nat.eqb_refl. cbn [andb].
    rewrite (mapR_ok _ (fun k => tmul (f 0 k) (g k 0))); [reflexivity|]. intros k Hk. apply in_seq in Hk.
    rewrite (opnd_rd h a _ 0 k HA), (opnd_rd h b _ k 0 HB). cbn [sm_h sm_w sm_f]. replace ((0 <? 1) && (k <? n)) with true by lia.
    replace ((k <? n) && (0 <? 1)) with true by lia. reflexivity.
  Qed.
  Lemma dot_panic h a b n m (f g : nat -> nat -> T) : opnd h a (SMat 1 n f) -> opnd h b (SMat m 1 g) -> n <> m -> dot h a b = Panic.
  Proof.
    intros HA HB NE. unfold dot. rewrite (opnd_size h a _ HA), (opnd_size h b _ HB). cbn [fst snd sm_h sm_w]. rewrite !Nat.eqb_refl. cbn [andb].
    now replace (n =? m) with false by lia.
  Qed.
  Lemma mul_ok h a b A B : opnd h a A -> opnd h b B ->
    if sm_h A * sm_w B =? 0 then mul nd h a b = Undef else small (sm_h A, sm_w B) ->
    if (0 <? sm_w A) && (sm_w A =? sm_h B) then made true h (sm_h A) (sm_w B) (row_times_col A B) (mul nd h a b) else mul nd h a b = Panic.
  Proof.
    intros HA HB. unfold mul. rewrite (opnd_size h a A HA), (opnd_size h b B HB). cbn [fst snd].
    destruct (sm_h A * sm_w B =? 0) eqn:Z; [unfold new; now rewrite Z|]. intros Hs. destruct (_ && _) eqn:C.
    - apply made_assign. intros h' i j X Hi Hj.
      pose proof (opnd_row h' a A i (opnd_extended h h' a A X HA)) as K. replace ((i <? sm_h A) && (0 <? sm_w A)) with true in K by lia.
      destruct K as (a' & Ea & _ & HA'). rewrite Ea. cbn [rbind].
      pose proof (opnd_col h' b B j (opnd_extended h h' b B X HB)) as K. replace ((j <? sm_w B) && (0 <? sm_h B)) with true in K by lia.
      destruct K as (b' & Eb & _ & HB'). rewrite Eb. cbn [rbind]. replace (sm_h B) with (sm_w A) in HB' by lia. now rewrite (dot_ok h' a' b' (sm_w A) _ _ HA' HB').
    - destruct (new_ok h (sm_h A) (sm_w B)) as (h1 & E1 & B1 & X1); [lia|]. rewrite E1. cbn [rbind]. unfold fill_assign.
      rewrite foldR_first_panic; [reflexivity|apply cells_nonempty; lia|]. intros [i j] Hij. apply in_cells in Hij. cbn [fst snd] in *.
      pose proof (opnd_row h1 a A i (opnd_extended h h1 a A X1 HA)) as K. destruct (0 <? sm_w A) eqn:W.
      + replace ((i <? sm_h A) && true) with true in K by lia. destruct K as (a' & Ea & _ & HA'). rewrite Ea. cbn [rbind].
        pose proof (opnd_col h1 b B j (opnd_extended h h1 b B X1 HB)) as K. destruct (_ && _) eqn:D in K.
        * destruct K as (b' & Eb & _ & HB'). rewrite Eb. cbn [rbind]. rewrite (dot_panic h1 a' b' (sm_w A) (sm_h B) _ _ HA' HB'); [reflexivity|]. cbn in C. lia.
        * now rewrite K.
      + rewrite andb_false_r in K. now rewrite K.
  Qed.
  Lemma from_array_ok h x r0 v : let w := (x :: r0) :: v in let n := length w in let m := length (x :: r0) in small (n, m) ->
    if nd then from_array nd h w = Undef else
    if forallb (fun r => m <=? length r) w then created h n m (fun i j => nth j (nth i w []) t0) (from_array nd h w) else from_array nd h w = Panic.
  Proof.
    intros w n m Hs. assert (Hnm : n * m <> 0) by (unfold n, m, w; cbn; nia).
    assert (E : from_array nd h w = (dr (h, o) <- new h n m; dr h <- fill_assign nd h o n m (fun _ i j => or_panic (do r <- nth_error w i; nth_error r j)); Ok (h, o))).
    { unfold from_array, w. cbn [forallb]. rewrite Nat.eqb_refl. reflexivity. }
    rewrite E. destruct (new_ok h n m Hnm) as (h1 & E1 & B1 & X1). destruct nd eqn:Hnd.
    - rewrite E1. cbn [rbind]. rewrite (fill_assign_undef true h1 _ n m _ eq_refl Hnm Hs B1); [reflexivity|]. exists x. reflexivity.
    - destruct (forallb _ w) eqn:FA.
      + pose proof (build_assign h n m (fun _ i j => or_panic (do r <- nth_error w i; nth_error r j)) (fun i j => nth j (nth i w []) t0) Hnm Hs) as K.
        cbv zeta in K. rewrite Hnd in K. apply K. intros h' i j _ Hi Hj. rewrite forallb_forall in FA.
        rewrite (nth_error_nth' w [] Hi). cbn [obind]. pose proof (FA (nth i w []) (nth_In w [] Hi)). rewrite (nth_error_nth' (nth i w []) t0); [reflexivity|lia].
      + rewrite E1. cbn [rbind]. unfold fill_assign.
        assert (exists i, i < n /\ length (nth i w []) < m) as (i & Hi & Hl).
        { assert (exists r, In r w /\ length r < m) as (r & Hr & Hl).
          { clear -FA. revert FA. generalize w. generalize m. clear. intros k l. induction l as [|r l IH]; cbn [forallb]; [discriminate|]. destruct (k <=? length r) eqn:C; cbn [andb].
            - intros K. destruct (IH K) as (s & Hs & Hl). exists s. split; [now right|exact Hl].
            - intros _. exists r. split; [now left|lia]. }
          destruct (In_nth w r [] Hr) as (i & Hi & Ei). exists i. split; [exact Hi|]. now rewrite Ei. }
        rewrite (foldR_panic _ (fun h' => exists F, blk h' (length (h_blocks h)) (Layout false n m) F)); [reflexivity|eauto| |].
        * intros h' [k l] (F & HB) Hk. apply in_cells in Hk. cbn [fst snd] in *. destruct (do r <- nth_error w k; nth_error r l) as [y|]; [|now left]. right. cbn [or_panic rbind].
          destruct (assign_ok false h' (length (h_blocks h)) (Layout false n m) F (owner_view (owner_new n m)) (rv_full n m) k l y HB) as (h2 & Eh & B2 & _);
            [apply (sees_full (Layout false n m)); now apply good_new|apply Hk|apply Hk|now left|]. exists h2. split; [exact Eh|eauto].
        * exists (i, m - 1). split; [apply in_cells; cbn [fst snd]; split; [exact Hi|nia]|]. intros h' _. cbn [fst snd]. rewrite (nth_error_nth' w [] Hi). cbn [obind].
          replace (nth_error (nth i w []) (m - 1)) with (@None T); [reflexivity|]. symmetry. apply nth_error_None. lia.
  Qed.
  Lemma identity_ok h n : if 0 <? n then made false h n n (fun i j => if i =? j then t1 else t0) (identity nd h n) else identity nd h n = Panic.
  Proof.
    unfold identity. destruct (0 <? n) eqn:Hn; [|reflexivity]. pose proof (zero_ok h n n) as K. rewrite Hn in K. cbn [andb] in K. unfold made in *.
    destruct (n * n =? 0) eqn:Z; [lia|]. intros Hs. destruct (K Hs) as (h1 & E1 & B1 & X1). rewrite E1. cbn [rbind andb].
    edestruct (loop_to (fun h i => assign nd h (deref (Owned (length (h_blocks h1) - 1) (owner_new n n))) i i t1) (fun i => [(i, i)]) (length (h_blocks h1) - 1)
      (Layout false n n) (entries (fun i j => if i =? j then t1 else t0)) (seq 0 n) h1 (entries (fun _ _ => t0))) as (h2 & E2 & B2 & Fr).
    - apply seq_NoDup.
    - intros x y p _ _ [<-|[]] [[= ->]|[]]. reflexivity.
    - replace (length (h_blocks h1) - 1) with (length (h_blocks h)) by (destruct X1; lia). exact B1.
    - intros i h' F' Hi HB' _ HF'. apply in_seq in Hi.
      apply (assign_step nd h' _ (Layout false n n) F' _ (owner_view (owner_new n n)) (rv_full n n) i i t1);
        [exact HB'|apply (sees_full (Layout false n n)); apply good_new; [lia|exact Hs]|cbn; lia|cbn; lia| |unfold entries; cbn; now rewrite Nat.eqb_refl].
      right. cbn [rv_full rv_at]. rewrite HF' by now left. discriminate.
    - intros [i j] H1 H2 H. unfold entries. cbn [fst snd] in *. destruct (i =? j) eqn:E; [|reflexivity]. exfalso. replace j with i in * by lia.
      apply (H i); [|now left]. apply in_seq. cbn in H1. lia.
    - replace (length (h_blocks h1) - 1) with (length (h_blocks h)) in * by (destruct X1; lia). rewrite E2. exists h2. split; [reflexivity|]. split; [exact B2|].
      now apply (extended_frame h h1).
  Qed.
End H.
