(** Lemmas for C131, C132: changes in place. *)
From Coq Require Import List Arith NArith Bool Lia ZifyBool ZifyNat ZifyN.
From Verif Require Import PidModel MatModel ViewModel ViewSpec ViewProofs HeapModel HeapSpec HeapProofs HeapProofs2 HeapProofs3.
Import ListNotations.
Open Scope nat_scope.

Section H.
  Context {T : Type} {O : Ops T}.
  Variable nd : bool.
  Implicit Types (h : heap T) (A B M : smat T) (q : href).

  Lemma paste_at M r g i j : injective_at r -> i < rv_h r -> j < rv_w r -> sm_f (paste M r g) (fst (rv_at r i j)) (snd (rv_at r i j)) = g i j.
  Proof.
    intros HJ Hi Hj. unfold paste. cbn [sm_f]. destruct (find _ _) as [[k l]|] eqn:E.
    - apply find_some in E. destruct E as [H1 H2]. apply in_cells in H1. cbn [fst snd] in *. destruct (rv_at r k l) as [c d] eqn:Ekl.
      destruct (HJ i j k l) as [-> ->]; try lia; [|reflexivity]. rewrite Ekl. destruct (rv_at r i j). cbn in H2. f_equal; lia.
    - exfalso. pose proof (find_none _ _ E (i, j)) as K. rewrite in_cells in K. cbn [fst snd] in K. specialize (K (conj Hi Hj)).
      destruct (rv_at r i j). cbn in K. lia.
  Qed.
  Lemma paste_off M r g a b : (forall i j, i < rv_h r -> j < rv_w r -> rv_at r i j = (a, b) -> g i j = sm_f M a b) -> sm_f (paste M r g) a b = sm_f M a b.
  Proof.
    intros H. unfold paste. cbn [sm_f]. destruct (find _ _) as [[k l]|] eqn:E; [|reflexivity].
    apply find_some in E. destruct E as [H1 H2]. apply in_cells in H1. cbn [fst snd] in *. apply H; [apply H1|apply H1|]. destruct (rv_at r k l) as [c d]. f_equal; lia.
  Qed.

  (** The reference [q] shows the part [r] of the matrix [M], which lies alone in its block. *)
  Definition placed h q L r M : Prop := blk h (fst q) L (entries (sm_f M)) /\ sees L (snd q) r.
  Lemma placed_opnd h q L r M : placed h q L r M -> opnd h q (look M r).
  Proof.
    intros [HB S]. exists L, r, (sm_f M). split; [exact HB|]. split; [exact S|]. split; [reflexivity|]. split; [reflexivity|]. intros i j _ _. unfold look. cbn [sm_f].
    destruct (rv_at r i j). reflexivity.
  Qed.
  Lemma look_at M r i j : sm_f (look M r) i j = sm_f M (fst (rv_at r i j)) (snd (rv_at r i j)).
  Proof. unfold look. cbn [sm_f]. destruct (rv_at r i j). reflexivity. Qed.
  Definition changed h b L M (res : res (heap T)) : Prop := exists h', res = Ok h' /\ blk h' b L (entries (sm_f M)) /\ frame b h h'.

  (** A loop whose steps change one entry each. *)
  Lemma change_loop {X : Type} (f : heap T -> X -> res (heap T)) (c : X -> nat * nat) l h q L r M g : placed h q L r M -> NoDup l -> (forall x y, In x l -> In y l -> c x = c y -> x = y) ->
    (forall x, In x l -> fst (c x) < rv_h r /\ snd (c x) < rv_w r) ->
    (forall x h', In x l -> frame (fst q) h h' -> rd h' q (fst (c x)) (snd (c x)) = Ok (sm_f (look M r) (fst (c x)) (snd (c x))) ->
       f h' x = assign nd h' q (fst (c x)) (snd (c x)) (g (fst (c x)) (snd (c x)))) ->
    (forall i j, i < rv_h r -> j < rv_w r -> (forall x, In x l -> c x <> (i, j)) -> g i j = sm_f (look M r) i j) ->
    changed h (fst q) L (paste M r g) (foldR f l h).
  Proof.
    intros [HB S] ND HI HR Hf Hg. destruct q as [b v]. cbn [fst snd] in *. pose proof S as (_ & _ & HJ).
    apply (loop_to _ (fun x => [rv_at r (fst (c x)) (snd (c x))]) b L (entries (sm_f (paste M r g))) l h (entries (sm_f M))); [exact ND| |exact HB| |].
    - intros x y p Hx Hy [E1|[]] [E2|[]]. apply HI; [exact Hx|exact Hy|]. destruct (HR x Hx), (HR y Hy).
      destruct (HJ (fst (c x)) (snd (c x)) (fst (c y)) (snd (c y))) as [A1 A2]; try assumption; [congruence|]. destruct (c x), (c y). cbn in *. congruence.
    - intros x h' F' Hx HB' Fr HF'. destruct (HR x Hx) as [Hi Hj].
      assert (EF : F' (rv_at r (fst (c x)) (snd (c x))) = Some (sm_f (look M r) (fst (c x)) (snd (c x)))) by (rewrite HF' by (now left); rewrite look_at; reflexivity).
      rewrite (Hf x h' Hx Fr).
      + apply (assign_step nd h' b L F' _ v r); [exact HB'|exact S|exact Hi|exact Hj|right; rewrite EF; discriminate|]. unfold entries. now rewrite paste_at.
      + rewrite (rd_ok h' b L F' v r _ _ HB' S), EF. now replace ((fst (c x) <? rv_h r) && (snd (c x) <? rv_w r)) with true by lia.
    - intros [a d] H1 H2 H. unfold entries. cbn [fst snd]. f_equal. symmetry. apply paste_off. intros i j Hi Hj E. rewrite Hg; [rewrite look_at, E; reflexivity|exact Hi|exact Hj|].
      intros x Hx Ec. apply (H x Hx). left. rewrite Ec. exact E.
  Qed.

  Lemma set_ok h q L r M i j x : placed h q L r M -> if (i <? rv_h r) && (j <? rv_w r)
    then changed h (fst q) L (paste M r (fun k l => if (k =? i) && (l =? j) then x else sm_f (look M r) k l)) (assign nd h q i j x) else assign nd h q i j x = Panic.
  Proof.
    intros H. destruct (_ && _) eqn:C.
    - pose proof (change_loop (fun h ij => assign nd h q (fst ij) (snd ij) x) (fun ij => ij) [(i, j)] h q L r M (fun k l => if (k =? i) && (l =? j) then x else sm_f (look M r) k l) H) as K.
      cbn [foldR fst snd] in K. destruct (assign nd h q i j x) as [h'| | |]; cbn [rbind] in K; apply K.
      1, 6, 11, 16: repeat constructor; easy.
      1, 5, 9, 13: intros; now cbn in *; intuition congruence.
      1, 4, 7, 10: intros y [<-|[]]; cbn [fst snd]; lia.
      1, 3, 5, 7: intros y h0 [<-|[]] _ _; cbn [fst snd]; now rewrite !Nat.eqb_refl.
      all: intros k l Hk Hl Hn; destruct ((k =? i) && (l =? j)) eqn:E; [|reflexivity]; exfalso; apply (Hn (i, j)); [now left|f_equal; lia].
    - destruct H as [HB S]. destruct q as [b v]. now apply (assign_panic nd h b L (entries (sm_f M)) v r).
  Qed.
  Lemma inj_id (n m : nat) : forall x y : nat * nat, In x (cells n m) -> In y (cells n m) -> x = y -> x = y. Proof. easy. Qed.
  Lemma zip_assign_ok op h q L r M b B : placed h q L r M -> opnd h b B -> fst b <> fst q ->
    if same_size (look M r) B then changed h (fst q) L (paste M r (fun i j => op (sm_f (look M r) i j) (sm_f B i j))) (zip_assign nd op h q b) else zip_assign nd op h q b = Panic.
  Proof.
    intros H HB NE. pose proof (placed_opnd h q L r M H) as HA. unfold zip_assign, same_size. rewrite (opnd_size h q _ HA), (opnd_size h b B HB). cbn [fst snd].
    destruct (_ && _) eqn:C; [|reflexivity]. cbn [look sm_h sm_w] in *.
    apply (change_loop _ (fun ij => ij)); [exact H|apply nodup_cells|easy| | |].
    - intros x Hx. now apply in_cells in Hx.
    - intros [i j] h' Hx Fr Erd. apply in_cells in Hx. cbn [fst snd] in *. rewrite (opnd_rd h' b B i j (opnd_frame h h' (fst q) b B Fr NE HB)).
      replace ((i <? sm_h B) && (j <? sm_w B)) with true by lia. cbn [rbind]. unfold modify. rewrite Erd. reflexivity.
    - intros i j Hi Hj K. exfalso. apply (K (i, j)); [now apply in_cells|reflexivity].
  Qed.
  Lemma write_view_ok h q L r M b B : placed h q L r M -> opnd h b B -> fst b <> fst q ->
    if same_size (look M r) B then changed h (fst q) L (paste M r (fun i j => sm_f B i j)) (write_view nd h q b) else write_view nd h q b = Panic.
  Proof.
    intros H HB NE. pose proof (placed_opnd h q L r M H) as HA. unfold write_view, same_size. rewrite (opnd_size h q _ HA), (opnd_size h b B HB). cbn [fst snd].
    destruct (_ && _) eqn:C; [|reflexivity]. cbn [look sm_h sm_w] in *.
    apply (change_loop _ (fun ij => ij)); [exact H|apply nodup_cells|easy| | |].
    - intros x Hx. now apply in_cells in Hx.
    - intros [i j] h' Hx Fr Erd. apply in_cells in Hx. cbn [fst snd] in *. rewrite (opnd_rd h' b B i j (opnd_frame h h' (fst q) b B Fr NE HB)).
      replace ((i <? sm_h B) && (j <? sm_w B)) with true by lia. reflexivity.
    - intros i j Hi Hj K. exfalso. apply (K (i, j)); [now apply in_cells|reflexivity].
  Qed.
  Lemma scale_assign_ok h q L r M c : placed h q L r M -> changed h (fst q) L (paste M r (fun i j => tmul (sm_f (look M r) i j) c)) (scale_assign nd h q c).
  Proof.
    intros H. pose proof (placed_opnd h q L r M H) as HA. unfold scale_assign. rewrite (opnd_size h q _ HA). cbn [fst snd look sm_h sm_w].
    apply (change_loop _ (fun ij => ij)); [exact H|apply nodup_cells|easy| | |].
    - intros x Hx. now apply in_cells in Hx.
    - intros [i j] h' Hx Fr Erd. unfold modify. rewrite Erd. reflexivity.
    - intros i j Hi Hj K. exfalso. apply (K (i, j)); [now apply in_cells|reflexivity].
  Qed.

  (** A loop of exchanges. *)
  Lemma exchange_loop (c d : nat -> nat * nat) n h q L r M g : placed h q L r M ->
    (forall x y, c x = c y -> x = y) -> (forall x y, d x = d y -> x = y) -> (forall x y, c x = d y -> x = y) ->
    (forall x, x < n -> fst (c x) < rv_h r /\ snd (c x) < rv_w r) -> (forall x, x < n -> fst (d x) < rv_h r /\ snd (d x) < rv_w r) ->
    (forall x, x < n -> g (fst (c x)) (snd (c x)) = sm_f (look M r) (fst (d x)) (snd (d x))) ->
    (forall x, x < n -> g (fst (d x)) (snd (d x)) = sm_f (look M r) (fst (c x)) (snd (c x))) ->
    (forall i j, i < rv_h r -> j < rv_w r -> (forall x, x < n -> c x <> (i, j) /\ d x <> (i, j)) -> g i j = sm_f (look M r) i j) ->
    changed h (fst q) L (paste M r g) (foldR (fun h x => exchange nd h q (c x) (d x)) (seq 0 n) h).
  Proof.
    intros [HB S] Hcc Hdd Hcd Hc Hd Hgc Hgd Hg. destruct q as [b v]. cbn [fst snd] in *. pose proof S as (_ & _ & HJ).
    set (G := entries (sm_f (paste M r g))). set (at' := fun p : nat * nat => rv_at r (fst p) (snd p)).
    assert (Hinj : forall p p', fst p < rv_h r /\ snd p < rv_w r -> fst p' < rv_h r /\ snd p' < rv_w r -> at' p = at' p' -> p = p').
    { intros [p1 p2] [p3 p4] [? ?] [? ?] E. destruct (HJ p1 p2 p3 p4); try assumption. congruence. }
    apply (loop_to _ (fun x => [at' (c x); at' (d x)]) b L G (seq 0 n) h (entries (sm_f M))); [apply seq_NoDup| |exact HB| |].
    - intros x y p Hx Hy Px Py. apply in_seq in Hx, Hy. destruct Px as [<-|[<-|[]]]; destruct Py as [E|[E|[]]]; apply Hinj in E; try (apply Hc; lia); try (apply Hd; lia).
      + now apply Hcc. + symmetry in E. now apply Hcd in E. + symmetry. symmetry in E. symmetry in E. now apply Hcd in E. + now apply Hdd.
    - intros x h' F' Hx HB' Fr HF'. apply in_seq in Hx. assert (Hx' : x < n) by lia. destruct (Hc x Hx') as [C1 C2]. destruct (Hd x Hx') as [D1 D2].
      assert (EC : F' (at' (c x)) = Some (sm_f (look M r) (fst (c x)) (snd (c x)))) by (rewrite HF' by (now left); rewrite look_at; reflexivity).
      assert (ED : F' (at' (d x)) = Some (sm_f (look M r) (fst (d x)) (snd (d x)))) by (rewrite HF' by (right; now left); rewrite look_at; reflexivity).
      unfold exchange. rewrite (rd_ok h' b L F' v r (fst (c x)) _ HB' S). replace ((fst (c x) <? rv_h r) && (snd (c x) <? rv_w r)) with true by lia.
      fold (at' (c x)). rewrite EC. cbn [rbind]. rewrite (rd_ok h' b L F' v r (fst (d x)) _ HB' S). replace ((fst (d x) <? rv_h r) && (snd (d x) <? rv_w r)) with true by lia.
      fold (at' (d x)). rewrite ED. cbn [rbind].
      destruct (assign_step nd h' b L F' G v r (fst (c x)) (snd (c x)) (sm_f (look M r) (fst (d x)) (snd (d x))) HB' S C1 C2) as (h1 & E1 & B1 & Fr1).
      { right. fold (at' (c x)). rewrite EC. discriminate. } { unfold G, entries. now rewrite paste_at, Hgc. }
      rewrite E1. cbn [rbind].
      destruct (assign_step nd h1 b L _ G v r (fst (d x)) (snd (d x)) (sm_f (look M r) (fst (c x)) (snd (c x))) B1 S D1 D2) as (h2 & E2 & B2 & Fr2).
      { right. fold (at' (c x)) (at' (d x)). unfold mix. destruct (existsb _ _); [unfold G, entries; discriminate|]. rewrite ED. discriminate. } { unfold G, entries. now rewrite paste_at, Hgd. }
      exists h2. split; [exact E2|]. split; [|now apply (frame_trans b h' h1)].
      apply (blk_ext h2 b L _ (mix [at' (c x); at' (d x)] G F')) in B2; [exact B2|]. intros p _ _. unfold mix. cbn [existsb]. fold (at' (c x)) (at' (d x)).
      destruct (eqp p (at' (d x))), (eqp p (at' (c x))); reflexivity.
    - intros [a e] H1 H2 H. unfold G, entries. cbn [fst snd]. f_equal. symmetry. apply paste_off. intros i j Hi Hj E. rewrite Hg; [rewrite look_at, E; reflexivity|exact Hi|exact Hj|].
      intros x Hx. split; intros Ec; apply (H x); try (apply in_seq; lia); unfold at'; rewrite Ec; cbn [fst snd]; rewrite E; [now left|right; now left].
  Qed.
  Lemma swap_rows_ok h q L r M p k : placed h q L r M -> if (rv_w r =? 0) || (p <? rv_h r) && (k <? rv_h r)
    then changed h (fst q) L (paste M r (fun i j => if i =? p then sm_f (look M r) k j else if i =? k then sm_f (look M r) p j else sm_f (look M r) i j)) (swap_rows nd h q p k)
    else swap_rows nd h q p k = Panic.
  Proof.
    intros H. pose proof (placed_opnd h q L r M H) as HA. unfold swap_rows. rewrite (opnd_size h q _ HA). cbn [fst snd look sm_h sm_w]. destruct (_ || _) eqn:C.
    - apply (exchange_loop (fun j => (p, j)) (fun j => (k, j))); [exact H|intros x y [= ->]; reflexivity|intros x y [= ->]; reflexivity|intros x y [= _ ->]; reflexivity| | | | |].
      + cbn. lia. + cbn. lia.
      + intros x Hx. cbn [fst snd]. now rewrite Nat.eqb_refl.
      + intros x Hx. cbn [fst snd]. destruct (k =? p) eqn:E; [now replace k with p by lia|]. now rewrite Nat.eqb_refl.
      + intros i j Hi Hj K. destruct (K j Hj) as [K1 K2]. destruct (i =? p) eqn:E; [elim K1; f_equal; lia|]. destruct (i =? k) eqn:E'; [elim K2; f_equal; lia|]. reflexivity.
    - apply foldR_first_panic; [destruct (rv_w r); [discriminate C|discriminate]|]. intros j Hj. apply in_seq in Hj. unfold exchange. cbn [fst snd].
      rewrite !(opnd_rd h q _ _ _ HA). cbn [sm_h sm_w look]. destruct ((p <? rv_h r) && (j <? rv_w r)) eqn:E; [|reflexivity]. cbn [rbind].
      replace ((k <? rv_h r) && (j <? rv_w r)) with false by lia. reflexivity.
  Qed.
  Lemma swap_cols_ok h q L r M p k : placed h q L r M -> if (rv_h r =? 0) || (p <? rv_w r) && (k <? rv_w r)
    then changed h (fst q) L (paste M r (fun i j => if j =? p then sm_f (look M r) i k else if j =? k then sm_f (look M r) i p else sm_f (look M r) i j)) (swap_cols nd h q p k)
    else swap_cols nd h q p k = Panic.
  Proof.
    intros H. pose proof (placed_opnd h q L r M H) as HA. unfold swap_cols. rewrite (opnd_size h q _ HA). cbn [fst snd look sm_h sm_w]. destruct (_ || _) eqn:C.
    - apply (exchange_loop (fun j => (j, p)) (fun j => (j, k))); [exact H|intros x y [= ->]; reflexivity|intros x y [= ->]; reflexivity|intros x y [= -> _]; reflexivity| | | | |].
      + cbn. lia. + cbn. lia.
      + intros x Hx. cbn [fst snd]. now rewrite Nat.eqb_refl.
      + intros x Hx. cbn [fst snd]. destruct (k =? p) eqn:E; [now replace k with p by lia|]. now rewrite Nat.eqb_refl.
      + intros i j Hi Hj K. destruct (K i Hi) as [K1 K2]. destruct (j =? p) eqn:E; [elim K1; f_equal; lia|]. destruct (j =? k) eqn:E'; [elim K2; f_equal; lia|]. reflexivity.
    - apply foldR_first_panic; [destruct (rv_h r); [discriminate C|discriminate]|]. intros j Hj. apply in_seq in Hj. unfold exchange. cbn [fst snd].
      rewrite !(opnd_rd h q _ _ _ HA). cbn [sm_h sm_w look]. destruct ((j <? rv_h r) && (p <? rv_w r)) eqn:E; [|reflexivity]. cbn [rbind].
      replace ((j <? rv_h r) && (k <? rv_w r)) with false by lia. reflexivity.
  Qed.
End H.
