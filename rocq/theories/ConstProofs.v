(** Auxiliary lemmas for C42. *)
From Coq Require Import List Arith Lia.
From Verif Require Import PidModel MatModel MatSpec ConstModel ConstSpec.
Import ListNotations.
Open Scope nat_scope.

Section P.
  Context {T : Type} {OT : Ops T}.

  Lemma is_vec_tab : forall n (f : nat -> T) a, is_vec n f a <-> a = map f (seq 0 n).
  Proof.
    intros n f a. split.
    - intros [L H]. apply nth_ext with (d := f 0) (d' := f 0).
      + now rewrite map_length, seq_length.
      + intros i Hi. rewrite L in Hi. rewrite (map_nth f (seq 0 n) 0), seq_nth by lia.
        specialize (H i Hi). now apply nth_error_nth with (d := f 0) in H.
    - intros ->. split; [now rewrite map_length, seq_length|]. intros i Hi.
      rewrite nth_error_map, (nth_error_nth' _ 0) by (now rewrite seq_length). cbn. now rewrite seq_nth by lia.
  Qed.
  Lemma is_mat_tab : forall n m (f : nat -> nat -> T) a,
    is_mat n m f a <-> a = map (fun i => map (f i) (seq 0 m)) (seq 0 n).
  Proof.
    intros n m f a. split.
    - intros [L H]. apply (proj1 (nth_error_ext _ _)) || idtac.
      apply nth_ext with (d := map (f 0) (seq 0 m)) (d' := map (f 0) (seq 0 m)).
      + now rewrite map_length, seq_length.
      + intros i Hi. rewrite L in Hi. rewrite (map_nth (fun i => map (f i) (seq 0 m)) (seq 0 n) 0), seq_nth by lia.
        destruct (H i Hi) as (r & E & V). apply is_vec_tab in V. apply nth_error_nth with (d := map (f 0) (seq 0 m)) in E.
        rewrite E, V. reflexivity.
    - intros ->. split; [now rewrite map_length, seq_length|]. intros i Hi. exists (map (f i) (seq 0 m)).
      split; [|now apply is_vec_tab].
      rewrite nth_error_map, (nth_error_nth' _ 0) by (now rewrite seq_length). cbn. now rewrite seq_nth by lia.
  Qed.

  Lemma zip_mut_app : forall op (xs ys rest : list T), length xs = length ys ->
    zip_mut op xs (ys ++ rest) = (map (fun p => op (fst p) (snd p)) (combine xs ys), rest).
  Proof.
    induction xs as [|x xs IH]; intros [|y ys] rest L; cbn in *; try discriminate; auto.
    rewrite IH by lia. reflexivity.
  Qed.
  Lemma combine_tab : forall (f g : nat -> T) l, combine (map f l) (map g l) = map (fun i => (f i, g i)) l.
  Proof. induction l; cbn; congruence. Qed.
  Lemma zip_tab : forall op (f g : nat -> T) l rest,
    zip_mut op (map f l) (map g l ++ rest) = (map (fun i => op (f i) (g i)) l, rest).
  Proof.
    intros. rewrite zip_mut_app by (now rewrite !map_length). rewrite combine_tab, map_map. reflexivity.
  Qed.
  Lemma zip_flat_tab : forall op (f g : nat -> nat -> T) ks l rest,
    zip_flat_mut op (map (fun i => map (f i) ks) l) (concat (map (fun i => map (g i) ks) l) ++ rest) =
    map (fun i => map (fun j => op (f i j) (g i j)) ks) l.
  Proof.
    intros op f g ks. induction l as [|i l IH]; intros rest; cbn; auto.
    rewrite <- app_assoc, zip_tab, IH. reflexivity.
  Qed.

  (* indexed writes *)
  Lemma lset_tab : forall n (f : nat -> T) i x, i < n ->
    lset (map f (seq 0 n)) i x = map (fun k => if k =? i then x else f k) (seq 0 n).
  Proof.
    intros n f i x Hi.
    assert (G : forall a, lset (map f (seq a n)) i x = map (fun k => if k =? a + i then x else f k) (seq a n)).
    { revert i Hi. induction n as [|n IH]; intros i Hi a; [lia|]. cbn. destruct i as [|i].
      - replace (a + 0) with a by lia. rewrite Nat.eqb_refl. f_equal. apply map_ext_in. intros k Hk.
        apply in_seq in Hk. destruct (Nat.eqb_spec k a); auto. lia.
      - destruct (Nat.eqb_spec a (a + S i)); [lia|]. f_equal. rewrite IH by lia. apply map_ext_in. intros k Hk. now replace (S a + i) with (a + S i) by lia. }
    apply G.
  Qed.
  Lemma lset_tab' : forall {A} n (f : nat -> A) i x, i < n ->
    lset (map f (seq 0 n)) i x = map (fun k => if k =? i then x else f k) (seq 0 n).
  Proof.
    intros A n f i x Hi.
    assert (G : forall a, lset (map f (seq a n)) i x = map (fun k => if k =? a + i then x else f k) (seq a n)).
    { revert i Hi. induction n as [|n IH]; intros i Hi a; [lia|]. cbn. destruct i as [|i].
      - replace (a + 0) with a by lia. rewrite Nat.eqb_refl. f_equal. apply map_ext_in. intros k Hk.
        apply in_seq in Hk. destruct (Nat.eqb_spec k a); auto. lia.
      - destruct (Nat.eqb_spec a (a + S i)); [lia|]. f_equal. rewrite IH by lia. apply map_ext_in. intros k Hk. now replace (S a + i) with (a + S i) by lia. }
    apply G.
  Qed.
  Definition tab n m (f : nat -> nat -> T) := map (fun i => map (f i) (seq 0 m)) (seq 0 n).
  Lemma tab_ext : forall n m f g, (forall i j, i < n -> j < m -> f i j = g i j) -> tab n m f = tab n m g.
  Proof.
    intros n m f g H. apply map_ext_in. intros i Hi. apply map_ext_in. intros j Hj. apply in_seq in Hi, Hj. apply H; lia.
  Qed.
  Lemma cm_set_tab : forall n m f i j x, i < n -> j < m ->
    cm_set (tab n m f) i j x = Some (tab n m (fun a b => if (a =? i) && (b =? j) then x else f a b))%bool.
  Proof.
    intros n m f i j x Hi Hj. unfold cm_set, tab at 1.
    rewrite nth_error_map, (nth_error_nth' _ 0) by (now rewrite seq_length). cbn [option_map obind].
    rewrite seq_nth by lia. rewrite map_length, seq_length. replace (j <? m) with true by (symmetry; now apply Nat.ltb_lt).
    f_equal. cbn [Nat.add]. unfold tab. rewrite lset_tab' by lia. apply map_ext_in. intros a Ha. apply in_seq in Ha.
    destruct (Nat.eqb_spec a i) as [->|NE]; cbn [andb]; [|reflexivity].
    rewrite lset_tab by lia. reflexivity.
  Qed.
  Lemma cm_zero_tab : forall n m, cm_zero n m = tab n m (fun _ _ => t0).
  Proof.
    intros n m. unfold cm_zero, tab. assert (R : forall A (x : A) k s, repeat x k = map (fun _ => x) (seq s k)).
    { induction k; intros; cbn; f_equal; auto. }
    rewrite (R _ (repeat t0 m) n 0). apply map_ext. intros _. apply R.
  Qed.

  Lemma cm_identity_tab : forall n, cm_identity n = Some (tab n n (fun i j => if i =? j then t1 else t0)).
  Proof.
    intros n. unfold cm_identity. rewrite cm_zero_tab.
    assert (G : forall k, k <= n ->
      foldM (fun m i => cm_set m i i t1) (seq 0 k) (tab n n (fun _ _ => t0)) =
      Some (tab n n (fun i j => if (i =? j) && (i <? k) then t1 else t0)%bool)).
    { induction k as [|k IH]; intros Hk.
      - cbn. f_equal. apply tab_ext. intros. destruct (i =? j); reflexivity.
      - rewrite seq_S. assert (FA : forall {A S} (g : S -> A -> option S) l1 l2 s,
          foldM g (l1 ++ l2) s = obind (foldM g l1 s) (foldM g l2)).
        { induction l1; intros; cbn; auto. destruct (g s a); cbn; auto. }
        rewrite FA, IH by lia. cbn [obind foldM Nat.add]. rewrite cm_set_tab by lia. cbn [obind]. f_equal.
        apply tab_ext. intros i j Hi Hj.
        destruct (Nat.eqb_spec i k), (Nat.eqb_spec j k), (Nat.eqb_spec i j), (Nat.ltb_spec i k), (Nat.ltb_spec i (S k)); cbn [andb]; auto; try lia. }
    rewrite G by lia. f_equal. apply tab_ext. intros i j Hi Hj. destruct (i =? j); auto. cbn [andb]. destruct (Nat.ltb_spec i n); auto; lia.
  Qed.

  Lemma foldM_app : forall {A S} (g : S -> A -> option S) l1 l2 s,
    foldM g (l1 ++ l2) s = obind (foldM g l1 s) (foldM g l2).
  Proof. induction l1; intros; cbn; auto. destruct (g s a); cbn; auto. Qed.

  Lemma cm_from_columns_tab : forall n m (f : nat -> nat -> T) cols,
    length cols = m -> (forall j, j < m -> nth_error cols j = Some (map (fun i => f i j) (seq 0 n))) ->
    cm_from_columns n m cols = Some (tab n m f).
  Proof.
    intros n m f cols L H. unfold cm_from_columns. rewrite cm_zero_tab.
    set (F := fun M j => foldM (fun M i => obind (nth_error cols j) (fun v => obind (nth_error v i) (fun x => cm_set M i j x))) (seq 0 n) M).
    assert (IN : forall j g, j < m -> F (tab n m g) j = Some (tab n m (fun a b => if b =? j then f a b else g a b))).
    { intros j g Hj. unfold F.
      assert (G : forall k, k <= n -> foldM (fun M i => obind (nth_error cols j) (fun v => obind (nth_error v i) (fun x => cm_set M i j x))) (seq 0 k) (tab n m g)
         = Some (tab n m (fun a b => if (b =? j) && (a <? k) then f a b else g a b)%bool)).
      { induction k as [|k IH]; intros Hk.
        - cbn. f_equal. apply tab_ext. intros. destruct (_ =? _); reflexivity.
        - rewrite seq_S, foldM_app, IH by lia. cbn [obind foldM Nat.add]. rewrite H by lia. cbn [obind].
          rewrite nth_error_map, (nth_error_nth' _ 0) by (rewrite seq_length; lia). cbn [option_map obind]. rewrite seq_nth by lia.
          cbn [Nat.add]. rewrite cm_set_tab by lia. cbn [obind]. f_equal. apply tab_ext. intros a b Ha Hb.
          destruct (Nat.eqb_spec a k), (Nat.eqb_spec b j), (Nat.ltb_spec a k), (Nat.ltb_spec a (S k)); cbn; subst; auto; lia. }
      rewrite G by lia. f_equal. apply tab_ext. intros a b Ha Hb. destruct (b =? j); auto. cbn [andb]. destruct (Nat.ltb_spec a n); auto; lia. }
    assert (G : forall k, k <= m -> foldM F (seq 0 k) (tab n m (fun _ _ => t0)) = Some (tab n m (fun a b => if b <? k then f a b else t0))).
    { induction k as [|k IH]; intros Hk; [reflexivity|].
      rewrite seq_S, foldM_app, IH by lia. cbn [obind foldM Nat.add]. rewrite IN by lia. cbn [obind]. f_equal. apply tab_ext.
      intros a b Ha Hb. destruct (Nat.eqb_spec b k), (Nat.ltb_spec b k), (Nat.ltb_spec b (S k)); auto; lia. }
    change (foldM F (seq 0 m) (tab n m (fun _ _ => t0)) = Some (tab n m f)).
    rewrite G by lia. f_equal. apply tab_ext. intros a b Ha Hb. destruct (Nat.ltb_spec b m); auto; lia.
  Qed.

  Lemma fold_add_sum : forall n (f : nat -> T), fold_left tadd (map f (seq 0 n)) t0 = sum n f.
  Proof.
    induction n as [|n IH]; intros f; [reflexivity|].
    rewrite seq_S, map_app, fold_left_app, IH. reflexivity.
  Qed.
End P.
