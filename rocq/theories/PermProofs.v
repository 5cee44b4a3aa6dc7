(** Proofs about cycles and the normal form. *)
From Coq Require Import List Arith ZArith Bool Lia ZifyBool ZifyNat Sorted Permutation.
From Verif Require Import PidModel PermModel PermSpec.
Import ListNotations.
Open Scope nat_scope.

Lemma NoDup_app_remove_l {A} (l l' : list A) : NoDup (l ++ l') -> NoDup l'.
Proof. induction l as [|x l IH]; cbn; auto. intro H; inversion H; auto. Qed.
Lemma NoDup_app_remove_r {A} (l l' : list A) : NoDup (l ++ l') -> NoDup l.
Proof.
  induction l as [|x l IH]; cbn; intro H; [constructor|]. inversion H as [|? ? Hx Hl]; subst.
  constructor; auto. intro K. apply Hx, in_or_app. now left.
Qed.
Lemma contains_In l x : contains l x = true <-> In x l.
Proof.
  unfold contains. rewrite existsb_exists. split.
  - intros (y & H & E). apply Nat.eqb_eq in E. now subst.
  - intro H. exists x. split; auto. apply Nat.eqb_refl.
Qed.
Lemma contains_false l x : contains l x = false <-> ~ In x l.
Proof. rewrite <- contains_In. destruct (contains l x); split; congruence. Qed.

Lemma no_repeat_spec ch l : NoDup ch -> (no_repeat ch l = true <-> NoDup (ch ++ l)).
Proof.
  revert ch. induction l as [|x l IH]; intros ch Hch; cbn [no_repeat].
  - rewrite app_nil_r. tauto.
  - destruct (contains ch x) eqn:E.
    + apply contains_In in E. split; [discriminate|]. intro H. exfalso.
      apply NoDup_remove_2 in H. apply H. apply in_or_app. now left.
    + apply contains_false in E. rewrite IH.
      * rewrite <- app_assoc. reflexivity.
      * rewrite <- (app_nil_r (ch ++ [x])), <- app_assoc. cbn. apply NoDup_Add with (a := x) (l := ch ++ []).
        { apply Add_app. } rewrite app_nil_r. auto.
Qed.
Lemma no_repeat_nil l : no_repeat [] l = true <-> NoDup l.
Proof. apply (no_repeat_spec [] l). constructor. Qed.

Lemma min_index_none l : min_index l = None <-> l = [].
Proof. destruct l as [|x l]; cbn; [tauto|]. destruct (min_index l) as [[i m]|]; [destruct (x <=? m)|]; split; discriminate. Qed.
Lemma min_index_spec l i m : min_index l = Some (i, m) -> i < length l /\ nth i l 0 = m /\ forall x, In x l -> m <= x.
Proof.
  revert i m. induction l as [|x l IH]; intros i m; cbn [min_index]; [discriminate|].
  destruct (min_index l) as [[j m']|] eqn:E.
  - destruct (IH j m' eq_refl) as (A & B & C). destruct (Nat.leb_spec x m'); intro H0; injection H0 as <- <-.
    + split; [cbn; lia|]. split; [reflexivity|]. intros y [->|Hy]; [lia|]. specialize (C y Hy). lia.
    + split; [cbn; lia|]. split; [exact B|]. intros y [->|Hy]; [lia|]. auto.
  - apply min_index_none in E. subst l. intro H0; injection H0 as <- <-. split; [cbn; lia|]. split; [reflexivity|].
    intros y [->|[]]; lia.
Qed.

Lemma take_while_firstn l i : NoDup l -> i < length l ->
  take_while (fun e => negb (e =? nth i l 0)) l = firstn i l.
Proof.
  revert i. induction l as [|x l IH]; intros i H Hi; [cbn in Hi; lia|].
  inversion H as [|? ? Hx Hl]; subst. destruct i as [|i]; cbn [nth take_while firstn].
  - now rewrite Nat.eqb_refl.
  - cbn in Hi. destruct (Nat.eqb_spec x (nth i l 0)) as [E|E].
    + exfalso. apply Hx. rewrite E. apply nth_In. lia.
    + cbn [negb]. f_equal. apply IH; auto. lia.
Qed.

Lemma nth_rot {A} (l : list A) k i d : k <= length l -> i < length l ->
  nth i (skipn k l ++ firstn k l) d = if i + k <? length l then nth (i + k) l d else nth (i + k - length l) l d.
Proof.
  intros Hk Hi. destruct (Nat.ltb_spec (i + k) (length l)) as [H|H].
  - rewrite app_nth1 by (rewrite skipn_length; lia). rewrite <- (firstn_skipn k l) at 2.
    rewrite app_nth2; rewrite firstn_length_le by lia; [|lia]. f_equal. lia.
  - rewrite app_nth2 by (rewrite skipn_length; lia). rewrite skipn_length.
    replace (i - (length l - k)) with (i + k - length l) by lia.
    rewrite <- (firstn_skipn k l) at 4. rewrite app_nth1 by (rewrite firstn_length_le by lia; lia). reflexivity.
Qed.

(** Rotations cycle the same way. *)
Lemma cycles_along_rot f l k : k <= length l -> cycles_along f l -> cycles_along f (skipn k l ++ firstn k l).
Proof.
  intros Hk H i Hi. rewrite app_length, skipn_length, firstn_length_le in * by lia.
  replace (length l - k + k) with (length l) in * by lia.
  set (n := length l) in *. assert (Hn : 0 < n) by lia.
  rewrite !nth_rot by (fold n; try destruct (S i =? n) eqn:E; lia). fold n.
  set (j := if i + k <? n then i + k else i + k - n).
  replace (if i + k <? n then nth (i + k) l 0 else nth (i + k - n) l 0) with (nth j l 0) by (subst j; destruct (i + k <? n); reflexivity).
  rewrite H by (subst j; destruct (Nat.ltb_spec (i + k) n); lia). fold n.
  subst j.
  destruct (Nat.ltb_spec (i + k) n) as [H1|H1], (Nat.eqb_spec (S i) n) as [H2|H2].
  - assert (k = 0) by lia. subst k. rewrite (proj2 (Nat.eqb_eq (S (i + 0)) n)) by lia. now rewrite (proj2 (Nat.ltb_lt (0 + 0) n)) by lia.
  - destruct (Nat.eqb_spec (S (i + k)) n), (Nat.ltb_spec (S i + k) n); try lia; f_equal; lia.
  - destruct (Nat.eqb_spec (S (i + k - n)) n), (Nat.ltb_spec (0 + k) n); try lia; f_equal; lia.
  - destruct (Nat.eqb_spec (S (i + k - n)) n), (Nat.ltb_spec (S i + k) n); try lia; f_equal; lia.
Qed.

Lemma position_none n l : position n l = None <-> ~ In n l.
Proof.
  induction l as [|x l IH]; cbn [position]; [cbn; tauto|]. destruct (Nat.eqb_spec x n) as [->|E].
  - split; [discriminate|]. cbn. tauto.
  - destruct (position n l); cbn [option_map]; cbn [In]; split.
    + discriminate.
    + intro H. exfalso. apply H. right. destruct (in_dec Nat.eq_dec n l); auto. apply IH in n1. discriminate.
    + intros _ [?|?]; [congruence|]. now apply IH.
    + reflexivity.
Qed.
Lemma position_nth l i : NoDup l -> i < length l -> position (nth i l 0) l = Some i.
Proof.
  revert i. induction l as [|x l IH]; intros i H Hi; [cbn in Hi; lia|].
  inversion H as [|? ? Hx Hl]; subst. destruct i as [|i]; cbn [nth position].
  - now rewrite Nat.eqb_refl.
  - cbn in Hi. destruct (Nat.eqb_spec x (nth i l 0)) as [E|E].
    + exfalso. apply Hx. rewrite E. apply nth_In. lia.
    + rewrite IH by (auto; lia). reflexivity.
Qed.

Lemma cmap_cycles c : NoDup c -> is_cycle_map (cmap c) c.
Proof.
  intro H. split.
  - intros i Hi. unfold cmap. rewrite position_nth by auto. 
    destruct (Nat.eqb_spec i (length c - 1)), (Nat.eqb_spec (S i) (length c)); try lia; auto. f_equal; lia.
  - intros x Hx. unfold cmap. apply position_none in Hx. now rewrite Hx.
Qed.
Lemma is_cycle_map_unique f g l : is_cycle_map f l -> is_cycle_map g l -> forall x, f x = g x.
Proof.
  intros [A B] [C D] x. destruct (in_dec Nat.eq_dec x l) as [H|H].
  - apply (In_nth _ _ 0) in H as (i & Hi & <-). now rewrite A, C.
  - now rewrite B, D.
Qed.
Lemma is_cycle_map_ext f g l : (forall x, f x = g x) -> is_cycle_map f l -> is_cycle_map g l.
Proof. intros E [A B]; split; [intros i Hi|intros x Hx]; rewrite <- E; auto. Qed.

(** [Cycle::from]. *)
Lemma In_rot {A} (l : list A) k x : In x (skipn k l ++ firstn k l) <-> In x l.
Proof. rewrite <- (firstn_skipn k l) at 3. rewrite !in_app_iff. tauto. Qed.
Lemma NoDup_rot {A} (l : list A) k : NoDup (skipn k l ++ firstn k l) <-> NoDup l.
Proof.
  rewrite <- (firstn_skipn k l) at 3. split; intro H; (eapply Permutation_NoDup; [|exact H]); apply Permutation_app_comm.
Qed.

Lemma cycle_from_inv l c : cycle_from l = Some c ->
  NoDup l /\ l <> [] /\ ((length l = 1 /\ c = []) \/
   (2 <= length l /\ exists k, k < length l /\ c = skipn k l ++ firstn k l /\ forall x, In x c -> hd 0 c <= x)).
Proof.
  unfold cycle_from. destruct (Nat.eqb_spec (length l) 1) as [E|E].
  - intro H; injection H as <-. destruct l as [|x [|y l]]; cbn in E; try lia.
    split; [repeat constructor; intros []|]. split; [discriminate|]. left; auto.
  - destruct (no_repeat [] l) eqn:V; cbn [negb]; [|discriminate]. apply no_repeat_nil in V.
    unfold bring_smallest_first. destruct (min_index l) as [[i m]|] eqn:M; cbn [obind]; [|discriminate].
    apply min_index_spec in M as (A & B & C). intro H.
    split; auto. split; [intros ->; cbn in A; lia|]. right. split; [destruct l; cbn in *; lia|].
    exists i. split; auto.
    assert (K : c = skipn i l ++ firstn i l).
    { destruct (Nat.eqb_spec i 0) as [->|Hi]; injection H as <-.
      - cbn [skipn firstn]. now rewrite app_nil_r.
      - subst m. now rewrite take_while_firstn. }
    split; auto. intros x Hx. rewrite K in Hx. apply In_rot in Hx.
    replace (hd 0 c) with m; auto. rewrite K. rewrite <- B.
    replace (hd 0 (skipn i l ++ firstn i l)) with (nth 0 (skipn i l ++ firstn i l) 0) by (destruct (skipn i l ++ firstn i l); reflexivity).
    rewrite nth_rot by lia. rewrite Nat.add_0_l. now rewrite (proj2 (Nat.ltb_lt i (length l))) by auto.
Qed.
Lemma cycle_from_some l : NoDup l -> l <> [] -> exists c, cycle_from l = Some c.
Proof.
  intros H1 H2. unfold cycle_from. destruct (length l =? 1); eauto. apply no_repeat_nil in H1. rewrite H1. cbn [negb].
  unfold bring_smallest_first. destruct (min_index l) as [[i m]|] eqn:M; cbn [obind].
  - destruct (i =? 0); eauto.
  - apply min_index_none in M. contradiction.
Qed.
Lemma cycle_from_none l : cycle_from l = None <-> (l = [] \/ ~ NoDup l).
Proof.
  split.
  - intro H. destruct l as [|x l]; [now left|]. right. intro N. destruct (cycle_from_some (x :: l)) as [c E]; auto; [discriminate|congruence].
  - intros [->|H]; [reflexivity|]. destruct (cycle_from l) eqn:E; auto. apply cycle_from_inv in E as [E _]. contradiction.
Qed.

(** Canonical cycles. *)
Definition ccan (c : cycle) : Prop := c = [] \/ (2 <= length c /\ NoDup c /\ forall x, In x c -> hd 0 c <= x).
Lemma ccan_NoDup c : ccan c -> NoDup c.
Proof. intros [->|H]; [constructor|tauto]. Qed.
Lemma cycle_from_ccan l c : cycle_from l = Some c -> ccan c.
Proof.
  intro H. apply cycle_from_inv in H as (A & B & [[C D]|(C & k & K & E & F)]); [now left|right].
  split; [|split; auto].
  - rewrite E, app_length, skipn_length, firstn_length_le; lia.
  - rewrite E. now apply NoDup_rot.
Qed.
Lemma cycle_from_map l c : cycle_from l = Some c -> is_cycle_map (cmap c) l.
Proof.
  intro H. pose proof (cycle_from_ccan _ _ H) as HC. apply cycle_from_inv in H as (A & B & [[C D]|(C & k & K & E & F)]).
  - subst c. split; [|intros; reflexivity]. intros i Hi. destruct l as [|x [|y l]]; cbn in C; try lia.
    cbn in Hi. assert (i = 0) by lia. subst i. reflexivity.
  - apply ccan_NoDup in HC. pose proof (cmap_cycles c HC) as [P Q].
    apply is_cycle_map_ext with (f := cmap l).
    + apply is_cycle_map_unique with (l := c).
      * destruct (cmap_cycles l A) as [P' Q']. rewrite E. split; [apply cycles_along_rot; auto; lia|].
        intros x Hx. apply Q'. now rewrite In_rot in Hx.
      * split; auto.
    + now apply cmap_cycles.
Qed.
Lemma cycle_from_In l c x : cycle_from l = Some c -> 2 <= length l -> (In x c <-> In x l).
Proof.
  intros H L. apply cycle_from_inv in H as (A & B & [[C D]|(C & k & K & E & F)]); [lia|]. subst c. apply In_rot.
Qed.
Lemma cycle_from_length l c : cycle_from l = Some c -> 2 <= length l -> length c = length l.
Proof.
  intros H L. apply cycle_from_inv in H as (A & B & [[C D]|(C & k & K & E & F)]); [lia|].
  subst c. rewrite app_length, skipn_length, firstn_length_le; lia.
Qed.

(** Basic facts on cycle maps. *)
Lemma cycle_map_in f l x : cycles_along f l -> In x l -> In (f x) l.
Proof.
  intros H Hx. apply (In_nth _ _ 0) in Hx as (i & Hi & <-). rewrite H by auto. apply nth_In.
  destruct (Nat.eqb_spec (S i) (length l)); lia.
Qed.
Lemma cycle_map_moves f l x : cycles_along f l -> NoDup l -> 2 <= length l -> In x l -> f x <> x.
Proof.
  intros H N L Hx E. apply (In_nth _ _ 0) in Hx as (i & Hi & <-). rewrite H in E by auto.
  rewrite NoDup_nth in N. apply N in E; try (destruct (Nat.eqb_spec (S i) (length l)); lia).
Qed.
Lemma cycle_map_inj_in f l x y : cycles_along f l -> NoDup l -> In x l -> In y l -> f x = f y -> x = y.
Proof.
  intros H N Hx Hy E. apply (In_nth _ _ 0) in Hx as (i & Hi & <-). apply (In_nth _ _ 0) in Hy as (j & Hj & <-).
  rewrite !H in E by auto. rewrite NoDup_nth in N. apply N in E;
   try (destruct (Nat.eqb_spec (S i) (length l)), (Nat.eqb_spec (S j) (length l)); lia).
  f_equal. destruct (Nat.eqb_spec (S i) (length l)), (Nat.eqb_spec (S j) (length l)); lia.
Qed.
Lemma cycle_map_surj_in f l y : cycles_along f l -> In y l -> exists x, In x l /\ f x = y.
Proof.
  intros H Hy. apply (In_nth _ _ 0) in Hy as (j & Hj & <-).
  exists (nth (if j =? 0 then length l - 1 else j - 1) l 0). split.
  - apply nth_In. destruct (Nat.eqb_spec j 0); lia.
  - rewrite H by (destruct (Nat.eqb_spec j 0); lia). f_equal.
    destruct (Nat.eqb_spec j 0) as [->|Hj0].
    + rewrite (proj2 (Nat.eqb_eq _ _)) by lia. reflexivity.
    + destruct (Nat.eqb_spec (S (j - 1)) (length l)); lia.
Qed.
Lemma cycle_map_iter f l i : cycles_along f l -> i < length l -> nth i l 0 = iter i f (nth 0 l 0).
Proof.
  intros H. induction i as [|i IH]; intro Hi; [reflexivity|]. cbn [iter]. rewrite <- IH by lia. rewrite H by lia.
  destruct (Nat.eqb_spec (S i) (length l)); [lia|reflexivity].
Qed.

(** A canonical cycle is determined by its map. *)
Lemma ccan_support c x : ccan c -> (cmap c x <> x <-> In x c).
Proof.
  intros [->|(L & N & _)].
  - unfold cmap; cbn. tauto.
  - destruct (cmap_cycles c N) as [P Q]. split.
    + intro H. destruct (in_dec Nat.eq_dec x c); auto. exfalso. apply H. auto.
    + intro H. eapply cycle_map_moves; eauto.
Qed.
Lemma cycle_determined c d f : NoDup c -> NoDup d -> (forall x, In x c <-> In x d) ->
  (forall x, In x c -> hd 0 c <= x) -> (forall x, In x d -> hd 0 d <= x) ->
  cycles_along f c -> cycles_along f d -> c = d.
Proof.
  intros Nc Nd E Hc Hd Ac Ad.
  assert (L : length c = length d).
  { apply Nat.le_antisymm; apply NoDup_incl_length; auto; intros x Hx; apply E; auto. }
  destruct c as [|x c], d as [|y d]; try discriminate; auto.
  assert (x = y). { cbn [hd] in *. apply Nat.le_antisymm; [apply Hc, E|apply Hd, E]; now left. }
  subst y. apply nth_ext with (d := 0) (d' := 0); auto. intros i Hi.
  rewrite (cycle_map_iter f (x :: c) i Ac Hi), (cycle_map_iter f (x :: d) i Ad) by lia. reflexivity.
Qed.
Lemma ccan_ext c d : ccan c -> ccan d -> (forall x, cmap c x = cmap d x) -> c = d.
Proof.
  intros Hc Hd E. assert (S : forall x, In x c <-> In x d).
  { intro x. rewrite <- !ccan_support by auto. rewrite E. tauto. }
  apply cycle_determined with (f := cmap c); auto using ccan_NoDup.
  - destruct Hc as [->|(_ & _ & H)]; auto. intros x [].
  - destruct Hd as [->|(_ & _ & H)]; auto. intros x [].
  - apply cmap_cycles. now apply ccan_NoDup.
  - intros i Hi. rewrite E. apply cmap_cycles; auto. now apply ccan_NoDup.
Qed.

(** ** Permutations. *)
Lemma pmap_cons c p n : pmap (c :: p) n = if cmap c n =? n then pmap p n else cmap c n.
Proof. unfold pmap. cbn [map find]. destruct (cmap c n =? n); reflexivity. Qed.
Lemma cmap_notin c x : NoDup c -> ~ In x c -> cmap c x = x.
Proof. intros N. apply (cmap_cycles c N). Qed.
Lemma pmap_notin p x : NoDup (concat p) -> ~ In x (concat p) -> pmap p x = x.
Proof.
  induction p as [|c p IH]; cbn [concat]; intros N H; [reflexivity|]. rewrite pmap_cons.
  rewrite in_app_iff in H. rewrite cmap_notin by (try tauto; eapply NoDup_app_remove_r; eauto).
  rewrite Nat.eqb_refl. apply IH; [eapply NoDup_app_remove_l; eauto|tauto].
Qed.
Lemma NoDup_app_disj {A} (l l' : list A) x : NoDup (l ++ l') -> In x l -> In x l' -> False.
Proof.
  induction l as [|y l IH]; cbn; intros N H H'; [auto|]. inversion N; subst. destruct H as [->|H]; [apply H2; apply in_or_app; now right|auto].
Qed.
Lemma NoDup_app_intro {A} (l l' : list A) : NoDup l -> NoDup l' -> (forall x, In x l -> In x l' -> False) -> NoDup (l ++ l').
Proof.
  induction l as [|y l IH]; cbn; intros N N' H; auto. inversion N; subst. constructor.
  - rewrite in_app_iff. intros [?|?]; [contradiction|]. eapply H; eauto.
  - apply IH; auto. intros; eapply H; eauto.
Qed.
Lemma pmap_in p c x : NoDup (concat p) -> In c p -> In x c -> pmap p x = cmap c x.
Proof.
  induction p as [|d p IH]; cbn [concat In]; intros N H Hx; [contradiction|]. rewrite pmap_cons.
  assert (Nd : NoDup d) by (eapply NoDup_app_remove_r; eauto).
  assert (Np : NoDup (concat p)) by (eapply NoDup_app_remove_l; eauto).
  destruct H as [->|H].
  - destruct (Nat.eqb_spec (cmap c x) x) as [E|E]; auto. rewrite pmap_notin; auto.
    intro K. eapply NoDup_app_disj; eauto.
  - rewrite cmap_notin; auto.
    + rewrite Nat.eqb_refl. auto.
    + intro K. eapply NoDup_app_disj; eauto. apply in_concat; eauto.
Qed.

Definition disj (p : list cycle) : Prop := NoDup (concat p).
Lemma concat_NoDup_in {A} (p : list (list A)) c : NoDup (concat p) -> In c p -> NoDup c.
Proof.
  induction p as [|d p IH]; cbn; [tauto|]. intros N [->|H]; [eapply NoDup_app_remove_r; eauto|apply IH; auto; eapply NoDup_app_remove_l; eauto].
Qed.
Lemma pmap_bijective p : NoDup (concat p) -> bijective (pmap p).
Proof.
  intro N.
  assert (IN : forall c x, In c p -> In x c -> In (pmap p x) c).
  { intros c x Hc Hx. rewrite (pmap_in p c x N Hc Hx). apply cycle_map_in; auto. apply cmap_cycles. eapply concat_NoDup_in; eauto. }
  split.
  - intros x y E. destruct (in_dec Nat.eq_dec x (concat p)) as [Hx|Hx], (in_dec Nat.eq_dec y (concat p)) as [Hy|Hy].
    + apply in_concat in Hx as (c & Hc & Hx). apply in_concat in Hy as (d & Hd & Hy).
      assert (c = d).
      { pose proof (IN c x Hc Hx) as K1. pose proof (IN d y Hd Hy) as K2. rewrite E in K1.
        generalize dependent (pmap p y). intros z _ K1 K2. clear - N Hc Hd K1 K2. revert N Hc Hd. induction p as [|e p IH]; cbn; [tauto|]. intros N [->|Hc] [->|Hd]; auto.
        - exfalso. eapply NoDup_app_disj; eauto. apply in_concat; eauto.
        - exfalso. eapply NoDup_app_disj; eauto. apply in_concat; eauto.
        - apply IH; auto. eapply NoDup_app_remove_l; eauto. }
      subst d. rewrite (pmap_in p c x), (pmap_in p c y) in E by auto.
      assert (Nc : NoDup c) by (eapply concat_NoDup_in; eauto).
      eapply cycle_map_inj_in; eauto. now apply cmap_cycles.
    + rewrite (pmap_notin p y) in E by auto. exfalso. apply Hy. rewrite <- E.
      apply in_concat in Hx as (c & Hc & Hx). apply in_concat. eauto.
    + rewrite (pmap_notin p x) in E by auto. exfalso. apply Hx. rewrite E.
      apply in_concat in Hy as (c & Hc & Hy). apply in_concat. eauto.
    + rewrite !pmap_notin in E by auto. exact E.
  - intro y. destruct (in_dec Nat.eq_dec y (concat p)) as [Hy|Hy].
    + apply in_concat in Hy as (c & Hc & Hy). assert (Nc : NoDup c) by (eapply concat_NoDup_in; eauto).
      destruct (cycle_map_surj_in (cmap c) c y) as (x & Hx & E); auto; [now apply cmap_cycles|].
      exists x. rewrite (pmap_in p c x); auto.
    + exists y. now apply pmap_notin.
Qed.

Lemma normal_disj p : normal p -> NoDup (concat p).
Proof. intros [->|(_ & _ & H & _)]; [constructor|auto]. Qed.
Lemma normal_ccan p : normal p -> Forall ccan p.
Proof.
  intros [->|(_ & H & N & _)]; [repeat constructor|]. apply Forall_forall. intros c Hc. rewrite Forall_forall in H.
  destruct (H c Hc). right. split; auto. split; auto. eapply concat_NoDup_in; eauto.
Qed.
Lemma unfixed_normal p : normal p -> unfixed p = Some (concat p).
Proof.
  assert (K : forall l, Forall (fun c => 2 <= length c /\ forall x, In x c -> hd 0 c <= x) l -> unfixed_rest l = concat l).
  { induction l as [|c l IH]; intro H; [reflexivity|]. inversion H as [|? ? [L _] Hl]; subst. cbn [unfixed_rest concat].
    destruct c; [cbn in L; lia|]. now rewrite IH. }
  intros [->|(H & F & _)]; [reflexivity|]. destruct p as [|c p]; [congruence|].
  inversion F; subst. cbn [unfixed concat]. now rewrite K.
Qed.
Lemma pmap_support p x : normal p -> (pmap p x <> x <-> In x (concat p)).
Proof.
  intro H. pose proof (normal_disj p H) as N. split.
  - intro E. destruct (in_dec Nat.eq_dec x (concat p)); auto. exfalso. apply E. now apply pmap_notin.
  - intro K. apply in_concat in K as (c & Hc & Hx). rewrite (pmap_in p c x) by auto.
    apply ccan_support; auto. pose proof (normal_ccan p H) as F. rewrite Forall_forall in F. auto.
Qed.

(** Orbits inside a cycle. *)
Lemma iter_in f c x i : cycles_along f c -> In x c -> In (iter i f x) c.
Proof. intros H Hx. induction i; cbn; auto. now apply cycle_map_in. Qed.
Lemma iter_add i j f x : iter (i + j) f x = iter i f (iter j f x).
Proof. induction i; cbn [iter Nat.add]; congruence. Qed.
Lemma cycle_is_orbit f c x y : cycles_along f c -> In x c -> In y c -> exists i, iter i f x = y.
Proof.
  intros H Hx Hy. apply (In_nth _ _ 0) in Hx as (a & Ha & <-). apply (In_nth _ _ 0) in Hy as (b & Hb & <-).
  assert (Z : iter (length c) f (nth 0 c 0) = nth 0 c 0).
  { destruct (length c) as [|n] eqn:L; [lia|]. cbn [iter]. rewrite <- cycle_map_iter by (auto; lia). rewrite H by lia.
    now rewrite (proj2 (Nat.eqb_eq _ _)) by lia. }
  exists (b + (length c - a)). rewrite (cycle_map_iter f c a), (cycle_map_iter f c b) by auto.
  rewrite <- iter_add. replace (b + (length c - a) + a) with (b + length c) by lia. now rewrite iter_add, Z.
Qed.

Lemma sorted_eq (l m : list cycle) : StronglySorted (fun c d => hd 0 c < hd 0 d) l -> StronglySorted (fun c d => hd 0 c < hd 0 d) m ->
  (forall c, In c l <-> In c m) -> l = m.
Proof.
  revert m. induction l as [|c l IH]; intros m Sl Sm E.
  - destruct m as [|d m]; auto. exfalso. apply (proj2 (E d)). now left.
  - destruct m as [|d m]; [exfalso; apply (proj1 (E c)); now left|].
    inversion Sl as [|? ? Sl' Fl]; subst. inversion Sm as [|? ? Sm' Fm]; subst. rewrite Forall_forall in Fl, Fm.
    assert (c = d).
    { destruct (proj1 (E c)) as [?|Hc]; [now left|congruence|]. destruct (proj2 (E d)) as [?|Hd]; [now left|congruence|].
      apply Fm in Hc. apply Fl in Hd. lia. }
    subst d. f_equal. apply IH; auto. intro e. split; intro He.
    + destruct (proj1 (E e)) as [<-|?]; [now right| |auto]. apply Fl in He. lia.
    + destruct (proj2 (E e)) as [<-|?]; [now right| |auto]. apply Fm in He. lia.
Qed.

Lemma normal_incl p q c : normal p -> normal q -> (forall x, pmap p x = pmap q x) -> In c p -> c <> [] -> In c q.
Proof.
  intros Hp Hq E Hc Hn.
  pose proof (normal_ccan p Hp) as Fp. pose proof (normal_ccan q Hq) as Fq. rewrite Forall_forall in Fp, Fq.
  destruct (Fp c Hc) as [?|(L & Nc & Mc)]; [contradiction|].
  destruct c as [|x c']; [contradiction|]. set (c := x :: c') in *.
  assert (Hx : In x c) by now left.
  assert (Sx : In x (concat q)).
  { apply pmap_support; auto. rewrite <- E. apply pmap_support; auto. apply in_concat; eauto. }
  apply in_concat in Sx as (d & Hd & Hxd).
  destruct (Fq d Hd) as [->|(L' & Nd & Md)]; [contradiction|].
  assert (A1 : cycles_along (pmap p) c).
  { intros i Hi. rewrite (pmap_in p c) by (auto using normal_disj; apply nth_In; auto). now apply cmap_cycles. }
  assert (A2 : cycles_along (pmap p) d).
  { intros i Hi. rewrite E, (pmap_in q d) by (auto using normal_disj; apply nth_In; auto). now apply cmap_cycles. }
  replace c with d; auto. symmetry. apply cycle_determined with (f := pmap p); auto.
  intro y. split; intro Hy.
  - destruct (cycle_is_orbit _ _ x y A1 Hx Hy) as [i <-]. now apply iter_in.
  - destruct (cycle_is_orbit _ _ x y A2 Hxd Hy) as [i <-]. now apply iter_in.
Qed.

Theorem normal_ext p q : normal p -> normal q -> (forall x, pmap p x = pmap q x) -> p = q.
Proof.
  intros Hp Hq E.
  assert (Z : forall r, normal r -> (exists c, In c r /\ c <> []) \/ r = [[]]).
  { intros r [->|(Hn & F & _)]; [now right|left]. destruct r as [|c r]; [congruence|]. exists c. split; [now left|].
    inversion F as [|? ? [L _] ?]; subst. destruct c; [cbn in L; lia|discriminate]. }
  assert (S : forall r, normal r -> (exists c, In c r /\ c <> []) -> Forall (fun c => c <> []) r /\ StronglySorted (fun c d => hd 0 c < hd 0 d) r).
  { intros r [->|(Hn & F & _ & S)] (c & Hc & Hcn).
    - destruct Hc as [<-|[]]. congruence.
    - split; auto. eapply Forall_impl; [|exact F]. intros d [L _]. destruct d; [cbn in L; lia|discriminate]. }
  assert (Zi : forall r s, normal r -> normal s -> (forall x, pmap r x = pmap s x) -> r = [[]] -> s = [[]]).
  { intros r s Hr Hs Ers ->. destruct (Z s Hs) as [(c & Hc & Hn)|?]; auto. exfalso.
    assert (K : In c [[]]) by (eapply (normal_incl s); eauto). destruct K as [K|[]]; congruence. }
  destruct (Z p Hp) as [Np|Ep]; [|rewrite (Zi p q); auto].
  destruct (Z q Hq) as [Nq|Eq]; [|rewrite (Zi q p); auto].
  destruct (S p Hp Np) as [F1 S1]. destruct (S q Hq Nq) as [F2 S2].
  apply sorted_eq; auto. intro c. rewrite Forall_forall in F1, F2. split; intro H.
  - eapply (normal_incl p); eauto.
  - eapply (normal_incl q); eauto.
Qed.
