(** Block swaps and index tables. *)
From Coq Require Import List Arith ZArith Bool Lia ZifyBool ZifyNat Sorted Permutation.
From Verif Require Import PidModel PermModel PermSpec PermProofs PermProofs2 PermProofs3.
Import ListNotations.
Open Scope nat_scope.

(** ** swap_same *)
Lemma cycle_from_pair i j : i < j -> cycle_from [i; j] = Some [i; j].
Proof.
  intro H. unfold cycle_from. cbn [length Nat.eqb].
  assert (N : NoDup [i; j]) by (repeat constructor; cbn; intuition lia).
  rewrite (proj2 (no_repeat_nil _) N). cbn [negb]. unfold bring_smallest_first. cbn [min_index].
  rewrite (proj2 (Nat.leb_le i j)) by lia. reflexivity.
Qed.
Definition pairs (a1 a2 s m : nat) : list cycle := map (fun i => [a1 + i; a2 + i]) (seq s m).
Lemma swap_same_pairs a1 b1 a2 b2 : a1 <= b1 -> b1 <= a2 -> a2 <= b2 -> b1 - a1 = b2 - a2 ->
  swap_same a1 b1 a2 b2 = Some (pairs a1 a2 0 (b1 - a1)).
Proof.
  intros H1 H2 H3 H4. unfold swap_same.
  rewrite (proj2 (Nat.ltb_ge b1 a1)), (proj2 (Nat.ltb_ge b2 a2)), (proj2 (Nat.leb_le b1 a2)), (proj2 (Nat.eqb_eq (b1 - a1) (b2 - a2))) by lia.
  cbn [orb negb]. rewrite <- H4. apply omap_Forall2. unfold pairs.
  assert (B : 0 + (b1 - a1) <= a2 - a1) by lia. revert B.
  assert (K : forall m s, s + m <= a2 - a1 ->
    Forall2 (fun a b => cycle_from [fst a; snd a] = Some b) (combine (seq (a1 + s) m) (seq (a2 + s) m)) (map (fun i => [a1 + i; a2 + i]) (seq s m))).
  { induction m as [|m IH]; intros s B; cbn [seq combine map]; constructor.
    - cbn [fst snd]. apply cycle_from_pair. lia.
    - replace (S (a1 + s)) with (a1 + S s) by lia. replace (S (a2 + s)) with (a2 + S s) by lia. apply IH. lia. }
  intro B. specialize (K (b1 - a1) 0 B). now rewrite !Nat.add_0_r in K.
Qed.
Lemma pairs_In a1 a2 s m x : In x (concat (pairs a1 a2 s m)) <-> exists i, s <= i < s + m /\ (x = a1 + i \/ x = a2 + i).
Proof.
  unfold pairs. rewrite in_concat. split.
  - intros (c & Hc & Hx). apply in_map_iff in Hc as (i & <- & Hi). apply in_seq in Hi. exists i. split; auto.
    destruct Hx as [<-|[<-|[]]]; auto.
  - intros (i & Hi & Hx). exists [a1 + i; a2 + i]. split; [apply in_map_iff; exists i; split; auto; apply in_seq; lia|].
    destruct Hx as [->| ->]; cbn; auto.
Qed.
Lemma pairs_NoDup a1 a2 m : forall s, s + m <= a2 - a1 -> NoDup (concat (pairs a1 a2 s m)).
Proof.
  induction m as [|m IH]; intros s B; [constructor|]. unfold pairs. cbn [seq map concat]. fold (pairs a1 a2 (S s) m).
  apply NoDup_app_intro.
  - repeat constructor; cbn; intuition lia.
  - apply IH. lia.
  - intros x Hx K. apply pairs_In in K as (i & Hi & K). destruct Hx as [<-|[<-|[]]]; lia.
Qed.
Lemma pairs_sorted a1 a2 m : forall s, StronglySorted (fun c d => hd 0 c < hd 0 d) (pairs a1 a2 s m).
Proof.
  induction m as [|m IH]; intro s; unfold pairs; cbn [seq map]; constructor; [apply IH|].
  apply Forall_forall. intros c Hc. apply in_map_iff in Hc as (i & <- & Hi). apply in_seq in Hi. cbn. lia.
Qed.
Lemma pairs_normal a1 a2 m : 0 < m -> m <= a2 - a1 -> normal (pairs a1 a2 0 m).
Proof.
  intros H B. right. split; [destruct m; [lia|discriminate]|]. split; [|split].
  - apply Forall_forall. intros c Hc. apply in_map_iff in Hc as (i & <- & Hi). cbn. split; auto. intros x [<-|[<-|[]]]; lia.
  - apply pairs_NoDup. lia.
  - apply pairs_sorted.
Qed.
Lemma cmap_pair i j : i <> j -> cmap [i; j] i = j /\ cmap [i; j] j = i.
Proof.
  intro H. unfold cmap. cbn [position]. rewrite Nat.eqb_refl. split; [reflexivity|].
  destruct (Nat.eqb_spec i j); [contradiction|]. rewrite Nat.eqb_refl. reflexivity.
Qed.
Lemma pairs_map a1 b1 a2 b2 x : a1 < b1 -> b1 <= a2 -> b1 - a1 = b2 - a2 ->
  pmap (pairs a1 a2 0 (b1 - a1)) x = exchange a1 b1 a2 b2 x.
Proof.
  intros H1 H2 H3. set (m := b1 - a1) in *.
  assert (N : NoDup (concat (pairs a1 a2 0 m))) by (apply pairs_NoDup; lia).
  assert (P : forall i, i < m -> In [a1 + i; a2 + i] (pairs a1 a2 0 m)).
  { intros i Hi. apply in_map_iff. exists i. split; auto. apply in_seq. lia. }
  unfold exchange.
  destruct (Nat.leb_spec a1 x), (Nat.ltb_spec x b1); cbn [andb].
  - rewrite (pmap_in _ [a1 + (x - a1); a2 + (x - a1)]); auto; [|apply P; lia|left; lia].
    pose proof (proj1 (cmap_pair (a1 + (x - a1)) (a2 + (x - a1)) ltac:(lia))) as Q.
    replace (a1 + (x - a1)) with x in * by lia. rewrite Q. lia.
  - destruct (Nat.leb_spec b1 x), (Nat.ltb_spec x a2), (Nat.leb_spec a2 x), (Nat.ltb_spec x b2); cbn [andb]; try lia.
    + rewrite pmap_notin; auto; [lia|]. rewrite pairs_In. intros (i & Hi & K). lia.
    + rewrite (pmap_in _ [a1 + (x - a2); a2 + (x - a2)]); auto; [|apply P; lia|right; left; lia].
      pose proof (proj2 (cmap_pair (a1 + (x - a2)) (a2 + (x - a2)) ltac:(lia))) as Q.
      replace (a2 + (x - a2)) with x in * by lia. rewrite Q. lia.
    + rewrite pmap_notin; auto; try lia. rewrite pairs_In. intros (i & Hi & K). lia.
  - destruct (Nat.leb_spec b1 x), (Nat.leb_spec a2 x); cbn [andb]; try lia.
    rewrite pmap_notin; auto; try lia. rewrite pairs_In. intros (i & Hi & K). lia.
  - destruct (Nat.leb_spec b1 x), (Nat.leb_spec a2 x); cbn [andb]; try lia.
Qed.

Lemma exch_left a1 b1 a2 b2 x : a1 < b1 -> b1 <= a2 -> b1 - a1 < b2 - a2 ->
  exchange a1 a2 a2 (b2 - (b1 - a1)) (exchange a1 b1 (b2 - (b1 - a1)) b2 x) = exchange a1 b1 a2 b2 x.
Proof.
  intros H1 H2 H3. unfold exchange at 2 3.
  destruct (Nat.leb_spec a1 x), (Nat.ltb_spec x b1); cbn [andb];
  [unfold exchange; repeat match goal with |- context [?a <=? ?b] => destruct (Nat.leb_spec a b) | |- context [?a <? ?b] => destruct (Nat.ltb_spec a b) end; cbn [andb]; try lia
  |destruct (Nat.leb_spec b1 x), (Nat.ltb_spec x a2), (Nat.leb_spec a2 x), (Nat.ltb_spec x b2), (Nat.ltb_spec x (b2 - (b1 - a1))), (Nat.leb_spec (b2 - (b1 - a1)) x); cbn [andb]; try lia;
   unfold exchange; repeat match goal with |- context [?a <=? ?b] => destruct (Nat.leb_spec a b) | |- context [?a <? ?b] => destruct (Nat.ltb_spec a b) end; cbn [andb]; try lia
  |destruct (Nat.leb_spec b1 x), (Nat.leb_spec a2 x), (Nat.leb_spec (b2 - (b1 - a1)) x); cbn [andb]; try lia;
   unfold exchange; repeat match goal with |- context [?a <=? ?b] => destruct (Nat.leb_spec a b) | |- context [?a <? ?b] => destruct (Nat.ltb_spec a b) end; cbn [andb]; try lia
  |lia].
Qed.
Lemma exch_right a1 b1 a2 b2 x : a2 < b2 -> b1 <= a2 -> b2 - a2 < b1 - a1 ->
  exchange (a1 + (b2 - a2)) b1 b1 b2 (exchange a1 (a1 + (b2 - a2)) a2 b2 x) = exchange a1 b1 a2 b2 x.
Proof.
  intros H1 H2 H3. unfold exchange at 2 3.
  destruct (Nat.leb_spec a1 x), (Nat.ltb_spec x (a1 + (b2 - a2))), (Nat.leb_spec (a1 + (b2 - a2)) x), (Nat.ltb_spec x b1), (Nat.leb_spec b1 x), (Nat.ltb_spec x a2), (Nat.leb_spec a2 x), (Nat.ltb_spec x b2); cbn [andb]; try lia;
  unfold exchange; repeat match goal with |- context [?a <=? ?b] => destruct (Nat.leb_spec a b) | |- context [?a <? ?b] => destruct (Nat.ltb_spec a b) end; cbn [andb]; try lia.
Qed.

Theorem pswap_spec fuel : forall a1 b1 a2 b2, a1 < b1 -> a2 < b2 -> b1 <= a2 -> b2 - a1 < fuel ->
  exists p, pswap fuel a1 b1 a2 b2 = Some p /\ normal p /\ forall x, pmap p x = exchange a1 b1 a2 b2 x.
Proof.
  induction fuel as [|k IH]; intros a1 b1 a2 b2 H1 H2 H3 F; [lia|]. cbn [pswap].
  rewrite (proj2 (Nat.leb_le b1 a2)), (proj2 (Nat.ltb_ge b2 a1)), (proj2 (Nat.ltb_ge b1 a1)), (proj2 (Nat.ltb_ge b2 a2)) by lia.
  cbn [orb negb].
  destruct (Nat.ltb_spec (b1 - a1) (b2 - a2)) as [L|L]; [|destruct (Nat.ltb_spec (b2 - a2) (b1 - a1)) as [L'|L']].
  - destruct (IH a1 a2 a2 (b2 - (b1 - a1))) as (s & Es & Hs & Ms); try lia. rewrite Es. cbn [obind].
    rewrite swap_same_pairs by lia. cbn [obind].
    destruct (pmul_spec s (pairs a1 (b2 - (b1 - a1)) 0 (b1 - a1))) as (r & Er & Hr & Mr); auto; [apply pairs_normal; lia|].
    exists r. split; auto. split; auto. intro x. rewrite Mr, Ms, (pairs_map a1 b1 (b2 - (b1 - a1)) b2) by lia. apply exch_left; lia.
  - destruct (IH (a1 + (b2 - a2)) b1 b1 b2) as (s & Es & Hs & Ms); try lia. rewrite Es. cbn [obind].
    rewrite swap_same_pairs by lia. cbn [obind].
    destruct (pmul_spec s (pairs a1 a2 0 (a1 + (b2 - a2) - a1))) as (r & Er & Hr & Mr); auto; [apply pairs_normal; lia|].
    exists r. split; auto. split; auto. intro x. rewrite Mr, Ms, (pairs_map a1 (a1 + (b2 - a2)) a2 b2) by lia. apply exch_right; lia.
  - rewrite swap_same_pairs by lia. eexists. split; [reflexivity|]. split; [apply pairs_normal; lia|].
    intro x. apply pairs_map; lia.
Qed.
Theorem pswap_reversed fuel a1 b1 a2 b2 : a1 < b1 -> a2 < b2 -> b2 < a1 -> S (b1 - a2) < fuel ->
  exists p, pswap fuel a1 b1 a2 b2 = Some p /\ normal p /\ forall x, pmap p x = exchange a2 b2 a1 b1 x.
Proof.
  intros H1 H2 H3 F. destruct fuel as [|k]; [lia|]. cbn [pswap].
  rewrite (proj2 (Nat.leb_le b2 a1)), orb_true_r by lia. cbn [negb]. rewrite (proj2 (Nat.ltb_lt b2 a1)) by lia.
  apply pswap_spec; lia.
Qed.
Lemma pmul_nil_r s : pmul s [] = None. Proof. reflexivity. Qed.
Lemma swap_same_empty a b c : swap_same a a b c = Some [] \/ swap_same a a b c = None.
Proof.
  unfold swap_same. destruct ((a <? a) || (c <? b)); auto. destruct (a <=? b); cbn [negb]; auto.
  destruct (a - a =? c - b); cbn [negb]; auto. rewrite Nat.sub_diag. cbn. auto.
Qed.
Theorem pswap_adjacent_reversed_panics fuel a1 b1 a2 : a1 < b1 -> a2 < a1 -> pswap fuel a1 b1 a2 a1 = None.
Proof.
  intros H1 H2. destruct fuel as [|k]; auto. cbn [pswap]. rewrite Nat.leb_refl, orb_true_r, Nat.ltb_irrefl. cbn [negb].
  rewrite (proj2 (Nat.ltb_ge b1 a1)), (proj2 (Nat.ltb_ge a1 a2)) by lia. cbn [orb].
  destruct (Nat.ltb_spec (b1 - a1) (a1 - a2)) as [L|L]; [|destruct (Nat.ltb_spec (a1 - a2) (b1 - a1)) as [L'|L']].
  - replace (pswap k a1 a2 a2 (a1 - (b1 - a1))) with (@None perm); auto. symmetry.
    destruct k as [|k]; auto. cbn [pswap]. rewrite Nat.leb_refl. cbn [orb negb]. rewrite (proj2 (Nat.ltb_lt (a1 - (b1 - a1)) a1)) by lia.
    destruct k as [|k]; auto. cbn [pswap]. rewrite (proj2 (Nat.leb_le (a1 - (b1 - a1)) a1)) by lia. cbn [orb negb].
    rewrite Nat.ltb_irrefl. rewrite (proj2 (Nat.ltb_lt a2 a1)) by lia. now rewrite orb_true_r.
  - replace (pswap k (a1 + (a1 - a2)) b1 b1 a1) with (@None perm); auto. symmetry.
    destruct k as [|k]; auto. cbn [pswap]. rewrite Nat.leb_refl. cbn [orb negb]. rewrite (proj2 (Nat.ltb_lt a1 (a1 + (a1 - a2)))) by lia.
    destruct k as [|k]; auto. cbn [pswap]. rewrite (proj2 (Nat.leb_le a1 (a1 + (a1 - a2)))) by lia. cbn [orb negb].
    rewrite Nat.ltb_irrefl. rewrite (proj2 (Nat.ltb_lt a1 b1)) by lia. reflexivity.
  - unfold swap_same. rewrite (proj2 (Nat.ltb_ge b1 a1)), (proj2 (Nat.ltb_ge a1 a2)), (proj2 (Nat.leb_gt b1 a2)) by lia. reflexivity.
Qed.
Lemma fst_case a b : a <? b = true \/ b <= a. Proof. destruct (Nat.ltb_spec a b); auto. Qed.
Theorem pswap_one_empty_panics fuel : forall a1 b1 a2 b2, a1 <= b1 -> a2 <= b2 -> (a1 = b1 /\ a2 < b2) \/ (a1 < b1 /\ a2 = b2) ->
  pswap fuel a1 b1 a2 b2 = None.
Proof.
  induction fuel as [|k IH]; intros a1 b1 a2 b2 H1 H2 H; auto. cbn [pswap].
  destruct (negb _); auto. destruct (b2 <? a1). { apply IH; auto. tauto. }
  destruct ((b1 <? a1) || (b2 <? a2)); auto.
  destruct H as [[<- H]|[H <-]].
  - rewrite (proj2 (Nat.ltb_lt (a1 - a1) (b2 - a2))) by lia. destruct (pswap k _ _ _ _); auto. cbn [obind].
    destruct (swap_same_empty a1 (b2 - (a1 - a1)) b2) as [->| ->]; auto.
  - rewrite (proj2 (Nat.ltb_ge (b1 - a1) (a2 - a2))), (proj2 (Nat.ltb_lt (a2 - a2) (b1 - a1))) by lia. destruct (pswap k _ _ _ _); auto. cbn [obind].
    rewrite Nat.sub_diag, Nat.add_0_r. destruct (swap_same_empty a1 a2 a2) as [->| ->]; auto.
Qed.
Theorem pswap_both_empty a c : a <= c -> pswap 1 a a c c = Some [].
Proof.
  intro H. cbn [pswap]. rewrite (proj2 (Nat.leb_le a c)), (proj2 (Nat.ltb_ge c a)), !Nat.ltb_irrefl by lia. cbn [orb negb].
  rewrite !Nat.sub_diag. cbn [Nat.ltb Nat.leb]. unfold swap_same. rewrite !Nat.ltb_irrefl, (proj2 (Nat.leb_le a c)), !Nat.sub_diag by lia. reflexivity.
Qed.
Lemma pswap_bad fuel : forall a1 b1 a2 b2, b1 < a1 \/ b2 < a2 -> pswap fuel a1 b1 a2 b2 = None.
Proof.
  induction fuel as [|k IH]; intros a1 b1 a2 b2 H; auto. cbn [pswap]. destruct (negb _); auto.
  destruct (b2 <? a1); [apply IH; tauto|]. replace ((b1 <? a1) || (b2 <? a2)) with true; auto.
  symmetry. apply orb_true_iff. rewrite !Nat.ltb_lt. auto.
Qed.
Lemma pswap_mono k : forall a1 b1 a2 b2 p, pswap k a1 b1 a2 b2 = Some p -> forall k', k <= k' -> pswap k' a1 b1 a2 b2 = Some p.
Proof.
  induction k as [|k IH]; intros a1 b1 a2 b2 p H k' L; [discriminate|]. destruct k' as [|k']; [lia|]. cbn [pswap] in *.
  destruct (negb _); auto. destruct (b2 <? a1); [eapply IH; eauto; lia|]. destruct ((b1 <? a1) || (b2 <? a2)); auto.
  destruct (b1 - a1 <? b2 - a2).
  - destruct (pswap k a1 a2 a2 (b2 - (b1 - a1))) eqn:E; [|discriminate]. rewrite (IH _ _ _ _ _ E k') by lia. exact H.
  - destruct (b2 - a2 <? b1 - a1); auto. destruct (pswap k (a1 + (b2 - a2)) b1 b1 b2) eqn:E; [|discriminate]. rewrite (IH _ _ _ _ _ E k') by lia. exact H.
Qed.
(** Whatever the fuel, a successful swap of at least one non-empty range is in normal form and exchanges the blocks. *)
Theorem pswap_inv fuel a1 b1 a2 b2 p : a1 < b1 \/ a2 < b2 -> pswap fuel a1 b1 a2 b2 = Some p ->
  normal p /\ (forall x, pmap p x = if b1 <=? a2 then exchange a1 b1 a2 b2 x else exchange a2 b2 a1 b1 x).
Proof.
  intros H E.
  destruct (Nat.lt_trichotomy a1 b1) as [L1|[L1|L1]]; [| |rewrite pswap_bad in E by lia; discriminate].
  2: { rewrite pswap_one_empty_panics in E by lia. discriminate. }
  destruct (Nat.lt_trichotomy a2 b2) as [L2|[L2|L2]]; [| |rewrite pswap_bad in E by lia; discriminate].
  2: { rewrite pswap_one_empty_panics in E by lia. discriminate. }
  destruct (Nat.leb_spec b1 a2) as [C|C].
  - destruct (pswap_spec (S (b2 - a1) + fuel) a1 b1 a2 b2) as (q & Eq & Hq & Mq); try lia.
    apply (pswap_mono fuel) with (k' := S (b2 - a1) + fuel) in E; [|lia]. assert (p = q) by congruence. subst q. auto.
  - destruct (Nat.lt_trichotomy b2 a1) as [D|[->|D]].
    + destruct (pswap_reversed (S (S (b1 - a2)) + fuel) a1 b1 a2 b2) as (q & Eq & Hq & Mq); try lia.
      apply (pswap_mono fuel) with (k' := S (S (b1 - a2)) + fuel) in E; [|lia]. assert (p = q) by congruence. subst q. auto.
    + rewrite pswap_adjacent_reversed_panics in E by lia. discriminate.
    + destruct fuel; [discriminate|]. cbn [pswap] in E. rewrite (proj2 (Nat.leb_gt b1 a2)), (proj2 (Nat.leb_gt b2 a1)) in E by lia. discriminate.
Qed.

(** ** All values built through the API are in normal form. *)
Lemma single_normal c : ccan c -> normal [c].
Proof.
  intros [->|(L & N & M)]; [now left|right]. split; [discriminate|]. split; [constructor; auto|]. split; [cbn; now rewrite app_nil_r|].
  repeat constructor.
Qed.
Theorem built_normal p : built p -> normal p.
Proof.
  revert p. fix IH 2. intros p H. destruct H as [|l c E|a b|ls cs p Ec E|fuel a1 b1 a2 b2 p H E|p q r Hp Hq E|p r Hp E|p n r Hp E|p gens g Hp E Hg|l r Hl E].
  - apply normal_identity.
  - apply single_normal. eapply cycle_from_ccan; eauto.
  - apply single_normal. unfold cycle_cyclic_from. destruct (Nat.eqb_spec (length (seq a (b - a))) 1) as [K|K]; [now left|].
    rewrite seq_length in K. destruct (b - a) as [|n] eqn:D; [now left|right]. rewrite seq_length. split; [lia|]. split; [apply seq_NoDup|].
    intros x Hx. apply in_seq in Hx. cbn. lia.
  - assert (F : Forall ccan cs).
    { apply omap_Forall2 in Ec. clear - Ec. induction Ec; constructor; auto. eapply cycle_from_ccan; eauto. }
    assert (ND : {NoDup (concat cs)} + {~ NoDup (concat cs)}).
    { destruct (no_repeat [] (concat cs)) eqn:K; [left|right]; [|intro Q; apply no_repeat_nil in Q; congruence]. now apply no_repeat_nil. }
    destruct ND as [N|N].
    + destruct (fdc_spec cs F N) as (q & Eq & Hq & _). congruence.
    + rewrite fdc_none in E by auto. discriminate.
  - eapply pswap_inv; eauto.
  - destruct (pmul_spec p q) as (s & Es & Hs & _); auto. congruence.
  - destruct (pinverse_spec p) as (s & Es & Hs & _); auto. congruence.
  - destruct (Z.le_gt_cases 0 n) as [L|L].
    + destruct (ppow_nonneg p n) as (s & Es & Hs & _); auto. congruence.
    + rewrite ppow_neg in E by auto. injection E as <-. apply normal_identity.
  - destruct (gens_spec p) as (gs & Es & G & _); auto. assert (gs = gens) by congruence. subst gs.
    rewrite Forall_forall in G. now apply gen_normal, G.
  - destruct (pproduct_spec l) as (s & Es & Hs & _).
    + clear E. induction Hl; constructor; auto.
    + congruence.
Qed.

(** ** Tables. *)
Lemma mul_impl_spec n p q : length q = n -> (forall x, In x q -> x < length p) ->
  exists r, mul_impl n p q = Some r /\ length r = n /\ forall i, i < n -> nth i r 0 = nth (nth i q 0) p 0.
Proof.
  intros Lq B. unfold mul_impl.
  assert (K : forall m s, s + m <= n -> exists r, omap (fun i => do j <- nth_error q i; nth_error p j) (seq s m) = Some r /\
     length r = m /\ forall i, i < m -> nth i r 0 = nth (nth (s + i) q 0) p 0).
  { induction m as [|m IH]; intros s Bs; cbn [seq omap].
    - exists []. repeat split; auto. intros; lia.
    - destruct (IH (S s) ltac:(lia)) as (r & E & L & N). 
      rewrite (nth_error_nth' q 0) by lia. cbn [obind].
      rewrite (nth_error_nth' p 0) by (apply B, nth_In; lia). cbn [obind]. rewrite E. cbn [obind].
      eexists; split; [reflexivity|]. split; [cbn; lia|]. intros [|i] Hi; cbn [nth]; [now rewrite Nat.add_0_r|].
      rewrite N by lia. do 2 f_equal. lia. }
  destruct (K n 0 ltac:(lia)) as (r & E & L & N). exists r. auto.
Qed.
Lemma is_table_lt p i : is_table p -> i < length p -> nth i p 0 < length p.
Proof. intros [_ H] Hi. apply H, nth_In; auto. Qed.
Lemma table_comp p q r : is_table p -> is_table q -> length p = length q -> length r = length p ->
  (forall i, i < length p -> nth i r 0 = nth (nth i q 0) p 0) -> is_table r.
Proof.
  intros Hp Hq E L N. split.
  - apply (NoDup_nth r 0). intros i j Hi Hj K. rewrite !N in K by lia. destruct Hp as [Np Bp], Hq as [Nq Bq].
    apply (NoDup_nth p 0) in K; auto; try (rewrite E; apply Bq, nth_In; lia).
    apply (NoDup_nth q 0) in K; auto; lia.
  - intros x Hx. apply (In_nth _ _ 0) in Hx as (i & Hi & <-). rewrite N by lia. rewrite L. apply is_table_lt; auto.
    rewrite E. apply is_table_lt; auto. lia.
Qed.
Theorem cp_mul_spec p q : is_table p -> is_table q -> length p = length q -> exists r, cp_mul p q = Some r /\ is_table r /\
  length r = length p /\ forall i, i < length p -> nth i r 0 = nth (nth i q 0) p 0.
Proof.
  intros Hp Hq E. unfold cp_mul. destruct (mul_impl_spec (length p) p q) as (r & Er & L & N); auto.
  { rewrite E. apply Hq. }
  exists r. repeat split; auto; apply (table_comp p q r); auto.
Qed.
Lemma vp_pad_spec n p : is_table p -> length p <= n -> is_table (vp_pad n p) /\ length (vp_pad n p) = n /\
  forall i, i < n -> nth i (vp_pad n p) 0 = vp_eval p i.
Proof.
  intros [N B] L. unfold vp_pad, is_table. rewrite app_length, seq_length. repeat split.
  - apply NoDup_app_intro; auto using seq_NoDup. intros x H1 H2. apply B in H1. apply in_seq in H2. lia.
  - intros x Hx. apply in_app_or in Hx as [Hx|Hx]; [apply B in Hx; lia|apply in_seq in Hx; lia].
  - lia.
  - intros i Hi. unfold vp_eval. destruct (Nat.ltb_spec i (length p)).
    + now rewrite app_nth1.
    + rewrite app_nth2, seq_nth by lia. lia.
Qed.
Theorem vp_mul_spec p q : is_table p -> is_table q -> exists r, vp_mul p q = Some r /\ is_table r /\
  length r = Nat.max (length p) (length q) /\ forall i, vp_eval r i = vp_eval p (vp_eval q i).
Proof.
  intros Hp Hq. unfold vp_mul. set (n := Nat.max (length p) (length q)).
  destruct (vp_pad_spec n p Hp) as (Tp & Lp & Ep); [lia|]. destruct (vp_pad_spec n q Hq) as (Tq & Lq & Eq); [lia|].
  destruct (mul_impl_spec n (vp_pad n p) (vp_pad n q)) as (r & Er & L & N); auto.
  { intros x Hx. apply Tq in Hx. lia. }
  exists r. split; auto. split; [|split; auto].
  - apply (table_comp (vp_pad n p) (vp_pad n q)); auto; try lia. rewrite Lp. auto.
  - intro i. unfold vp_eval at 1. rewrite L. destruct (Nat.ltb_spec i n).
    + rewrite N by auto. pose proof (is_table_lt _ i Tq ltac:(lia)). rewrite Ep by lia. now rewrite Eq.
    + assert (vp_eval q i = i) by (unfold vp_eval; rewrite (proj2 (Nat.ltb_ge i (length q))); lia).
      rewrite H0. unfold vp_eval. rewrite (proj2 (Nat.ltb_ge i (length p))); lia.
Qed.

(** Powers of a table. *)
Lemma table_ext p q : length p = length q -> (forall i, i < length p -> nth i p 0 = nth i q 0) -> p = q.
Proof. intros. apply nth_ext with (d := 0) (d' := 0); auto. Qed.
Lemma is_table_id n : is_table (cp_identity n).
Proof. split; [apply seq_NoDup|]. intros x Hx. unfold cp_identity in *. apply in_seq in Hx. rewrite seq_length. lia. Qed.
Definition tf (p : list nat) (i : nat) : nat := nth i p 0.
Lemma iter_shift f n x : iter n f (f x) = f (iter n f x).
Proof. induction n; cbn [iter]; congruence. Qed.
Lemma cp_pow_spec p k : is_table p -> exists r, cp_pow p k = Some r /\ is_table r /\ length r = length p /\
  forall i, i < length p -> nth i r 0 = iter k (tf p) i.
Proof.
  intro Hp. induction k as [|k (r & Er & Tr & Lr & Nr)]; cbn [cp_pow iter].
  - exists (cp_identity (length p)). split; auto. split; [apply is_table_id|]. unfold cp_identity. rewrite seq_length. split; auto.
    intros i Hi. rewrite seq_nth; auto.
  - rewrite Er. cbn [obind]. destruct (cp_mul_spec r p Tr Hp Lr) as (s & Es & Ts & Ls & Ns). exists s. split; auto. split; auto.
    split; [lia|]. intros i Hi. rewrite Ns by lia. rewrite Nr by (apply is_table_lt; auto). rewrite <- iter_shift. reflexivity.
Qed.
(** Every point of a table returns after at most [length p] steps. *)
Lemma tf_inj p x y : is_table p -> x < length p -> y < length p -> tf p x = tf p y -> x = y.
Proof. intros [N _] Hx Hy E. eapply NoDup_nth; eauto. Qed.
Lemma tf_period p x : is_table p -> x < length p -> exists d, 1 <= d <= length p /\ iter d (tf p) x = x.
Proof.
  intros T Hx.
  set (f := fun y => if y <? length p then tf p y else y).
  assert (Inj : forall a b, f a = f b -> a = b).
  { intros a b. unfold f. destruct (Nat.ltb_spec a (length p)), (Nat.ltb_spec b (length p)); intro E; auto.
    - eapply tf_inj; eauto.
    - pose proof (is_table_lt p a T H). unfold tf in E. lia.
    - pose proof (is_table_lt p b T H0). unfold tf in E. lia. }
  assert (Cl : forall a, In a (seq 0 (length p)) -> In (f a) (seq 0 (length p))).
  { intros a Ha. apply in_seq in Ha. apply in_seq. unfold f. rewrite (proj2 (Nat.ltb_lt a (length p))) by lia.
    pose proof (is_table_lt p a T ltac:(lia)). unfold tf. lia. }
  destruct (orbit_start f (seq 0 (length p)) x (length p) Inj Cl) as (r & E & N & I & H & A); [apply in_seq; lia|rewrite seq_length; lia|].
  exists (length r). pose proof (NoDup_incl_length N I) as B. rewrite seq_length in B.
  destruct r as [|y r]; [discriminate|]. cbn in H. injection H as ->. split; [cbn [length] in *; lia|].
  assert (K : forall i, iter i (tf p) x = iter i f x /\ iter i f x < length p).
  { induction i as [|i [IH1 IH2]]; [split; auto|]. cbn [iter]. rewrite IH1.
    assert (Ef : f (iter i f x) = tf p (iter i f x)) by (unfold f at 1; rewrite (proj2 (Nat.ltb_lt _ _)) by exact IH2; reflexivity).
    rewrite Ef. split; auto. apply is_table_lt; auto. }
  rewrite (proj1 (K _)). cbn [length iter].
  change (iter (length r) f x) with (iter (length r) f (nth 0 (x :: r) 0)).
  rewrite <- (cycle_map_iter f (x :: r) (length r) A) by (cbn; lia). rewrite A by (cbn; lia). cbn [length]. rewrite Nat.eqb_refl. reflexivity.
Qed.
Lemma iter_mul f d k x : iter d f x = x -> iter (k * d) f x = x.
Proof. intro H. induction k as [|k IH]; [reflexivity|]. cbn [Nat.mul]. rewrite iter_add, IH. exact H. Qed.
Fixpoint fact (n : nat) : nat := match n with 0 => 1 | S k => S k * fact k end.
Lemma fact_div n d : 1 <= d <= n -> exists k, fact n = k * d.
Proof.
  induction n as [|n IH]; intro H; [lia|]. cbn [fact]. destruct (Nat.eq_dec d (S n)) as [->|].
  - exists (fact n). apply Nat.mul_comm.
  - destruct IH as [k E]; [lia|]. rewrite E. exists (S n * k). ring.
Qed.
Lemma fact_pos n : 1 <= fact n. Proof. induction n; cbn [fact]; nia. Qed.
Lemma table_fact p : is_table p -> cp_pow p (fact (length p)) = Some (cp_identity (length p)).
Proof.
  intro T. destruct (cp_pow_spec p (fact (length p)) T) as (r & E & Tr & L & N). rewrite E. f_equal.
  apply table_ext; unfold cp_identity; rewrite ?seq_length; auto. intros i Hi. rewrite N by lia. rewrite seq_nth by lia.
  destruct (tf_period p i T ltac:(lia)) as (d & Hd & Ed). destruct (fact_div (length p) d Hd) as [k ->]. now apply iter_mul.
Qed.
Lemma order_loop_spec p : is_table p -> forall fuel o power, cp_pow p o = Some power -> 1 <= o ->
  (forall j, 1 <= j < o -> cp_pow p j <> Some (cp_identity (length p))) ->
  forall K, o <= K -> K < o + fuel -> cp_pow p K = Some (cp_identity (length p)) ->
  exists n, order_loop cp_mul fuel p (cp_identity (length p)) power o = Some n /\ 1 <= n /\
   cp_pow p n = Some (cp_identity (length p)) /\ forall j, 1 <= j < n -> cp_pow p j <> Some (cp_identity (length p)).
Proof.
  intro T. induction fuel as [|k IH]; intros o power E Ho M K HK1 HK2 EK; [lia|]. cbn [order_loop].
  destruct (list_eq_dec Nat.eq_dec power (cp_identity (length p))) as [Eq|Ne].
  - exists o. subst power. repeat split; auto.
  - destruct (cp_pow_spec p (S o) T) as (r & Er & Tr & Lr & Nr). cbn [cp_pow] in Er. rewrite E in Er. cbn [obind] in Er. rewrite Er. cbn [obind].
    apply IH with (K := K); auto.
    + cbn [cp_pow]. now rewrite E.
    + intros j Hj. destruct (Nat.eq_dec j o) as [->|]; [|apply M; lia]. rewrite E. congruence.
    + destruct (Nat.eq_dec K o) as [->|]; [|lia]. congruence.
    + lia.
Qed.
Lemma order_loop_mono mul p id fuel : forall power o n, order_loop mul fuel p id power o = Some n -> forall fuel', fuel <= fuel' ->
  order_loop mul fuel' p id power o = Some n.
Proof.
  induction fuel as [|k IH]; intros power o n E fuel' L; [discriminate|]. destruct fuel' as [|k']; [lia|]. cbn [order_loop] in *.
  destruct (list_eq_dec _ power id); auto. destruct (mul power p); auto. cbn [obind] in *. eapply IH; eauto. lia.
Qed.
Theorem cp_order_spec p : is_table p -> exists n fuel0, 1 <= n /\ cp_pow p n = Some (cp_identity (length p)) /\
  (forall j, 1 <= j < n -> cp_pow p j <> Some (cp_identity (length p))) /\
  forall fuel, fuel0 <= fuel -> cp_order fuel p = Some n.
Proof.
  intro T.
  destruct (cp_pow_spec p 1 T) as (p1 & E1 & T1 & L1 & N1).
  assert (p1 = p) by (apply table_ext; auto; intros i Hi; rewrite N1 by lia; reflexivity). subst p1.
  destruct (order_loop_spec p T (fact (length p)) 1 p E1 (le_n 1) ltac:(intros; lia) (fact (length p))) as (n & En & H1 & H2 & H3).
  { apply fact_pos. } { lia. } { now apply table_fact. }
  exists n, (fact (length p)). repeat split; auto. intros fuel L. eapply order_loop_mono; eauto.
Qed.
Lemma vp_order_diverges p fuel : is_table p -> p <> [] -> vp_order fuel p = None.
Proof.
  intros T Hn. unfold vp_order.
  assert (K : forall fuel power o, is_table power -> power <> [] -> order_loop vp_mul fuel p vp_identity power o = None).
  { induction fuel0 as [|k IH]; intros power o Tq Hq; auto. cbn [order_loop].
    destruct (list_eq_dec Nat.eq_dec power vp_identity) as [E|_]; [unfold vp_identity in E; contradiction|].
    destruct (vp_mul_spec power p Tq T) as (r & Er & Tr & Lr & _). rewrite Er. cbn [obind]. apply IH; auto.
    intros ->. cbn [length] in Lr. destruct power; [congruence|]. cbn [length] in Lr. lia. }
  apply K; auto.
Qed.
