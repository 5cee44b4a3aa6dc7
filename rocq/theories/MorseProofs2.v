(** Points flowing to the base point. *)
From Coq Require Import List Arith ZArith Bool Lia Sorted Permutation.
From Verif Require Import PidModel SnfModel MatModel LinModel GraphModel GraphSpec GraphProofs GraphProofs7
  CubeModel CubeSpec CubeProofs EdgePathModel EdgePathSpec MorseModel MorseSpec MorseProofs.
Import ListNotations.
Open Scope nat_scope.

Definition V (l : list nat) : list factor := map FVertex l.
Lemma occupied_V l w : occupied (V l) w <-> In w l.
Proof.
  unfold occupied, V. split.
  - intros (f & Hf & Hw). apply in_map_iff in Hf as (v & <- & Hv). destruct Hw as [<-|[]]. exact Hv.
  - intros H. exists (FVertex w). split; [now apply in_map|now left].
Qed.
Lemma nth_V l i f : nth_error (V l) i = Some f <-> exists v, f = FVertex v /\ nth_error l i = Some v.
Proof.
  unfold V. rewrite nth_error_map. destruct (nth_error l i) as [v|]; cbn; split; [intros H; injection H as <-; eauto|intros (v' & -> & H); congruence|discriminate|intros (v' & _ & H); discriminate H].
Qed.
Lemma lset_V l : forall i w, lset (V l) i (FVertex w) = V (lset l i w).
Proof. induction l as [|x t IH]; intros [|i] w; cbn; [reflexivity|reflexivity|reflexivity|]. f_equal. apply IH. Qed.
Lemma V_cells g l : (forall v, In v l -> v < g_n g) -> Forall (closed_cell g) (V l).
Proof. intros H. unfold V. apply Forall_map, Forall_forall. intros v Hv. cbn. unfold g_n_vertices. auto. Qed.
Lemma V_inj l l' : V l = V l' -> l = l'.
Proof. unfold V. revert l'. induction l as [|x t IH]; intros [|y t'] H; cbn in H; try discriminate; [reflexivity|]. injection H as -> H. f_equal. now apply IH. Qed.
Lemma V_pd l : NoDup l -> pd (V l).
Proof.
  induction 1 as [|x t N H IH]; [constructor|]. cbn. constructor; [|exact IH]. unfold V. apply Forall_map, Forall_forall. intros y Hy v [<-|[]] [E|[]]. cbn in E. subst. contradiction.
Qed.
Lemma sorted_NoDup l : StronglySorted lt l -> NoDup l.
Proof. induction 1 as [|x t H IH HF]; constructor; [|exact IH]. intros K. rewrite Forall_forall in HF. specialize (HF _ K). lia. Qed.
Lemma sorted_unique : forall l l', StronglySorted lt l -> StronglySorted lt l' -> (forall x, In x l <-> In x l') -> l = l'.
Proof.
  induction l as [|x t IH]; intros l' H H' E.
  - destruct l' as [|y l']; [reflexivity|]. exfalso. apply (proj2 (E y)). now left.
  - destruct l' as [|y t']; [exfalso; apply (proj1 (E x)); now left|]. inversion H as [|? ? H1 H2]; inversion H' as [|? ? H1' H2']; subst. rewrite Forall_forall in H2, H2'.
    assert (x = y) as <-.
    { pose proof (proj1 (E x) (or_introl eq_refl)) as [K|K]; [auto|]. pose proof (proj2 (E y) (or_introl eq_refl)) as [K2|K2]; [auto|]. specialize (H2 _ K2). specialize (H2' _ K). lia. }
    f_equal. apply IH; auto. intros z. split; intros Hz.
    + destruct (proj1 (E z) (or_intror Hz)) as [<-|K]; [|exact K]. specialize (H2 _ Hz). lia.
    + destruct (proj2 (E z) (or_intror Hz)) as [<-|K]; [|exact K]. specialize (H2' _ Hz). lia.
Qed.
Lemma sort_V l : NoDup l -> exists l', f_sort (V l) = V l' /\ Permutation l' l /\ StronglySorted lt l'.
Proof.
  intros ND. pose proof (f_sort_perm (V l)) as P. pose proof (f_sort_listed (V l) (V_pd l ND)) as L.
  destruct (Permutation_map_inv FVertex l P) as (l' & E & P'). exists l'. split; [exact E|]. split; [now apply Permutation_sym|].
  change (f_sort (V l) = V l') in E. rewrite E in L. clear - L. unfold listed in L. remember (V l') as c eqn:Ec. revert l' Ec. induction L as [|f t L IH HF]; intros l' Ec; destruct l' as [|x l']; try discriminate Ec; [constructor|].
  injection Ec as -> ->. constructor; [now apply IH|]. apply Forall_forall. intros y Hy. rewrite Forall_forall in HF. apply (HF (FVertex y)). now apply in_map.
Qed.
Lemma lset_split {A} (l : list A) : forall i u w, nth_error l i = Some u -> exists a b, l = a ++ u :: b /\ lset l i w = a ++ w :: b.
Proof.
  induction l as [|x t IH]; intros [|i] u w H; cbn in H; try discriminate.
  - injection H as ->. exists [], t. auto.
  - destruct (IH i u w H) as (a & b & -> & E). exists (x :: a), b. cbn. rewrite E. auto.
Qed.
Lemma moves_perm c w c' : moves c w c' -> forall d, Permutation c d -> exists d', moves d w d' /\ Permutation c' d'.
Proof.
  induction 1 as [c|c c1 c2 e w H1 H2 IH]; intros d P; [exists d; split; [constructor|exact P]|].
  destruct H1 as [l r a b N]. assert (In a d) as Ha by (eapply Permutation_in; [exact P|]; apply in_or_app; right; now left).
  apply in_split in Ha as (l2 & r2 & ->). assert (P2 : Permutation (l ++ b :: r) (l2 ++ b :: r2)).
  { rewrite <- !Permutation_middle. constructor. rewrite <- !Permutation_middle in P. now apply Permutation_cons_inv in P. }
  destruct (IH _ P2) as (d' & M & Q). exists d'. split; [|exact Q]. econstructor; [|exact M]. constructor. intros K. apply N. eapply Permutation_in; [apply Permutation_sym, P|exact K].
Qed.

Section G.
Variable g : rawg.
Hypothesis HA : AR g.
Let HG := AR_GI g HA.

Definition ok (l : list nat) : Prop := NoDup l /\ forall v, In v l -> v < g_n g.
Lemma ok_perm l l' : Permutation l l' -> ok l -> ok l'.
Proof. intros P [A B]. split; [eapply Permutation_NoDup; eauto|]. intros v Hv. apply B. eapply Permutation_in; [apply Permutation_sym, P|exact Hv]. Qed.
Lemma blocked_V l v w : child g w v -> blocked g (V l) v <-> In w l.
Proof.
  intros C. destruct (child_lt g HA w v C) as (K & _). unfold blocked. split.
  - intros [->|(w' & T & O)]; [lia|]. apply te_child in T; [|exact HA]. rewrite (child_unique g w w' v C T). now apply occupied_V.
  - intros H. right. exists w. split; [now apply te_child|now apply occupied_V].
Qed.
(** The smallest unblocked vertex: nothing lies between it and its target. *)
Lemma clear_below l u w : ok l -> In u l -> child g w u -> ~ In w l -> (forall v, In v l -> v < u -> blocked g (V l) v) ->
  forall v, In v l -> v <> u -> v < w \/ u < v.
Proof.
  intros [ND HL] Hu C Nw Hb v Hv N. destruct (Nat.lt_ge_cases v w) as [K|K]; [now left|]. right. destruct (Nat.lt_ge_cases u v) as [K2|K2]; [exact K2|]. exfalso.
  assert (w < v < u) as Hr by (assert (v <> w) by (intros ->; contradiction); lia). clear K K2 N. revert v Hr Hv. induction v as [v IH] using lt_wf_ind. intros Hr Hv.
  destruct (has_parent g HA v) as (p & Cp); [lia|auto|]. destruct (child_lt g HA p v Cp) as (Lp & _).
  pose proof (proj1 (blocked_V l v p Cp) (Hb v Hv ltac:(lia))) as Hp. pose proof (child_between g HA w u v p C ltac:(lia) ltac:(lia) Cp) as Kp.
  assert (p <> w) by (intros ->; contradiction). apply (IH p); auto; lia.
Qed.
(** One step of a point. *)
Lemma move_ok l i u w : ok l -> nth_error l i = Some u -> child g w u -> ~ In w l ->
  ok (lset l i w) /\ length (lset l i w) = length l /\ list_sum (lset l i w) < list_sum l /\ moves1 l (u, w) (lset l i w).
Proof.
  intros [ND HL] Hi C Nw. destruct (child_lt g HA w u C) as (K1 & K2 & _). destruct (lset_split l i u w Hi) as (a & b & E & ->). subst l.
  split; [split|split; [|split]].
  - apply NoDup_remove in ND as [ND N]. apply (Permutation_NoDup (Permutation_middle a b w)). constructor; [|exact ND]. intros K. apply Nw. apply in_app_iff in K. apply in_app_iff. destruct K; [now left|right; now right].
  - intros v Hv. apply in_app_iff in Hv as [Hv|[<-|Hv]]; [|lia|]; apply HL, in_app_iff; [now left|right; now right].
  - rewrite !app_length. reflexivity.
  - rewrite !list_sum_app. cbn. lia.
  - constructor. exact Nw.
Qed.

Lemma list_sum_perm a b : Permutation a b -> list_sum a = list_sum b.
Proof. unfold list_sum. intros P. induction P; cbn [fold_right]; lia. Qed.

Section Flow.
Variable bd : list factor -> option (list (Z * list factor)).
Lemma other_clear l u w : ok l -> (forall v, In v l -> v <> u -> v < w \/ u < v) ->
  forallb (fun v => f_lt v (FVertex w) || f_lt (FVertex u) v) (other_vertices (FVertex u) (V l)) = true.
Proof.
  intros _ H. apply forallb_forall. intros f Hf. unfold other_vertices in Hf. apply in_flat_map in Hf as (f0 & H0 & H1). apply filter_In in H0 as [H0 H2]. unfold V in H0.
  apply in_map_iff in H0 as (v & <- & Hv). destruct H1 as [<-|[]]. cbn [f_eqb] in H2. destruct (Nat.eqb_spec v u) as [|N]; [discriminate H2|].
  assert (L : forall a b, a < b -> f_lt (FVertex a) (FVertex b) = true).
  { intros a b K. rewrite f_lt_disjoint; [now apply Nat.ltb_lt|]. intros x [<-|[]] [E|[]]. cbn in E. lia. }
  destruct (H v Hv N) as [K|K]; rewrite (L _ _ K); [reflexivity|apply orb_true_r].
Qed.
Lemma flow_points : forall s l, list_sum l = s -> StronglySorted lt l -> (forall v, In v l -> v < g_n g) ->
  exists l', (forall fuel, s < fuel -> cube_flow bd fuel g (V l) = Some [(1%Z, V l')]) /\ StronglySorted lt l' /\ (forall v, In v l' -> v < g_n g) /\ length l' = length l /\
    (forall v, In v l' -> blocked g (V l') v) /\ exists t w, moves l w t /\ Permutation t l' /\ inwards g w.
Proof.
  induction s as [s IH] using lt_wf_ind. intros l Es SS HL. pose proof (V_cells g l HL) as HF. pose proof (conj (sorted_NoDup l SS) HL : ok l) as HO.
  destruct (property_spec g HA (V l) HF) as [(E & Hc)|(i & f & E & H1 & H2 & H3)].
  - exists l. split; [|split; [exact SS|split; [exact HL|split; [reflexivity|split]]]].
    + intros [|fuel] Hf; [lia|]. cbn [cube_flow]. rewrite E. cbn. reflexivity.
    + intros v Hv. destruct (blocked_dec g HA (V l) v (HL v Hv)) as [K|K]; [exact K|]. exfalso. apply (Hc (FVertex v)); [now apply in_map|exact K].
    + exists l, []. split; [constructor|]. split; [apply Permutation_refl|]. intros u v [].
  - apply nth_V in H1 as (u & -> & Hi). cbn [is_vertex is_edge negb] in E. pose proof (nth_error_In _ _ Hi) as Hu.
    assert (u <> 0) as N0 by (intros ->; apply H2; now left). destruct (has_parent g HA u) as (w & C); [lia|auto|].
    assert (Nw : ~ In w l) by (intros K; apply H2; now apply (blocked_V l u w C)).
    assert (Hb : forall v, In v l -> v < u -> blocked g (V l) v).
    { intros v Hv K. destruct (blocked_dec g HA (V l) v (HL v Hv)) as [B|B]; [exact B|]. exfalso. apply In_nth_error in Hv as (j & Hj). apply (H3 j (FVertex v)); [|apply nth_V; eauto|exact B].
      destruct (Nat.lt_ge_cases j i) as [L|L]; [exact L|]. exfalso. destruct (Nat.eq_dec j i) as [->|N]; [rewrite Hi in Hj; injection Hj as ->; lia|].
      clear - SS Hi Hj L N K. revert i j Hi Hj L N. induction SS as [|x t SS IHl HF]; intros i j Hi Hj L N; [destruct i; discriminate|]. rewrite Forall_forall in HF.
      destruct j as [|j]; [lia|]. destruct i as [|i]; [cbn in Hi; injection Hi as ->; cbn in Hj; apply nth_error_In in Hj; specialize (HF _ Hj); lia|]. apply (IHl i j); auto; lia. }
    pose proof (clear_below l u w HO Hu C Nw Hb) as Cl. destruct (move_ok l i u w HO Hi C Nw) as (O' & Len & Sum & M1).
    destruct (sort_V (lset l i w) (proj1 O')) as (l1 & Es1 & P1 & SS1). pose proof (ok_perm _ _ (Permutation_sym P1) O') as O1.
    assert (Sum1 : list_sum l1 < s) by (rewrite <- Es; replace (list_sum l1) with (list_sum (lset l i w)); [exact Sum|now apply list_sum_perm, Permutation_sym]).
    destruct (IH _ Sum1 l1 eq_refl SS1 (proj2 O1)) as (l' & F1 & F2 & F3 & F4 & F5 & t & ww & M & Q & In').
    exists l'. split; [|split; [exact F2|split; [exact F3|split; [|split; [exact F5|]]]]].
    + intros [|fuel] Hf; [lia|]. cbn [cube_flow]. rewrite E. cbn [obind]. rewrite (proj2 (nth_V l i (FVertex u))) by eauto. cbn [obind]. rewrite (f_flow_child g HA w u C). cbn [obind initial terminal f_edge fst snd].
      rewrite other_clear by auto. rewrite lset_V, Es1. apply F1. lia.
    + rewrite F4, (Permutation_length P1). exact Len.
    + destruct (moves_perm _ _ _ M _ P1) as (t' & M' & Q'). exists t', ((u, w) :: ww). split; [econstructor; eassumption|]. split; [now rewrite <- Q'|].
      intros a b [K|K]; [injection K as <- <-; now apply te_child|now apply In'].
Qed.
End Flow.

(** With an unbranched start of the tree the points end in the first vertices. *)
Lemma settled_stem n l : stem g n -> ok l -> length l = n -> (forall v, In v l -> blocked g (V l) v) -> forall k, k < n -> In k l.
Proof.
  intros [Hn St] [ND HL] Len Hb. unfold g_n_vertices in Hn. induction k as [k IH] using lt_wf_ind. intros Hk. destruct (in_dec Nat.eq_dec k l) as [K|K]; [exact K|]. exfalso.
  assert (Sub : forall v, In v l -> v < k).
  { induction v as [v IHv] using lt_wf_ind. intros Hv. destruct (Nat.lt_ge_cases v k) as [L|L]; [exact L|]. exfalso. assert (v <> k) by (intros ->; contradiction).
    destruct (has_parent g HA v) as (p & C); [lia|auto|]. destruct (child_lt g HA p v C) as (Lp & _). pose proof (proj1 (blocked_V l v p C) (Hb v Hv)) as Hp.
    pose proof (IHv p Lp Hp) as Kp. pose proof (St p v ltac:(lia) (proj2 (te_child g HA p v) C)). lia. }
  assert (length l <= length (seq 0 k)) as K2 by (apply NoDup_incl_length; [exact ND|intros v Hv; apply in_seq; specialize (Sub v Hv); lia]). rewrite seq_length in K2. lia.
Qed.
Lemma settled_perm n l : stem g n -> ok l -> length l = n -> (forall v, In v l -> blocked g (V l) v) -> Permutation l (seq 0 n).
Proof.
  intros St O Len Hb. apply Permutation_sym, NoDup_Permutation_bis; [apply seq_NoDup|rewrite seq_length; lia|]. intros k Hk. apply in_seq in Hk. eapply settled_stem; eauto. lia.
Qed.
Lemma SS_seq0 n : forall a, StronglySorted lt (seq a n).
Proof. induction n as [|n IH]; intros a; cbn; constructor; [apply IH|]. apply Forall_forall. intros x Hx. apply in_seq in Hx. lia. Qed.
Lemma settled_sorted n l : stem g n -> StronglySorted lt l -> (forall v, In v l -> v < g_n g) -> length l = n -> (forall v, In v l -> blocked g (V l) v) -> l = seq 0 n.
Proof.
  intros St SS HL Len Hb. pose proof (settled_perm n l St (conj (sorted_NoDup l SS) HL) Len Hb) as P. apply sorted_unique; [exact SS|apply SS_seq0|].
  intros x. split; intros H; [eapply Permutation_in; eauto|eapply Permutation_in; [apply Permutation_sym, P|exact H]].
Qed.
End G.
