(** Unions of simplicial complexes. *)
From Coq Require Import List Arith ZArith Bool Lia ZifyBool ZifyNat.
From Verif Require Import PidModel LinModel LinSpec MatModel MatSpec HomModel HomSpec SimpModel SimpSpec SimpProofs4 SimpProofs8 SimpProps CompProps LinProofs3 IsoSpec IsoProofs IsoProofs2 IsoProofs3 IsoProofs4 IsoProofs5 ConeProofs CollapseProofs CollapseProofs2 UnionSpec UnionProofs.
Import ListNotations.
Open Scope nat_scope.

Section Skel.
  Context {T : Type} (eqb : T -> T -> bool).
  Hypothesis He : forall x y, eqb x y = true <-> x = y.
  Set Default Proof Using "All".
  Definition mem (l : list T) (y : T) : bool := existsb (eqb y) l.
  Lemma mem_iff l y : mem l y = true <-> In y l.
  Proof. unfold mem. rewrite existsb_exists. split; [intros (z & H & E); apply He in E; now subst|intros H; exists y; split; [assumption|now apply He]]. Qed.
  Lemma mem_not l y : mem l y = false <-> ~ In y l.
  Proof. rewrite <- mem_iff. destruct (mem l y); intuition congruence. Qed.
  Definition add1 (acc : list T) (x : T) : list T := if mem acc x then acc else acc ++ [x].
  Lemma add_all acc l : fold_left add1 l acc = acc ++ filter (fun y => negb (mem acc y)) (fold_left add1 l []).
  Proof.
    induction l as [|x l IH] using rev_ind; [cbn; now rewrite app_nil_r|]. rewrite !fold_left_app. cbn [fold_left]. rewrite IH. set (r := fold_left add1 l []). unfold add1.
    assert (M : mem (acc ++ filter (fun y => negb (mem acc y)) r) x = mem acc x || mem r x).
    { apply eq_true_iff_eq. rewrite orb_true_iff, !mem_iff, in_app_iff, filter_In. destruct (mem acc x) eqn:E; [apply mem_iff in E|apply mem_not in E]; cbn; intuition congruence. }
    rewrite M. destruct (mem r x) eqn:E; [now rewrite orb_true_r|]. rewrite orb_false_r, filter_app. cbn [filter]. destruct (mem acc x) eqn:E'; cbn [negb]; [now rewrite app_nil_r|now rewrite app_assoc].
  Qed.
  Lemma skeleton_app_eq h h' : skeleton eqb (h ++ h') = skeleton eqb h ++ filter (fun y => negb (mem (skeleton eqb h) y)) (skeleton eqb h').
  Proof. unfold skeleton. rewrite concat_app, fold_left_app. apply (add_all _ (concat h')). Qed.
  Lemma sub_through (c W V : list T) : NoDup V -> subseq c V -> subseq W V -> incl c W -> subseq c W.
  Proof.
    intros ND Sc SW I. assert (S2 : subseq (filter (mem c) W) W) by apply sub_filter.
    assert (E1 : c = filter (mem c) V) by (apply sub_eq; [exact Sc|exact ND|intros y _; apply mem_iff]).
    assert (E2 : filter (mem c) W = filter (mem c) V). { apply sub_eq; [now apply subseq_trans with W|exact ND|]. intros y _. rewrite filter_In, mem_iff. split; [intros H; split; [now apply I|exact H]|tauto]. }
    rewrite E1, <- E2. exact S2.
  Qed.
  (** The second complex, with the common vertex attached first. *)
  Lemma second_order h1 h2 : share_at_most_one h1 h2 -> exists com, incl com (skeleton eqb h2) /\ subseq (skeleton eqb (map (fun v => [v]) com ++ h2)) (skeleton eqb (h1 ++ map (fun v => [v]) com ++ h2)).
  Proof.
    intros SH. exists (filter (mem (skeleton eqb h1)) (skeleton eqb h2)). set (com := filter (mem (skeleton eqb h1)) (skeleton eqb h2)).
    assert (IC : incl com (skeleton eqb h2)) by (intros y Hy; now apply filter_In in Hy). split; [exact IC|].
    assert (C1 : com = [] \/ exists v, com = [v]).
    { destruct com as [|v [|w r]] eqn:E; [now left|right; now exists v|exfalso]. assert (ND : NoDup com) by (apply NoDup_filter, skeleton_spec, He). rewrite E in ND. inversion ND as [|? ? N _]; subst. apply N. left.
      assert (K : forall y, In y com -> vertex_of h1 y /\ vertex_of h2 y) by (intros y Hy; apply filter_In in Hy; rewrite mem_iff in Hy; destruct Hy as [A B]; split; apply (skeleton_spec eqb _ He); assumption).
      destruct (K v) as [A B]; [rewrite E; now left|]. destruct (K w) as [A' B']; [rewrite E; right; now left|]. symmetry. now apply SH. }
    destruct C1 as [E|(v & E)]; rewrite E; cbn [map app].
    - rewrite skeleton_app_eq. assert (F : filter (fun y => negb (mem (skeleton eqb h1) y)) (skeleton eqb h2) = skeleton eqb h2).
      { assert (N : forall y, In y (skeleton eqb h2) -> mem (skeleton eqb h1) y = false) by (intros y Hy; destruct (mem (skeleton eqb h1) y) eqn:Q; [|reflexivity]; exfalso; assert (K : In y com) by (apply filter_In; now split); now rewrite E in K).
        clear - N. induction (skeleton eqb h2) as [|a l IH]; cbn [filter]; [reflexivity|]. rewrite N by now left. cbn [negb]. f_equal. apply IH. intros y Hy. apply N. now right. }
      rewrite F. clear. induction (skeleton eqb h1); [apply subseq_refl'|now constructor].
    - change ([v] :: h2) with ([[v]] ++ h2). rewrite (skeleton_app_eq h1), (skeleton_app_eq [[v]] h2). change (skeleton eqb [[v]]) with [v]. cbn [app filter].
      assert (Hv : In v (skeleton eqb h1)) by (assert (K : In v com) by (rewrite E; now left); apply filter_In in K; now apply mem_iff). rewrite (proj2 (mem_iff _ _) Hv). cbn [negb].
      assert (F : filter (fun y => negb (mem (skeleton eqb h1) y)) (filter (fun y => negb (mem [v] y)) (skeleton eqb h2)) = filter (fun y => negb (mem [v] y)) (skeleton eqb h2)).
      { assert (N : forall y, In y (filter (fun y => negb (mem [v] y)) (skeleton eqb h2)) -> mem (skeleton eqb h1) y = false).
        { intros y Hy. apply filter_In in Hy. destruct Hy as [Hy Q]. destruct (mem (skeleton eqb h1) y) eqn:Q1; [|reflexivity]. exfalso. assert (K : In y com) by (apply filter_In; now split). rewrite E in K. apply mem_iff in K. rewrite K in Q. discriminate Q. }
        clear - N. induction (filter (fun y => negb (mem [v] y)) (skeleton eqb h2)) as [|a l IH]; cbn [filter]; [reflexivity|]. rewrite N by now left. cbn [negb]. f_equal. apply IH. intros y Hy. apply N. now right. }
      rewrite F. clear - Hv. induction (skeleton eqb h1) as [|a l IH]; [destruct Hv|]. cbn [app]. destruct Hv as [->|Hv]; [|apply sub_skip; now apply IH]. apply sub_keep. clear. induction l; [apply subseq_refl'|now constructor].
  Qed.
End Skel.

(** One subcomplex of a complex. *)
Section Sub.
  Context {T : Type} (eqb : T -> T -> bool) (big small : list (list T)).
  Hypothesis He : forall x y, eqb x y = true <-> x = y.
  Hypothesis SC : forall k c, is_cell eqb small k c -> is_cell eqb big k c.
  Variables bmK bmL : list (mat Z * list (simplex T)).
  Hypothesis LK : forall k, lists_cells eqb big k (lab bmK k).
  Hypothesis LL : forall k, lists_cells eqb small k (lab bmL k).
  Hypothesis FK : forall k i j t s, nth_error (lab bmK k) i = Some t -> nth_error (lab bmK (S k)) j = Some s -> face_sign t s (en bmK k i j).
  Hypothesis FL : forall k i j t s, nth_error (lab bmL k) i = Some t -> nth_error (lab bmL (S k)) j = Some s -> face_sign t s (en bmL k i j).
  Set Default Proof Using "All".
  Notation lpos := (pos (leqb eqb)).
  Definition sio (k j : nat) : nat := lpos (nth j (lab bmL k) []) (lab bmK k).
  Definition sinv (k i : nat) : nat := lpos (nth i (lab bmK k) []) (lab bmL k).
  Definition sin (k i : nat) : bool := existsb (leqb eqb (nth i (lab bmK k) [])) (lab bmL k).
  Lemma s_at_L k j : j < cnt_ bmL k -> exists c, nth_error (lab bmL k) j = Some c /\ is_cell eqb small k c.
  Proof. rewrite <- lab_length. intros H. destruct (nth_error (lab bmL k) j) as [c|] eqn:E; [|apply nth_error_None in E; lia]. exists c. split; [reflexivity|]. apply LL. eapply nth_error_In, E. Qed.
  Lemma s_at_K k j : j < cnt_ bmK k -> exists c, nth_error (lab bmK k) j = Some c /\ is_cell eqb big k c.
  Proof. rewrite <- lab_length. intros H. destruct (nth_error (lab bmK k) j) as [c|] eqn:E; [|apply nth_error_None in E; lia]. exists c. split; [reflexivity|]. apply LK. eapply nth_error_In, E. Qed.
  Lemma s_find l c : NoDup l -> In c l -> nth_error l (lpos c l) = Some c.
  Proof. intros ND H. apply In_nth_error in H. destruct H as (i & E). now rewrite (pos_nth (leqb eqb) (leqb_iff eqb He) c l i ND E). Qed.
  Lemma s_io k j c : nth_error (lab bmL k) j = Some c -> nth_error (lab bmK k) (sio k j) = Some c.
  Proof. intros E. unfold sio. rewrite (nth_error_nth _ _ _ E). apply s_find; [apply LK|]. apply LK, SC, LL. eapply nth_error_In, E. Qed.
  Lemma s_lt (bm : list (mat Z * list (simplex T))) k j c : nth_error (lab bm k) j = Some c -> j < cnt_ bm k.
  Proof. intros E. rewrite <- lab_length. apply nth_error_Some. congruence. Qed.
  Lemma sio_lt k j : j < cnt_ bmL k -> sio k j < cnt_ bmK k.
  Proof. intros H. destruct (s_at_L k j H) as (c & E & _). exact (s_lt bmK k _ c (s_io _ _ _ E)). Qed.
  Lemma sin_iff k i c : nth_error (lab bmK k) i = Some c -> (sin k i = true <-> is_cell eqb small k c).
  Proof.
    intros E. unfold sin. rewrite (nth_error_nth _ _ _ E), existsb_exists, <- (proj2 (LL k) c). split; [intros (d & H & Q); apply (leqb_iff eqb He) in Q; now subst|intros H; exists c; split; [exact H|now apply leqb_iff]].
  Qed.
  Lemma sinv_io k j : j < cnt_ bmL k -> sinv k (sio k j) = j.
  Proof. intros H. destruct (s_at_L k j H) as (c & E & _). unfold sinv. rewrite (nth_error_nth _ _ _ (s_io _ _ _ E)). apply (pos_nth (leqb eqb) (leqb_iff eqb He)); [apply LL|exact E]. Qed.
  Lemma sio_inv k i : i < cnt_ bmK k -> sin k i = true -> sinv k i < cnt_ bmL k /\ sio k (sinv k i) = i.
  Proof.
    intros Hi E. destruct (s_at_K k i Hi) as (c & Ec & _). apply (sin_iff k i c Ec), (LL k) in E. unfold sinv. rewrite (nth_error_nth _ _ _ Ec). pose proof (s_find _ _ (proj1 (LL k)) E) as F.
    split; [exact (s_lt bmL k _ _ F)|]. unfold sio. rewrite (nth_error_nth _ _ _ F). apply (pos_nth (leqb eqb) (leqb_iff eqb He)); [apply LK|exact Ec].
  Qed.
  Lemma sin_io k j : j < cnt_ bmL k -> sin k (sio k j) = true.
  Proof. intros H. destruct (s_at_L k j H) as (c & E & C). now apply (sin_iff k _ c (s_io _ _ _ E)). Qed.
  Lemma s_ent k i j : i < cnt_ bmL k -> j < cnt_ bmL (S k) -> en bmL k i j = en bmK k (sio k i) (sio (S k) j).
  Proof.
    intros Hi Hj. destruct (s_at_L k i Hi) as (t & Et & Ct). destruct (s_at_L (S k) j Hj) as (s & Es & Cs).
    apply (fs_fun eqb (skeleton eqb small) t s); [exact He|now apply skeleton_spec|apply Cs|apply Ct|now apply FL|]. apply FK; now apply s_io.
  Qed.
  Lemma removed_sub {A} i (s V : list A) : i < length s -> subseq s V -> subseq (removed i s) V.
  Proof.
    intros Hi H. unfold removed. destruct (skipn i s) as [|a r] eqn:E; [apply (f_equal (@length A)) in E; rewrite skipn_length in E; cbn in E; lia|].
    assert (Q : skipn (S i) s = r). { clear - E. revert s E. induction i as [|i IH]; intros [|b s] E; cbn in E |- *; try discriminate; [now injection E as _ ->|]. now apply IH. }
    rewrite Q. apply (subseq_app_remove _ a). rewrite <- E, firstn_skipn. exact H.
  Qed.
  Lemma s_zero k i j : i < cnt_ bmK k -> j < cnt_ bmL (S k) -> (forall i1, i1 < cnt_ bmL k -> sio k i1 <> i) -> en bmK k i (sio (S k) j) = 0%Z.
  Proof.
    intros Hi Hj N. destruct (s_at_K k i Hi) as (t & Et & Ct). destruct (s_at_L (S k) j Hj) as (s & Es & Cs).
    destruct (FK k i (sio (S k) j) t s Et (s_io _ _ _ Es)) as [(l & Hl & E & _)|(_ & E)]; [|exact E]. exfalso.
    assert (C : is_cell eqb small k t). { destruct Cs as (S1 & L1 & s0 & H0 & I). split; [rewrite <- E; now apply removed_sub|]. split; [apply Ct|]. exists s0. split; [exact H0|]. intros y Hy. apply I. rewrite <- E in Hy. unfold removed in Hy. apply in_app_iff in Hy. destruct Hy as [Hy|Hy]; [rewrite <- (firstn_skipn l s); apply in_or_app; now left|rewrite <- (firstn_skipn (S l) s); apply in_or_app; now right]. }
    apply (sin_iff k i t Et) in C. destruct (sio_inv k i Hi C) as [A B]. exact (N _ A B).
  Qed.
  Lemma s_aug j : j < cnt_ bmL 1 -> sum (cnt_ bmL 0) (fun i => en bmL 0 i j) = 0%Z.
  Proof.
    intros Hj. destruct (s_at_L 1 j Hj) as (s & Es & Cs). destruct Cs as (S1 & L1 & s0 & H0 & I). destruct s as [|a [|b [|]]]; cbn in L1; try lia.
    assert (ND : NoDup [a; b]) by (apply (subseq_NoDup _ _ S1); now apply skeleton_spec). assert (NE : a <> b) by (inversion ND as [|? ? N _]; subst; intros ->; apply N; now left).
    assert (V : forall x, In x [a; b] -> nth_error (lab bmL 0) (lpos [x] (lab bmL 0)) = Some [x]).
    { intros x Hx. apply s_find; [apply LL|]. apply LL. split; [|split; [reflexivity|exists s0; split; [exact H0|]; intros y [<-|[]]; now apply I]].
      apply (subseq_trans _ [a; b]); [|exact S1]. destruct Hx as [<-|[<-|[]]]; [apply sub_keep, sub_skip, sub_nil|apply sub_skip, sub_keep, sub_nil]. }
    pose proof (V a ltac:(cbn; tauto)) as Ea. pose proof (V b ltac:(cbn; tauto)) as Eb. set (ia := lpos [a] (lab bmL 0)) in *. set (ib := lpos [b] (lab bmL 0)) in *.
    assert (NI : ia <> ib) by (intros Q; rewrite Q, Eb in Ea; injection Ea as ->; now apply NE).
    assert (Va : en bmL 0 ia j = 1%Z). { destruct (FL 0 ia j _ _ Ea Es) as [([|[|l]] & Hl & E & Q)|(N & _)]; [cbn in E; injection E as ->; now destruct NE|exact Q|cbn in Hl; lia|]. exfalso. exact (N 1 ltac:(cbn; lia) eq_refl). }
    assert (Vb : en bmL 0 ib j = (-1)%Z). { destruct (FL 0 ib j _ _ Eb Es) as [([|[|l]] & Hl & E & Q)|(N & _)]; [exact Q|cbn in E; injection E as ->; now destruct NE|cbn in Hl; lia|]. exfalso. exact (N 0 ltac:(cbn; lia) eq_refl). }
    rewrite (zsum_ext _ _ (fun i => (if (i =? ia)%nat then 1 else 0) + (if (i =? ib)%nat then -1 else 0)))%Z.
    - rewrite zsum_add, (zsum_one _ _ ia), (zsum_one _ _ ib); [now rewrite !Nat.eqb_refl|exact (s_lt bmL 0 _ _ Eb)|intros i _ N; now replace (i =? ib)%nat with false by lia|exact (s_lt bmL 0 _ _ Ea)|intros i _ N; now replace (i =? ia)%nat with false by lia].
    - intros i Hi. destruct (i =? ia)%nat eqn:Q; [apply Nat.eqb_eq in Q; subst i; replace (ia =? ib)%nat with false by lia; now rewrite Va|]. destruct (i =? ib)%nat eqn:Q'; [apply Nat.eqb_eq in Q'; subst i; now rewrite Vb|].
      destruct (s_at_L 0 i Hi) as (t & Et & _). destruct (FL 0 i j _ _ Et Es) as [([|[|l]] & Hl & E & _)|(_ & E)]; [| |cbn in Hl; lia|exact E]; cbn in E; subst t; exfalso.
      + assert (i = ib); [|lia]. apply (proj1 (NoDup_nth_error _) (proj1 (LL 0))); [apply nth_error_Some; congruence|congruence].
      + assert (i = ia); [|lia]. apply (proj1 (NoDup_nth_error _) (proj1 (LL 0))); [apply nth_error_Some; congruence|congruence].
  Qed.
End Sub.

(** The union. *)
Section Two.
  Context {T : Type} (eqb : T -> T -> bool) (h1 h2 : list (list T)).
  Hypothesis He : forall x y, eqb x y = true <-> x = y.
  Hypothesis SH : share_at_most_one h1 h2.
  Hypothesis OR : subseq (skeleton eqb h2) (skeleton eqb (h1 ++ h2)).
  Variables bm bm1 bm2 : list (mat Z * list (simplex T)).
  Notation big := (h1 ++ h2).
  Hypothesis LK : forall k, lists_cells eqb big k (lab bm k).
  Hypothesis L1 : forall k, lists_cells eqb h1 k (lab bm1 k).
  Hypothesis L2 : forall k, lists_cells eqb h2 k (lab bm2 k).
  Hypothesis FK : forall k i j t s, nth_error (lab bm k) i = Some t -> nth_error (lab bm (S k)) j = Some s -> face_sign t s (en bm k i j).
  Hypothesis F1 : forall k i j t s, nth_error (lab bm1 k) i = Some t -> nth_error (lab bm1 (S k)) j = Some s -> face_sign t s (en bm1 k i j).
  Hypothesis F2 : forall k i j t s, nth_error (lab bm2 k) i = Some t -> nth_error (lab bm2 (S k)) j = Some s -> face_sign t s (en bm2 k i j).
  Set Default Proof Using "All".
  Lemma two_nodup h : NoDup (skeleton eqb h). Proof. now apply skeleton_spec. Qed.
  Lemma cell1 k c : is_cell eqb h1 k c -> is_cell eqb big k c.
  Proof. intros (A & B & s & Hs & I). destruct (skeleton_app eqb h1 h2) as (R & E). split; [rewrite E; now apply sub_app_l|]. split; [exact B|]. exists s. split; [apply in_or_app; now left|exact I]. Qed.
  Lemma cell2 k c : is_cell eqb h2 k c -> is_cell eqb big k c.
  Proof. intros (A & B & s & Hs & I). split; [now apply subseq_trans with (skeleton eqb h2)|]. split; [exact B|]. exists s. split; [apply in_or_app; now right|exact I]. Qed.
  Lemma cell_cases k c : is_cell eqb big k c -> is_cell eqb h1 k c \/ is_cell eqb h2 k c.
  Proof.
    intros (A & B & s & Hs & I). apply in_app_iff in Hs. assert (S1 : subseq (skeleton eqb h1) (skeleton eqb big)) by (destruct (skeleton_app eqb h1 h2) as (R & ->); apply sub_app_l, subseq_refl').
    destruct Hs as [Hs|Hs]; [left|right]; (split; [|split; [exact B|now exists s]]); (apply (sub_through eqb He _ _ (skeleton eqb big)); [apply two_nodup|exact A|assumption|]); intros y Hy; apply (skeleton_spec eqb _ He); exists s; split; auto.
  Qed.
  Lemma both_cell k c : is_cell eqb h1 k c -> is_cell eqb h2 k c -> exists v, c = [v] /\ vertex_of h1 v /\ vertex_of h2 v.
  Proof.
    intros (A & B & s & Hs & I) (_ & _ & s2 & Hs2 & I2). assert (V : forall x, In x c -> vertex_of h1 x /\ vertex_of h2 x) by (intros x Hx; split; [exists s|exists s2]; auto).
    destruct c as [|a [|b c]]; [discriminate B| |].
    - exists a. split; [reflexivity|]. apply V. now left.
    - exfalso. pose proof (subseq_NoDup _ _ A (two_nodup h1)) as ND. inversion ND as [|? ? N _]; subst. apply N. left. destruct (V a ltac:(now left)), (V b ltac:(right; now left)). symmetry. now apply SH.
  Qed.
  Notation io1 := (sio eqb bm bm1). Notation io2 := (sio eqb bm bm2). Notation side := (sin eqb bm bm1).
  Lemma two_side_f k i : i < cnt_ bm k -> side k i = false -> sinv eqb bm bm2 k i < cnt_ bm2 k /\ io2 k (sinv eqb bm bm2 k i) = i.
  Proof.
    intros Hi E. apply (sio_inv eqb big h2 He cell2 bm bm2 LK L2 FK F2); [exact Hi|]. destruct (s_at_K eqb big h1 He cell1 bm bm1 LK L1 FK F1 k i Hi) as (c & Ec & C). apply (sin_iff eqb big h2 He cell2 bm bm2 LK L2 FK F2 k i c Ec).
    destruct (cell_cases k c C) as [K|K]; [|exact K]. apply (sin_iff eqb big h1 He cell1 bm bm1 LK L1 FK F1 k i c Ec) in K. congruence.
  Qed.
  Lemma two_common k j : j < cnt_ bm2 k -> side k (io2 k j) = true -> exists v, nth_error (lab bm2 k) j = Some [v] /\ vertex_of h1 v /\ vertex_of h2 v /\ k = 0.
  Proof.
    intros Hj E. destruct (s_at_L eqb big h2 He cell2 bm bm2 LK L2 FK F2 k j Hj) as (c & Ec & C). pose proof (s_io eqb big h2 He cell2 bm bm2 LK L2 FK F2 k j c Ec) as Ei. apply (sin_iff eqb big h1 He cell1 bm bm1 LK L1 FK F1 k _ c Ei) in E.
    destruct (both_cell k c E C) as (v & -> & A & B). exists v. split; [exact Ec|]. split; [exact A|]. split; [exact B|]. destruct C as (_ & L & _). cbn in L. lia.
  Qed.
  Theorem two_quotient k ms1 ms2 : 0 < k \/ disjoint h1 h2 -> quotient_is (cycl (en bm1) (cnt_ bm1) k) (bndl (en bm1) (cnt_ bm1) k) ms1 -> quotient_is (cycl (en bm2) (cnt_ bm2) k) (bndl (en bm2) (cnt_ bm2) k) ms2 ->
    quotient_is (cycl (en bm) (cnt_ bm) k) (bndl (en bm) (cnt_ bm) k) (ms1 ++ ms2).
  Proof.
    intros HK. apply (union_quotient (cnt_ bm) (cnt_ bm1) (cnt_ bm2) (en bm) (en bm1) (en bm2) io1 io2 (sinv eqb bm bm1) (sinv eqb bm bm2) side).
    - apply (sio_lt eqb big h1 He cell1 bm bm1 LK L1 FK F1).
    - apply (sio_lt eqb big h2 He cell2 bm bm2 LK L2 FK F2).
    - apply (sio_inv eqb big h1 He cell1 bm bm1 LK L1 FK F1).
    - apply two_side_f.
    - intros k0 j Hj. split; [now apply (sin_io eqb big h1 He cell1 bm bm1 LK L1 FK F1)|now apply (sinv_io eqb big h1 He cell1 bm bm1 LK L1 FK F1)].
    - apply (sinv_io eqb big h2 He cell2 bm bm2 LK L2 FK F2).
    - intros k0 j H0 Hj. destruct (side k0 (io2 k0 j)) eqn:E; [|reflexivity]. destruct (two_common k0 j Hj E) as (_ & _ & _ & _ & ->). lia.
    - intros j j' Hj Hj' E E'. destruct (two_common 0 j Hj E) as (v & Ev & A & B & _). destruct (two_common 0 j' Hj' E') as (v' & Ev' & A' & B' & _). rewrite (SH v v' A B A' B') in Ev.
      apply (proj1 (NoDup_nth_error _) (proj1 (L2 0))); [apply nth_error_Some; congruence|congruence].
    - apply (s_ent eqb big h1 He cell1 bm bm1 LK L1 FK F1).
    - apply (s_ent eqb big h2 He cell2 bm bm2 LK L2 FK F2).
    - apply (s_zero eqb big h1 He cell1 bm bm1 LK L1 FK F1).
    - apply (s_zero eqb big h2 He cell2 bm bm2 LK L2 FK F2).
    - apply (s_aug eqb big h2 He cell2 bm bm2 LK L2 FK F2).
    - intros j Hj. destruct (side k (io2 k j)) eqn:E; [|reflexivity]. destruct (two_common k j Hj E) as (v & _ & A & B & ->). exfalso. destruct HK as [HK|HK]; [lia|exact (HK v A B)].
  Qed.
End Two.
