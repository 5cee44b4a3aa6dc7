(** Edge paths of configurations. *)
From Coq Require Import List Arith ZArith Bool Lia Sorted Permutation.
From Verif Require Import PidModel SnfModel MatModel LinModel GraphModel GraphSpec GraphProofs GraphProofs7
  EdgePathModel EdgePathSpec EdgePathProofs EdgePathProofs2 EdgePathProofs3 EdgePathProofs4 EdgePathProofs5 EdgePathProps
  CubeModel CubeSpec CubeProofs MorseModel MorseSpec MorseProofs MorseProofs2.
Import ListNotations.
Open Scope nat_scope.

Lemma filterM_filter {A} (p : A -> option bool) (q : A -> bool) l : (forall x, In x l -> p x = Some (q x)) -> filterM p l = Some (filter q l).
Proof. induction l as [|x t IH]; intros H; cbn; [reflexivity|]. rewrite H by now left. cbn. rewrite IH by (intros; apply H; now right). reflexivity. Qed.
Lemma f_min_fold l : forall b, exists x, fold_left f_min l (Some b) = Some x /\ (x = b \/ In x l).
Proof.
  induction l as [|y t IH]; intros b; cbn; [eauto|]. destruct (f_cmp (snd b) (snd y)).
  - destruct (IH b) as (x & E & [->|H]); [exists b|exists x]; auto.
  - destruct (IH b) as (x & E & [->|H]); [exists b|exists x]; auto.
  - destruct (IH y) as (x & E & [->|H]); [exists y|exists x]; auto.
Qed.
Lemma combine_seq {A} (l : list A) : forall k i x, In (i, x) (combine (seq k (length l)) l) <-> k <= i /\ nth_error l (i - k) = Some x.
Proof.
  induction l as [|y t IH]; intros k i x; cbn [length seq combine In]; [split; [intros []|intros [_ H]; now destruct (i - k)]|]. rewrite IH. split.
  - intros [E|[L H]]; [injection E as <- <-; rewrite Nat.sub_diag; auto|]. split; [lia|]. replace (i - k) with (S (i - S k)) by lia. exact H.
  - intros [L H]. destruct (Nat.eq_dec i k) as [->|N]; [left; rewrite Nat.sub_diag in H; cbn in H; congruence|right]. split; [lia|].
    replace (i - k) with (S (i - S k)) in H by lia. exact H.
Qed.
(** A trivial word returns every point. *)
Lemma moves_trivial q c c' : NoDup c -> homotopic q [] -> moves c q c' -> c' = c.
Proof.
  intros D H M. apply NF_nil in H. pose proof (moves_act q [] c c' D M) as K. unfold NF in H. rewrite H in K. cbn in K. inversion K. reflexivity.
Qed.
Lemma concat_singles {A} (w : list A) : concat (map (fun e => [e]) w) = w.
Proof. induction w as [|x t IH]; cbn; congruence. Qed.
Lemma backwards_app u v : backwards (u ++ v) = backwards v ++ backwards u.
Proof. unfold backwards. now rewrite map_app, rev_app_distr. Qed.
Lemma backwards_invol w : backwards (backwards w) = w.
Proof. unfold backwards. rewrite map_rev, rev_involutive, map_map. rewrite <- (map_id w) at 2. apply map_ext. intros []; reflexivity. Qed.
Lemma reverse_in e w : In e (backwards w) -> In (reverse e) w.
Proof. unfold backwards. intros H. apply in_rev, in_map_iff in H as (f & <- & H). destruct f; exact H. Qed.

Section G.
Variable g : rawg.
Hypothesis HA : AR g.

Lemma smallest_unblocked_spec l : ok g l ->
  (smallest_unblocked g (V l) = Some None /\ forall v, In v l -> blocked g (V l) v) \/
  (exists i u, smallest_unblocked g (V l) = Some (Some (i, FVertex u)) /\ nth_error l i = Some u /\ ~ blocked g (V l) u).
Proof.
  intros [ND HL]. unfold smallest_unblocked.
  set (q := fun x : nat * factor => match is_blocked g (V l) (snd x) with Some b => negb b | None => false end).
  rewrite (filterM_filter _ q).
  2:{ intros (i & f) H. apply combine_seq in H as (_ & H). apply nth_V in H as (v & -> & H). apply nth_error_In in H. destruct (is_blocked_spec g HA (V l) v (HL v H)) as (b & E & _). unfold q. cbn [snd]. rewrite E. reflexivity. }
  cbn [obind]. destruct (filter q (combine (seq 0 (length (V l))) (V l))) as [|x t] eqn:E.
  - left. split; [reflexivity|]. intros v Hv. destruct (blocked_dec g HA (V l) v (HL v Hv)) as [B|B]; [exact B|]. exfalso.
    apply In_nth_error in Hv as (i & Hi). assert (In (i, FVertex v) (filter q (combine (seq 0 (length (V l))) (V l)))) as K; [|rewrite E in K; exact K].
    apply filter_In. split; [apply combine_seq; split; [lia|rewrite Nat.sub_0_r; apply nth_V; eauto]|]. unfold q. cbn [snd].
    destruct (is_blocked_spec g HA (V l) v (HL v (nth_error_In _ _ Hi))) as (b & E' & Hb). rewrite E'. destruct b; [exfalso; now apply B, Hb|reflexivity].
  - right. destruct (f_min_fold t x) as (y & Ey & Hy).
    assert (In y (filter q (combine (seq 0 (length (V l))) (V l)))) as K by (rewrite E; destruct Hy as [->|Hy]; [now left|now right]).
    apply filter_In in K as (K1 & K2). destruct y as (i & f). apply combine_seq in K1 as (_ & K1). rewrite Nat.sub_0_r in K1. apply nth_V in K1 as (u & -> & Hi).
    exists i, u. split; [cbn [fold_left f_min]; rewrite Ey; reflexivity|]. split; [exact Hi|]. unfold q in K2. cbn [snd] in K2.
    destruct (is_blocked_spec g HA (V l) u (HL u (nth_error_In _ _ Hi))) as (b & E' & Hb). rewrite E' in K2. destruct b; [discriminate K2|]. intros B. apply Hb in B. discriminate B.
Qed.

Lemma edge_path_rec_spec : forall s l, list_sum l = s -> ok g l -> exists w l', moves l w l' /\ inwards g w /\ ok g l' /\ (forall v, In v l' -> blocked g (V l') v) /\
  forall fuel fw p, s < fuel -> edge_path_rec fuel g fw (V l) p = Some (V l', if fw then p ++ w else backwards w ++ p).
Proof.
  induction s as [s IH] using lt_wf_ind. intros l Es HO. destruct (smallest_unblocked_spec l HO) as [(E & Hb)|(i & u & E & Hi & Nb)].
  - exists [], l. split; [constructor|]. split; [intros a b []|]. split; [exact HO|]. split; [exact Hb|]. intros [|fuel] fw p Hf; [lia|]. cbn [edge_path_rec]. rewrite E. cbn. rewrite app_nil_r. now destruct fw.
  - pose proof (nth_error_In _ _ Hi) as Hu. assert (u <> 0) as N0 by (intros ->; apply Nb; now left). destruct (has_parent g HA u) as (w & C); [lia|now apply HO|].
    assert (Nw : ~ In w l) by (intros K; apply Nb; now apply (blocked_V g HA l u w C)). destruct (move_ok g HA l i u w HO Hi C Nw) as (O' & Len & Sum & M1).
    destruct (IH (list_sum (lset l i w)) ltac:(lia) (lset l i w) eq_refl O') as (ww & l' & M & I & O2 & B & F).
    exists ((u, w) :: ww), l'. split; [econstructor; eassumption|]. split; [intros a b [K|K]; [injection K as <- <-; now apply te_child|now apply I]|]. split; [exact O2|]. split; [exact B|].
    intros [|fuel] fw p Hf; [lia|]. cbn [edge_path_rec]. rewrite E. cbn [obind]. rewrite (f_flow_child g HA w u C). cbn [obind terminal f_edge fst snd f_vertex]. rewrite lset_V. rewrite F by lia.
    f_equal. f_equal. destruct fw; [now rewrite <- app_assoc|]. unfold backwards. cbn [map rev reverse fst snd]. now rewrite <- app_assoc.
Qed.

Lemma inwards_sum : forall w l l', inwards g w -> moves l w l' -> list_sum l' + length w <= list_sum l.
Proof.
  intros w l l' I M. revert I. induction M as [c|c c1 c2 e w H1 H2 IH]; intros I; [cbn; lia|]. destruct H1 as [a r x y N]. assert (tree_edge g y x) as T by (apply I; now left).
  apply te_child in T; [|exact HA]. destruct (child_lt g HA y x T) as (L & _). specialize (IH (fun u v K => I u v (or_intror K))). rewrite !list_sum_app in *. cbn in *. lia.
Qed.
Lemma inwards_app u v : inwards g (u ++ v) -> inwards g u /\ inwards g v.
Proof. intros H. split; intros a b K; apply H, in_app_iff; auto. Qed.

(** Words that first leave a settled configuration, make one move, and settle again are never trivial before their end. *)
Lemma settle_no_prefix w1 l1 c1 e c2 w2 l2 : ok g c1 -> inwards g w1 -> moves c1 w1 l1 -> (forall v, In v l1 -> blocked g (V l1) v) ->
  moves1 c1 e c2 -> inwards g w2 -> moves c2 w2 l2 ->
  ~ exists q x r, backwards w1 ++ e :: w2 = q ++ x :: r /\ q <> [] /\ homotopic q [].
Proof.
  intros O1 I1 M1 B1 Me I2 M2 (q & x & r & E & Nq & H).
  assert (D1 : NoDup l1) by (eapply moves_NoDup; [exact M1|apply O1]).
  assert (MW : moves l1 (q ++ x :: r) l2). { rewrite <- E. apply moves_app. exists c1. split; [apply moves_backwards; [exact M1|apply O1]|]. econstructor; eassumption. }
  apply moves_app in MW as (d & Mq & Mx). pose proof (moves_trivial q l1 d D1 H Mq) as ->.
  destruct (Nat.le_gt_cases (length (backwards w1)) (length q)) as [L|L].
  - (* past the first part *)
    destruct (Nat.eq_dec (length q) (length (backwards w1))) as [EL|NL].
    + assert (q = backwards w1 /\ x :: r = e :: w2) as [-> Ex].
      { clear - E EL. revert E EL. generalize (backwards w1). induction q as [|a q IH]; intros [|b l] E EL; cbn in *; try lia; [auto|]. injection E as -> E. destruct (IH l E ltac:(lia)) as [-> ->]. auto. }
      (* the backwards word alone is trivial *)
      assert (Ml : moves c1 w1 l1) by exact M1. pose proof (moves_backwards _ _ _ M1 (proj1 O1)) as Mb.
      pose proof (moves_trivial _ _ _ D1 H Mb) as K. subst c1. pose proof (inwards_sum _ _ _ I1 M1) as K2. destruct w1; [now apply Nq|cbn in K2; lia].
    + assert (exists v, q = backwards w1 ++ e :: v /\ w2 = v ++ x :: r) as (v & -> & ->).
      { assert (LL : length (backwards w1) < length q) by lia. clear - E LL. revert q E LL. generalize (backwards w1). induction l as [|b l IH]; intros q E LL.
        - destruct q as [|a q]; cbn in *; [lia|]. injection E as -> ->. eauto.
        - destruct q as [|a q]; cbn in *; [lia|]. injection E as -> E. destruct (IH q E ltac:(lia)) as (v & -> & ->). eauto. }
      inversion Mx as [|? d1 ? ? ? X1 X2]; subst. destruct X1 as [a b u y Ny]. assert (tree_edge g y u) as T by (apply I2, in_app_iff; right; now left). apply te_child in T; [|exact HA].
      apply Ny, (blocked_V g HA _ u y T), B1. apply in_app_iff. right. now left.
  - assert (exists v, backwards w1 = q ++ v) as (v & Ev).
    { clear - E L. revert q E L. generalize (backwards w1). induction l as [|b l IH]; intros q E L; [cbn in L; lia|]. destruct q as [|a q]; [exists (b :: l); reflexivity|]. cbn in *. injection E as -> E.
      destruct (IH q E ltac:(lia)) as (v & ->). now exists v. }
    assert (Ew : w1 = backwards v ++ backwards q) by (rewrite <- backwards_app, <- Ev; symmetry; apply backwards_invol).
    rewrite Ew in M1, I1. apply moves_app in M1 as (d & Ma & Mb). apply inwards_app in I1 as (_ & Iq).
    assert (Dd : NoDup d) by (eapply moves_NoDup; [exact Ma|apply O1]). pose proof (moves_backwards _ _ _ Mb Dd) as Mb2. rewrite backwards_invol in Mb2.
    pose proof (moves_trivial _ _ _ D1 H Mb2) as ->. pose proof (inwards_sum _ _ _ Iq Mb) as K. unfold backwards in K. rewrite rev_length, map_length in K. destruct q; [now apply Nq|cbn in K; lia].
Qed.
Lemma inwards_no_prefix w l l' : ok g l -> inwards g w -> moves l w l' -> ~ exists q x r, w = q ++ x :: r /\ q <> [] /\ homotopic q [].
Proof.
  intros O I M (q & x & r & -> & Nq & H). apply moves_app in M as (d & Mq & _). pose proof (moves_trivial q l d (proj1 O) H Mq) as ->.
  apply inwards_app in I as (I & _). pose proof (inwards_sum _ _ _ I Mq). destruct q; [now apply Nq|cbn in *; lia].
Qed.
End G.
