(** Cube factors: disjointness, order, sorting, enumeration. *)
From Coq Require Import List Arith ZArith NArith Bool Lia ZifyBool ZifyNat ZifyN Permutation Sorted.
From Verif Require Import PidModel MatModel MatSpec MatProofs GraphModel GraphSpec SnfProofs2 SubdivProofs2 CubeModel CubeSpec.
Import ListNotations.
Open Scope nat_scope.

Lemma f_eqb_eq a b : f_eqb a b = true <-> a = b.
Proof. destruct a, b; cbn; try (split; discriminate); rewrite ?andb_true_iff, ?Nat.eqb_eq; split; [intros [-> ->]; reflexivity|intros [= -> ->]; auto|intros ->; reflexivity|intros [= ->]; auto]. Qed.
Lemma f_eqb_refl a : f_eqb a a = true.
Proof. now apply f_eqb_eq. Qed.
Lemma disj_iff a b : is_disjoint_from a b = true <-> disjoint a b.
Proof.
  unfold disjoint. destruct a as [w x|x], b as [y z|y]; cbn -[Nat.eqb]; rewrite ?andb_true_iff, ?negb_true_iff, ?Nat.eqb_neq; split.
  1,3,5,7: intros H v Hv Hv'; intuition congruence.
  1,2: intros H; pose proof (H w) as H1; pose proof (H x) as H2; repeat split; intros E; symmetry in E; intuition.
  all: intros H; pose proof (H x) as H1; repeat split; intros E; symmetry in E; intuition.
Qed.
Lemma disjoint_sym a b : disjoint a b -> disjoint b a.
Proof. unfold disjoint. intros H v A B. exact (H v B A). Qed.
Lemma in_verts_low a : In (low a) (verts a).
Proof. destruct a; cbn; auto. Qed.
Lemma disjoint_low a b : disjoint a b -> low a <> low b.
Proof. intros H E. apply (H (low a)); [apply in_verts_low|rewrite E; apply in_verts_low]. Qed.
Lemma disjoint_neq a b : disjoint a b -> a <> b.
Proof. intros H ->. exact (disjoint_low b b H eq_refl). Qed.
Lemma pcmp_disjoint a b : disjoint a b -> f_partial_cmp a b = Some (low a ?= low b).
Proof.
  intros H. unfold f_partial_cmp. destruct (f_eqb a b) eqn:E; [apply f_eqb_eq in E; now apply disjoint_neq in H|].
  rewrite (proj2 (disj_iff a b) H). cbn. now destruct a, b.
Qed.
Lemma f_lt_disjoint a b : disjoint a b -> f_lt a b = (low a <? low b).
Proof. intros H. unfold f_lt. rewrite (pcmp_disjoint a b H). destruct (Nat.compare_spec (low a) (low b)); lia. Qed.
Lemma f_gt_iff a b : f_gt a b = true <-> disjoint a b /\ low b < low a.
Proof.
  unfold f_gt. split.
  - intros H. assert (D : disjoint a b).
    { apply disj_iff. unfold f_partial_cmp in H. destruct (f_eqb a b); [discriminate|]. destruct (is_disjoint_from a b); [reflexivity|discriminate]. }
    split; [exact D|]. rewrite (pcmp_disjoint a b D) in H. destruct (Nat.compare_spec (low a) (low b)); [discriminate|discriminate|assumption].
  - intros [D H]. rewrite (pcmp_disjoint a b D). destruct (Nat.compare_spec (low a) (low b)); [lia|lia|reflexivity].
Qed.

Notation pd := (ForallOrdPairs disjoint).
Lemma pd_cons a l : pd (a :: l) <-> Forall (disjoint a) l /\ pd l.
Proof. split; [intros H; inversion H; auto|intros [A B]; now constructor]. Qed.
Lemma pd_perm l l' : Permutation l l' -> pd l -> pd l'.
Proof.
  induction 1 as [|x l l' P IH|x y l|l1 l2 l3 P1 IH1 P2 IH2]; auto.
  - rewrite !pd_cons. intros [A B]. split; [|auto]. rewrite Forall_forall in *. intros z Hz. apply A. now rewrite P.
  - rewrite !pd_cons. intros (A & B & C). inversion A; subst. repeat split; auto. constructor; auto. now apply disjoint_sym.
Qed.
Lemma pd_NoDup l : pd l -> NoDup l.
Proof. induction l as [|a l IH]; [constructor|]. rewrite pd_cons. intros [A B]. constructor; [|auto]. intros H. rewrite Forall_forall in A. exact (disjoint_neq _ _ (A a H) eq_refl). Qed.

Lemma f_insert_perm x l : Permutation (f_insert x l) (x :: l).
Proof. induction l as [|y t IH]; [reflexivity|]. cbn. destruct (f_lt y x); [|reflexivity]. rewrite IH. apply perm_swap. Qed.
Lemma f_sort_perm l : Permutation (f_sort l) l.
Proof. induction l as [|x l IH]; [reflexivity|]. cbn. rewrite f_insert_perm. now rewrite IH. Qed.
Lemma f_insert_listed x l : Forall (disjoint x) l -> listed l -> listed (f_insert x l).
Proof.
  unfold listed. induction l as [|y t IH]; intros D S; cbn; [constructor; constructor|]. inversion D as [|? ? D1 D2]; subst. inversion S as [|? ? S1 S2]; subst.
  rewrite (f_lt_disjoint y x (disjoint_sym _ _ D1)). pose proof (disjoint_low _ _ D1) as N. destruct (Nat.ltb_spec (low y) (low x)).
  - constructor; [now apply IH|]. apply (Permutation_Forall (Permutation_sym (f_insert_perm x t))). constructor; [assumption|assumption].
  - constructor; [exact S|]. constructor; [lia|]. eapply Forall_impl; [|exact S2]. cbn. intros. lia.
Qed.
Lemma f_sort_listed l : pd l -> listed (f_sort l).
Proof.
  induction l as [|x l IH]; [constructor|]. rewrite pd_cons. intros [A B]. cbn. apply f_insert_listed; [|auto].
  apply (Permutation_Forall (Permutation_sym (f_sort_perm l))). exact A.
Qed.
Lemma listed_unique l l' : listed l -> listed l' -> Permutation l l' -> l = l'.
Proof.
  unfold listed. revert l'. induction l as [|a l IH]; intros l' S S' P; [now apply Permutation_nil in P|].
  destruct l' as [|b l']; [symmetry in P; now apply Permutation_nil_cons in P|]. inversion S as [|? ? S1 S2]; subst. inversion S' as [|? ? S1' S2']; subst. rewrite Forall_forall in S2, S2'.
  assert (E : a = b).
  { assert (Ha : In a (b :: l')) by (rewrite <- P; now left). assert (Hb : In b (a :: l)) by (rewrite P; now left).
    destruct Ha as [Ha|Ha], Hb as [Hb|Hb]; try congruence. specialize (S2 _ Hb). specialize (S2' _ Ha). cbn in *. lia. }
  subst b. f_equal. apply IH; auto. eapply Permutation_cons_inv. exact P.
Qed.
Lemma f_sort_eq l l' : pd l -> Permutation l l' -> f_sort l = f_sort l'.
Proof.
  intros D P. apply listed_unique; [apply f_sort_listed; assumption|apply f_sort_listed; now apply (pd_perm l)|].
  now rewrite !f_sort_perm.
Qed.
Lemma f_sort_id l : pd l -> listed l -> f_sort l = l.
Proof. intros D S. apply listed_unique; [now apply f_sort_listed|assumption|apply f_sort_perm]. Qed.
Lemma f_sort_pd l : pd l -> pd (f_sort l).
Proof. intros D. apply (pd_perm l); [symmetry; apply f_sort_perm|exact D]. Qed.

Lemma dimension_perm l l' : Permutation l l' -> dimension l = dimension l'.
Proof. induction 1 as [|x l l' P IH|x y l|l1 l2 l3 P1 IH1 P2 IH2]; unfold dimension in *; cbn; [reflexivity|destruct x; cbn; lia|destruct x, y; cbn; lia|congruence]. Qed.
Lemma dimension_app l l' : dimension (l ++ l') = dimension l + dimension l'.
Proof. unfold dimension. now rewrite filter_app, app_length. Qed.
Lemma dimension_le l : dimension l <= length l.
Proof. unfold dimension. induction l as [|[x y|x] l IH]; cbn in *; lia. Qed.

Lemma app_inj_len {A} (l l' m m' : list A) : length l = length l' -> l ++ m = l' ++ m' -> l = l' /\ m = m'.
Proof. revert l'. induction l as [|a l IH]; intros [|b l'] L E; cbn in *; try discriminate; [auto|]. injection E as -> E. apply IH in E; [|lia]. destruct E as [-> ->]. auto. Qed.
(** The filters of [expand], as booleans. *)
Definition keepb (N r : nat) (f : factor) : bool :=
  match f with
  | FVertex v => v <? N - r
  | FEdge x y => negb (y - x =? 1) || (negb (x =? N - r) && negb (y =? N - r) && (x <? N - r))
  end.
Lemma keeps_keepb N r f : (match f with FEdge x y => x < y | FVertex _ => True end) -> keeps (FVertex (N - r)) f = Some (keepb N r f).
Proof.
  destruct f as [x y|v]; cbn [keepb]; unfold keeps, skips; cbn [is_edge].
  - intros H. unfold is_order_respecting. cbn [f_edge obind fst snd]. rewrite (proj2 (Nat.leb_le x y)) by lia. cbn [obind]. destruct (y - x =? 1); cbn [negb orb]; [|reflexivity].
    destruct (is_disjoint_from (FEdge x y) (FVertex (N - r))) eqn:D; cbn in D; rewrite D; cbn [andb]; [|reflexivity]. rewrite f_lt_disjoint; [reflexivity|]. apply disj_iff. exact D.
  - intros _. cbn [obind]. cbn [is_disjoint_from]. destruct (Nat.eqb_spec v (N - r)) as [->|Hn]; cbn [negb].
    + f_equal. lia.
    + rewrite f_lt_disjoint; [reflexivity|]. apply disj_iff. cbn. lia.
Qed.
Lemma filterM_filter {A} (f : A -> option bool) g l : (forall x, In x l -> f x = Some (g x)) -> filterM f l = Some (filter g l).
Proof.
  induction l as [|x l IH]; intros H; [reflexivity|]. cbn. rewrite (H x (or_introl eq_refl)). cbn. rewrite IH by (intros; apply H; now right). cbn. now destruct (g x).
Qed.

(** The enumeration of complete branches; a branch is the list of its factors, the last one first. *)
Section Enum.
  Variable N : nat.
  Variable fs : list factor.
  Definition next (r : nat) (p : list factor) : list factor :=
    filter (fun f => f_gt f (hd (FVertex 0) p)) (filter (fun f => forallb (fun x => is_disjoint_from x f) p) (filter (keepb N r) fs)).
  Fixpoint enum (r : nat) (p : list factor) : list (list factor) :=
    match r with O => [p] | S r => flat_map (fun f => enum r (f :: p)) (next r p) end.
  Definition tops (r : nat) : list factor := filter (keepb N r) fs.
  Definition all_branches (r : nat) : list (list factor) := flat_map (fun f => enum r [f]) (tops r).

  Lemma next_in r p f : In f (next r p) <-> In f fs /\ keepb N r f = true /\ Forall (disjoint f) p /\ (disjoint f (hd (FVertex 0) p) /\ low (hd (FVertex 0) p) < low f).
  Proof.
    unfold next. rewrite !filter_In, f_gt_iff, forallb_forall, Forall_forall.
    setoid_rewrite disj_iff. split; [intros [[[A B] C] D]|intros (A & B & C & D)]; repeat split; auto; try (apply D); intros x Hx; apply disjoint_sym; auto.
  Qed.
  (** Branches are listed in decreasing order. *)
  Definition branch_ok (p : list factor) : Prop := Forall (fun f => In f fs) p /\ pd p /\ listed (rev p).

  Lemma listed_snoc l a : listed (l ++ [a]) <-> listed l /\ Forall (fun b => low b < low a) l.
  Proof.
    unfold listed. induction l as [|b l IH]; cbn; [split; auto; intros; constructor; constructor|]. split.
    - intros H. inversion H as [|? ? H1 H2]; subst. apply IH in H1. destruct H1 as [H1 H3]. rewrite Forall_app in H2. destruct H2 as [H2 H4]. inversion H4; subst. split; constructor; auto.
    - intros [H1 H2]. inversion H1; subst. inversion H2; subst. constructor; [apply IH; auto|]. rewrite Forall_app. auto.
  Qed.
  Lemma branch_ok_cons f g p : branch_ok (f :: g :: p) <-> branch_ok (g :: p) /\ In f fs /\ Forall (disjoint f) (g :: p) /\ low g < low f.
  Proof.
    unfold branch_ok. cbn [rev]. rewrite !listed_snoc, pd_cons, Forall_cons_iff. rewrite Forall_app. split.
    - intros ((A & B) & (C & D) & (E & F)). destruct F as [F1 F2]. inversion F2; subst. repeat split; auto; apply E.
    - intros ((A & B & C) & D & E & F). repeat split; auto; [apply C|apply C|]. destruct C as [C1 C2]. eapply Forall_impl; [|exact C2]. cbn. intros. lia.
  Qed.
  Lemma branch_ok_one f : branch_ok [f] <-> In f fs.
  Proof. unfold branch_ok. cbn. split; [intros (A & _); now inversion A|]. intros H. repeat split; repeat constructor; auto. Qed.

  Lemma enum_shape r p q : In q (enum r p) -> exists l, length l = r /\ q = l ++ p.
  Proof.
    revert p. induction r as [|r IH]; cbn; intros p H; [destruct H as [<-|[]]; now exists []|].
    apply in_flat_map in H. destruct H as (f & Hf & H). apply IH in H. destruct H as (l & Hl & ->). exists (l ++ [f]). rewrite app_length. cbn. split; [lia|]. now rewrite <- app_assoc.
  Qed.
  (** Soundness. *)
  Lemma enum_ok r p q : p <> [] -> branch_ok p -> In q (enum r p) -> branch_ok q.
  Proof.
    revert p. induction r as [|r IH]; cbn [enum]; intros p Hp H Hq; [destruct Hq as [<-|[]]; exact H|].
    apply in_flat_map in Hq. destruct Hq as (f & Hf & Hq). apply (IH (f :: p)); [discriminate| |exact Hq]. apply next_in in Hf. destruct p as [|g p]; [congruence|]. cbn [hd] in Hf. apply branch_ok_cons. intuition.
  Qed.

  (** Pruning loses nothing: whatever can be completed is kept. *)
  Hypothesis fsN : forall f, In f fs -> match f with FVertex v => v < N | FEdge x y => x < y /\ y < N end.
  Lemma room l o : StronglySorted lt (o :: l) -> Forall (fun x => x < N) (o :: l) -> o + length l < N.
  Proof.
    revert o. induction l as [|a l IH]; intros o S F; cbn; [inversion F; lia|]. inversion S as [|? ? S1 S2]; subst. inversion F as [|? ? F1 F2]; subst. specialize (IH a S1 F2). inversion S2; subst. lia.
  Qed.
  Lemma keep_room f l : In f fs -> Forall (fun x => In x fs) l -> pd (f :: l) -> listed (f :: l) -> keepb N (length l) f = true.
  Proof.
    intros Hf Hl D HS. inversion HS as [|? ? S1 S2]; subst. apply pd_cons in D. destruct D as [D _].
    assert (SL : StronglySorted lt (map low l)). { clear - S1. induction S1; cbn; constructor; auto. rewrite Forall_map. assumption. }
    assert (FL : Forall (fun x => x < N) (map low l)). { rewrite Forall_map. rewrite Forall_forall in *. intros x Hx. specialize (fsN x (Hl x Hx)). destruct x; cbn; lia. }
    specialize (fsN f Hf). destruct f as [x y|v]; cbn [keepb].
    - destruct (Nat.eqb_spec (y - x) 1) as [E|E]; [|reflexivity]. cbn [negb orb]. assert (y = S x) by lia. subst y.
      assert (K : S x + length (map low l) < N).
      { apply room; [|constructor; [lia|exact FL]]. constructor; [exact SL|]. rewrite Forall_map, Forall_forall in *. intros z Hz. specialize (S2 z Hz). cbn in S2. specialize (D z Hz). assert (S x <> low z); [|lia]. intros E2. apply (D (S x)); [cbn; auto|rewrite E2; apply in_verts_low]. }
      rewrite map_length in K. lia.
    - assert (K : v + length (map low l) < N).
      { apply room; [|constructor; [lia|exact FL]]. constructor; [exact SL|]. rewrite Forall_map. exact S2. }
      rewrite map_length in K. lia.
  Qed.
  Lemma pd_app_r l l' : pd (l ++ l') -> pd l'.
  Proof. induction l as [|a l IH]; [auto|]. cbn. rewrite pd_cons. tauto. Qed.
  Lemma listed_app_r l l' : listed (l ++ l') -> listed l'.
  Proof. unfold listed. induction l as [|a l IH]; [auto|]. cbn. intros H. inversion H; auto. Qed.
  Lemma pd_rev l : pd l -> pd (rev l).
  Proof. apply pd_perm. apply Permutation_rev. Qed.

  Lemma enum_complete r p l : p <> [] -> length l = r -> branch_ok (l ++ p) -> In (l ++ p) (enum r p).
  Proof.
    revert p l. induction r as [|r IH]; intros p l Hp Hl H; [destruct l; [left; reflexivity|discriminate Hl]|].
    destruct (exists_last (l := l)) as (l' & f & ->); [intros ->; discriminate Hl|]. rewrite app_length in Hl. cbn in Hl.
    cbn [enum]. apply in_flat_map. exists f. rewrite <- app_assoc in *. cbn [app] in *. split; [|apply IH; [discriminate|lia|exact H]].
    destruct H as (A & B & C). destruct p as [|g p]; [congruence|]. rewrite rev_app_distr in C. cbn [rev] in C.
    rewrite Forall_app in A. destruct A as [A1 A2]. inversion A2 as [|? ? A3 A4]; subst.
    apply next_in. split; [exact A3|]. pose proof (pd_app_r _ _ B) as B2. rewrite pd_cons in B2. destruct B2 as [B2 B3]. split; [|split; [exact B2|]].
    - replace r with (length (rev l')) by (rewrite rev_length; lia). apply keep_room; [exact A3|now apply Forall_rev| |].
      + apply pd_rev in B. rewrite rev_app_distr in B. cbn in B. rewrite <- !app_assoc in B. apply pd_app_r in B. now apply (pd_app_r [g]) in B.
      + rewrite <- !app_assoc in C. apply listed_app_r in C. cbn in C. now apply (listed_app_r [g]) in C.
    - cbn [hd]. inversion B2; subst. split; [assumption|]. rewrite <- !app_assoc in C. apply listed_app_r in C. cbn in C. inversion C as [|? ? C1 C2]; subst. now inversion C2.
  Qed.
  Lemma all_branches_in r q : In q (all_branches r) <-> length q = S r /\ branch_ok q.
  Proof.
    unfold all_branches, tops. rewrite in_flat_map. split.
    - intros (f & Hf & Hq). apply filter_In in Hf. destruct Hf as [Hf _]. pose proof (enum_shape _ _ _ Hq) as (l & Hl & ->). rewrite app_length. cbn. split; [lia|]. apply (enum_ok r [f]); [discriminate|now apply branch_ok_one|exact Hq].
    - intros [L H]. destruct (exists_last (l := q)) as (l & f & ->); [intros ->; discriminate L|]. rewrite app_length in L. cbn in L. exists f. destruct H as (A & B & C). split.
      + apply filter_In. rewrite Forall_app in A. destruct A as [A1 A2]. inversion A2 as [|? ? A3 A4]; subst. split; [exact A3|]. replace r with (length (rev l)) by (rewrite rev_length; lia). rewrite rev_app_distr in C. cbn in C.
        apply keep_room; [exact A3|now apply Forall_rev| |exact C]. apply pd_rev in B. rewrite rev_app_distr in B. exact B.
      + apply enum_complete; [discriminate|lia|]. split; auto.
  Qed.
  Hypothesis fsND : NoDup fs.
  Lemma enum_NoDup r p : NoDup (enum r p).
  Proof.
    revert p. induction r as [|r IH]; cbn; intros p; [constructor; [auto|constructor]|]. apply NoDup_flat_map; [|intros; apply IH|].
    - unfold next. now apply NoDup_filter, NoDup_filter, NoDup_filter.
    - intros a b q Ha Hb Qa Qb. apply enum_shape in Qa, Qb. destruct Qa as (l & L & ->), Qb as (l' & L' & E). assert (K : l = l' /\ a :: p = b :: p); [|destruct K as [_ K]; congruence].
      apply app_inj_len; [congruence|exact E].
  Qed.
End Enum.
