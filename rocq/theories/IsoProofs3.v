(** Cells and signs of isomorphic simplicial complexes. *)
From Coq Require Import List Arith ZArith Bool Lia ZifyBool ZifyNat Sorted Permutation.
From Verif Require Import PidModel LinModel LinSpec MatModel MatSpec HomModel HomSpec SimpModel SimpSpec SimpProofs4 SimpProofs5 SimpProofs7 SimpProps CompProps IsoProofs IsoProofs2.
Import ListNotations.
Open Scope nat_scope.

(** ** Inversions *)
Definition cnt (p : nat -> bool) (l : list nat) : nat := length (filter p l).
Fixpoint inv (l : list nat) : nat := match l with [] => 0 | a :: t => cnt (fun b => b <? a) t + inv t end.
Lemma cnt_app p a b : cnt p (a ++ b) = cnt p a + cnt p b.
Proof. unfold cnt. now rewrite filter_app, app_length. Qed.
Lemma cnt_cons p x l : cnt p (x :: l) = (if p x then 1 else 0) + cnt p l.
Proof. unfold cnt. cbn. destruct (p x); reflexivity. Qed.
Lemma cnt_perm p a b : Permutation a b -> cnt p a = cnt p b.
Proof. induction 1; rewrite ?cnt_cons; try lia. Qed.
Lemma inv_split x B : forall A, inv (A ++ x :: B) = inv (A ++ B) + cnt (fun a => x <? a) A + cnt (fun b => b <? x) B.
Proof.
  induction A as [|a A IH]; cbn [app inv]. { unfold cnt at 2. cbn. lia. }
  rewrite IH, !cnt_app, !cnt_cons. lia.
Qed.
Lemma alt_add a b : alt (a + b) = (alt a * alt b)%Z.
Proof. unfold alt. rewrite Nat.even_add. destruct (Nat.even a), (Nat.even b); reflexivity. Qed.
Lemma alt_sq a : (alt a * alt a = 1)%Z. Proof. unfold alt. destruct (Nat.even a); reflexivity. Qed.
Lemma alt_2 a b : alt (a + b + b) = alt a.
Proof. rewrite !alt_add, <- Z.mul_assoc, alt_sq. lia. Qed.
Lemma cnt_split x A : ~ In x A -> cnt (fun a => a <? x) A + cnt (fun a => x <? a) A = length A.
Proof. induction A as [|a A IH]; intros H; [reflexivity|]. rewrite !cnt_cons. cbn [length]. assert (a <> x) by (intros ->; apply H; now left). rewrite <- IH by (intros K; apply H; now right). destruct (Nat.ltb_spec a x), (Nat.ltb_spec x a); lia. Qed.
Lemma sorted_split x B : forall A, StronglySorted lt (A ++ x :: B) -> cnt (fun a => a <? x) (A ++ x :: B) = length A.
Proof.
  induction A as [|a A IH]; cbn [app]; intros H; inversion H as [|? ? H1 H2]; subst; rewrite cnt_cons.
  - rewrite Nat.ltb_irrefl. cbn [length]. clear H H1. induction H2 as [|b B Hb HB IHB]; [reflexivity|]. rewrite cnt_cons. replace (b <? x) with false by lia. exact IHB.
  - rewrite IH by exact H1. rewrite Forall_forall in H2. specialize (H2 x ltac:(apply in_or_app; right; now left)). replace (a <? x) with true by lia. reflexivity.
Qed.
(** Deleting an element from a list and from its sorted version: the signs differ by the signs of the inversions. *)
Lemma sign_sort A x B A' B' : NoDup (A ++ x :: B) -> Permutation (A ++ x :: B) (A' ++ x :: B') -> StronglySorted lt (A' ++ x :: B') ->
  alt (length (A' ++ x :: B') - 1 - length A') = (alt (inv (A ++ B)) * alt (inv (A ++ x :: B)) * alt (length (A ++ x :: B) - 1 - length A))%Z.
Proof.
  intros ND HP HS. pose proof (sorted_split x B' A' HS) as E. rewrite <- (cnt_perm _ _ _ HP), cnt_app, cnt_cons, Nat.ltb_irrefl in E. pose proof (Permutation_length HP) as L. rewrite <- L.
  apply NoDup_remove in ND. destruct ND as [_ ND]. pose proof (cnt_split x A ltac:(intros K; apply ND, in_or_app; now left)) as SA.
  rewrite inv_split. set (l1 := cnt (fun a => a <? x) A) in *. set (g1 := cnt (fun a => x <? a) A) in *. set (l2 := cnt (fun a => a <? x) B) in *. set (w := inv (A ++ B)).
  assert (LL : length (A ++ x :: B) - 1 = length A + length B) by (rewrite app_length; cbn; lia). rewrite LL.
  assert (LB : l2 <= length B). { unfold l2. clear. induction B as [|b B IH]; [cbn; lia|]. rewrite cnt_cons. cbn [length]. destruct (b <? x); lia. }
  rewrite <- !alt_add. replace (length A + length B - length A') with (g1 + (length B - l2)) by lia.
  replace (w + (w + g1 + l2) + (length A + length B - length A)) with (g1 + (length B - l2) + l2 + l2 + w + w) by lia. now rewrite !alt_2.
Qed.

(** ** Positions *)
Lemma nth_error_ext_nat {A} : forall (l l' : list A), (forall k, nth_error l k = nth_error l' k) -> l = l'.
Proof. induction l as [|x l IH]; intros [|y l'] H; [reflexivity|discriminate (H 0)|discriminate (H 0)|]. pose proof (H 0) as H0. injection H0 as ->. f_equal. apply IH. intros k. exact (H (S k)). Qed.
Section Pos.
  Context {T : Type} (eqb : T -> T -> bool).
  Hypothesis He : forall x y, eqb x y = true <-> x = y.
  Fixpoint pos (x : T) (l : list T) : nat := match l with [] => 0 | a :: t => if eqb x a then 0 else S (pos x t) end.
  Lemma pos_nth x : forall l i, NoDup l -> nth_error l i = Some x -> pos x l = i.
  Proof using He.
    induction l as [|a l IH]; intros i ND E; [now destruct i|]. inversion ND as [|? ? N1 N2]; subst. destruct i as [|i]; cbn in E |- *.
    - injection E as ->. now rewrite (proj2 (He x x) eq_refl).
    - destruct (eqb x a) eqn:Q; [|f_equal; now apply IH]. apply He in Q. subst a. exfalso. apply N1. eapply nth_error_In, E.
  Qed.
  Lemma pos_map l : NoDup l -> map (fun x => pos x l) l = seq 0 (length l).
  Proof using He.
    intros ND. apply nth_error_ext_nat. intros i. rewrite nth_error_map. destruct (nth_error l i) as [x|] eqn:E; cbn [option_map].
    - rewrite (pos_nth x l i ND E). symmetry. assert (i < length l) by (apply nth_error_Some; congruence). rewrite (nth_error_nth' _ 0) by (rewrite seq_length; lia). now rewrite seq_nth by lia.
    - symmetry. apply nth_error_None. rewrite seq_length. now apply nth_error_None.
  Qed.
End Pos.

Lemma removed_split {A} (a : list A) x b : removed (length a) (a ++ x :: b) = a ++ b.
Proof. unfold removed. rewrite firstn_app, Nat.sub_diag, firstn_all. cbn [firstn]. rewrite app_nil_r. f_equal. replace (S (length a)) with (length a + 1) by lia. rewrite skipn_app, skipn_all2 by lia. replace (length a + 1 - length a) with 1 by lia. reflexivity. Qed.
Lemma subseq_app_remove {A} (a : list A) x b V : subseq (a ++ x :: b) V -> subseq (a ++ b) V.
Proof.
  intros H. remember (a ++ x :: b) as c eqn:E. revert a E. induction H as [|y c V H IH|y c V H IH]; intros a E; [now destruct a| |].
  - apply sub_skip, IH, E.
  - destruct a as [|z a]; injection E as -> ->; cbn [app]; [now apply sub_skip|]. apply sub_keep. now apply IH.
Qed.

Section Match.
  Context {T U : Type} (eqT : T -> T -> bool) (eqU : U -> U -> bool).
  Hypothesis HT : forall x y, eqT x y = true <-> x = y.
  Hypothesis HU : forall x y, eqU x y = true <-> x = y.
  Variables (V : list T) (W : list U) (f : T -> U) (g : U -> T).
  Hypothesis NV : NoDup V.
  Hypothesis NW : NoDup W.
  Hypothesis Hf : forall x, In x V -> In (f x) W /\ g (f x) = x.
  Hypothesis Hg : forall y, In y W -> In (g y) V /\ f (g y) = y.
  Set Default Proof Using "All".
  Definition corr (c : list T) (c' : list U) : Prop := subseq c V /\ subseq c' W /\ (forall x, In x c -> In (f x) c') /\ forall y, In y c' -> In (g y) c.
  Lemma corr_fun c c' d' : corr c c' -> corr c d' -> c' = d'.
  Proof.
    intros (_ & A2 & A3 & A4) (_ & B2 & B3 & B4). rewrite <- (subseq_is_filter eqU HU _ _ A2 NW), <- (subseq_is_filter eqU HU _ _ B2 NW). apply filter_ext_in. intros y Hy.
    assert (EX : forall c, existsb (eqU y) c = true <-> In y c). { intros l. rewrite existsb_exists. split; [intros (z & H & E); apply HU in E; now subst|intros H; exists y; split; [assumption|now apply HU]]. }
    apply eq_true_iff_eq. rewrite !EX. destruct (Hg y Hy) as [_ E]. split; intros K; [apply A4, B3 in K|apply B4, A3 in K]; now rewrite E in K.
  Qed.
  Lemma corr_inj c d c' : corr c c' -> corr d c' -> c = d.
  Proof.
    intros (A1 & _ & A3 & A4) (B1 & _ & B3 & B4). rewrite <- (subseq_is_filter eqT HT _ _ A1 NV), <- (subseq_is_filter eqT HT _ _ B1 NV). apply filter_ext_in. intros x Hx.
    assert (EX : forall c, existsb (eqT x) c = true <-> In x c). { intros l. rewrite existsb_exists. split; [intros (z & H & E); apply HT in E; now subst|intros H; exists x; split; [assumption|now apply HT]]. }
    apply eq_true_iff_eq. rewrite !EX. destruct (Hf x Hx) as [_ E]. split; intros K; [apply A3, B4 in K|apply B3, A4 in K]; now rewrite E in K.
  Qed.
  Lemma corr_total c : subseq c V -> exists c', corr c c'.
  Proof.
    intros H. exists (filter (fun y => existsb (eqT (g y)) c) W). split; [exact H|]. split; [apply subseq_filter|]. split.
    - intros x Hx. destruct (Hf x (subseq_incl _ _ H x Hx)) as [E1 E2]. apply filter_In. split; [exact E1|]. apply existsb_exists. exists x. split; [exact Hx|]. now apply HT.
    - intros y Hy. apply filter_In in Hy. destruct Hy as [_ Hy]. apply existsb_exists in Hy. destruct Hy as (x & Hx & E). apply HT in E. now rewrite E.
  Qed.
  Lemma corr_perm c c' : corr c c' -> Permutation (map f c) c'.
  Proof.
    intros (A1 & A2 & A3 & A4). apply NoDup_Permutation.
    - assert (ND := subseq_NoDup _ _ A1 NV). assert (HI := subseq_incl _ _ A1). clear A1 A3 A4. induction ND as [|x c Hx ND IH]; cbn [map]; constructor; [|apply IH; intros z Hz; apply HI; now right].
      intros K. apply in_map_iff in K. destruct K as (z & E & Hz). apply Hx. replace x with z; [exact Hz|]. destruct (Hf x (HI x (or_introl eq_refl))) as [_ <-]. destruct (Hf z (HI z (or_intror Hz))) as [_ <-]. now rewrite E.
    - exact (subseq_NoDup _ _ A2 NW).
    - intros y. rewrite in_map_iff. split; [intros (x & <- & Hx); now apply A3|]. intros Hy. exists (g y). split; [apply Hg, (subseq_incl _ _ A2), Hy|now apply A4].
  Qed.
  Lemma corr_length c c' : corr c c' -> length c = length c'.
  Proof. intros H. rewrite <- (Permutation_length (corr_perm c c' H)). now rewrite map_length. Qed.
  (** Deleting corresponding vertices. *)
  Lemma corr_remove A x B c' : corr (A ++ x :: B) c' -> exists A' B', c' = A' ++ f x :: B' /\ corr (A ++ B) (A' ++ B').
  Proof.
    intros (A1 & A2 & A3 & A4). assert (Hx : In x (A ++ x :: B)) by (apply in_or_app; right; now left). destruct (in_split _ _ (A3 x Hx)) as (A' & B' & ->). exists A', B'. split; [reflexivity|].
    assert (N1 := subseq_NoDup _ _ A1 NV). assert (N2 := subseq_NoDup _ _ A2 NW). apply NoDup_remove in N1, N2. destruct N1 as [_ N1], N2 as [_ N2].
    split; [now apply subseq_app_remove in A1|]. split; [now apply subseq_app_remove in A2|]. split.
    - intros z Hz. assert (Hz' : In z (A ++ x :: B)) by (apply in_app_or in Hz; apply in_or_app; destruct Hz; [now left|right; now right]). specialize (A3 z Hz'). apply in_app_or in A3. apply in_or_app. destruct A3 as [K|[K|K]]; [now left| |now right].
      exfalso. apply N1. replace x with z; [exact Hz|]. destruct (Hf x (subseq_incl _ _ A1 x Hx)) as [_ <-]. destruct (Hf z (subseq_incl _ _ A1 z Hz')) as [_ <-]. now rewrite K.
    - intros y Hy. assert (Hy' : In y (A' ++ f x :: B')) by (apply in_app_or in Hy; apply in_or_app; destruct Hy; [now left|right; now right]). specialize (A4 y Hy'). apply in_app_or in A4. apply in_or_app. destruct A4 as [K|[K|K]]; [now left| |now right].
      exfalso. apply N2. replace (f x) with y; [exact Hy|]. destruct (Hg y (subseq_incl _ _ A2 y Hy')) as [_ <-]. now rewrite <- K.
  Qed.
  Definition keys (c : list T) : list nat := map (fun x => pos eqU (f x) W) c.
  Definition eps (c : list T) : Z := alt (inv (keys c)).
  Lemma corr_keys c c' : corr c c' -> Permutation (keys c) (map (fun y => pos eqU y W) c') /\ NoDup (keys c) /\ StronglySorted lt (map (fun y => pos eqU y W) c').
  Proof.
    intros H. assert (P : Permutation (keys c) (map (fun y => pos eqU y W) c')). { unfold keys. rewrite <- (map_map f (fun y => pos eqU y W)). apply Permutation_map, corr_perm, H. }
    destruct H as (_ & A2 & _). apply (subseq_map (fun y => pos eqU y W)) in A2. rewrite (pos_map eqU HU W NW) in A2. destruct (subseq_seq_sorted _ _ _ A2) as [S _].
    split; [exact P|]. split; [|exact S]. apply (Permutation_NoDup (Permutation_sym P)). apply (subseq_NoDup _ _ A2), seq_NoDup.
  Qed.
  Lemma corr_face sg sg' tau tau' i : corr sg sg' -> corr tau tau' -> i < length sg -> removed i sg = tau ->
    exists i', i' < length sg' /\ removed i' sg' = tau' /\ alt (length sg' - 1 - i') = (eps tau * eps sg * alt (length sg - 1 - i))%Z.
  Proof.
    intros HS HC Hi E. destruct (nth_error sg i) as [x|] eqn:Ex; [|apply nth_error_None in Ex; lia]. destruct (nth_error_split _ _ Ex) as (A & B & -> & LA). rewrite <- LA, removed_split in E. subst tau.
    destruct (corr_remove A x B sg' HS) as (A' & B' & -> & HC'). rewrite (corr_fun _ _ _ HC HC') in *. clear HC.
    exists (length A'). split; [rewrite app_length; cbn; lia|]. split; [apply removed_split|]. destruct (corr_keys _ _ HS) as (P & ND & SS).
    unfold eps. set (k := fun x => pos eqU (f x) W) in *. set (k' := fun y => pos eqU y W) in *. unfold keys in *. rewrite (map_app k') in P, SS. cbn [map] in P, SS. rewrite !map_app in P, ND |- *. cbn [map] in P, ND |- *.
    change (k' (f x)) with (k x) in P, SS. pose proof (sign_sort (map k A) (k x) (map k B) (map k' A') (map k' B') ND P SS) as Q. rewrite !app_length in Q. cbn [length] in Q. rewrite !map_length in Q. rewrite !app_length. cbn [length]. rewrite <- LA. rewrite (map_app (fun x0 => pos eqU (f x0) W) A (x :: B)). exact Q.
  Qed.
End Match.

Section Match2.
  Context {T U : Type} (eqT : T -> T -> bool) (eqU : U -> U -> bool).
  Hypothesis HT : forall x y, eqT x y = true <-> x = y.
  Hypothesis HU : forall x y, eqU x y = true <-> x = y.
  Variables (V : list T) (W : list U) (f : T -> U) (g : U -> T).
  Hypothesis NV : NoDup V.
  Hypothesis NW : NoDup W.
  Hypothesis Hf : forall x, In x V -> In (f x) W /\ g (f x) = x.
  Hypothesis Hg : forall y, In y W -> In (g y) V /\ f (g y) = y.
  Set Default Proof Using "All".
  Notation corr := (corr V W f g).
  Notation eps := (eps eqU W f).
  Lemma corr_sym c c' : corr c c' <-> IsoProofs3.corr W V g f c' c.
  Proof. unfold IsoProofs3.corr. tauto. Qed.
  Lemma corr_sign sg sg' tau tau' e e' : corr sg sg' -> corr tau tau' -> face_sign tau sg e -> face_sign tau' sg' e' -> e' = (eps tau * eps sg * e)%Z.
  Proof.
    intros HS HC [(i & Hi & Ei & ->)|[Hn ->]] HE.
    - destruct (corr_face eqT eqU HT HU V W f g NV NW Hf Hg sg sg' tau tau' i HS HC Hi Ei) as (i' & Hi' & Ei' & <-). destruct HE as [(j & Hj & Ej & ->)|[Hn _]]; [|exfalso; now apply (Hn i')].
      replace j with i'; [reflexivity|]. assert (ND : NoDup sg') by (apply (subseq_NoDup _ W); [apply HS|exact NW]).
      destruct (nth_error sg' i') as [x|] eqn:Ex; [|apply nth_error_None in Ex; lia]. destruct (nth_error sg' j) as [y|] eqn:Ey; [|apply nth_error_None in Ey; lia].
      destruct (nth_error_split _ _ Ex) as (A & B & E1 & L1). destruct (nth_error_split _ _ Ey) as (A' & B' & E2 & L2).
      assert (x = y).
      { rewrite E1, <- L1, removed_split in Ei'. rewrite E2, <- L2, removed_split in Ej. rewrite E1 in ND. apply NoDup_remove in ND. destruct ND as [_ ND].
        assert (In x (A' ++ y :: B')) by (rewrite <- E2, E1; apply in_or_app; right; now left). apply in_app_or in H. destruct H as [K|[K|K]]; [|now symmetry|]; exfalso; apply ND; rewrite Ei', <- Ej; apply in_or_app; [now left|now right]. }
      subst y. apply (proj1 (NoDup_nth_error sg') ND); [lia|congruence].
    - destruct HE as [(j & Hj & Ej & ->)|[_ ->]]; [|lia]. exfalso. apply corr_sym in HS, HC.
      destruct (corr_face eqU eqT HU HT W V g f NW NV Hg Hf sg' sg tau' tau j HS HC Hj Ej) as (i & Hi & Ei & _). now apply (Hn i).
  Qed.
End Match2.

(** ** Bijections of lists *)
Lemma finite_choice n (R : nat -> nat -> Prop) : (forall j, j < n -> exists p, R j p) -> exists P, forall j, j < n -> R j (P j).
Proof.
  induction n as [|n IH]; intros H. { exists (fun _ => 0). intros j Hj. lia. }
  destruct IH as (P & HP); [intros j Hj; apply H; lia|]. destruct (H n ltac:(lia)) as (p & Hp). exists (fun j => if j =? n then p else P j). intros j Hj. destruct (Nat.eqb_spec j n) as [->|]; [exact Hp|apply HP; lia].
Qed.
Lemma list_bijection {A B} (R : A -> B -> Prop) (L : list A) (M : list B) : NoDup L -> NoDup M ->
  (forall a b b', R a b -> R a b' -> b = b') -> (forall a a' b, R a b -> R a' b -> a = a') -> (forall a, In a L -> exists b, In b M /\ R a b) -> (forall b, In b M -> exists a, In a L /\ R a b) ->
  length L = length M /\ exists p q, (forall j, j < length L -> p j < length L /\ q (p j) = j) /\ (forall j, j < length L -> q j < length L /\ p (q j) = j) /\
    forall j a b, nth_error L j = Some a -> nth_error M (p j) = Some b -> R a b.
Proof.
  intros NL NM F1 F2 H1 H2.
  destruct (finite_choice (length L) (fun j k => forall a, nth_error L j = Some a -> exists b, nth_error M k = Some b /\ R a b)) as (p & Hp).
  { intros j Hj. destruct (nth_error L j) as [a|] eqn:E; [|apply nth_error_None in E; lia]. destruct (H1 a (nth_error_In _ _ E)) as (b & Hb & Rab). destruct (In_nth_error _ _ Hb) as (k & Hk). exists k. intros a' [= <-]. eauto. }
  destruct (finite_choice (length M) (fun j k => forall b, nth_error M j = Some b -> exists a, nth_error L k = Some a /\ R a b)) as (q & Hq).
  { intros j Hj. destruct (nth_error M j) as [b|] eqn:E; [|apply nth_error_None in E; lia]. destruct (H2 b (nth_error_In _ _ E)) as (a & Ha & Rab). destruct (In_nth_error _ _ Ha) as (k & Hk). exists k. intros b' [= <-]. eauto. }
  assert (P : forall j, j < length L -> p j < length M /\ q (p j) = j).
  { intros j Hj. destruct (nth_error L j) as [a|] eqn:E; [|apply nth_error_None in E; lia]. destruct (Hp j Hj a E) as (b & Eb & Rab). assert (Lp : p j < length M) by (apply nth_error_Some; congruence). split; [exact Lp|].
    destruct (Hq (p j) Lp b Eb) as (a' & Ea & Rab'). rewrite (F2 _ _ _ Rab' Rab) in Ea. apply (proj1 (NoDup_nth_error L) NL); [apply nth_error_Some; congruence|congruence]. }
  assert (Q : forall j, j < length M -> q j < length L /\ p (q j) = j).
  { intros j Hj. destruct (nth_error M j) as [b|] eqn:E; [|apply nth_error_None in E; lia]. destruct (Hq j Hj b E) as (a & Ea & Rab). assert (Lq : q j < length L) by (apply nth_error_Some; congruence). split; [exact Lq|].
    destruct (Hp (q j) Lq a Ea) as (b' & Eb & Rab'). rewrite (F1 _ _ _ Rab' Rab) in Eb. apply (proj1 (NoDup_nth_error M) NM); [apply nth_error_Some; congruence|congruence]. }
  assert (LE : length L = length M).
  { apply Nat.le_antisymm.
    - assert (K : length (map p (seq 0 (length L))) <= length (seq 0 (length M))); [|now rewrite map_length, !seq_length in K]. apply NoDup_incl_length.
      + assert (KI : forall l, (forall x, In x l -> x < length L) -> NoDup l -> NoDup (map p l)).
        { induction l as [|x l IH]; intros Hl ND; cbn [map]; constructor; inversion ND as [|? ? N1 N2]; subst. { intros K. apply in_map_iff in K. destruct K as (y & E & Hy). apply N1. replace x with y; [exact Hy|]. rewrite <- (proj2 (P x (Hl x (or_introl eq_refl)))), <- (proj2 (P y (Hl y (or_intror Hy)))). now rewrite E. } apply IH; [intros y Hy; apply Hl; now right|exact N2]. }
        apply KI; [intros x Hx; apply in_seq in Hx; lia|apply seq_NoDup].
      + intros x Hx. apply in_map_iff in Hx. destruct Hx as (y & <- & Hy). apply in_seq in Hy. apply in_seq. destruct (P y ltac:(lia)). lia.
    - assert (K : length (map q (seq 0 (length M))) <= length (seq 0 (length L))); [|now rewrite map_length, !seq_length in K]. apply NoDup_incl_length.
      + assert (KI : forall l, (forall x, In x l -> x < length M) -> NoDup l -> NoDup (map q l)).
        { induction l as [|x l IH]; intros Hl ND; cbn [map]; constructor; inversion ND as [|? ? N1 N2]; subst. { intros K. apply in_map_iff in K. destruct K as (y & E & Hy). apply N1. replace x with y; [exact Hy|]. rewrite <- (proj2 (Q x (Hl x (or_introl eq_refl)))), <- (proj2 (Q y (Hl y (or_intror Hy)))). now rewrite E. } apply IH; [intros y Hy; apply Hl; now right|exact N2]. }
        apply KI; [intros x Hx; apply in_seq in Hx; lia|apply seq_NoDup].
      + intros x Hx. apply in_map_iff in Hx. destruct Hx as (y & <- & Hy). apply in_seq in Hy. apply in_seq. destruct (Q y ltac:(lia)). lia. }
  split; [exact LE|]. exists p, q. rewrite LE in *. split; [exact P|]. split; [exact Q|]. intros j a b Ea Eb. assert (Hj : j < length M) by (rewrite <- LE; apply nth_error_Some; congruence). destruct (Hp j Hj a Ea) as (b' & Eb' & Rab). congruence.
Qed.
