(** LabeledSet and TupleIterator proofs. *)
From Coq Require Import List Arith ZArith NArith Bool Lia ZifyBool ZifyNat ZifyN.
From Verif Require Import UtilModel UtilSpec UtilProofs.
Import ListNotations.

(* ---------------------------------------------------------------- LabeledSet *)
Section L.
  Context {T : Type} (eqb : T -> T -> bool) (eqb_spec : forall x y, eqb x y = true <-> x = y).

  Lemma eqb_refl x : eqb x x = true. Proof. now apply eqb_spec. Qed.

  Lemma position_none : forall l x, position eqb l x = None <-> ~ In x l.
  Proof.
    induction l as [|y l IH]; intros x; cbn [position]; [split; auto|].
    destruct (eqb y x) eqn:E.
    - apply eqb_spec in E as ->. split; [discriminate|]. intros H. destruct H. now left.
    - assert (y <> x) by (intros ->; rewrite eqb_refl in E; discriminate).
      specialize (IH x). destruct (position eqb l x); cbn; split; try congruence.
      + intros H0. exfalso. assert (Some n = None) by (apply IH; intro; apply H0; now right). discriminate.
      + intros _ [|Hx]; [congruence|]. now apply IH.
  Qed.
  Lemma position_some : forall l x i, position eqb l x = Some i -> nth_error l i = Some x.
  Proof.
    induction l as [|y l IH]; intros x i; cbn [position]; [discriminate|].
    destruct (eqb y x) eqn:E.
    - apply eqb_spec in E as ->. intros [= <-]. reflexivity.
    - destruct (position eqb l x) eqn:E2; [|discriminate]. cbn. intros [= <-]. cbn. now apply IH.
  Qed.

  Definition LRel (labels : list T) (f : T -> bool) (s : lset T) : Prop :=
    l_labels s = labels /\ Inv (l_set s) /\ p_len (l_set s) = length labels /\
    forall i x, nth_error labels i = Some x -> bit (p_data (l_set s)) i = f x.

  Lemma lstep_rel labels f s o : NoDup labels -> LRel labels f s -> In (target o) labels ->
    exists s', lstep eqb (Some s) o = Some s' /\
      LRel labels (fun x => match o with LAdd y => if eqb y x then true else f x
                                       | LRemove y => if eqb y x then false else f x end) s'.
  Proof.
    intros ND (HL & HI & HN & HB) Hin. destruct o as [x|x]; cbn [lstep bind target] in *.
    - unfold lset_add. rewrite HL. destruct (position eqb labels x) as [i|] eqn:E;
        [|apply position_none in E; contradiction].
      apply position_some in E. assert (Hi : i < length labels) by (apply nth_error_Some; congruence).
      destruct (add_spec (l_set s) i HI) as (p' & -> & HI' & HL' & HB'); [lia|].
      eexists; split; [reflexivity|]. split; [reflexivity|split; [exact HI'|split; [cbn [l_set]; congruence|]]]. cbn [l_set].
      intros j y Hj. rewrite HB'. destruct (Nat.eqb_spec j i) as [->|Hne].
      + replace y with x by congruence. now rewrite eqb_refl.
      + rewrite (HB j y Hj). destruct (eqb x y) eqn:Exy; [|reflexivity]. apply eqb_spec in Exy as ->.
        exfalso. apply Hne. eapply NoDup_nth_error; eauto; [|congruence]. apply nth_error_Some; congruence.
    - unfold lset_remove. rewrite HL. destruct (position eqb labels x) as [i|] eqn:E;
        [|apply position_none in E; contradiction].
      apply position_some in E. assert (Hi : i < length labels) by (apply nth_error_Some; congruence).
      destruct (remove_spec (l_set s) i HI) as (p' & -> & HI' & HL' & HB'); [lia|].
      eexists; split; [reflexivity|]. split; [reflexivity|split; [exact HI'|split; [cbn [l_set]; congruence|]]]. cbn [l_set].
      intros j y Hj. rewrite HB'. destruct (Nat.eqb_spec j i) as [->|Hne].
      + replace y with x by congruence. now rewrite eqb_refl.
      + rewrite (HB j y Hj). destruct (eqb x y) eqn:Exy; [|reflexivity]. apply eqb_spec in Exy as ->.
        exfalso. apply Hne. eapply NoDup_nth_error; eauto; [|congruence]. apply nth_error_Some; congruence.
  Qed.

  Lemma LRel_ext labels f g s : (forall x, f x = g x) -> LRel labels f s -> LRel labels g s.
  Proof. intros E (A & B & C & D). split; [exact A|split; [exact B|split; [exact C|]]]. intros i x Hi. rewrite <- E. eauto. Qed.

  Lemma lrun_rel labels : NoDup labels -> forall h f s, LRel labels f s ->
    (forall o, In o h -> In (target o) labels) ->
    exists s', fold_left (lstep eqb) h (Some s) = Some s' /\
      LRel labels (fun x => fold_left (fun b o => match o with
                          | LAdd y => if eqb y x then true else b
                          | LRemove y => if eqb y x then false else b
                          end) h (f x)) s'.
  Proof.
    intros ND. induction h as [|o h IH]; intros f s HR Hh.
    - exists s. split; auto.
    - destruct (lstep_rel labels f s o ND HR) as (s1 & E & HR1); [apply Hh; now left|].
      cbn [fold_left]. rewrite E.
      destruct (IH _ s1 HR1) as (s2 & E2 & HR2); [intros; apply Hh; now right|].
      exists s2. split; [exact E2|]. exact HR2.
  Qed.

  Lemma lookup_filter (f : T -> bool) b : forall labels pre,
    (forall i x, nth_error (pre ++ labels) i = Some x -> b i = f x) ->
    lookup_all (pre ++ labels) (filter b (seq (length pre) (length labels))) = Some (filter f labels).
  Proof.
    induction labels as [|x l IH]; intros pre H; [reflexivity|].
    specialize (IH (pre ++ [x])). rewrite <- app_assoc in IH. cbn [app] in IH.
    rewrite app_length in IH. cbn [length] in IH. rewrite Nat.add_1_r in IH. specialize (IH H).
    cbn [length seq filter].
    assert (E : nth_error (pre ++ x :: l) (length pre) = Some x)
      by (rewrite nth_error_app2, Nat.sub_diag by lia; reflexivity).
    rewrite (H _ _ E). destruct (f x); [|exact IH].
    cbn [lookup_all]. rewrite E, IH. reflexivity.
  Qed.

  Lemma lookup_len {A} (l : list A) : forall ix r, lookup_all l ix = Some r -> length r = length ix.
  Proof.
    induction ix as [|i ix IH]; intros r; cbn; [intros [= <-]; reflexivity|].
    destruct (nth_error l i); [|discriminate]. destruct (lookup_all l ix); [|discriminate].
    intros [= <-]. cbn. f_equal. now apply IH.
  Qed.

  Lemma lset_obs labels f s : LRel labels f s ->
    lset_iter s = Some (filter f labels) /\ lset_n_elements s = length (filter f labels).
  Proof.
    intros (HL & HI & HN & HB). unfold lset_iter, lset_n_elements. rewrite iter_spec by assumption.
    pose proof (lookup_filter f (bit (p_data (l_set s))) labels [] HB) as E. cbn [app length] in E.
    rewrite HL, HN. unfold members. split; [exact E|].
    rewrite (I_n _ HI), HN. symmetry. exact (lookup_len _ _ _ E).
  Qed.

  Theorem lset_theorem labels h : NoDup labels ->
    ((forall o, In o h -> In (target o) labels) ->
      exists s, fold_left (lstep eqb) h (Some (lset_new labels)) = Some s /\
        lset_iter s = Some (filter (after eqb h) labels) /\
        lset_n_elements s = length (filter (after eqb h) labels)) /\
    ((exists o, In o h /\ ~ In (target o) labels) ->
      fold_left (lstep eqb) h (Some (lset_new labels)) = None).
  Proof.
    intros ND.
    assert (H0 : LRel labels (fun _ => false) (lset_new labels)).
    { destruct (new_spec (length labels)) as (A & B & C).
      split; [reflexivity|split; [exact A|split; [exact B|]]]. intros; apply C. }
    split.
    - intros Hh. destruct (lrun_rel labels ND h _ _ H0 Hh) as (s & E & HR).
      exists s. split; [exact E|]. now apply lset_obs in HR.
    - intros (o & Ho & Hn).
      assert (G : forall h f s, LRel labels f s -> In o h -> fold_left (lstep eqb) h (Some s) = None).
      { clear h Ho H0. induction h as [|o1 h IH]; intros f s HR Ho; [contradiction|]. cbn [fold_left].
        destruct (position eqb labels (target o1)) as [i|] eqn:E.
        - assert (Hin : In (target o1) labels).
          { apply position_some in E. eapply nth_error_In; eauto. }
          destruct (lstep_rel labels f s o1 ND HR Hin) as (s1 & -> & HR1).
          destruct Ho as [->|Ho]; [contradiction|]. eapply IH; eauto.
        - assert (HF : lstep eqb (Some s) o1 = None).
          { destruct HR as (HL & _). destruct o1; cbn [lstep bind target] in *;
            unfold lset_add, lset_remove; rewrite HL, E; reflexivity. }
          rewrite HF. clear. induction h as [|o2 h IHh]; cbn; auto. }
      eapply G; eauto.
  Qed.
End L.

(* ---------------------------------------------------------------- TupleIterator *)
Fixpoint nxt (n : nat) (l : list nat) : option (list nat) :=
  match l with
  | [] => None
  | x :: r => match nxt n r with
              | Some r' => Some (x :: r')
              | None => if x + 1 + length r <? n then Some (seq (x + 1) (S (length r))) else None
              end
  end.

Lemma si_tail x l : strictly_inc (x :: l) -> strictly_inc l.
Proof. inversion 1; subst; auto; constructor. Qed.
Lemma si_head x l : strictly_inc (x :: l) -> forall y, In y l -> x < y.
Proof.
  revert x; induction l as [|z l IH]; intros x H y Hy; [contradiction|]. inversion H; subst.
  destruct Hy as [->|Hy]; [assumption|]. specialize (IH z H4 y Hy). lia.
Qed.
Lemma si_seq : forall k s, strictly_inc (seq s k).
Proof. induction k as [|k IH]; intros s; [constructor|]. cbn [seq]. apply si_cons'; auto. intros y Hy. apply in_seq in Hy. lia. Qed.

(* length bound of an increasing list in [x, n) *)
Lemma si_len n : forall l x, strictly_inc (x :: l) -> (forall i, In i (x :: l) -> i < n) -> x + S (length l) <= n.
Proof.
  induction l as [|y l IH]; intros x H Hn; cbn [length].
  - specialize (Hn x (or_introl eq_refl)). lia.
  - inversion H; subst. assert (y + S (length l) <= n) by (apply IH; auto; intros i Hi; apply Hn; now right). lia.
Qed.

Lemma lex_trans : forall a b c, lex_lt a b -> lex_lt b c -> lex_lt a c.
Proof.
  intros a b c H; revert c; induction H as [x y l m Hxy HL|x l m H IH]; intros c Hc; inversion Hc; subst.
  - apply lex_here; [lia|congruence].
  - apply lex_here; auto. rewrite HL. clear -H2. induction H2; cbn; congruence.
  - apply lex_here; auto. rewrite <- H4. clear -H. induction H; cbn; congruence.
  - apply lex_next. auto.
Qed.
Lemma lex_length a b : lex_lt a b -> length a = length b.
Proof. induction 1; cbn; congruence. Qed.
Lemma lex_irrefl a : ~ lex_lt a a.
Proof. induction a as [|x a IH]; inversion 1; subst; [lia|auto]. Qed.
Lemma lex_total : forall a b, length a = length b -> a = b \/ lex_lt a b \/ lex_lt b a.
Proof.
  induction a as [|x a IH]; intros [|y b] H; cbn in H; try lia; auto.
  destruct (Nat.lt_trichotomy x y) as [Hlt|[->|Hgt]].
  - right; left; apply lex_here; lia.
  - destruct (IH b) as [->|[|]]; [lia|auto| |]; right; [left|right]; now apply lex_next.
  - right; right; apply lex_here; lia.
Qed.

Lemma seq_least : forall k s c, strictly_inc c -> length c = k -> (forall i, In i c -> s <= i) ->
  c = seq s k \/ lex_lt (seq s k) c.
Proof.
  induction k as [|k IH]; intros s [|x c] H HL Hs; cbn in HL; try lia; [now left|].
  cbn [seq]. assert (s <= x) by (apply Hs; now left).
  destruct (Nat.eq_dec s x) as [<-|Hne].
  - destruct (IH (S s) c) as [->|Hl]; [eapply si_tail; eauto|lia| |now left|].
    + intros i Hi. pose proof (si_head _ _ H i Hi). lia.
    + right. now apply lex_next.
  - right. apply lex_here; [lia|]. rewrite seq_length. lia.
Qed.

Lemma nxt_some n : forall l l', strictly_inc l -> (forall i, In i l -> i < n) -> nxt n l = Some l' ->
  lex_lt l l' /\ strictly_inc l' /\ (forall i, In i l' -> i < n) /\
  (forall x l0, l = x :: l0 -> exists x' l0', l' = x' :: l0' /\ x <= x').
Proof.
  induction l as [|x r IH]; intros l' H Hn E; [discriminate|]. cbn [nxt] in E.
  destruct (nxt n r) as [r'|] eqn:Er.
  - injection E as <-. destruct (IH r') as (A & B & C & D); auto; [eapply si_tail; eauto|intros; apply Hn; now right|].
    split; [now apply lex_next|]. split.
    + apply si_cons'; auto. intros y Hy. destruct r as [|z r0]; [discriminate|].
      destruct (D z r0 eq_refl) as (z' & r0' & -> & Hz). assert (x < z) by (apply (si_head _ _ H); now left).
      destruct Hy as [<-|Hy]; [lia|]. pose proof (si_head _ _ B y Hy). lia.
    + split.
      * intros i [<-|Hi]; auto. apply Hn; now left.
      * intros x0 l0 [= <- <-]. eauto.
  - destruct (Nat.ltb_spec (x + 1 + length r) n) as [Hlt|]; [|discriminate]. injection E as <-.
    change (x + 1 :: seq (S (x + 1)) (length r)) with (seq (x + 1) (S (length r))).
    split; [cbn [seq]; apply lex_here; [lia|now rewrite seq_length]|].
    split; [apply si_seq|]. split.
    + intros i Hi. apply in_seq in Hi. lia.
    + intros x0 l0 [= <- <-]. cbn [seq]. eexists _, _. split; [reflexivity|lia].
Qed.

Lemma nxt_none n : forall l, strictly_inc l -> (forall i, In i l -> i < n) -> nxt n l = None ->
  forall c, combination n (length l) c -> c = l \/ lex_lt c l.
Proof.
  induction l as [|x r IH]; intros H Hn E c (Hc1 & Hc2 & Hc3).
  - destruct c; [now left|discriminate].
  - cbn [nxt] in E. destruct (nxt n r) as [r'|] eqn:Er; [discriminate|].
    destruct (Nat.ltb_spec (x + 1 + length r) n) as [Hlt|Hge]; [discriminate|].
    destruct c as [|y c]; [discriminate|]. cbn in Hc2.
    pose proof (si_len n c y Hc1 Hc3).
    destruct (Nat.lt_trichotomy y x) as [Hlt|[->|Hgt]].
    + right. apply lex_here; lia.
    + destruct (IH (si_tail _ _ H) (fun i Hi => Hn i (or_intror Hi)) eq_refl c) as [->|Hl]; [|now left|right; now apply lex_next].
      split; [eapply si_tail; eauto|]. split; [lia|]. intros; apply Hc3; now right.
    + lia.
Qed.

Lemma nxt_min n : forall l l', strictly_inc l -> (forall i, In i l -> i < n) -> nxt n l = Some l' ->
  forall c, combination n (length l) c -> lex_lt l c -> c = l' \/ lex_lt l' c.
Proof.
  induction l as [|x r IH]; intros l' H Hn E c (Hc1 & Hc2 & Hc3) Hlex; [discriminate|].
  cbn [nxt] in E. destruct c as [|y c]; [discriminate|]. cbn in Hc2.
  assert (Hr : forall i, In i r -> i < n) by (intros; apply Hn; now right).
  assert (Hcc : combination n (length r) c).
  { split; [eapply si_tail; eauto|]. split; [lia|]. intros; apply Hc3; now right. }
  destruct (nxt n r) as [r'|] eqn:Er.
  - injection E as <-. pose proof (nxt_some n r r' (si_tail _ _ H) Hr Er) as (A & _).
    inversion Hlex; subst.
    + right. apply lex_here; [assumption|]. apply lex_length in A. lia.
    + destruct (IH r' (si_tail _ _ H) Hr eq_refl c Hcc) as [->|]; auto. right. now apply lex_next.
  - destruct (Nat.ltb_spec (x + 1 + length r) n) as [Hlt|]; [|discriminate]. injection E as <-.
    change (x + 1 :: seq (S (x + 1)) (length r)) with (seq (x + 1) (S (length r))).
    inversion Hlex; subst.
    + apply seq_least; [exact Hc1|cbn [length]; lia|]. intros i [<-|Hi]; [lia|]. pose proof (si_head _ _ Hc1 i Hi). lia.
    + exfalso. destruct (nxt_none n r (si_tail _ _ H) Hr Er c Hcc) as [->|Hl].
      * eapply lex_irrefl; eauto.
      * eapply lex_irrefl, lex_trans; eauto.
Qed.

(* measure *)
Fixpoint val (n : nat) (l : list nat) : nat :=
  match l with [] => 0 | x :: r => x * n ^ length r + val n r end.
Lemma val_lt n : forall l, (forall i, In i l -> i < n) -> val n l < n ^ length l.
Proof.
  induction l as [|x r IH]; intros H; cbn [val length]; [cbn; lia|].
  assert (x < n) by (apply H; now left). assert (val n r < n ^ length r) by (apply IH; intros; apply H; now right).
  rewrite Nat.pow_succ_r'. nia.
Qed.
Lemma val_mono n a b : lex_lt a b -> (forall i, In i a -> i < n) -> (forall i, In i b -> i < n) -> val n a < val n b.
Proof.
  induction 1 as [x y l m Hxy HL|x l m H IH]; intros Ha Hb; cbn [val].
  - assert (val n l < n ^ length l) by (apply val_lt; intros; apply Ha; now right). rewrite <- HL. nia.
  - assert (val n l < val n m) by (apply IH; intros; [apply Ha|apply Hb]; now right).
    apply lex_length in H. rewrite H. lia.
Qed.

(* decomposition *)
Lemma decomp n : forall l, l <> [] -> strictly_inc l -> (forall i, In i l -> i < n) ->
  (exists pre a, l = pre ++ [a] /\ a + 1 < n) \/
  (exists b m, l = seq b m /\ 0 < m /\ b + m = n) \/
  (exists pre a b m, l = pre ++ a :: seq b m /\ 0 < m /\ b + m = n /\ a + 1 < b).
Proof.
  induction l as [|x r IH]; intros Hne H Hn; [congruence|].
  assert (Hx : x < n) by (apply Hn; now left).
  destruct r as [|y r].
  - destruct (Nat.lt_ge_cases (x + 1) n).
    + left. exists [], x. auto.
    + right; left. exists x, 1. cbn. repeat split; auto; lia.
  - destruct IH as [(pre & a & E & Ha)|[(b & m & E & Hm & Hb)|(pre & a & b & m & E & Hm & Hb & Ha)]];
      [discriminate|eapply si_tail; eauto|intros; apply Hn; now right| | |].
    + left. exists (x :: pre), a. rewrite E. auto.
    + assert (Hxy : x < y) by (apply (si_head _ _ H); now left).
      assert (y = b) by (destruct m; cbn in E; congruence). subst y.
      destruct (Nat.eq_dec (x + 1) b) as [Hb1|Hb1].
      * right; left. exists x, (S m). rewrite E. cbn [seq]. rewrite <- Nat.add_1_r, Hb1. repeat split; auto; lia.
      * right; right. exists [], x, b, m. rewrite E. repeat split; auto; lia.
    + right; right. exists (x :: pre), a, b, m. rewrite E. auto.
Qed.

Lemma nxt_seq n : forall m b, b + m = n -> nxt n (seq b m) = None.
Proof.
  induction m as [|m IH]; intros b H; [reflexivity|]. cbn [seq nxt]. rewrite IH by lia.
  rewrite seq_length. destruct (Nat.ltb_spec (b + 1 + m) n); [lia|reflexivity].
Qed.
Lemma nxt_app n pre : forall l l', nxt n l = Some l' -> nxt n (pre ++ l) = Some (pre ++ l').
Proof. intros l l' E. induction pre as [|x pre IH]; [exact E|]. cbn [app nxt]. now rewrite IH. Qed.

Lemma nth_error_seq b m j : j < m -> nth_error (seq b m) j = Some (b + j).
Proof.
  revert b j; induction m as [|m IH]; intros b j Hj; [lia|]. destruct j; cbn; [f_equal; lia|].
  rewrite IH by lia. f_equal; lia.
Qed.

Lemma nth_error_S {A} (x : A) l k : nth_error (x :: l) (S k) = nth_error l k.
Proof. reflexivity. Qed.

Lemma tup_back_seq b m : forall j, j < m -> tup_back (seq b m) j = Some 0.
Proof.
  induction j as [|j IH]; intros Hj; [reflexivity|]. cbn [tup_back]. rewrite !nth_error_seq by lia.
  unfold csub. destruct (Nat.leb_spec (b + j) (b + S j)); [|lia].
  destruct (Nat.eqb_spec (b + S j - (b + j)) 1); [apply IH; lia|lia].
Qed.
Lemma tup_back_run pre a b m : a + 1 < b -> forall j, j < m ->
  tup_back (pre ++ a :: seq b m) (S (length pre) + j) = Some (S (length pre)).
Proof.
  intros Hab. induction j as [|j IH]; intros Hj.
  - rewrite Nat.add_0_r. cbn [tup_back].
    rewrite !nth_error_app2 by lia. replace (S (length pre) - length pre) with 1 by lia.
    rewrite Nat.sub_diag. change (nth_error (a :: seq b m) 1) with (nth_error (seq b m) 0).
    rewrite nth_error_seq by lia. cbn [nth_error].
    unfold csub. destruct (Nat.leb_spec a (b + 0)); [|lia].
    destruct (Nat.eqb_spec (b + 0 - a) 1); [lia|reflexivity].
  - rewrite Nat.add_succ_r. cbn [tup_back].
    rewrite !nth_error_app2 by lia.
    replace (S (S (length pre) + j) - length pre) with (S (S j)) by lia.
    replace (S (length pre) + j - length pre) with (S j) by lia.
    rewrite !nth_error_S. rewrite !nth_error_seq by lia.
    unfold csub. destruct (Nat.leb_spec (b + j) (b + S j)); [|lia].
    destruct (Nat.eqb_spec (b + S j - (b + j)) 1); [apply IH; lia|lia].
Qed.

Lemma upd_app {A} (f : A -> A) pre a r : upd (pre ++ a :: r) (length pre) f = Some (pre ++ f a :: r).
Proof. induction pre as [|x pre IH]; [reflexivity|]. cbn [app length upd]. now rewrite IH. Qed.
Lemma sub_all_seq d : forall m b, d <= b -> sub_all (seq b m) d = Some (seq (b - d) m).
Proof.
  induction m as [|m IH]; intros b H; [reflexivity|]. cbn [seq sub_all]. unfold csub at 1.
  destruct (Nat.leb_spec d b); [|lia]. rewrite IH by lia. replace (S b - d) with (S (b - d)) by lia. reflexivity.
Qed.

Definition state (n : nat) (l : list nat) : tupit := mkTup n l (length l - 1) false.

Lemma tup_next_spec n l : l <> [] -> strictly_inc l -> (forall i, In i l -> i < n) ->
  tup_next (state n l) = Some (Some l, match nxt n l with
                                       | Some l' => state n l'
                                       | None => mkTup n l 0 true end).
Proof.
  intros Hne H Hn. destruct (decomp n l Hne H Hn) as [(pre & a & -> & Ha)|[(b & m & -> & Hm & Hb)|(pre & a & b & m & -> & Hm & Hb & Ha)]].
  - rewrite (nxt_app n pre [a] [a + 1]) by (cbn [nxt length]; destruct (Nat.ltb_spec (a+1+0) n); [reflexivity|lia]).
    unfold tup_next, tup_is_blocked, state. cbn [t_done t_idx t_cur t_dlen].
    rewrite !app_length. cbn [length]. rewrite !Nat.add_1_r. cbn [Nat.sub]. rewrite Nat.sub_0_r.
    rewrite Nat.leb_refl, nth_error_app2, Nat.sub_diag by lia. cbn [nth_error].
    destruct n as [|n]; [lia|]. destruct (Nat.leb_spec n a); [lia|].
    rewrite upd_app. reflexivity.
  - rewrite nxt_seq by assumption. unfold tup_next, tup_is_blocked, state. cbn [t_done t_idx t_cur t_dlen].
    rewrite seq_length. destruct m as [|m]; [lia|]. cbn [Nat.sub]. rewrite Nat.sub_0_r, Nat.leb_refl.
    rewrite nth_error_seq by lia. destruct n as [|n]; [lia|]. destruct (Nat.leb_spec n (b + m)); [|lia].
    rewrite tup_back_seq by lia. reflexivity.
  - assert (EN : nxt n (a :: seq b m) = Some (seq (a + 1) (S m))).
    { cbn [nxt]. rewrite nxt_seq by assumption. rewrite seq_length.
      destruct (Nat.ltb_spec (a + 1 + m) n); [reflexivity|lia]. }
    rewrite (nxt_app n pre _ _ EN).
    unfold tup_next, tup_is_blocked. cbn [t_done t_idx t_cur t_dlen state].
    rewrite !app_length. cbn [length]. rewrite seq_length.
    replace (length pre + S m) with (S (length pre + m)) by lia. cbn [Nat.sub]. rewrite Nat.sub_0_r, Nat.leb_refl.
    destruct m as [|m]; [lia|].
    rewrite nth_error_app2 by lia. replace (length pre + S m - length pre) with (S m) by lia.
    rewrite nth_error_S, nth_error_seq by lia. destruct n as [|n]; [lia|].
    destruct (Nat.leb_spec n (b + m)); [|lia].
    replace (length pre + S m) with (S (length pre) + m) by lia. rewrite tup_back_run by lia.
    rewrite upd_app, !nth_error_app2 by lia. replace (S (length pre) - length pre) with 1 by lia.
    rewrite Nat.sub_diag. cbn [nth_error seq].
    unfold csub at 1. destruct (Nat.leb_spec (S a) b); [|lia].
    unfold csub at 1. destruct (Nat.leb_spec 1 (b - S a)); [|lia].
    rewrite skipn_app. replace (S (length pre) - length pre) with 1 by lia.
    rewrite skipn_all2 by lia. cbn [skipn app]. change (b :: seq (S b) m) with (seq b (S m)).
    rewrite sub_all_seq by lia.
    rewrite firstn_app. replace (S (length pre) - length pre) with 1 by lia.
    rewrite firstn_all2 by lia. cbn [firstn]. do 3 f_equal. unfold state.
    rewrite <- app_assoc. cbn [app]. rewrite Nat.add_1_r.
    f_equal.
    + do 2 f_equal. replace (b - (b - S a - 1)) with (S (S a)) by lia. reflexivity.
    + rewrite !app_length. cbn [length]. rewrite !seq_length. reflexivity.
Qed.

Lemma tup_run_spec n : forall d l, (n ^ length l - val n l <= d) -> l <> [] -> strictly_inc l -> (forall i, In i l -> i < n) ->
  exists L, (forall fuel, d < fuel -> tup_run (S fuel) (state n l) = Some L) /\ lex_sorted L /\
    (exists L', L = l :: L') /\
    forall c, In c L <-> combination n (length l) c /\ (c = l \/ lex_lt l c).
Proof.
  induction d as [|d IH]; intros l Hd Hne H Hn.
  - pose proof (val_lt n l Hn). lia.
  - pose proof (tup_next_spec n l Hne H Hn) as EN.
    destruct (nxt n l) as [l'|] eqn:Ex.
    + destruct (nxt_some n l l' H Hn Ex) as (A & B & C & D).
      pose proof (lex_length _ _ A) as HLen. pose proof (val_mono n l l' A Hn C).
      assert (l' <> []) by (destruct l; destruct l'; cbn in HLen; congruence).
      destruct (IH l') as (L & HR & HS & (L' & EL) & HM); auto.
      { rewrite <- HLen. pose proof (val_lt n l Hn). lia. }
      exists (l :: L). split; [|split; [|split; [eauto|]]].
      * intros fuel Hf. destruct fuel as [|fuel]; [lia|]. cbn [tup_run]. rewrite EN.
        specialize (HR fuel ltac:(lia)). cbn [tup_run] in HR. rewrite HR. reflexivity.
      * rewrite EL in *. constructor; auto.
      * intro c. cbn [In]. rewrite HM, <- HLen. split.
        -- intros [<-|[Hc HH]]; [split; [split; auto|now left]|]. split; auto. right.
           destruct HH as [->|HH]; auto. eapply lex_trans; eauto.
        -- intros [Hc [->|HH]]; [now left|right]. split; auto. exact (nxt_min n l l' H Hn Ex c Hc HH).
    + exists [l]. split; [|split; [constructor|split; [eauto|]]].
      * intros fuel Hf. destruct fuel as [|fuel]; [lia|]. cbn [tup_run]. rewrite EN. reflexivity.
      * intro c. cbn [In]. split.
        -- intros [<-|[]]. split; [split; auto|now left].
        -- intros [Hc HH]. left. destruct (nxt_none n l H Hn Ex c Hc) as [->|HH2]; auto.
           destruct HH as [->|HH]; auto. exfalso. eapply lex_irrefl, lex_trans; eauto.
Qed.

Lemma lookup_pick {A} (data : list A) : forall c, (forall i, In i c -> i < length data) ->
  lookup_all data c = Some (pick data c).
Proof.
  induction c as [|i c IH]; intros H; [reflexivity|]. cbn [lookup_all pick flat_map].
  rewrite IH by (intros; apply H; now right).
  destruct (nth_error data i) eqn:E; [reflexivity|]. apply nth_error_None in E.
  specialize (H i (or_introl eq_refl)). lia.
Qed.

Theorem tuple_theorem {A} (data : list A) k : 0 < k ->
  exists L, (exists f0, forall fuel, f0 <= fuel -> tuple_iter_collect fuel data k = Some (map (pick data) L)) /\
    lex_sorted L /\ (forall c, In c L <-> combination (length data) k c).
Proof.
  intros Hk. destruct k as [|k]; [lia|]. set (n := length data).
  destruct (Nat.lt_ge_cases n (S k)) as [Hlt|Hge].
  - exists []. split; [|split; [constructor|]].
    + exists 1. intros fuel Hf. destruct fuel as [|fuel]; [lia|].
      unfold tuple_iter_collect, tup_new. fold n. destruct (Nat.ltb_spec n (S k)); [|lia]. reflexivity.
    + intro c. split; [contradiction|]. intros (H1 & H2 & H3). destruct c as [|x c]; [discriminate|].
      pose proof (si_len n c x H1 H3). cbn in H2. lia.
  - destruct (tup_run_spec n (n ^ S k) (seq 0 (S k))) as (L & HR & HS & _ & HM).
    + rewrite seq_length. lia.
    + discriminate.
    + apply si_seq.
    + intros i Hi. apply in_seq in Hi. lia.
    + rewrite seq_length in HM. exists L. split; [|split; [exact HS|]].
      * exists (S (S (n ^ S k))). intros fuel Hf. destruct fuel as [|fuel]; [lia|].
        unfold tuple_iter_collect, tup_new. fold n. destruct (Nat.ltb_spec n (S k)); [lia|].
        specialize (HR fuel ltac:(lia)). unfold state in HR. rewrite seq_length in HR.
        cbn [Nat.sub] in HR. rewrite Nat.sub_0_r in HR. rewrite HR.
        assert (HF : forall c, In c L -> lookup_all data c = Some (pick data c)).
        { intros c Hc. apply HM in Hc as [(_ & _ & Hc) _]. now apply lookup_pick. }
        clear -HF. induction L as [|c L IH]; [reflexivity|]. cbn [fold_right map].
        rewrite IH by (intros; apply HF; now right). rewrite HF by now left. reflexivity.
      * intro c. rewrite HM. split; [tauto|]. intros Hc. split; auto.
        destruct Hc as (H1 & H2 & H3). apply seq_least; auto. intros; lia.
Qed.

Theorem tuple_zero_panics {A} fuel (data : list A) : tuple_iter_collect fuel data 0 = None.
Proof. reflexivity. Qed.

Lemma lex_sorted_NoDup L : lex_sorted L -> NoDup L.
Proof.
  assert (G : forall l x, lex_sorted (x :: l) -> forall y, In y l -> lex_lt x y).
  { induction l as [|z l IH]; intros x H y Hy; [contradiction|]. inversion H; subst.
    destruct Hy as [<-|Hy]; auto. eapply lex_trans; eauto. }
  induction L as [|x L IH]; intros H; constructor.
  - intro Hx. specialize (G L x H x Hx). eapply lex_irrefl; eauto.
  - apply IH. inversion H; subst; auto; constructor.
Qed.
