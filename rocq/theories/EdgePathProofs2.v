(** The columns built by the reduction. *)
From Coq Require Import List Arith Bool Lia ZifyBool ZifyNat Permutation.
From Verif Require Import PidModel EdgePathModel EdgePathSpec EdgePathProofs.
Import ListNotations.
Open Scope nat_scope.

Lemma commute_eq : forall v w, commute v w = forallb (fun y => negb (depb w y)) v.
Proof. reflexivity. Qed.
Lemma composable_eq : forall v w, composable v w = commute v w.
Proof.
  intros v w. unfold composable, commute.
  induction v as [|i v IH]; cbn [forallb]; [reflexivity|]. rewrite IH. f_equal. lia.
Qed.
Lemma cancelable_iff : forall y x, cancelable y x = true <-> y = reverse x.
Proof.
  intros [a b] [c d]. unfold cancelable, reverse. cbn [fst snd]. split; intros H.
  - apply andb_true_iff in H. destruct H as [H1 H2]. f_equal; lia.
  - injection H as -> ->. lia.
Qed.

(** Positions. *)
Lemma find_rev_seq : forall f n, match find f (rev (seq 0 n)) with
  | Some i => i < n /\ f i = true /\ forall j, i < j < n -> f j = false
  | None => forall j, j < n -> f j = false end.
Proof.
  intros f. induction n as [|n IH].
  - cbn. intros; lia.
  - rewrite seq_S, rev_app_distr. cbn [rev app find Nat.add]. destruct (f n) eqn:E.
    + split; [lia|]. split; [exact E|]. intros; lia.
    + destruct (find f (rev (seq 0 n))).
      * destruct IH as (A & B & C). split; [lia|]. split; [exact B|]. intros j Hj.
        destruct (Nat.eq_dec j n) as [->|]; [exact E|]. apply C. lia.
      * intros j Hj. destruct (Nat.eq_dec j n) as [->|]; [exact E|]. apply IH. lia.
Qed.
Lemma find_seq : forall f n, match find f (seq 0 n) with
  | Some i => i < n /\ f i = true
  | None => forall j, j < n -> f j = false end.
Proof.
  intros f n. destruct (find f (seq 0 n)) eqn:E.
  - apply find_some in E. rewrite in_seq in E. lia.
  - intros j Hj. apply (find_none _ _ E). apply in_seq. lia.
Qed.
Lemma split_nth : forall {A} (l : list A) i d, i < length l -> exists a b, l = a ++ nth i l d :: b /\ length a = i.
Proof.
  induction l as [|x l IH]; intros i d H; cbn [length] in H; [lia|]. destruct i.
  - exists [], l. auto.
  - destruct (IH i d ltac:(lia)) as (a & b & E & L). exists (x :: a), b. cbn [nth app length]. rewrite <- E, L. auto.
Qed.
Lemma remove_at_app : forall {A} (a : list A) x b, remove_at (a ++ x :: b) (length a) = Some (a ++ b).
Proof. induction a; intros; cbn; [reflexivity|]. now rewrite IHa. Qed.
Lemma set_at_app : forall {A} (a : list A) x b y, set_at (a ++ x :: b) (length a) y = Some (a ++ y :: b).
Proof. induction a; intros; cbn; [reflexivity|]. now rewrite IHa. Qed.
Lemma nth_error_mid : forall {A} (a : list A) x b, nth_error (a ++ x :: b) (length a) = Some x.
Proof. induction a; cbn; auto. Qed.
Lemma nth_mid : forall {A} (a : list A) x b d, nth (length a) (a ++ x :: b) d = x.
Proof. induction a; cbn; auto. Qed.

Definition allc (L : path) (s : ed) : bool := forallb (fun c => commute c s) L.
Lemma allc_concat : forall L s, allc L s = commute (concat L) s.
Proof.
  induction L; intros s; cbn [allc forallb concat]; [reflexivity|].
  rewrite !commute_eq, forallb_app. f_equal. rewrite <- commute_eq. apply IHL.
Qed.
Definition pushhead (B : path) (s : ed) : path := match B with [] => [[s]] | b :: B' => (b ++ [s]) :: B' end.
Definition dropcol (A : path) (c : list ed) (B : path) : path := match c with [] => A ++ B | _ => A ++ c :: B end.

(** What one iteration does. *)
Lemma reduce_step_cases : forall out s,
  (allc out s = true /\ ((out = [] /\ reduce_step out s = None) \/
                         exists b B, out = b :: B /\ reduce_step out s = Some ((b ++ [s]) :: B, false))) \/
  (exists A c B, out = A ++ c :: B /\ commute c s = false /\ allc B s = true /\
     ((exists c1 c2, c = c1 ++ reverse s :: c2 /\ reduce_step out s = Some (dropcol A (c1 ++ c2) B, true)) \/
      (~ In (reverse s) c /\ reduce_step out s = Some (A ++ c :: pushhead B s, false)))).
Proof.
  intros out s. unfold reduce_step.
  pose proof (find_rev_seq (fun i => negb (commute (nth i out []) s)) (length out)) as F.
  destruct (find _ (rev (seq 0 (length out)))) as [i|].
  - destruct F as (Hi & Hn & Hl). destruct (split_nth out i [] Hi) as (A & B & E & L). set (c := nth i out []) in *.
    right. exists A, c, B. split; [exact E|]. apply negb_true_iff in Hn. split; [exact Hn|].
    assert (HB : allc B s = true).
    { apply forallb_forall. intros d Hd. apply In_nth with (d := []) in Hd. destruct Hd as (k & Hk & <-).
      specialize (Hl (i + S k)). cbv beta in Hl. rewrite E, app_nth2 in Hl by lia. rewrite L in Hl.
      replace (i + S k - i) with (S k) in Hl by lia. cbn [nth] in Hl. apply negb_false_iff, Hl.
      rewrite app_length. cbn [length]. lia. }
    split; [exact HB|].
    assert (Hc : nth_error out i = Some c) by (rewrite E, <- L; apply nth_error_mid).
    rewrite Hc. cbn [obind]. rewrite composable_eq, Hn.
    pose proof (find_seq (fun j => cancelable (nth j c (0, 0)) s) (length c)) as G.
    destruct (find _ (seq 0 (length c))) as [j|].
    + left. destruct G as (Hj & Hcn). destruct (split_nth c j (0, 0) Hj) as (c1 & c2 & Ec & Lc).
      apply cancelable_iff in Hcn. exists c1, c2. rewrite Hcn in Ec. split; [exact Ec|].
      rewrite Ec at 1. rewrite <- Lc, remove_at_app. cbn [obind]. unfold dropcol.
      rewrite <- L. rewrite E. rewrite remove_at_app, set_at_app. cbn [obind]. destruct (c1 ++ c2); reflexivity.
    + right. split.
      * intros H. apply In_nth with (d := (0, 0)) in H. destruct H as (k & Hk & H). specialize (G k Hk). cbv beta in G.
        rewrite H in G. assert (cancelable (reverse s) s = true) by now apply cancelable_iff. congruence.
      * destruct B as [|b B'].
        -- rewrite E at 1. rewrite app_length. cbn [length]. replace (i + 1 =? length A + 1) with true by lia.
           rewrite E. rewrite <- app_assoc. reflexivity.
        -- rewrite E at 1. rewrite app_length. cbn [length]. replace (i + 1 =? length A + S (S (length B'))) with false by lia.
           unfold push_at. rewrite E. replace (A ++ c :: b :: B') with ((A ++ [c]) ++ b :: B') by now rewrite <- app_assoc.
           replace (i + 1) with (length (A ++ [c])) by (rewrite app_length; cbn [length]; lia).
           rewrite nth_error_mid. cbn [obind]. rewrite set_at_app. cbn [obind]. rewrite <- app_assoc. reflexivity.
  - left. split.
    + apply forallb_forall. intros d Hd. apply In_nth with (d := []) in Hd. destruct Hd as (k & Hk & <-).
      apply negb_false_iff, (F k Hk).
    + destruct out as [|b B]; [left; split; reflexivity|]. right. exists b, B. split; reflexivity.
Qed.

(** Words are read backwards. *)
Definition word (L : path) : list ed := rev (concat L).
Lemma word_app : forall A B, word (A ++ B) = word B ++ word A.
Proof. intros. unfold word. rewrite concat_app, rev_app_distr. reflexivity. Qed.
Lemma word_cons : forall c B, word (c :: B) = word B ++ rev c.
Proof. intros. unfold word. cbn [concat]. now rewrite rev_app_distr. Qed.

Lemma parallel_app : forall a b, parallel (a ++ b) <-> parallel a /\ parallel b /\ forall x y, In x a -> In y b -> disjoint x y.
Proof.
  induction a as [|e a IH]; intros b; cbn [app].
  - split; [intros H; split; [constructor|split; [exact H|intros ? ? []]]|tauto].
  - split.
    + intros H. inversion H as [|? ? H1 H2]; subst. apply IH in H2. destruct H2 as (H2 & H3 & H4).
      rewrite Forall_app in H1. destruct H1 as [H1 H1']. split; [constructor; assumption|]. split; [assumption|].
      intros x y [<-|Hx] Hy; [|auto]. rewrite Forall_forall in H1'. auto.
    + intros (H1 & H2 & H3). inversion H1 as [|? ? H4 H5]; subst. constructor.
      * rewrite Forall_app. split; [assumption|]. apply Forall_forall. intros y Hy. apply H3; [now left|assumption].
      * apply IH. split; [assumption|]. split; [assumption|]. intros x y Hx Hy. apply H3; [now right|assumption].
Qed.
Lemma disjoint_sym : forall x y, disjoint x y -> disjoint y x.
Proof. intros x y. rewrite <- !depb_false, (depb_sym y x). auto. Qed.
Lemma commute_iff : forall c s, commute c s = true <-> forall y, In y c -> disjoint s y.
Proof.
  intros c s. rewrite commute_eq, forallb_forall. split; intros H y Hy; specialize (H y Hy).
  - apply depb_false. now apply negb_true_iff.
  - apply negb_true_iff. now apply depb_false.
Qed.
Lemma commute_false : forall c s, commute c s = false <-> exists y, In y c /\ shares s y.
Proof.
  intros c s. split.
  - intros H. induction c as [|y c IH]; [discriminate|]. rewrite commute_eq in H. cbn [forallb] in H. rewrite <- commute_eq in H.
    destruct (depb s y) eqn:E.
    + exists y. split; [now left|]. now apply depb_iff.
    + destruct (IH H) as (z & Hz & Hs). exists z. split; [now right|assumption].
  - intros (y & Hy & Hs). destruct (commute c s) eqn:E; [|reflexivity]. rewrite commute_iff in E. exfalso. exact (E _ Hy Hs).
Qed.
Lemma parallel_push : forall c s, parallel c -> commute c s = true -> parallel (c ++ [s]).
Proof.
  intros c s H K. apply parallel_app. split; [exact H|]. split; [repeat constructor|].
  intros x y Hx [<-|[]]. apply disjoint_sym. rewrite commute_iff in K. auto.
Qed.
Lemma parallel_perm : forall a b, Permutation a b -> parallel a -> parallel b.
Proof.
  induction 1; intros H1; auto.
  - inversion H1; subst. constructor; [|auto]. now rewrite <- H.
  - inversion H1 as [|? ? A B]; subst. inversion B as [|? ? C D]; subst. inversion A; subst. constructor; [|constructor; assumption].
    constructor; [now apply disjoint_sym|assumption].
Qed.

(** Deletion along a list of commuting letters. *)
Lemma del_skip : forall x u v, forallb (fun y => negb (depb x y)) u = true ->
  del x (u ++ v) = match del x v with Some v' => Some (u ++ v') | None => None end.
Proof.
  intros x u v. induction u as [|y u IH]; cbn [forallb app del]; intros H; [destruct (del x v); reflexivity|].
  apply andb_true_iff in H. destruct H as [H1 H2]. apply negb_true_iff in H1. rewrite H1, IH by exact H2. destruct (del x v); reflexivity.
Qed.
Lemma forallb_rev : forall {A} (f : A -> bool) l, forallb f (rev l) = forallb f l.
Proof.
  intros A f l. destruct (forallb f l) eqn:E.
  - apply forallb_forall. intros x Hx. rewrite forallb_forall in E. apply E. now apply in_rev.
  - apply not_true_is_false. intros K. rewrite forallb_forall in K. rewrite <- not_true_iff_false in E. apply E.
    apply forallb_forall. intros x Hx. apply K. now apply -> in_rev.
Qed.
Lemma allc_word : forall B s, allc B s = true -> forallb (fun y => negb (depb s y)) (word B) = true.
Proof. intros B s H. unfold word. rewrite forallb_rev. now rewrite allc_concat in H. Qed.

Definition inv (L : path) : Prop := Forall parallel L /\ (L = [[]] \/ Forall (fun c => c <> []) L).

Lemma del_col_cancel : forall s c1 c2 w, parallel (c1 ++ reverse s :: c2) ->
  del s (rev (c1 ++ reverse s :: c2) ++ w) = Some (rev (c1 ++ c2) ++ w).
Proof.
  intros s c1 c2 w P. rewrite !rev_app_distr. cbn [rev]. repeat (rewrite <- app_assoc; cbn [app]).
  apply parallel_app in P. destruct P as (_ & P & _). inversion P as [|? ? P1 _]; subst.
  rewrite del_skip.
  - cbn [del]. rewrite depb_rev_r, depb_refl. destruct (ed_eq_dec (reverse s) (reverse s)); [reflexivity|contradiction].
  - rewrite forallb_rev. apply forallb_forall. intros y Hy. rewrite Forall_forall in P1. specialize (P1 y Hy).
    apply depb_false in P1. rewrite depb_rev_l in P1. now rewrite P1.
Qed.
Lemma del_col_none : forall s c w, (exists y, In y c /\ shares s y) -> ~ In (reverse s) c -> del s (c ++ w) = None.
Proof.
  intros s c w (y & Hy & Hs) Hn. induction c as [|z c IH]; [destruct Hy|]. cbn [app del]. destruct (depb s z) eqn:E.
  - destruct (ed_eq_dec z (reverse s)) as [->|]; [|reflexivity]. exfalso. apply Hn. now left.
  - destruct Hy as [->|Hy]; [apply depb_iff in Hs; congruence|]. rewrite IH; [reflexivity|exact Hy|].
    intros K. apply Hn. now right.
Qed.
Lemma del_allc : forall s L, allc L s = true -> del s (word L) = None.
Proof.
  intros s L H. apply allc_word in H. pose proof (del_skip s (word L) [] H) as K. rewrite app_nil_r in K. rewrite K. reflexivity.
Qed.

(** Left-greedy insertion. *)
Fixpoint ins (L : path) (s : ed) : path :=
  match L with [] => [[s]] | c :: B => if allc (c :: B) s then (c ++ [s]) :: B else c :: ins B s end.
Lemma ins_allc : forall B s, allc B s = true -> ins B s = pushhead B s.
Proof. intros [|b B] s H; cbn [ins pushhead]; [reflexivity|]. now rewrite H. Qed.
Lemma ins_mid : forall A c B s, commute c s = false -> allc B s = true -> ins (A ++ c :: B) s = A ++ c :: pushhead B s.
Proof.
  intros A c B s Hc HB. induction A as [|a A IH]; cbn [app ins].
  - cbn [allc forallb]. rewrite Hc. cbn [andb]. now rewrite ins_allc.
  - replace (allc (a :: A ++ c :: B) s) with false; [now rewrite IH|]. symmetry. apply not_true_is_false. intros K.
    unfold allc in K. rewrite forallb_forall in K. specialize (K c). rewrite K in Hc; [discriminate|]. right. apply in_or_app. right. now left.
Qed.
Lemma ins_ne : forall L s, ins L s <> [].
Proof. intros [|c L] s; cbn [ins]; [discriminate|]. destruct (allc _ _); discriminate. Qed.
Lemma inv_mid : forall A c B, inv (A ++ c :: B) -> c <> [] -> Forall parallel A /\ parallel c /\ Forall parallel B /\
  Forall (fun c => c <> []) A /\ Forall (fun c => c <> []) B.
Proof.
  intros A c B (P & N) Hc. apply Forall_app in P. destruct P as [P1 P2]. inversion P2; subst.
  destruct N as [N|N].
  - destruct A; [|destruct A; discriminate]. cbn in N. injection N as -> ->. contradiction.
  - apply Forall_app in N. destruct N as [N1 N2]. inversion N2; subst. auto.
Qed.
Lemma pushhead_par : forall B s, Forall parallel B -> allc B s = true -> Forall parallel (pushhead B s).
Proof.
  intros [|b B] s H K; cbn [pushhead]; [repeat constructor|]. inversion H; subst. cbn [allc forallb] in K. apply andb_true_iff in K.
  constructor; [|assumption]. apply parallel_push; tauto.
Qed.
Lemma pushhead_ne : forall B s, Forall (fun c : list ed => c <> []) B -> Forall (fun c => c <> []) (pushhead B s).
Proof.
  intros [|b B] s H; cbn [pushhead]; [repeat constructor; discriminate|]. inversion H; subst. constructor; [|assumption].
  destruct b; discriminate.
Qed.
Lemma pushhead_word : forall B s, allc B s = true -> teq (word (pushhead B s)) (s :: word B).
Proof.
  intros [|b B] s K; cbn [pushhead]; [apply t_refl|]. rewrite !word_cons. rewrite rev_app_distr. cbn [rev app].
  cbn [allc forallb] in K. apply andb_true_iff in K. apply teq_move, allc_word, K.
Qed.

(** One iteration: either it cancels as deletion says, or it inserts. *)
Definition inv1 (L : path) : Prop := Forall parallel L /\ Forall (fun c => c <> []) L.
Lemma inv1_inv : forall L, inv1 L -> inv L.
Proof. intros L [A B]. split; auto. Qed.
Lemma reduce_step_spec : forall out s, inv out -> out <> [] ->
  (exists w' out', del s (word out) = Some w' /\ reduce_step out s = Some (out', true) /\ inv1 out' /\ word out' = w' ) \/
  (del s (word out) = None /\ reduce_step out s = Some (ins out s, false) /\ inv1 (ins out s) /\
   teq (word (ins out s)) (s :: word out)).
Proof.
  intros out s I Hne. destruct (reduce_step_cases out s) as [(Ha & [(E & _)|(b & B & E & R)])|(A & c & B & E & Hc & HB & R)].
  - contradiction.
  - right. split; [now apply del_allc|].
    assert (K : ins out s = (b ++ [s]) :: B) by (rewrite E; cbn [ins]; rewrite <- E, Ha; reflexivity).
    rewrite K. split; [exact R|]. split.
    + destruct I as (P & N). subst out. inversion P; subst. cbn [allc forallb] in Ha. apply andb_true_iff in Ha. split.
      * constructor; [|assumption]. apply parallel_push; tauto.
      * constructor; [destruct b; discriminate|]. destruct N as [N|N]; [injection N as -> ->; constructor|now inversion N].
    + pose proof (pushhead_word out s Ha) as W. rewrite E in W. cbn [pushhead] in W. now rewrite E.
  - assert (Hc0 : c <> []) by (intros ->; discriminate).
    assert (I' := I). rewrite E in I'. destruct (inv_mid _ _ _ I' Hc0) as (PA & Pc & PB & NA & NB).
    destruct R as [(c1 & c2 & Ec & R)|(Hn & R)].
    + left. exists (word B ++ rev (c1 ++ c2) ++ word A), (dropcol A (c1 ++ c2) B). split; [|split; [exact R|]].
      * rewrite E, word_app, word_cons, <- app_assoc. rewrite del_skip by now apply allc_word.
        rewrite Ec. rewrite del_col_cancel by now rewrite <- Ec. reflexivity.
      * assert (parallel (c1 ++ c2)) as Pn.
        { rewrite Ec in Pc. apply parallel_app in Pc. destruct Pc as (P1 & P2 & P3). inversion P2; subst. apply parallel_app.
          split; [assumption|]. split; [assumption|]. intros x y Hx Hy. apply P3; [assumption|now right]. }
        unfold dropcol. destruct (c1 ++ c2) as [|x cs] eqn:Ecc.
        -- split; [split; now apply Forall_app|]. now rewrite word_app.
        -- split; [split; apply Forall_app; (split; [assumption|constructor; [assumption || discriminate|assumption]])|].
           now rewrite word_app, word_cons, <- app_assoc.
    + right. rewrite E. rewrite (ins_mid A c B s Hc HB). rewrite <- E. split; [|split; [exact R|split]].
      * rewrite E, word_app, word_cons, <- app_assoc. rewrite del_skip by now apply allc_word.
        rewrite del_col_none; [reflexivity| |].
        -- apply commute_false in Hc. destruct Hc as (y & Hy & Hs). exists y. split; [now apply -> in_rev|assumption].
        -- intros K. apply Hn. now apply in_rev.
      * split; [apply Forall_app; split; [assumption|constructor; [assumption|now apply pushhead_par]]|].
        apply Forall_app. split; [assumption|]. constructor; [assumption|]. now apply pushhead_ne.
      * rewrite E, !word_app, !word_cons. apply (teq_app_r _ (s :: word B ++ rev c)). apply (teq_app_r _ (s :: word B)).
        now apply pushhead_word.
Qed.
