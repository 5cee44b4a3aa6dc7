(** Connectivity search. *)
From Coq Require Import List Arith NArith Bool Lia ZifyBool ZifyNat ZifyN Permutation.
From Verif Require Import UtilModel UtilSpec UtilProofs PidModel PermModel MatModel SnfModel SnfProofs2 GraphModel GraphSpec GraphProofs.
Import ListNotations.
Open Scope nat_scope.

Lemma filter_all_len {A} (f : A -> bool) l : length (filter f l) = length l <-> forall x, In x l -> f x = true.
Proof.
  induction l as [|a l IH]; cbn [filter length]; [split; [intros _ x []|auto]|]. pose proof (filter_len_le f l). destruct (f a) eqn:E; cbn [length].
  - split; [intros H1 x [<-|Hx]; [exact E|apply IH; [lia|exact Hx]]|intros H1; f_equal; apply IH; intros; apply H1; now right].
  - split; [intros; lia|intros H1]. rewrite (H1 a) in E by now left. discriminate E.
Qed.
Lemma full_iff p : Inv p -> pool_is_full p = true <-> forall i, i < p_len p -> bit (p_data p) i = true.
Proof.
  intros HI. unfold pool_is_full. rewrite Nat.eqb_eq, (I_n _ HI). unfold members. rewrite <- (seq_length (p_len p) 0) at 2. rewrite filter_all_len. split.
  - intros H i Hi. apply H. apply in_seq. lia.
  - intros H i Hi. apply in_seq in Hi. apply H. lia.
Qed.
Lemma n_le_len p : Inv p -> p_n p <= p_len p.
Proof. intros HI. rewrite (I_n _ HI). unfold members. pose proof (filter_len_le (bit (p_data p)) (seq 0 (p_len p))) as H. now rewrite seq_length in H. Qed.

Section Search.
Variable g : rawg.
Hypothesis HG : GI g.
Let n := g_n g.
(** Visited vertices and stack. *)
Record SI (st : pool * list nat) : Prop := {
  S_inv : Inv (fst st); S_len : p_len (fst st) = n;
  S_nodup : NoDup (snd st); S_sub : forall x, In x (snd st) -> bit (p_data (fst st)) x = true /\ x < n;
  S_path : forall x, bit (p_data (fst st)) x = true -> path (edge g) 0 x;
  S_root : forall x, edge g 0 x = true -> bit (p_data (fst st)) x = true }.
Definition bt (st : pool * list nat) x := bit (p_data (fst st)) x.
Lemma visit_spec v st w : SI st -> path (edge g) 0 v -> edge g v w = true ->
  exists st', visit st w = Some st' /\ SI st' /\ (forall x, bt st' x = (x =? w) || bt st x) /\
    (forall x, bt st' x = true -> ~ In x (snd st') -> bt st x = true /\ ~ In x (snd st)) /\
    n - p_n (fst st') + length (snd st') = n - p_n (fst st) + length (snd st).
Proof.
  intros HS Hv Hw. pose proof (edge_lt g v w HG Hw) as (_ & Hwn & _). destruct HS as [I1 I2 I3 I4 I5 I6]. destruct st as [p s]. cbn [fst snd] in *. unfold visit. cbn [fst snd].
  rewrite contains_spec by apply I1. rewrite I2. replace (w <? n) with true by (unfold n; lia). cbn [obind]. destruct (bit (p_data p) w) eqn:E.
  - exists (p, s). split; [reflexivity|]. split; [constructor; assumption|]. split; [|split; [auto|reflexivity]]. intros x. unfold bt. cbn [fst snd]. destruct (Nat.eqb_spec x w) as [Ex|]; [|reflexivity]. now rewrite Ex, E.
  - destruct (add_spec p w I1) as (p' & Ep & J1 & J2 & J3); [rewrite I2; unfold n; lia|]. rewrite Ep. cbn [obind]. exists (p', w :: s). split; [reflexivity|].
    assert (HB : forall x, bit (p_data p') x = (x =? w) || bit (p_data p) x) by (intros x; rewrite J3; destruct (x =? w); reflexivity).
    split; [|split; [|split]].
    + constructor; cbn [fst snd].
      * exact J1.
      * congruence.
      * constructor; [|exact I3]. intros K. apply I4 in K. destruct K. congruence.
      * intros x [<-|K]; [rewrite HB, Nat.eqb_refl; split; [reflexivity|exact Hwn]|]. rewrite HB. destruct (I4 x K) as [K1 K2]. rewrite K1, orb_true_r. auto.
      * intros x. rewrite HB. intros K. apply orb_prop in K. destruct K as [K|K]; [|now apply I5]. apply Nat.eqb_eq in K. subst x. now apply (p_step _ _ v).
      * intros x K. rewrite HB, (I6 x K). apply orb_true_r.
    + exact HB.
    + unfold bt. cbn [fst snd]. intros x K1 K2. rewrite HB in K1. destruct (Nat.eqb_spec x w) as [Ex|Ex]; [exfalso; apply K2; left; congruence|]. split; [exact K1|]. intros K. apply K2. now right.
    + cbn [fst snd length]. assert (Hn : p_n p' = S (p_n p)).
      { rewrite (I_n _ J1), (I_n _ I1), J2. unfold members. apply (count_set _ _ w); [apply seq_NoDup|apply in_seq; rewrite I2; unfold n; lia|exact E|intros j; rewrite HB; destruct (j =? w); reflexivity]. }
      pose proof (n_le_len p' J1). rewrite J2, I2 in *. lia.
Qed.
Lemma visits_spec v l : forall st, SI st -> path (edge g) 0 v -> (forall w, In w l -> edge g v w = true) ->
  exists st', foldM visit l st = Some st' /\ SI st' /\ (forall x, bt st' x = existsb (Nat.eqb x) l || bt st x) /\
    (forall x, bt st' x = true -> ~ In x (snd st') -> bt st x = true /\ ~ In x (snd st)) /\
    n - p_n (fst st') + length (snd st') = n - p_n (fst st) + length (snd st).
Proof.
  induction l as [|w l IH]; intros st HS Hv Hl; [exists st; split; [reflexivity|]; split; [exact HS|]; split; [reflexivity|]; split; [auto|reflexivity]|]. cbn [foldM existsb].
  destruct (visit_spec v st w HS Hv (Hl w ltac:(now left))) as (s1 & E1 & H1 & B1 & C1 & M1). rewrite E1. cbn [obind].
  destruct (IH s1 H1 Hv ltac:(intros; apply Hl; now right)) as (s2 & E2 & H2 & B2 & C2 & M2). exists s2. split; [exact E2|]. split; [exact H2|]. split; [|split; [|lia]].
  - intros x. rewrite B2, B1. destruct (x =? w), (existsb (Nat.eqb x) l), (bt st x); reflexivity.
  - intros x K1 K2. destruct (C2 x K1 K2). now apply C1.
Qed.
Definition closed_st (st : pool * list nat) : Prop := forall x y, bt st x = true -> ~ In x (snd st) -> edge g x y = true -> bt st y = true.
Lemma conn_loop_spec : forall fuel st, SI st -> closed_st st -> n - p_n (fst st) + length (snd st) < fuel ->
  exists b, conn_loop fuel g st = Some b /\ (b = true -> forall x, x < n -> path (edge g) 0 x) /\
    (b = false -> exists v : nat -> bool, (exists x, x < n /\ v x = false) /\ (forall x, edge g 0 x = true -> v x = true) /\ forall x y, v x = true -> edge g x y = true -> v y = true).
Proof.
  induction fuel as [|f IH]; intros st HS HC HF; [lia|]. cbn [conn_loop]. destruct (pool_is_full (fst st)) eqn:Ef.
  - exists true. split; [reflexivity|]. split; [|discriminate]. intros _ x Hx. apply (S_path _ HS). apply (proj1 (full_iff _ (S_inv _ HS)) Ef). now rewrite (S_len _ HS).
  - destruct st as [p s]. cbn [fst snd] in *. destruct s as [|v s].
    + exists false. split; [reflexivity|]. split; [discriminate|]. intros _. exists (bit (p_data p)). split.
      * destruct (forallb (bit (p_data p)) (seq 0 n)) eqn:Ea.
        -- exfalso. assert (K : pool_is_full p = true); [|congruence]. apply full_iff; [apply HS|]. intros i Hi. rewrite forallb_forall in Ea. apply Ea. apply in_seq. pose proof (S_len _ HS) as HL. cbn [fst] in HL. lia.
        -- clear - Ea. assert (H : exists x, In x (seq 0 n) /\ bit (p_data p) x = false).
           { induction (seq 0 n) as [|a l IH]; [discriminate Ea|]. cbn [forallb] in Ea. destruct (bit (p_data p) a) eqn:E; [|exists a; split; [now left|exact E]]. destruct (IH Ea) as (x & H1 & H2). exists x. split; [now right|exact H2]. }
           destruct H as (x & H1 & H2). exists x. apply in_seq in H1. split; [lia|exact H2].
      * split; [exact (S_root _ HS)|]. intros x y K1 K2. apply (HC x y); [exact K1|intros []|exact K2].
    + pose proof (S_sub _ HS v ltac:(now left)) as [Hv Hvn]. cbn [fst] in Hv. pose proof (S_path _ HS v Hv) as Hp. rewrite adj_spec by assumption. cbn [obind].
      assert (H1 : SI (p, s)). { destruct HS as [I1 I2 I3 I4 I5 I6]. constructor; cbn [fst snd] in *; auto; [now inversion I3|intros x Hx; apply I4; now right]. }
      destruct (visits_spec v (filter (edge g v) (seq 0 (g_n g))) (p, s) H1 Hp) as (s2 & E2 & H2 & B2 & C2 & M2); [intros w Hw; apply filter_In in Hw; apply Hw|].
      rewrite E2. cbn [obind]. apply IH; [exact H2| |cbn [fst snd length] in *; lia].
      intros x y K1 K2 K3. rewrite B2, existsb_adj by assumption. destruct (edge g v y) eqn:Ev; [reflexivity|]. cbn [orb]. destruct (C2 x K1 K2) as [K4 K5].
      apply (HC x y); [exact K4| |exact K3]. cbn [snd] in *. intros [->|K]; [congruence|contradiction].
Qed.
End Search.

Lemma path_trans r x y z : path r x y -> path r y z -> path r x z.
Proof. intros H1 H2. revert H1. induction H2 as [y|y z w H IH E]; intros H1; [exact H1|]. apply (p_step r x z w); auto. Qed.
Lemma path_sym r x y : (forall a b, r a b = r b a) -> path r x y -> path r y x.
Proof.
  intros Hs H. induction H as [x|x y z H IH E]; [constructor|]. apply (path_trans r z y x); [|exact IH]. apply (p_step r z z y); [constructor|]. now rewrite Hs.
Qed.
Lemma path_closed r (v : nat -> bool) x y : (forall a b, v a = true -> r a b = true -> v b = true) -> path r x y -> v x = true -> v y = true.
Proof. intros Hc H Hx. induction H as [x|x y z H IH E]; [exact Hx|]. apply (Hc y z); [apply IH; assumption|exact E]. Qed.
Lemma path_ext r s x y : (forall a b, r a b = true -> s a b = true) -> path r x y -> path s x y.
Proof. intros H P. induction P as [x|x y z P IH E]; [constructor|]. apply (p_step s x y z); auto. Qed.

Lemma is_connected_spec g : GI g -> exists b, g_is_connected g = Some b /\
  (b = true <-> 2 <= g_n g /\ connected (g_n g) (edge g)).
Proof.
  intros HG. pose proof (GI_pos _ HG) as Hp. unfold g_is_connected. rewrite adj_spec by assumption. cbn [obind].
  destruct (new_spec (g_n g)) as (A & B & C).
  destruct (add_all_spec (filter (edge g 0) (seq 0 (g_n g))) (pool_new (g_n g)) A) as (p & E & I1 & I2 & I3).
  { apply Forall_forall. intros x Hx. apply filter_In in Hx. destruct Hx as [Hx _]. apply in_seq in Hx. rewrite B. lia. }
  rewrite E. cbn [obind]. assert (HB : forall x, bit (p_data p) x = edge g 0 x).
  { intros x. rewrite I3, C, orb_false_r. unfold mem. apply existsb_adj; assumption. }
  assert (ND : NoDup (filter (edge g 0) (seq 0 (g_n g)))) by apply NoDup_filter, seq_NoDup.
  destruct (conn_loop_spec g HG (S (S (g_n g))) (p, rev (filter (edge g 0) (seq 0 (g_n g))))) as (b & Eb & Ht & Hf).
  - constructor; cbn [fst snd]; [exact I1|congruence|now apply NoDup_rev| | |].
    + intros x Hx. apply in_rev in Hx. apply filter_In in Hx. rewrite HB. destruct Hx as [Hx ?]. apply in_seq in Hx. split; [assumption|lia].
    + intros x Hx. rewrite HB in Hx. apply (p_step _ _ 0); [constructor|exact Hx].
    + intros x Hx. now rewrite HB.
  - intros x y K1 K2. exfalso. apply K2. cbn [snd]. unfold bt in K1. cbn [fst] in K1. rewrite HB in K1. rewrite <- in_rev. apply filter_In. split; [|exact K1]. apply edge_lt in K1; [|assumption]. apply in_seq. lia.
  - cbn [fst snd]. rewrite rev_length. assert (p_n p = length (filter (edge g 0) (seq 0 (g_n g)))).
    { rewrite (I_n _ I1), I2, B. unfold members. f_equal. apply filter_ext. exact HB. }
    pose proof (filter_len_le (edge g 0) (seq 0 (g_n g))) as K. rewrite seq_length in K. lia.
  - exists b. split; [exact Eb|]. split.
    + intros ->. specialize (Ht eq_refl). split.
      * destruct (Nat.lt_ge_cases 1 (g_n g)) as [|H1]; [lia|]. exfalso. assert (Hn : g_n g = 1) by lia. revert Eb. rewrite Hn. cbn [seq filter]. rewrite edge_irrefl. cbn [rev conn_loop fst snd].
        destruct (pool_is_full p) eqn:F; [|discriminate]. intros _. pose proof (proj1 (full_iff p I1) F 0 ltac:(rewrite I2, B; lia)) as K. rewrite HB, edge_irrefl in K. discriminate K.
      * intros x y Hx Hy. apply (path_trans _ x 0 y); [apply path_sym; [apply edge_sym|auto]|auto].
    + intros [H2 HC]. destruct b; [reflexivity|]. exfalso. destruct (Hf eq_refl) as (v & (x & Hx & Hvx) & V1 & V2).
      assert (K : forall y, path (edge g) 0 y -> y = 0 \/ v y = true).
      { intros y P. remember 0 as z eqn:Ez in P. induction P as [z|z y w P IH Ee]; [now left|]. right. destruct (IH Ez) as [Hy|Hy]; [subst y; now apply V1|now apply (V2 y)]. }
      assert (K1 : v 1 = true) by (destruct (K 1 (HC 0 1 ltac:(lia) ltac:(lia))); [lia|assumption]).
      assert (K2 : v x = true) by (apply (path_closed (edge g) v 1 x V2); [apply HC; lia|exact K1]). congruence.
Qed.
