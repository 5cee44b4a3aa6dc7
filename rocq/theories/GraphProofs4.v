(** The edge iterator. *)
From Coq Require Import List Arith NArith Bool Lia ZifyBool ZifyNat ZifyN Permutation.
From Verif Require Import UtilModel UtilSpec UtilProofs PidModel PermModel MatModel SnfModel SnfProofs2 GraphModel GraphSpec GraphProofs.
Import ListNotations.
Open Scope nat_scope.

Definition column (j : nat) : list (nat * nat) := map (fun i => (i, j)) (rev (seq 0 j)).
Definition after (n : nat) (c : nat * nat) : list (nat * nat) :=
  map (fun i => (i, snd c)) (rev (seq 0 (fst c))) ++ flat_map column (rng (snd c + 1) n).
Definition next_pos (c : nat * nat) : nat * nat := if fst c =? 0 then (snd c, snd c + 1) else (fst c - 1, snd c).
Lemma after_next n c : fst c < snd c -> snd c < n -> after n c = if n <=? snd (next_pos c) then [] else next_pos c :: after n (next_pos c).
Proof.
  destruct c as [i j]. cbn [fst snd]. intros Hi Hj. unfold next_pos, after. cbn [fst snd]. destruct (Nat.eqb_spec i 0) as [->|H0]; cbn [fst snd].
  - cbn [seq rev map app]. destruct (Nat.leb_spec n (j + 1)); [now rewrite rng_nil|]. rewrite (rng_S (j + 1)) by lia. cbn [flat_map]. unfold column at 1.
    assert (K : seq 0 (j + 1) = seq 0 j ++ [j]) by (rewrite Nat.add_1_r, seq_S; reflexivity). rewrite K, rev_app_distr. cbn [rev app map]. reflexivity.
  - replace (n <=? j) with false by lia. destruct i as [|i]; [lia|]. rewrite seq_S, rev_app_distr. cbn [rev app map Nat.add]. now replace (S i - 1) with i by lia.
Qed.
Section Iter.
Variable g : rawg.
Hypothesis HG : GI g.
Let n := g_n g.
Let e (c : nat * nat) := edge g (fst c) (snd c).
Definition posn (c : nat * nat) := fst c < snd c /\ snd c < n.
Lemma next_posn c : posn c -> n <=? snd (next_pos c) = false -> posn (next_pos c).
Proof. unfold posn, next_pos. intros [H1 H2]. destruct (Nat.eqb_spec (fst c) 0); cbn [fst snd]; lia. Qed.
Lemma advance_spec : forall fuel c, posn c -> length (after n c) < fuel ->
  edge_advance fuel g c = Some (hd_error (filter e (after n c))) /\
  match hd_error (filter e (after n c)) with
  | None => filter e (after n c) = []
  | Some d => posn d /\ length (after n d) < length (after n c) /\ filter e (after n c) = d :: filter e (after n d)
  end.
Proof.
  induction fuel as [|f IH]; intros c Hc HF; [lia|]. cbn [edge_advance]. change (if fst c =? 0 then (snd c, snd c + 1) else (fst c - 1, snd c)) with (next_pos c).
  rewrite (after_next n c (proj1 Hc) (proj2 Hc)) in *. change (g_n g) with n. pose proof (next_posn c Hc) as Hd. destruct (n <=? snd (next_pos c)) eqn:E; [cbn; auto|].
  specialize (Hd eq_refl). rewrite contains_edge by (assumption || apply Hd). cbn [obind filter length] in *. unfold e at 2 5 6. fold e.
  change (edge g (fst (next_pos c)) (snd (next_pos c))) with (e (next_pos c)). destruct (e (next_pos c)) eqn:Ee; [cbn [hd_error]; auto|].
  destruct (IH (next_pos c) Hd ltac:(lia)) as [H1 H2]. split; [exact H1|]. destruct (hd_error _); [|exact H2]. destruct H2 as (A & B & C). repeat split; try apply A; try lia; exact C.
Qed.
Lemma edges_from_spec bound : forall fuel c, posn c -> length (after n c) < fuel -> length (after n c) < bound -> bound = S (n * n) ->
  edges_from fuel g c = Some (c :: filter e (after n c)).
Proof.
  induction fuel as [|f IH]; intros c Hc HF HB Eb; [lia|]. cbn [edges_from]. change (g_n g) with n. rewrite <- Eb.
  destruct (advance_spec bound c Hc HB) as [H1 H2]. rewrite H1. cbn [obind]. destruct (hd_error (filter e (after n c))) as [d|]; [|now rewrite H2].
  destruct H2 as (A & B & C). rewrite C. rewrite (IH d A) by (assumption || lia). reflexivity.
Qed.
End Iter.
Lemma column_len j : length (column j) = j.
Proof. unfold column. now rewrite map_length, rev_length, seq_length. Qed.
Lemma in_column i j k : In (i, k) (column j) <-> k = j /\ i < j.
Proof.
  unfold column. rewrite in_map_iff. split; [intros (x & [= <- <-] & H); rewrite <- in_rev in H; apply in_seq in H; lia|].
  intros [-> H]. exists i. split; [reflexivity|]. rewrite <- in_rev. apply in_seq. lia.
Qed.
Lemma after_len n : length (flat_map column (rng 2 n)) <= n * n.
Proof.
  assert (H : forall l, (forall x, In x l -> x < n) -> length (flat_map column l) <= length l * n).
  { induction l as [|a l IH]; intros Hl; [cbn; lia|]. cbn [flat_map length]. rewrite app_length, column_len. pose proof (Hl a ltac:(now left)). specialize (IH ltac:(intros; apply Hl; now right)). lia. }
  etransitivity; [apply H; intros x Hx; apply rng_in in Hx; lia|]. unfold rng. rewrite seq_length. apply Nat.mul_le_mono_r. lia.
Qed.
Lemma NoDup_columns l : NoDup l -> NoDup (flat_map column l).
Proof.
  induction l as [|a l IH]; intros H; [constructor|]. inversion H; subst. cbn [flat_map].
  assert (K : forall (x y : list (nat * nat)), NoDup x -> NoDup y -> (forall z, In z x -> ~ In z y) -> NoDup (x ++ y)).
  { induction x as [|b x IHx]; intros y Hx Hy Hd; [exact Hy|]. inversion Hx; subst. cbn [app]. constructor; [rewrite in_app_iff; intros [K|K]; [contradiction|apply (Hd b); [now left|exact K]]|]. apply IHx; auto. intros z Hz. apply Hd. now right. }
  apply K; [|auto|].
  - unfold column. apply FinFun.Injective_map_NoDup; [intros x y [=]; assumption|]. apply NoDup_rev, seq_NoDup.
  - intros [i k] Hz Hy. apply in_column in Hz. apply in_flat_map in Hy. destruct Hy as (b & Hb & Hy). apply in_column in Hy. destruct Hz, Hy. congruence.
Qed.
Lemma edge_iter_spec g : GI g -> 2 <= g_n g ->
  exists l, edge_iter g = Some ((0, 1) :: l) /\ NoDup l /\ forall i j, In (i, j) l <-> i < j /\ j < g_n g /\ edge g i j = true /\ (i, j) <> (0, 1).
Proof.
  intros HG Hn. unfold edge_iter. replace (g_n g <? 2) with false by lia. eexists. split; [|split].
  - apply (edges_from_spec g HG (S (g_n g * g_n g))); [unfold posn; cbn; lia| | |reflexivity]; unfold after; cbn [fst snd seq rev map app]; change (1 + 1) with 2; pose proof (after_len (g_n g)); lia.
  - apply NoDup_filter. unfold after. cbn [fst snd seq rev map app]. apply NoDup_columns. apply seq_NoDup.
  - intros i j. rewrite filter_In. unfold after. cbn [fst snd seq rev map app]. rewrite in_flat_map. split.
    + intros [(k & Hk & H) E]. apply rng_in in Hk. apply in_column in H. split; [lia|]. split; [lia|]. split; [exact E|]. intros [= -> ->]. lia.
    + intros (H1 & H2 & H3 & H4). split; [|exact H3]. exists j. split; [apply rng_in; destruct (Nat.eq_dec j 1); [|lia]; exfalso; apply H4; f_equal; lia|]. apply in_column. lia.
Qed.
