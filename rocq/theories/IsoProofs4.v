(** From the signed correspondence of cells to the homology report. *)
From Coq Require Import List Arith ZArith Bool Lia ZifyBool ZifyNat Sorted Permutation.
From Verif Require Import PidModel LinModel LinSpec MatModel MatSpec MatProofs HomModel HomSpec HomProps SimpModel SimpSpec SimpProofs4 SimpProofs5 SimpProofs7 SimpProps CompProps LinProofs3 IsoSpec IsoProofs IsoProofs2 IsoProofs3.
Import ListNotations.
Open Scope nat_scope.

(** ** The kernel as a subgroup *)
Lemma kernel_dec d x : {in_kernel d x} + {~ in_kernel d x}.
Proof.
  unfold in_kernel. destruct (Nat.eq_dec (length x) (nc d)) as [L|L]; [|right; tauto].
  assert (H : forall n, {forall i, i < n -> apply_at d x i = 0%Z} + {~ forall i, i < n -> apply_at d x i = 0%Z}).
  { induction n as [|n IH]; [left; lia|]. destruct IH as [IH|IH]; [|right; intros K; apply IH; intros i Hi; apply K; lia].
    destruct (Z.eq_dec (apply_at d x n) 0) as [E|E]; [left|right; intros K; apply E, K; lia]. intros i Hi. destruct (Nat.eq_dec i n) as [->|]; [exact E|apply IH; lia]. }
  destruct (H (nr d)) as [K|K]; [left|right]; tauto.
Qed.
Lemma kernel_add d x y : in_kernel d x -> in_kernel d y -> in_kernel d (gadd x y).
Proof.
  intros (L1 & H1) (L2 & H2). split; [rewrite gadd_length; lia|]. intros i Hi. specialize (H1 i Hi). specialize (H2 i Hi). unfold apply_at in *.
  rewrite (zsum_ext _ _ (fun j => ent d i j * nth j x 0 + ent d i j * nth j y 0)%Z). { rewrite zsum_add. lia. }
  intros j Hj. rewrite gadd_nth by lia. lia.
Qed.
Lemma kernel_neg d x : in_kernel d x -> in_kernel d (gneg x).
Proof.
  intros (L1 & H1). split; [now rewrite gneg_length|]. intros i Hi. specialize (H1 i Hi). unfold apply_at in *.
  rewrite (zsum_ext _ _ (fun j => (-1) * (ent d i j * nth j x 0))%Z). { rewrite zsum_mul. lia. }
  intros j Hj. rewrite gneg_nth. lia.
Qed.
Lemma homology_unique d Bnd ms ns : quotient_is (in_kernel d) Bnd ms -> quotient_is (in_kernel d) Bnd ns -> group_iso ms ns.
Proof. apply (quotient_unique (nc d)); [apply kernel_dec|intros x H; apply H|apply kernel_add|apply kernel_neg]. Qed.

(** ** Paired complexes *)
Record pairing (d d' : mat Z) (p q : nat -> nat) (e : nat -> Z) (p2 q2 : nat -> nat) (e2 : nat -> Z) : Prop := {
  pr_r : nr d' = nr d; pr_c : nc d' = nc d; pr_p : signed_perm (nr d) p q e; pr_p2 : signed_perm (nc d) p2 q2 e2;
  pr_d : forall i j, i < nr d -> j < nc d -> ent d' (p i) (p2 j) = (e i * e2 j * ent d i j)%Z }.
Lemma pull_zero n p e : pull n p e (repeat 0%Z n) = repeat 0%Z n.
Proof.
  apply (nth_ext _ _ 0%Z 0%Z); [now rewrite pull_length, repeat_length|]. intros j Hj. rewrite pull_length in Hj. rewrite pull_nth by exact Hj. rewrite !nth_repeat. lia.
Qed.
Lemma pull_inj n p q e x : signed_perm n p q e -> length x = n -> pull n p e x = repeat 0%Z n -> x = repeat 0%Z n.
Proof.
  intros (P & Q & E) L H. apply (nth_ext _ _ 0%Z 0%Z); [now rewrite repeat_length|]. intros j Hj. rewrite L in Hj. destruct (Q j Hj) as [Q1 Q2]. assert (K := f_equal (fun l => nth (q j) l 0%Z) H). cbn beta in K.
  rewrite pull_nth, nth_repeat, Q2 in K by exact Q1. specialize (E (q j) Q1). rewrite nth_repeat. nia.
Qed.
Lemma paired_transport ds ds' k d d' p q e p2 q2 e2 ms : nth_error ds k = Some d -> nth_error ds' k = Some d' -> pairing d d' p q e p2 q2 e2 ->
  (forall D, nth_error ds (k + 1) = Some D -> nr D = nc d /\ exists D' p3 q3 e3, nth_error ds' (k + 1) = Some D' /\ pairing D D' p2 q2 e2 p3 q3 e3) ->
  (nth_error ds (k + 1) = None -> nth_error ds' (k + 1) = None) ->
  quotient_is (in_kernel d) (boundaries_of ds k) ms -> quotient_is (in_kernel d') (boundaries_of ds' k) ms.
Proof.
  intros Ed Ed' [R C P P2 HD] HN H0. apply (quotient_transport _ _ _ _ (pull (nc d) p2 e2)).
  - intros x Hx. apply (kernel_pair d d' p q p2 q2 e e2); try assumption. rewrite <- C. apply Hx.
  - intros x y (Hx & _) (Hy & _). apply (pull_add _ p2 q2 e2); [assumption|congruence|congruence].
  - intros x (Hx & _). rewrite C in Hx. unfold boundaries_of. destruct (nth_error ds (k + 1)) as [D|] eqn:EN.
    + destruct (HN D eq_refl) as (RD & D' & p3 & q3 & e3 & -> & [R3 C3 P3 P4 HD3]). rewrite <- RD. apply (image_pair D D' p2 q2 p3 q3 e2 e3); try assumption. congruence.
    + rewrite (H0 eq_refl). split; intros (f & Ef & Ex).
      * rewrite Ed in Ef. injection Ef as <-. exists d'. split; [exact Ed'|]. rewrite C. now apply (pull_inj _ p2 q2 e2).
      * rewrite Ed' in Ef. injection Ef as <-. exists d. split; [exact Ed|]. rewrite Ex, C. apply pull_zero.
  - intros x Hx. destruct (pull_onto (nc d) p2 q2 e2 x P2) as (x' & L & Ex); [apply Hx|]. exists x'. split; [|exact Ex]. apply (kernel_pair d d' p q p2 q2 e e2); try assumption. now rewrite Ex.
Qed.

(** ** Reports *)
Lemma same_report {B B'} (cmp : B -> B -> comparison) (cmp' : B' -> B' -> comparison) (bms : list (mat Z * list B)) (bms' : list (mat Z * list B')) max_dim :
  total_order cmp -> total_order cmp' -> complex_data bms -> complex_data bms' -> length bms = length bms' ->
  (forall k d d', nth_error (map fst bms) k = Some d -> nth_error (map fst bms') k = Some d' -> forall ms,
     quotient_is (in_kernel d) (boundaries_of (map fst bms) k) ms -> quotient_is (in_kernel d') (boundaries_of (map fst bms') k) ms) ->
  exists out out', integral_homology cmp bms max_dim = Some out /\ integral_homology cmp' bms' max_dim = Some out' /\
    forall k, reported_rank out k = reported_rank out' k /\ reported_divisors out k = reported_divisors out' k.
Proof.
  intros Ht Ht' CD CD' LE HT.
  destruct (C43_homology_partial B cmp bms max_dim Ht CD) as (out & EO & LO & H1 & H2). destruct (C43_homology_partial B' cmp' bms' max_dim Ht' CD') as (out' & EO' & LO' & H1' & H2').
  exists out, out'. split; [exact EO|]. split; [exact EO'|]. intros k. rewrite <- LE in LO', H2'. set (top := match max_dim with None => length bms | Some d => Nat.min (d + 1) (length bms) end) in *.
  destruct (Nat.lt_ge_cases k top) as [Hk|Hk].
  - (* both degrees exist *)
    assert (A : exists d r ds, nth_error (map fst bms) k = Some d /\ quotient_is (in_kernel d) (boundaries_of (map fst bms) k) (group_of r ds) /\ reported_rank out k = r /\ reported_divisors out k = proper_divisors ds /\
      Forall (fun d => fst d <> 0%Z) ds /\ StronglySorted Z.divide (flat_map (fun d => repeat (fst d) (snd d)) ds)).
    { unfold reported_rank, reported_divisors. destruct (nth_error out k) as [[[h cyc] bnd]|] eqn:E.
      - destruct (H1 k h cyc bnd E) as (d & Ed & Q & _ & F & S). exists d, (free_rank h), (elementary_divisors h). split; [exact Ed|]. split; [exact Q|]. split; [reflexivity|]. split; [reflexivity|]. split; [|exact S]. eapply Forall_impl; [|exact F]. intros a Ha. apply Ha.
      - apply nth_error_None in E. destruct (H2 k (conj E Hk)) as (d & Ed & Q). exists d, 0, []. split; [exact Ed|]. split; [exact Q|]. repeat split; constructor. }
    assert (A' : exists d r ds, nth_error (map fst bms') k = Some d /\ quotient_is (in_kernel d) (boundaries_of (map fst bms') k) (group_of r ds) /\ reported_rank out' k = r /\ reported_divisors out' k = proper_divisors ds /\
      Forall (fun d => fst d <> 0%Z) ds /\ StronglySorted Z.divide (flat_map (fun d => repeat (fst d) (snd d)) ds)).
    { unfold reported_rank, reported_divisors. destruct (nth_error out' k) as [[[h cyc] bnd]|] eqn:E.
      - destruct (H1' k h cyc bnd E) as (d & Ed & Q & _ & F & S). exists d, (free_rank h), (elementary_divisors h). split; [exact Ed|]. split; [exact Q|]. split; [reflexivity|]. split; [reflexivity|]. split; [|exact S]. eapply Forall_impl; [|exact F]. intros a Ha. apply Ha.
      - apply nth_error_None in E. destruct (H2' k (conj E Hk)) as (d & Ed & Q). exists d, 0, []. split; [exact Ed|]. split; [exact Q|]. repeat split; constructor. }
    destruct A as (d & r & ds & Ed & Q & -> & -> & N & S). destruct A' as (d' & r' & ds' & Ed' & Q' & -> & -> & N' & S').
    apply (HT k d d' Ed Ed') in Q. now apply (divisors_unique r ds r' ds' N N' S S'), (homology_unique _ _ _ _ Q Q').
  - unfold reported_rank, reported_divisors. rewrite (proj2 (nth_error_None out k)), (proj2 (nth_error_None out' k)) by lia. split; reflexivity.
Qed.
