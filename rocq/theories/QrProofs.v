(** The loop of the QR algorithm. *)
From Coq Require Import List Arith Bool Lia ZifyBool Reals Lra.
From Verif Require Import PidModel MatModel MatSpec MatProofs MatProofs2 SnfModel SnfProofs2 RankModel LuModel LuSpec LuProofs2 LuProofs3 NumModel NumSpec NumProofs HouseProofs HessProofs HessProps FrancisModel FrancisSpec FrancisProofs FrancisProps.
Import ListNotations.
Open Scope R_scope.

Lemma find_first (b : nat -> bool) n : forall a, match find b (seq a n) with Some q => b q = true /\ (a <= q < a + n)%nat /\ (forall x, (a <= x < q)%nat -> b x = false) | None => forall x, (a <= x < a + n)%nat -> b x = false end.
Proof.
  induction n as [|n IH]; intros a; cbn [seq find]; [intros; lia|]. destruct (b a) eqn:E; [split; [exact E|]; split; [lia|intros; lia]|]. specialize (IH (S a)). destruct (find b (seq (S a) n)) as [q|].
  - destruct IH as (H1 & H2 & H3). split; [exact H1|]. split; [lia|]. intros x Hx. destruct (Nat.eq_dec x a) as [->|]; [exact E|apply H3; lia].
  - intros x Hx. destruct (Nat.eq_dec x a) as [->|]; [exact E|apply IH; lia].
Qed.
Lemma find_last (b : nat -> bool) a n : match find b (rev (seq a n)) with Some q => b q = true /\ (a <= q < a + n)%nat /\ (forall x, (q < x < a + n)%nat -> b x = false) | None => forall x, (a <= x < a + n)%nat -> b x = false end.
Proof.
  induction n as [|n IH]; [cbn; intros; lia|]. rewrite seq_S, rev_app_distr. cbn [rev app find]. destruct (b (a + n)%nat) eqn:E; [split; [exact E|]; split; [lia|intros; lia]|]. destruct (find b (rev (seq a n))) as [q|].
  - destruct IH as (H1 & H2 & H3). split; [exact H1|]. split; [lia|]. intros x Hx. destruct (Nat.eq_dec x (a + n)) as [->|]; [exact E|apply H3; lia].
  - intros x Hx. destruct (Nat.eq_dec x (a + n)) as [->|]; [exact E|apply IH; lia].
Qed.
Lemma chop_mk n f : (0 < n)%nat -> qr_chop (mk n n f) = Some (mk n n (chopped tolerance f)).
Proof.
  intros Hn. unfold qr_chop. rewrite nr_mk. unfold rng.
  set (st := fun k => mk n n (fun i j => if (i <=? k)%nat then chopped tolerance f i j else f i j)).
  assert (foldM qr_chop_step (seq 1 (n - 1)) (st 0%nat) = Some (st (n - 1)%nat)) as F.
  { apply foldM_seq. intros k Hk. unfold qr_chop_step, st. replace (1 + k - 1)%nat with k by lia. rewrite !mget_in by lia. cbn [obind]. replace (1 + k <=? k)%nat with false by lia. replace (k <=? k)%nat with true by lia.
    assert (chopped tolerance f k k = f k k) as -> by (unfold chopped; now replace (k =? k + 1)%nat with false by lia).
    destruct (rltb_spec (Rabs (f (1 + k)%nat k)) (tolerance * (Rabs (f k k) + Rabs (f (1 + k)%nat (1 + k)%nat)))) as [L|L].
    - rewrite mset_mk by lia. f_equal. apply mk_ext. intros i j Hi Hj. destruct ((i =? 1 + k) && (j =? k))%nat eqn:E.
      + replace (i <=? k + 1)%nat with true by lia. unfold chopped. replace (i =? j + 1)%nat with true by lia. replace i with (1 + k)%nat by lia. replace j with k by lia. now destruct (Rlt_dec _ _).
      + destruct (Nat.leb_spec i k); [now replace (i <=? k + 1)%nat with true by lia|]. destruct (Nat.leb_spec i (k + 1)); [|reflexivity]. unfold chopped. now replace (i =? j + 1)%nat with false by lia.
    - f_equal. apply mk_ext. intros i j Hi Hj. destruct (Nat.leb_spec i k); [now replace (i <=? k + 1)%nat with true by lia|]. destruct (Nat.leb_spec i (k + 1)); [|reflexivity].
      unfold chopped. destruct (Nat.eqb_spec i (j + 1)); [|reflexivity]. replace i with (1 + k)%nat by lia. replace j with k by lia. now destruct (Rlt_dec _ _). }
  replace (mk n n f) with (st 0%nat).
  - rewrite F. f_equal. apply mk_ext. intros i j Hi Hj. now replace (i <=? n - 1)%nat with true by lia.
  - apply mk_ext. intros i j Hi Hj. destruct (Nat.leb_spec i 0); [|reflexivity]. unfold chopped. now replace (i =? j + 1)%nat with false by lia.
Qed.
Definition both_large (n : nat) (c : nat -> nat -> R) (i : nat) : bool := rltb tolerance (Rabs (c (n - i - 1)%nat (n - i - 2)%nat)) && rltb tolerance (Rabs (c (n - i - 2)%nat (n - i - 3)%nat)).
Lemma qr_q_mk n c : (2 <= n)%nat -> qr_q n (mk n n c) = Some (match find (both_large n c) (seq 0 (n - 2)) with Some q => q | None => n end).
Proof.
  intros Hn. unfold qr_q, usub. replace (2 <=? n)%nat with true by lia. cbn [obind]. unfold rng. rewrite Nat.sub_0_r. rewrite (findM_some _ (both_large n c)); [reflexivity|].
  intros i Hi. apply in_seq in Hi. rewrite !mget_in by lia. cbn [obind]. unfold both_large. now destruct (rltb tolerance (Rabs (c (n - i - 1)%nat (n - i - 2)%nat))).
Qed.
Lemma qr_p_mk n q c : (q <= n)%nat -> qr_p n q (mk n n c) = Some (match find (fun i => rltb (Rabs (c i (i - 1)%nat)) tolerance) (rev (seq 1 (n - q - 1))) with Some p => p | None => 0%nat end).
Proof.
  intros Hq. unfold qr_p, usub. replace (q <=? n)%nat with true by lia. cbn [obind]. unfold rng. rewrite (findM_some _ (fun i => rltb (Rabs (c i (i - 1)%nat)) tolerance)); [reflexivity|].
  intros i Hi. rewrite <- in_rev in Hi. apply in_seq in Hi. rewrite !mget_in by lia. reflexivity.
Qed.
Lemma tol_pos : 0 < tolerance. Proof. unfold tolerance. apply Rinv_0_lt_compat. lra. Qed.
(** What the two searches find. *)
Lemma qr_search n c : (2 <= n)%nat -> exists q p, qr_q n (mk n n c) = Some q /\ qr_p n q (mk n n c) = Some p /\ (q = n /\ small_blocks n tolerance c \/ (q < n)%nat /\ active n tolerance c p (n - q)).
Proof.
  intros Hn. rewrite qr_q_mk by exact Hn. pose proof (find_first (both_large n c) (n - 2) 0) as FQ. destruct (find (both_large n c) (seq 0 (n - 2))) as [q|].
  - destruct FQ as (B & Hq & NB). exists q. rewrite qr_p_mk by lia. eexists. split; [reflexivity|]. split; [reflexivity|]. right. split; [lia|].
    pose proof (find_last (fun i => rltb (Rabs (c i (i - 1)%nat)) tolerance) 1 (n - q - 1)) as FP. unfold both_large in B. apply andb_prop in B. destruct B as (B1 & B2).
    destruct (rltb_spec tolerance (Rabs (c (n - q - 1)%nat (n - q - 2)%nat))) as [L1|]; [|discriminate]. destruct (rltb_spec tolerance (Rabs (c (n - q - 2)%nat (n - q - 3)%nat))) as [L2|]; [|discriminate].
    assert (forall i, (n - q - 2 <= i)%nat -> (i + 2 < n)%nat -> Rabs (c (i + 1)%nat i) <= tolerance \/ Rabs (c (i + 2)%nat (i + 1)%nat) <= tolerance) as BE.
    { intros i Hi Hi2. specialize (NB (n - i - 3)%nat ltac:(lia)). unfold both_large in NB. replace (n - (n - i - 3) - 1)%nat with (i + 2)%nat in NB by lia. replace (n - (n - i - 3) - 2)%nat with (i + 1)%nat in NB by lia.
      replace (n - (n - i - 3) - 3)%nat with i in NB by lia. apply andb_false_iff in NB. destruct NB as [NB|NB]; [right|left]; [destruct (rltb_spec tolerance (Rabs (c (i + 2)%nat (i + 1)%nat)))|destruct (rltb_spec tolerance (Rabs (c (i + 1)%nat i)))]; (discriminate || lra). }
    destruct (find (fun i => rltb (Rabs (c i (i - 1)%nat)) tolerance) (rev (seq 1 (n - q - 1)))) as [p|].
    + destruct FP as (B & Hp & NP). destruct (rltb_spec (Rabs (c p (p - 1)%nat)) tolerance) as [L|]; [|discriminate].
      assert (p <> n - q - 1)%nat by (intros ->; replace (n - q - 1 - 1)%nat with (n - q - 2)%nat in L by lia; lra). assert (p <> n - q - 2)%nat by (intros ->; replace (n - q - 2 - 1)%nat with (n - q - 3)%nat in L by lia; lra).
      split; [lia|]. split; [|split; [exact L1|split; [exact L2|split; [now intros _|exact BE]]]].
      intros i Hi1 Hi2. specialize (NP (i + 1)%nat ltac:(lia)). cbn beta in NP. replace (i + 1 - 1)%nat with i in NP by lia. destruct (rltb_spec (Rabs (c (i + 1)%nat i)) tolerance); [discriminate|lra].
    + split; [lia|]. split; [|split; [exact L1|split; [exact L2|split; [lia|exact BE]]]].
      intros i Hi1 Hi2. specialize (FP (i + 1)%nat ltac:(lia)). cbn beta in FP. replace (i + 1 - 1)%nat with i in FP by lia. destruct (rltb_spec (Rabs (c (i + 1)%nat i)) tolerance); [discriminate|lra].
  - exists n. rewrite qr_p_mk by lia. eexists. split; [reflexivity|]. split; [reflexivity|]. left. split; [reflexivity|]. intros i Hi. specialize (FQ (n - i - 3)%nat ltac:(lia)). unfold both_large in FQ.
    replace (n - (n - i - 3) - 1)%nat with (i + 2)%nat in FQ by lia. replace (n - (n - i - 3) - 2)%nat with (i + 1)%nat in FQ by lia. replace (n - (n - i - 3) - 3)%nat with i in FQ by lia.
    apply andb_false_iff in FQ. destruct FQ as [NB|NB]; [right|left]; [destruct (rltb_spec tolerance (Rabs (c (i + 2)%nat (i + 1)%nat)))|destruct (rltb_spec tolerance (Rabs (c (i + 1)%nat i)))]; (discriminate || lra).
Qed.
Lemma chopped_hess n eps f : hessenberg n f -> hessenberg n (chopped eps f).
Proof. intros HE i j Hi. unfold chopped. replace (i =? j + 1)%nat with false by lia. now apply HE. Qed.
(** The body of the loop. *)
Lemma qr_body_mk n f op : (2 <= n)%nat -> hessenberg n f ->
  (small_blocks n tolerance (chopped tolerance f) /\ forall ro, qr_body ro (mk n n f) op = Some (mk n n (chopped tolerance f), op, n)) \/
  exists p e g q, q = (n - e)%nat /\ active n tolerance (chopped tolerance f) p e /\ qr_iteration n tolerance f g /\ hessenberg n g /\
    qr_body false (mk n n f) op = Some (mk n n g, op, q) /\ (q < n)%nat /\ qr_body true (mk n n f) op = (do op' <- mmul op (mk (e - p) (e - p) id_entry); Some (mk n n g, op', q)).
Proof.
  intros Hn HE. set (c := chopped tolerance f). pose proof (chopped_hess n tolerance f HE) as HC. fold c in HC. destruct (qr_search n c Hn) as (q & p & EQ & EP & [(-> & SB)|(Hq & AC)]).
  - left. split; [exact SB|]. intros ro. unfold qr_body. rewrite nr_mk, chop_mk by lia. cbn [obind]. fold c. rewrite EQ. cbn [obind]. rewrite EP. cbn [obind]. now rewrite Nat.ltb_irrefl.
  - right. pose proof AC as AC'. destruct AC as (He & IN & L1 & L2 & UP & DOWN). set (e := (n - q)%nat) in *. set (d := (e - p)%nat).
    assert (hessenberg d (block_at p c)) as HB by (intros i j Hi; apply HC; lia).
    assert (unreduced d (block_at p c)) as UB.
    { intros i Hi K. unfold block_at in K. specialize (IN (p + i)%nat ltac:(lia) ltac:(lia)). replace (p + i + 1)%nat with (p + (i + 1))%nat in IN by lia. rewrite K, Rabs_R0 in IN. pose proof tol_pos. lra. }
    destruct (francis_mk d (block_at p c) false ltac:(lia) HB) as (g & E0 & HG & _ & UNR). destruct (francis_mk d (block_at p c) true ltac:(lia) HB) as (g' & E1 & _).
    set (G := fun i j => if ((p <=? i) && (i <? e) && (p <=? j) && (j <? e))%nat then g (i - p)%nat (j - p)%nat else c i j).
    assert (forall i j, (i < d)%nat -> (j < d)%nat -> block_at p G i j = g i j) as BG by (intros i j Hi Hj; unfold block_at, G; replace ((p <=? p + i) && (p + i <? e) && (p <=? p + j) && (p + j <? e))%nat with true by lia; f_equal; lia).
    assert (forall o op2, (2 <? e - p)%nat = true -> msub_view (mk n n c) p e p e = Some (mk d d (block_at p c)) /\ (forall g0, mwrite (mk n n c) p e p e (fst (mk d d g0, o : mat R)) = Some (mk n n (fun i j => if ((p <=? i) && (i <? e) && (p <=? j) && (j <? e))%nat then g0 (i - p)%nat (j - p)%nat else c i j))) /\ op2 = op2 :> mat R) as VW.
    { intros o op2 _. split; [|split; [|reflexivity]]; [rewrite msub_view_mk by lia; reflexivity|]. intros g0. cbn [fst]. unfold d. now rewrite mwrite_mk by lia. }
    assert (mk d d g' = mk d d g) as GG.
    { clear - E0 E1. unfold raw_francis_step in E0, E1. rewrite nr_mk, nc_mk, Nat.eqb_refl in E0, E1. destruct (midentity d); [|discriminate]. destruct (midentity 1); [|discriminate]. cbn [obind] in E0, E1.
      repeat match type of E0 with (do _ <- ?x; _) = _ => destruct x; cbn [obind] in E0, E1; [|discriminate] end. congruence. }
    exists p, e, G, q. split; [lia|]. split; [exact AC'|]. split; [|split; [|split; [|split; [exact Hq|]]]].
    + exists p, e. split; [exact AC'|]. split; [|split; [|split]].
      * intros i j Hi Hj N. unfold G. now replace ((p <=? i) && (i <? e) && (p <=? j) && (j <? e))%nat with false by lia.
      * intros i j Hi. fold d in Hi. rewrite BG by lia. now apply HG.
      * intros j Hj. fold d in Hj. rewrite BG by lia. now apply UNR.
      * intros P. destruct (UNR UB) as (_ & DS). apply (double_shift_ext d (block_at p c) _ g); [lia|now intros i j Hi Hj|intros i j Hi Hj; symmetry; now apply BG|]. apply DS. rewrite <- BG by lia. unfold block_at.
        replace (p + (d - 2))%nat with (e - 2)%nat by lia. now replace (p + (d - 3))%nat with (e - 3)%nat by lia.
    + intros i j Hi. unfold G. destruct ((p <=? i) && (i <? e) && (p <=? j) && (j <? e))%nat eqn:E; [apply HG; lia|now apply HC].
    + unfold qr_body. rewrite nr_mk, chop_mk by lia. cbn [obind]. fold c. rewrite EQ. cbn [obind]. rewrite EP. cbn [obind]. replace (q <? n)%nat with true by lia. fold e. replace (2 <? e - p)%nat with true by lia.
      destruct (VW (mk 1 1 id_entry) op ltac:(lia)) as (V1 & V2 & _). rewrite V1. cbn [obind]. rewrite E0. cbn [obind fst]. change (mk d d g) with (fst (mk d d g, mk 1 1 id_entry)). rewrite V2. reflexivity.
    + unfold qr_body. rewrite nr_mk, chop_mk by lia. cbn [obind]. fold c. rewrite EQ. cbn [obind]. rewrite EP. cbn [obind]. replace (q <? n)%nat with true by lia. fold e. replace (2 <? e - p)%nat with true by lia.
      destruct (VW (mk 1 1 id_entry) op ltac:(lia)) as (V1 & V2 & _). rewrite V1. cbn [obind]. rewrite E1. cbn [obind fst snd]. rewrite GG. change (mk d d g) with (fst (mk d d g, mk 1 1 id_entry)). rewrite V2. reflexivity.
Qed.
