(** One iteration of the symmetric QR algorithm. *)
From Coq Require Import List Arith Bool Lia ZifyBool Reals Lra.
From Verif Require Import PidModel MatModel MatSpec MatProofs MatProofs2 SnfModel SnfProofs2 RankModel LuModel LuSpec LuProofs2 LuProofs3 NumModel NumSpec NumProofs HouseProofs HessProofs FrancisModel FrancisSpec FrancisProofs QrProofs EigProofs TriModel TriSpec TriProofs WilkModel WilkSpec WilkProofs WilkProps SpectrumProps SymQrSpec SymQrProofs SymQrProofs2.
Import ListNotations.
Open Scope R_scope.

(** A matrix of order [e - p] placed at the indices [p .. e). *)
Definition inr (p e a : nat) : bool := ((p <=? a) && (a <? e))%nat.
Definition embed (p e : nat) (P X : nat -> nat -> R) (a b : nat) : R := if inr p e a && inr p e b then P (a - p)%nat (b - p)%nat else X a b.
Lemma window_sum n p e (g : nat -> R) : (p <= e <= n)%nat -> (forall k, (k < n)%nat -> inr p e k = false -> g k = 0) -> sum n g = sum (e - p) (fun k => g (p + k)%nat).
Proof.
  intros H Z. rewrite (rsum_ext n g (fun k => shifted p e (fun _ => 1) k * g k)).
  - rewrite shifted_sum by exact H. apply rsum_ext. intros; ring.
  - intros k Hk. unfold shifted. destruct ((p <=? k) && (k <? e))%nat eqn:E; [ring|]. rewrite Z; [ring|exact Hk|exact E].
Qed.
Lemma embed_left n p e P X a b : (p <= e <= n)%nat -> (a < n)%nat -> prod_entry n (transposed (embed p e P id_entry)) X a b = if inr p e a then sum (e - p) (fun k => P k (a - p)%nat * X (p + k)%nat b) else X a b.
Proof.
  intros H Ha. unfold prod_entry, transposed, embed. destruct (inr p e a) eqn:I.
  - rewrite (window_sum n p e); [|exact H|].
    + apply rsum_ext. intros k Hk. unfold inr in *. replace ((p <=? p + k) && (p + k <? e))%nat with true by lia. cbn [andb]. replace (p + k - p)%nat with k by lia. reflexivity.
    + intros k Hk K. rewrite K. cbn [andb]. unfold id_entry. unfold inr in *. replace (k =? a)%nat with false by lia. cbn. ring.
  - rewrite (rsum_single n a); [| exact Ha|].
    + rewrite I. cbn [andb]. unfold id_entry. rewrite Nat.eqb_refl. cbn. ring.
    + intros k Hk N. rewrite andb_false_r. unfold id_entry. replace (k =? a)%nat with false by lia. cbn. ring.
Qed.
Lemma embed_right n p e P X a b : (p <= e <= n)%nat -> (b < n)%nat -> prod_entry n X (embed p e P id_entry) a b = if inr p e b then sum (e - p) (fun k => X a (p + k)%nat * P k (b - p)%nat) else X a b.
Proof.
  intros H Hb. rewrite <- (rprod_trans n X (embed p e P id_entry) b a). rewrite embed_left by assumption. destruct (inr p e b); [|reflexivity]. apply rsum_ext. intros k Hk. unfold transposed. ring.
Qed.
Lemma embed_orth n p e P : (p <= e <= n)%nat -> orthogonal (e - p) P -> orthogonal n (embed p e P id_entry).
Proof.
  intros H O a b Ha Hb. split.
  - rewrite embed_left by assumption. unfold embed. destruct (inr p e a) eqn:IA.
    + destruct (inr p e b) eqn:IB.
      * unfold inr in *. rewrite (rsum_ext (e - p) _ (fun k => P k (a - p)%nat * P k (b - p)%nat)) by (intros k Hk; replace ((p <=? p + k) && (p + k <? e))%nat with true by lia; cbn [andb]; now replace (p + k - p)%nat with k by lia).
        transitivity (prod_entry (e - p) (transposed P) P (a - p) (b - p)); [reflexivity|]. rewrite (proj1 (O (a - p)%nat (b - p)%nat ltac:(lia) ltac:(lia))). unfold id_entry. destruct (Nat.eqb_spec a b); [replace (a - p =? b - p)%nat with true by lia|replace (a - p =? b - p)%nat with false by lia]; reflexivity.
      * rewrite rsum_zero; [unfold id_entry; unfold inr in *; now replace (a =? b)%nat with false by lia|]. intros k Hk. rewrite andb_false_r. unfold id_entry. unfold inr in *. replace (p + k =? b)%nat with false by lia. cbn. ring.
    + reflexivity.
  - rewrite (rprod_ext n _ (transposed (embed p e (transposed P) id_entry)) _ (embed p e (transposed P) id_entry)).
    + rewrite embed_left by assumption. unfold embed. destruct (inr p e a) eqn:IA.
      * destruct (inr p e b) eqn:IB.
        -- unfold inr in *. rewrite (rsum_ext (e - p) _ (fun k => P (a - p)%nat k * P (b - p)%nat k)) by (intros k Hk; replace ((p <=? p + k) && (p + k <? e))%nat with true by lia; cbn [andb]; now replace (p + k - p)%nat with k by lia).
           transitivity (prod_entry (e - p) P (transposed P) (a - p) (b - p)); [reflexivity|]. rewrite (proj2 (O (a - p)%nat (b - p)%nat ltac:(lia) ltac:(lia))). unfold id_entry. destruct (Nat.eqb_spec a b); [replace (a - p =? b - p)%nat with true by lia|replace (a - p =? b - p)%nat with false by lia]; reflexivity.
        -- rewrite rsum_zero; [unfold id_entry; unfold inr in *; now replace (a =? b)%nat with false by lia|]. intros k Hk. rewrite andb_false_r. unfold id_entry. unfold inr in *. replace (p + k =? b)%nat with false by lia. cbn. ring.
      * reflexivity.
    + intros l Hl. unfold transposed, embed. rewrite (andb_comm (inr p e l)). destruct (inr p e a && inr p e l); [reflexivity|]. unfold id_entry. now rewrite Nat.eqb_sym.
    + intros l Hl. unfold transposed, embed. rewrite (andb_comm (inr p e l)). destruct (inr p e b && inr p e l); [reflexivity|]. unfold id_entry. now rewrite Nat.eqb_sym.
Qed.
(** A perturbation of a diagonal block that is not coupled to the rest. *)
Lemma pert_block n p e A G eps : (p <= e <= n)%nat -> (forall a b, (a < n)%nat -> (b < n)%nat -> inr p e a <> inr p e b -> A a b = 0) -> perturbed (e - p) (block_at p A) eps G -> perturbed n A eps (embed p e G A).
Proof.
  intros H Z (P & F & O & Y & L & C). exists (embed p e P id_entry), (embed p e F (fun _ _ => 0)). split; [now apply embed_orth|]. split; [|split].
  - intros a b Ha Hb. unfold embed. rewrite (andb_comm (inr p e b)). destruct (inr p e a) eqn:IA, (inr p e b) eqn:IB; try reflexivity. unfold inr in *. apply Y; lia.
  - replace (frob n (embed p e F (fun _ _ => 0))) with (frob (e - p) F); [exact L|]. unfold frob. f_equal. symmetry. rewrite (window_sum n p e); [|exact H|].
    + apply rsum_ext. intros i Hi. rewrite (window_sum n p e); [|exact H|].
      * apply rsum_ext. intros j Hj. unfold embed, inr. replace ((p <=? p + i) && (p + i <? e) && ((p <=? p + j) && (p + j <? e)))%nat with true by lia. now replace (p + i - p)%nat with i by lia; replace (p + j - p)%nat with j by lia.
      * intros k Hk K. unfold embed. rewrite K, andb_false_r. ring.
    + intros k Hk K. apply rsum_zero. intros j Hj. unfold embed. rewrite K. cbn [andb]. ring.
  - intros a b Ha Hb. rewrite embed_left by assumption. destruct (inr p e a) eqn:IA.
    + rewrite (rsum_ext (e - p) _ (fun k => P k (a - p)%nat * if inr p e b then sum (e - p) (fun l => (block_at p A k l + F k l) * P l (b - p)%nat) else 0)).
      * destruct (inr p e b) eqn:IB.
        -- unfold embed. rewrite IA, IB. cbn [andb]. unfold inr in IA, IB. rewrite (C (a - p)%nat (b - p)%nat) by lia. reflexivity.
        -- unfold embed. rewrite IA, IB. cbn [andb]. rewrite rsum_zero by (intros; ring). apply Z; [exact Ha|exact Hb|congruence].
      * intros k Hk. f_equal. rewrite embed_right by assumption. destruct (inr p e b) eqn:IB.
        -- apply rsum_ext. intros l Hl. unfold embed, inr, block_at. replace ((p <=? p + k) && (p + k <? e) && ((p <=? p + l) && (p + l <? e)))%nat with true by lia. replace (p + k - p)%nat with k by lia. now replace (p + l - p)%nat with l by lia.
        -- unfold embed. rewrite IB, andb_false_r. rewrite Z; [ring|lia|exact Hb|]. rewrite IB. unfold inr. replace ((p <=? p + k) && (p + k <? e))%nat with true by lia. discriminate.
    + rewrite embed_right by assumption. unfold embed. rewrite IA. cbn [andb]. destruct (inr p e b) eqn:IB.
      * rewrite rsum_zero; [apply Z; [exact Ha|exact Hb|congruence]|]. intros k Hk. rewrite Z; [ring|exact Ha|lia|]. rewrite IA. unfold inr. replace ((p <=? p + k) && (p + k <? e))%nat with true by lia. discriminate.
      * ring.
Qed.
(** The small entries beside the diagonal are set to zero. *)
Lemma sq_chop_mk n f : sq_chop n (mk n n f) = Some (mk n n (dropped sq_tol f)).
Proof.
  unfold sq_chop, rng. rewrite Nat.sub_0_r.
  set (st := fun k => mk n n (fun i j => if (Nat.max i j <=? k)%nat then dropped sq_tol f i j else f i j)).
  rewrite (foldM_seq0 _ st (mk n n f) (n - 1)).
  - f_equal. apply mk_ext. intros i j Hi Hj. now replace (Nat.max i j <=? n - 1)%nat with true by lia.
  - apply mk_ext. intros i j Hi Hj. destruct (Nat.leb_spec (Nat.max i j) 0); [|reflexivity]. unfold dropped. replace (i =? j + 1)%nat with false by lia. now replace (j =? i + 1)%nat with false by lia.
  - intros k Hk. unfold st at 1. rewrite mget_in by lia. cbn [obind]. replace (Nat.max (k + 1) k <=? k)%nat with false by lia. destruct (rltb_spec (Rabs (f (k + 1)%nat k)) sq_tol) as [L|L].
    + unfold st. rewrite mset_mk by lia. cbn [obind]. rewrite mset_mk by lia. f_equal. apply mk_ext. intros i j Hi Hj. unfold dropped. destruct ((i =? k) && (j =? k + 1))%nat eqn:E1.
      * replace (Nat.max i j <=? k + 1)%nat with true by lia. replace (i =? j + 1)%nat with false by lia. replace (j =? i + 1)%nat with true by lia. replace i with k by lia. replace j with (k + 1)%nat by lia. now destruct (Rlt_dec _ _).
      * destruct ((i =? k + 1) && (j =? k))%nat eqn:E2.
        -- replace (Nat.max i j <=? k + 1)%nat with true by lia. replace (i =? j + 1)%nat with true by lia. replace i with (k + 1)%nat by lia. replace j with k by lia. now destruct (Rlt_dec _ _).
        -- destruct (Nat.leb_spec (Nat.max i j) k); [now replace (Nat.max i j <=? k + 1)%nat with true by lia|]. destruct (Nat.leb_spec (Nat.max i j) (k + 1)); [|reflexivity]. replace (i =? j + 1)%nat with false by lia. now replace (j =? i + 1)%nat with false by lia.
    + f_equal. apply mk_ext. intros i j Hi Hj. destruct (Nat.leb_spec (Nat.max i j) k); [now replace (Nat.max i j <=? k + 1)%nat with true by lia|]. destruct (Nat.leb_spec (Nat.max i j) (k + 1)); [|reflexivity]. unfold dropped.
      destruct (Nat.eqb_spec i (j + 1)) as [E1|N1]; [replace i with (k + 1)%nat by lia; replace j with k by lia; now destruct (Rlt_dec _ _)|]. destruct (Nat.eqb_spec j (i + 1)) as [E2|N2]; [|reflexivity]. replace j with (k + 1)%nat by lia. replace i with k by lia. now destruct (Rlt_dec _ _).
Qed.
Lemma sq_tol_pos : 0 < sq_tol. Proof. unfold sq_tol. lra. Qed.
Definition sboth (n : nat) (c : nat -> nat -> R) (i : nat) : bool := rltb sq_tol (Rabs (c (n - i - 1)%nat (n - i - 2)%nat)) && rltb sq_tol (Rabs (c (n - i - 2)%nat (n - i - 3)%nat)).
Lemma sq_q_mk n c : (2 <= n)%nat -> sq_q n (mk n n c) = Some (match find (sboth n c) (seq 0 (n - 2)) with Some q => q | None => n end).
Proof.
  intros Hn. unfold sq_q. unfold rng. rewrite Nat.sub_0_r. rewrite (findM_some _ (sboth n c)); [reflexivity|].
  intros i Hi. apply in_seq in Hi. rewrite !mget_in by lia. cbn [obind]. unfold sboth. now destruct (rltb sq_tol (Rabs (c (n - i - 1)%nat (n - i - 2)%nat))).
Qed.
Lemma sq_p_mk n q c : (q <= n)%nat -> sq_p n q (mk n n c) = Some (match find (fun i => rltb (Rabs (c i (i - 1)%nat)) sq_tol) (rev (seq 1 (n - q - 1))) with Some p => p | None => 0%nat end).
Proof.
  intros Hq. unfold sq_p. unfold rng. rewrite (findM_some _ (fun i => rltb (Rabs (c i (i - 1)%nat)) sq_tol)); [reflexivity|].
  intros i Hi. rewrite <- in_rev in Hi. apply in_seq in Hi. rewrite !mget_in by lia. reflexivity.
Qed.
(** What the two searches find. *)
Lemma sq_search n c : (2 <= n)%nat -> exists q p, sq_q n (mk n n c) = Some q /\ sq_p n q (mk n n c) = Some p /\ (q = n /\ small_blocks n sq_tol c \/ (q < n)%nat /\ active n sq_tol c p (n - q)).
Proof.
  intros Hn. rewrite sq_q_mk by exact Hn. pose proof (find_first (sboth n c) (n - 2) 0) as FQ. destruct (find (sboth n c) (seq 0 (n - 2))) as [q|].
  - destruct FQ as (B & Hq & NB). exists q. rewrite sq_p_mk by lia. eexists. split; [reflexivity|]. split; [reflexivity|]. right. split; [lia|].
    pose proof (find_last (fun i => rltb (Rabs (c i (i - 1)%nat)) sq_tol) 1 (n - q - 1)) as FP. unfold sboth in B. apply andb_prop in B. destruct B as (B1 & B2).
    destruct (rltb_spec sq_tol (Rabs (c (n - q - 1)%nat (n - q - 2)%nat))) as [L1|]; [|discriminate]. destruct (rltb_spec sq_tol (Rabs (c (n - q - 2)%nat (n - q - 3)%nat))) as [L2|]; [|discriminate].
    assert (forall i, (n - q - 2 <= i)%nat -> (i + 2 < n)%nat -> Rabs (c (i + 1)%nat i) <= sq_tol \/ Rabs (c (i + 2)%nat (i + 1)%nat) <= sq_tol) as BE.
    { intros i Hi Hi2. specialize (NB (n - i - 3)%nat ltac:(lia)). unfold sboth in NB. replace (n - (n - i - 3) - 1)%nat with (i + 2)%nat in NB by lia. replace (n - (n - i - 3) - 2)%nat with (i + 1)%nat in NB by lia.
      replace (n - (n - i - 3) - 3)%nat with i in NB by lia. apply andb_false_iff in NB. destruct NB as [NB|NB]; [right|left]; [destruct (rltb_spec sq_tol (Rabs (c (i + 2)%nat (i + 1)%nat)))|destruct (rltb_spec sq_tol (Rabs (c (i + 1)%nat i)))]; (discriminate || lra). }
    destruct (find (fun i => rltb (Rabs (c i (i - 1)%nat)) sq_tol) (rev (seq 1 (n - q - 1)))) as [p|].
    + destruct FP as (B & Hp & NP). destruct (rltb_spec (Rabs (c p (p - 1)%nat)) sq_tol) as [L|]; [|discriminate].
      assert (p <> n - q - 1)%nat by (intros ->; replace (n - q - 1 - 1)%nat with (n - q - 2)%nat in L by lia; lra). assert (p <> n - q - 2)%nat by (intros ->; replace (n - q - 2 - 1)%nat with (n - q - 3)%nat in L by lia; lra).
      split; [lia|]. split; [|split; [exact L1|split; [exact L2|split; [now intros _|exact BE]]]].
      intros i Hi1 Hi2. specialize (NP (i + 1)%nat ltac:(lia)). cbn beta in NP. replace (i + 1 - 1)%nat with i in NP by lia. destruct (rltb_spec (Rabs (c (i + 1)%nat i)) sq_tol); [discriminate|lra].
    + split; [lia|]. split; [|split; [exact L1|split; [exact L2|split; [lia|exact BE]]]].
      intros i Hi1 Hi2. specialize (FP (i + 1)%nat ltac:(lia)). cbn beta in FP. replace (i + 1 - 1)%nat with i in FP by lia. destruct (rltb_spec (Rabs (c (i + 1)%nat i)) sq_tol); [discriminate|lra].
  - exists n. rewrite sq_p_mk by lia. eexists. split; [reflexivity|]. split; [reflexivity|]. left. split; [reflexivity|]. intros i Hi. specialize (FQ (n - i - 3)%nat ltac:(lia)). unfold sboth in FQ.
    replace (n - (n - i - 3) - 1)%nat with (i + 2)%nat in FQ by lia. replace (n - (n - i - 3) - 2)%nat with (i + 1)%nat in FQ by lia. replace (n - (n - i - 3) - 3)%nat with i in FQ by lia.
    apply andb_false_iff in FQ. destruct FQ as [NB|NB]; [right|left]; [destruct (rltb_spec sq_tol (Rabs (c (i + 2)%nat (i + 1)%nat)))|destruct (rltb_spec sq_tol (Rabs (c (i + 1)%nat i)))]; (discriminate || lra).
Qed.
