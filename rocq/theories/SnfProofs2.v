(** Smith normal form: the pivot phase. *)
From Coq Require Import List Arith ZArith Bool Lia ZifyBool ZifyNat.
From Verif Require Import PidModel PidProofs MatModel MatSpec MatProofs MatProofs2 SnfModel SnfProofs.
Import ListNotations.
Open Scope nat_scope.

Ltac sp := repeat match goal with |- _ /\ _ => split end.
(** ** Loops and searches *)
Lemma rng_in a b x : In x (rng a b) <-> a <= x < b.
Proof. unfold rng. rewrite in_seq. lia. Qed.
Lemma rng_S a b : a < b -> rng a b = a :: rng (a + 1) b.
Proof. intros H. unfold rng. replace (b - a) with (S (b - (a + 1))) by lia. cbn. now rewrite Nat.add_1_r. Qed.
Lemma rng_nil a b : b <= a -> rng a b = [].
Proof. intros H. unfold rng. now replace (b - a) with 0 by lia. Qed.
Lemma foldM_inv {S} (f : S -> nat -> option S) (P : nat -> S -> Prop) a b s : a <= b -> P a s ->
  (forall k s, a <= k < b -> P k s -> exists s', f s k = Some s' /\ P (k + 1) s') ->
  exists s', foldM f (rng a b) s = Some s' /\ P b s'.
Proof.
  intros Hab H0 Hs. remember (b - a) as d eqn:Ed. revert a s Hab H0 Hs Ed. induction d as [|d IH]; intros a s Hab H0 Hs Ed.
  - replace b with a by lia. rewrite rng_nil by lia. cbn. eauto.
  - rewrite rng_S by lia. cbn. destruct (Hs a s ltac:(lia) H0) as (s1 & E1 & H1). rewrite E1. cbn.
    apply (IH (a + 1) s1); auto; try lia. intros k s' Hk. apply Hs. lia.
Qed.
Lemma anyM_some {A} (p : A -> option bool) b l : (forall x, In x l -> p x = Some (b x)) -> anyM p l = Some (existsb b l).
Proof.
  induction l as [|x l IH]; intros H; cbn; [reflexivity|]. rewrite H by now left. cbn. destruct (b x); [reflexivity|]. apply IH. intros; apply H; now right.
Qed.
Lemma allM_some {A} (p : A -> option bool) b l : (forall x, In x l -> p x = Some (b x)) -> allM p l = Some (forallb b l).
Proof.
  induction l as [|x l IH]; intros H; cbn; [reflexivity|]. rewrite H by now left. cbn. destruct (b x); [|reflexivity]. apply IH. intros; apply H; now right.
Qed.
Lemma findM_some {A} (p : A -> option bool) b l : (forall x, In x l -> p x = Some (b x)) -> findM p l = Some (find b l).
Proof.
  induction l as [|x l IH]; intros H; cbn; [reflexivity|]. rewrite H by now left. cbn. destruct (b x); [reflexivity|]. apply IH. intros; apply H; now right.
Qed.
Lemma find_rng b lo hi x : find b (rng lo hi) = Some x -> lo <= x < hi /\ b x = true /\ forall y, lo <= y < x -> b y = false.
Proof.
  remember (hi - lo) as d eqn:Ed. revert lo Ed. induction d as [|d IH]; intros lo Ed H.
  - rewrite rng_nil in H by lia. discriminate.
  - rewrite rng_S in H by lia. cbn in H. destruct (b lo) eqn:E.
    + injection H as <-. sp; auto; try lia; intros; lia.
    + destruct (IH (lo + 1) ltac:(lia) H) as (H1 & H2 & H3). split; [lia|]. split; [exact H2|]. intros y Hy.
      destruct (Nat.eq_dec y lo) as [->|]; [exact E|]. apply H3. lia.
Qed.
Lemma find_rng_first b lo hi : lo < hi -> b lo = true -> find b (rng lo hi) = Some lo.
Proof. intros H E. rewrite rng_S by lia. cbn. now rewrite E. Qed.

Lemma divides_ideal d x : d <> 0%Z -> divides ideal d x = Some (x mod d =? 0)%Z.
Proof.
  intros Hd. destruct (divides_theorem d x Hd) as (b & E & Hb). rewrite E. f_equal. apply eq_true_iff_eq. rewrite Hb.
  rewrite Z.eqb_eq. symmetry. now apply Z.mod_divide.
Qed.
Lemma quotM_exact a b k : b <> 0%Z -> a = (k * b)%Z -> quotM a b = Some k.
Proof.
  intros Hb E. unfold quotM. destruct (euclid_div_ideal a b Hb) as (q & r & Ee & E1 & E2). rewrite Ee. cbn. f_equal.
  destruct (ediv_unique b q r k 0); try lia.
Qed.

Section Pivot.
  Variables (n m : nat) (f0 : efun).
  Notation rep := (rep n m f0).
  Implicit Types (S : efun) (st : snf).

  Definition PInv S (i j : nat) (c : nat -> nat) : Prop :=
    i <= n /\ j <= m /\ (forall p, p < i -> p <= c p /\ c p < j /\ S p (c p) <> 0%Z /\ (forall q, q < m -> q <> c p -> S p q = 0%Z)) /\
    (forall p p', p < p' < i -> c p < c p') /\ (forall p q, i <= p < n -> q < j -> S p q = 0%Z).
  Lemma PInv_row S i j c a b x y z w : i <= a < n -> i <= b < n -> PInv S i j c -> PInv (rblk a b x y z w S) i j c.
  Proof.
    intros Ha Hb (H1 & H2 & H3 & H4 & H5). split; [exact H1|]. split; [exact H2|]. split; [|split; [exact H4|]].
    - intros p Hp. unfold rblk. replace (p =? a) with false by lia. replace (p =? b) with false by lia. now apply H3.
    - intros p q Hp Hq. unfold rblk. rewrite (H5 a q), (H5 b q), (H5 p q) by assumption. destruct (p =? a), (p =? b); ring.
  Qed.
  Lemma PInv_col S i j c a b x y z w : j <= a < m -> j <= b < m -> PInv S i j c -> PInv (cblk a b x y z w S) i j c.
  Proof.
    intros Ha Hb (H1 & H2 & H3 & H4 & H5). split; [exact H1|]. split; [exact H2|]. split; [|split; [exact H4|]].
    - intros p Hp. destruct (H3 p Hp) as (A1 & A2 & A3 & A4). split; [exact A1|]. split; [exact A2|]. unfold cblk. split.
      + replace (c p =? a) with false by lia. now replace (c p =? b) with false by lia.
      + intros q Hq Hne. rewrite (A4 a), (A4 b) by lia. destruct (q =? a); [ring|]. destruct (q =? b); [ring|]. now apply A4.
    - intros p q Hp Hq. unfold cblk. replace (q =? a) with false by lia. replace (q =? b) with false by lia. now apply H5.
  Qed.

  Lemma dividesM_rep S st a b c d : rep S st -> a < n -> b < m -> c < n -> d < m -> S a b <> 0%Z ->
    dividesM (sS st) a b c d = Some (S c d mod S a b =? 0)%Z.
  Proof.
    intros H Ha Hb Hc Hd Hz. unfold dividesM. rewrite (rep_get n m f0 S st a b H Ha Hb), (rep_get n m f0 S st c d H Hc Hd). cbn [obind].
    now apply divides_ideal.
  Qed.
  Lemma nonzeroM_rep S st a b : rep S st -> a < n -> b < m -> nonzeroM (sS st) a b = Some (negb (S a b =? 0)%Z).
  Proof. intros H Ha Hb. unfold nonzeroM. now rewrite (rep_get n m f0 S st a b H Ha Hb). Qed.

  (** Bezout coefficients give an invertible block. *)
  Lemma bezout_block a b : a <> 0%Z -> exists x y s t,
    bezout_identity ideal a b = Some (Z.gcd a b, x, y) /\ quotM a (Z.gcd a b) = Some s /\ quotM b (Z.gcd a b) = Some t /\
    (a * x + b * y = Z.gcd a b)%Z /\ a = (s * Z.gcd a b)%Z /\ b = (t * Z.gcd a b)%Z /\ Z.gcd a b <> 0%Z /\ inv2 x y (- t) s s (- y) t x.
  Proof.
    intros Ha. destruct (bezout_theorem a b) as (x & y & E & Hxy).
    destruct (Z.gcd_divide_l a b) as [s Hs]. destruct (Z.gcd_divide_r a b) as [t Ht].
    assert (Hg : Z.gcd a b <> 0%Z) by (intros E0; apply Z.gcd_eq_0_l in E0; contradiction).
    exists x, y, s, t. split; [exact E|]. split; [now apply quotM_exact|]. split; [now apply quotM_exact|].
    split; [exact Hxy|]. split; [exact Hs|]. split; [exact Ht|]. split; [exact Hg|].
    assert (H1 : (s * x + t * y = 1)%Z).
    { apply (Z.mul_cancel_r _ _ (Z.gcd a b) Hg). rewrite Z.mul_1_l.
      transitivity (a * x + b * y)%Z; [|exact Hxy]. set (g := Z.gcd a b) in *. clearbody g. rewrite Hs, Ht. ring. }
    unfold inv2. sp; lia.
  Qed.

  (** ** One improvement step *)
  Lemma improve_row_step_ok S st i j c k : rep S st -> PInv S i j c -> i < n -> j < m -> S i j <> 0%Z -> i < k < n ->
    exists S' st', improve_row_step i j st k = Some st' /\ rep S' st' /\ PInv S' i j c /\ S' i j <> 0%Z /\
      (S' i j | S i j)%Z /\ (S' i j | S k j)%Z /\ (S' i j | S' k j)%Z /\ (forall p q, p <> i -> p <> k -> S' p q = S p q) /\
      ((S i j | S k j)%Z -> st' = st /\ S' = S).
  Proof.
    intros HR HP Hi Hj Hz Hk. unfold improve_row_step. rewrite (dividesM_rep S) by (auto; lia). cbn [obind].
    destruct (Z.eqb_spec (S k j mod S i j) 0) as [Ed|Ed].
    - apply Z.mod_divide in Ed; [|exact Hz]. exists S, st. sp; auto. apply Z.divide_refl.
    - assert (Hnd : ~ (S i j | S k j)%Z) by (intros D; apply Ed; now apply Z.mod_divide).
      rewrite (rep_get n m f0 S st i j), (rep_get n m f0 S st k j) by (auto; lia). cbn [obind].
      destruct (bezout_block (S i j) (S k j) Hz) as (x & y & s & t & E1 & E2 & E3 & E4 & E5 & E6 & E7 & E8).
      rewrite E1. cbn [obind fst snd]. rewrite E2, E3. cbn [obind].
      destruct (rep_row n m f0 S st i k x y (-t) s s (-y) t x j HR) as (S' & R' & Ri' & B1 & B2 & B3 & B4 & B5); auto; try lia.
      { intros q Hq. destruct HP as (_ & _ & _ & _ & H5). split; apply H5; lia. }
      rewrite B1, B2, B3. cbn [obind].
      assert (EP : rblk i k x y (-t) s S i j = Z.gcd (S i j) (S k j)).
      { unfold rblk. rewrite Nat.eqb_refl. rewrite <- E4. ring. }
      assert (EK : rblk i k x y (-t) s S k j = 0%Z).
      { unfold rblk. rewrite Nat.eqb_refl. replace (k =? i) with false by lia. rewrite E5 at 1. rewrite E6 at 2. ring. }
      unfold assertM, equalsM. rewrite B5, mget_in by lia. cbn [obind]. rewrite EP, Z.eqb_refl. cbn [obind].
      exists (rblk i k x y (-t) s S). eexists. split; [reflexivity|]. rewrite B5 in B4. split; [exact B4|].
      split; [apply PInv_row; auto; lia|]. rewrite EP, EK. split; [exact E7|]. split; [apply Z.gcd_divide_l|]. split; [apply Z.gcd_divide_r|].
      split; [apply Z.divide_0_r|]. split; [|intros; contradiction].
      intros p q N1 N2. unfold rblk. apply Nat.eqb_neq in N1, N2. now rewrite N1, N2.
  Qed.
  Lemma improve_col_step_ok S st i j c l : rep S st -> PInv S i j c -> i < n -> j < m -> S i j <> 0%Z -> j < l < m ->
    exists S' st', improve_col_step i j st l = Some st' /\ rep S' st' /\ PInv S' i j c /\ S' i j <> 0%Z /\
      (S' i j | S i j)%Z /\ (S' i j | S i l)%Z /\ (S' i j | S' i l)%Z /\ (forall p q, q <> j -> q <> l -> S' p q = S p q).
  Proof.
    intros HR HP Hi Hj Hz Hk. unfold improve_col_step. rewrite (dividesM_rep S) by (auto; lia). cbn [obind].
    destruct (Z.eqb_spec (S i l mod S i j) 0) as [Ed|Ed].
    - apply Z.mod_divide in Ed; [|exact Hz]. exists S, st. sp; auto. apply Z.divide_refl.
    - assert (Hnd : ~ (S i j | S i l)%Z) by (intros D; apply Ed; now apply Z.mod_divide).
      rewrite (rep_get n m f0 S st i j), (rep_get n m f0 S st i l) by (auto; lia). cbn [obind].
      destruct (bezout_block (S i j) (S i l) Hz) as (x & y & s & t & E1 & E2 & E3 & E4 & E5 & E6 & E7 & E8).
      rewrite E1. cbn [obind fst snd]. rewrite E2, E3. cbn [obind].
      destruct (rep_col n m f0 S st j l x y (-t) s s (-y) t x i HR) as (S' & C' & Ci' & B1 & B2 & B3 & B4 & B5); auto; try lia.
      { intros p Hp. destruct HP as (_ & _ & H3 & _ & _). destruct (H3 p Hp) as (_ & A2 & _ & A4). split; apply A4; lia. }
      rewrite B1, B2, B3. cbn [obind].
      assert (EP : cblk j l x y (-t) s S i j = Z.gcd (S i j) (S i l)).
      { unfold cblk. rewrite Nat.eqb_refl. rewrite <- E4. ring. }
      assert (EK : cblk j l x y (-t) s S i l = 0%Z).
      { unfold cblk. rewrite Nat.eqb_refl. replace (l =? j) with false by lia. rewrite E5 at 1. rewrite E6 at 2. ring. }
      unfold assertM, equalsM. rewrite B5, mget_in by lia. cbn [obind]. rewrite EP, Z.eqb_refl. cbn [obind].
      exists (cblk j l x y (-t) s S). eexists. split; [reflexivity|]. rewrite B5 in B4. split; [exact B4|].
      split; [apply PInv_col; auto; lia|]. rewrite EP, EK. split; [exact E7|]. split; [apply Z.gcd_divide_l|]. split; [apply Z.gcd_divide_r|].
      split; [apply Z.divide_0_r|].
      intros p q N1 N2. unfold cblk. apply Nat.eqb_neq in N1, N2. now rewrite N1, N2.
  Qed.

  Lemma improve_rows_ok S st i j c : rep S st -> PInv S i j c -> i < n -> j < m -> S i j <> 0%Z ->
    exists S' st', foldM (improve_row_step i j) (rng (i + 1) n) st = Some st' /\ rep S' st' /\ PInv S' i j c /\ S' i j <> 0%Z /\
      (S' i j | S i j)%Z /\ (forall k, i < k < n -> (S' i j | S k j)%Z) /\ (forall k, i < k < n -> (S' i j | S' k j)%Z) /\
      ((forall k, i < k < n -> (S i j | S k j)%Z) -> S' = S).
  Proof.
    intros HR HP Hi Hj Hz.
    destruct (foldM_inv (improve_row_step i j) (fun k st' => exists S', rep S' st' /\ PInv S' i j c /\ S' i j <> 0%Z /\
      (S' i j | S i j)%Z /\ (forall k', i < k' < k -> (S' i j | S k' j)%Z) /\ (forall k', i < k' < k -> (S' i j | S' k' j)%Z) /\
      (forall k' q, k <= k' -> S' k' q = S k' q) /\
      ((forall k', i < k' < k -> (S i j | S k' j)%Z) -> S' = S)) (i + 1) n st) as (st' & E & S' & H); [lia| | |].
    - exists S. sp; auto; try (apply Z.divide_refl); intros; lia.
    - intros k st1 Hk (S1 & A1 & A2 & A3 & A4 & A5 & A6 & A7 & A8).
      destruct (improve_row_step_ok S1 st1 i j c k A1 A2 Hi Hj A3 ltac:(lia)) as (S2 & st2 & B0 & B1 & B2 & B3 & B4 & B5 & B6 & B7 & B8).
      exists st2. split; [exact B0|]. exists S2. split; [exact B1|]. split; [exact B2|]. split; [exact B3|].
      split; [exact (Z.divide_trans _ _ _ B4 A4)|]. split; [|split; [|split]].
      + intros k' Hk'. destruct (Nat.eq_dec k' k) as [->|].
        * rewrite <- (A7 k j) by lia. exact B5.
        * eapply Z.divide_trans; [exact B4|]. apply A5. lia.
      + intros k' Hk'. destruct (Nat.eq_dec k' k) as [->|]; [exact B6|]. rewrite (B7 k' j) by lia. eapply Z.divide_trans; [exact B4|]. apply A6. lia.
      + intros k' q Hk'. rewrite B7 by lia. apply A7. lia.
      + intros HD. assert (E1 : S1 = S) by (apply A8; intros; apply HD; lia). rewrite E1 in B8. destruct (B8 ltac:(apply HD; lia)) as [_ E2].
        congruence.
    - exists S', st'. split; [exact E|]. destruct H as (H1 & H2 & H3 & H4 & H5 & H6 & _ & H8). sp; auto.
  Qed.
  Lemma improve_cols_ok S st i j c : rep S st -> PInv S i j c -> i < n -> j < m -> S i j <> 0%Z ->
    exists S' st', foldM (improve_col_step i j) (rng (j + 1) m) st = Some st' /\ rep S' st' /\ PInv S' i j c /\ S' i j <> 0%Z /\
      (S' i j | S i j)%Z /\ (forall l, j < l < m -> (S' i j | S i l)%Z) /\ (forall l, j < l < m -> (S' i j | S' i l)%Z).
  Proof.
    intros HR HP Hi Hj Hz.
    destruct (foldM_inv (improve_col_step i j) (fun k st' => exists S', rep S' st' /\ PInv S' i j c /\ S' i j <> 0%Z /\
      (S' i j | S i j)%Z /\ (forall k', j < k' < k -> (S' i j | S i k')%Z) /\ (forall k', j < k' < k -> (S' i j | S' i k')%Z) /\
      (forall k' p, k <= k' -> S' p k' = S p k')) (j + 1) m st) as (st' & E & S' & H); [lia| | |].
    - exists S. sp; auto; try (apply Z.divide_refl); intros; lia.
    - intros k st1 Hk (S1 & A1 & A2 & A3 & A4 & A5 & A6 & A7).
      destruct (improve_col_step_ok S1 st1 i j c k A1 A2 Hi Hj A3 ltac:(lia)) as (S2 & st2 & B0 & B1 & B2 & B3 & B4 & B5 & B6 & B7).
      exists st2. split; [exact B0|]. exists S2. split; [exact B1|]. split; [exact B2|]. split; [exact B3|].
      split; [exact (Z.divide_trans _ _ _ B4 A4)|]. split; [|split].
      + intros k' Hk'. destruct (Nat.eq_dec k' k) as [->|].
        * rewrite <- (A7 k i) by lia. exact B5.
        * eapply Z.divide_trans; [exact B4|]. apply A5. lia.
      + intros k' Hk'. destruct (Nat.eq_dec k' k) as [->|]; [exact B6|]. rewrite (B7 i k') by lia. eapply Z.divide_trans; [exact B4|]. apply A6. lia.
      + intros k' q Hk'. rewrite B7 by lia. apply A7. lia.
    - exists S', st'. split; [exact E|]. destruct H as (H1 & H2 & H3 & H4 & H5 & H6 & _). sp; auto.
  Qed.

  (** ** The improving loop *)
  Lemma divide_abs_lt a b k : a <> 0%Z -> (b | a)%Z -> (b | k)%Z -> ~ (a | k)%Z -> (Z.abs b < Z.abs a)%Z.
  Proof.
    intros Ha Hb Hk Hn. assert (Hle : (Z.abs b <= Z.abs a)%Z).
    { apply Z.divide_pos_le; [lia|]. now apply Z.divide_abs_l, Z.divide_abs_r. }
    destruct (Z.eq_dec (Z.abs b) (Z.abs a)) as [E|]; [|lia]. exfalso. apply Hn.
    apply (Z.divide_trans _ b); [|exact Hk]. apply Z.divide_abs_l. rewrite <- E. apply Z.divide_abs_l, Z.divide_refl.
  Qed.
  Definition pivot_divides S i j : Prop := (forall k, i < k < n -> (S i j | S k j)%Z) /\ (forall l, j < l < m -> (S i j | S i l)%Z).
  Lemma improve_ok fuel : forall S st i j c, rep S st -> PInv S i j c -> i < n -> j < m -> S i j <> 0%Z -> Z.abs_nat (S i j) < fuel ->
    exists S' st', improve fuel i j st = Some st' /\ rep S' st' /\ PInv S' i j c /\ S' i j <> 0%Z /\ pivot_divides S' i j.
  Proof.
    induction fuel as [|fuel IH]; intros S st i j c HR HP Hi Hj Hz Hf; [lia|]. cbn [improve].
    destruct (rep_dims n m f0 S st HR) as [D1 D2]. unfold not_divides_some. rewrite D1, D2.
    rewrite (anyM_some _ (fun k => negb (S k j mod S i j =? 0)%Z)).
    2:{ intros k Hk. apply rng_in in Hk. now rewrite (dividesM_rep S) by (auto; lia). }
    rewrite (anyM_some _ (fun l => negb (S i l mod S i j =? 0)%Z)).
    2:{ intros k Hk. apply rng_in in Hk. now rewrite (dividesM_rep S) by (auto; lia). }
    cbn [obind].
    set (b1 := existsb (fun k => negb (S k j mod S i j =? 0)%Z) (rng (i + 1) n)).
    set (b2 := existsb (fun l => negb (S i l mod S i j =? 0)%Z) (rng (j + 1) m)).
    assert (R1 : b1 = false -> forall k, i < k < n -> (S i j | S k j)%Z).
    { intros Eb k Hk. apply Z.mod_divide; [exact Hz|]. destruct (Z.eq_dec (S k j mod S i j) 0) as [E|E]; [exact E|]. exfalso.
      assert (b1 = true); [|congruence]. apply existsb_exists. exists k. split; [apply rng_in; lia|]. now rewrite negb_true_iff, Z.eqb_neq. }
    assert (R2 : b2 = false -> forall l, j < l < m -> (S i j | S i l)%Z).
    { intros Eb k Hk. apply Z.mod_divide; [exact Hz|]. destruct (Z.eq_dec (S i k mod S i j) 0) as [E|E]; [exact E|]. exfalso.
      assert (b2 = true); [|congruence]. apply existsb_exists. exists k. split; [apply rng_in; lia|]. now rewrite negb_true_iff, Z.eqb_neq. }
    destruct (b1 || b2) eqn:Eb.
    - replace (if b1 then Some true else Some b2) with (Some true) by (destruct b1, b2; cbn in Eb; congruence). cbn [obind].
      destruct (improve_rows_ok S st i j c HR HP Hi Hj Hz) as (S1 & st1 & E1 & A1 & A2 & A3 & A4 & A5 & A6 & A7).
      rewrite E1. cbn [obind]. 
      rewrite (allM_some _ (fun k => (S1 k j mod S1 i j =? 0)%Z)).
      2:{ intros k Hk. apply rng_in in Hk. now rewrite (dividesM_rep S1) by (auto; lia). }
      replace (forallb _ _) with true.
      2:{ symmetry. apply forallb_forall. intros k Hk. apply rng_in in Hk. apply Z.eqb_eq, Z.mod_divide; [exact A3|]. apply A6. lia. }
      cbn [assertM obind].
      destruct (improve_cols_ok S1 st1 i j c A1 A2 Hi Hj A3) as (S2 & st2 & E2 & B1 & B2 & B3 & B4 & B5 & B6).
      rewrite E2. cbn [obind].
      rewrite (allM_some _ (fun l => (S2 i l mod S2 i j =? 0)%Z)).
      2:{ intros k Hk. apply rng_in in Hk. now rewrite (dividesM_rep S2) by (auto; lia). }
      replace (forallb _ _) with true.
      2:{ symmetry. apply forallb_forall. intros k Hk. apply rng_in in Hk. apply Z.eqb_eq, Z.mod_divide; [exact B3|]. apply B6. lia. }
      cbn [assertM obind].
      apply (IH S2 st2 i j c); auto.
      assert (Hlt : (Z.abs (S2 i j) < Z.abs (S i j))%Z).
      { destruct b1 eqn:Eb1.
        - subst b1. apply existsb_exists in Eb1. destruct Eb1 as (k & Hk & Hk2). apply rng_in in Hk. rewrite negb_true_iff, Z.eqb_neq in Hk2.
          apply (divide_abs_lt _ _ (S k j)); auto.
          + exact (Z.divide_trans _ _ _ B4 A4).
          + eapply Z.divide_trans; [exact B4|]. apply A5. lia.
          + intros D. apply Hk2. now apply Z.mod_divide.
        - cbn in Eb. rewrite (A7 (R1 eq_refl)) in *. subst b2. apply existsb_exists in Eb. destruct Eb as (k & Hk & Hk2). apply rng_in in Hk. rewrite negb_true_iff, Z.eqb_neq in Hk2.
          apply (divide_abs_lt _ _ (S i k)); auto.
          + apply B5. lia.
          + intros D. apply Hk2. now apply Z.mod_divide. }
      lia.
    - apply orb_false_iff in Eb. destruct Eb as [Eb1 Eb2]. rewrite Eb1, Eb2. cbn [obind]. exists S, st. split; [reflexivity|]. split; [exact HR|]. split; [exact HP|].
      split; [exact Hz|]. split; [now apply R1|now apply R2].
  Qed.

  (** ** Elimination *)
  Lemma elim_rows_ok S st i j c : rep S st -> PInv S i j c -> i < n -> j < m -> S i j <> 0%Z -> pivot_divides S i j ->
    exists S' st', foldM (elim_row_step i j) (rng (i + 1) n) st = Some st' /\ rep S' st' /\ PInv S' i j c /\
      (forall q, S' i q = S i q) /\ (forall k, i < k < n -> S' k j = 0%Z).
  Proof.
    intros HR HP Hi Hj Hz [HD _].
    destruct (foldM_inv (elim_row_step i j) (fun k st' => exists S', rep S' st' /\ PInv S' i j c /\ (forall q, S' i q = S i q) /\
       (forall k', i < k' < k -> S' k' j = 0%Z) /\ (forall k' q, k <= k' -> S' k' q = S k' q)) (i + 1) n st) as (st' & E & S' & H); [lia| | |].
    - exists S. sp; auto; intros; lia.
    - intros k st1 Hk (S1 & A1 & A2 & A3 & A4 & A5). unfold elim_row_step. rewrite (nonzeroM_rep S1) by (auto; lia). cbn [obind].
      destruct (Z.eqb_spec (S1 k j) 0) as [E0|E0]; cbn [negb].
      + exists st1. split; [reflexivity|]. exists S1. sp; auto; try apply A2; intros; [destruct (Nat.eq_dec k' k); [subst; auto|apply A4; lia]|apply A5; lia].
      + rewrite (rep_get n m f0 S1 st1 k j), (rep_get n m f0 S1 st1 i j) by (auto; lia). cbn [obind].
        destruct (HD k ltac:(lia)) as [r Hr]. rewrite <- (A5 k j) in Hr by lia. rewrite <- (A3 j) in Hr.
        rewrite (quotM_exact _ _ r); [|rewrite A3; exact Hz|exact Hr]. cbn [obind].
        destruct (rep_rowop n m f0 S1 st1 i k r A1) as (S2 & R2 & Ri2 & B1 & B2 & B3 & B4); auto; try lia.
        rewrite B1, B2, B3. cbn [obind]. eexists. split; [reflexivity|]. eexists. split; [exact B4|]. split; [apply PInv_row; auto; lia|].
        unfold rblk. split; [|split].
        * intros q. replace (i =? k) with false by lia. rewrite Nat.eqb_refl. rewrite A3. ring.
        * intros k' Hk'. destruct (Nat.eqb_spec k' k) as [->|]; [rewrite Hr; ring|]. replace (k' =? i) with false by lia. apply A4. lia.
        * intros k' q Hk'. replace (k' =? k) with false by lia. replace (k' =? i) with false by lia. apply A5. lia.
    - exists S', st'. split; [exact E|]. destruct H as (H1 & H2 & H3 & H4 & H5). sp; auto; apply H2.
  Qed.
  Lemma elim_cols_ok S st i j c : rep S st -> PInv S i j c -> i < n -> j < m -> S i j <> 0%Z ->
    (forall l, j < l < m -> (S i j | S i l)%Z) -> (forall k, i < k < n -> S k j = 0%Z) ->
    exists S' st', foldM (elim_col_step i j) (rng (j + 1) m) st = Some st' /\ rep S' st' /\ PInv S' i j c /\
      S' i j = S i j /\ (forall k, i < k < n -> S' k j = 0%Z) /\ (forall l, j < l < m -> S' i l = 0%Z).
  Proof.
    intros HR HP Hi Hj Hz HD HZ.
    destruct (foldM_inv (elim_col_step i j) (fun k st' => exists S', rep S' st' /\ PInv S' i j c /\ (forall p, S' p j = S p j) /\
       (forall k', j < k' < k -> S' i k' = 0%Z) /\ (forall k', k <= k' -> S' i k' = S i k')) (j + 1) m st) as (st' & E & S' & H); [lia| | |].
    - exists S. sp; auto; intros; lia.
    - intros k st1 Hk (S1 & A1 & A2 & A3 & A4 & A5). unfold elim_col_step. rewrite (nonzeroM_rep S1) by (auto; lia). cbn [obind].
      destruct (Z.eqb_spec (S1 i k) 0) as [E0|E0]; cbn [negb].
      + exists st1. split; [reflexivity|]. exists S1. sp; auto; try apply A2; intros; [destruct (Nat.eq_dec k' k); [subst; auto|apply A4; lia]|apply A5; lia].
      + rewrite (rep_get n m f0 S1 st1 i k), (rep_get n m f0 S1 st1 i j) by (auto; lia). cbn [obind].
        destruct (HD k ltac:(lia)) as [r Hr]. rewrite <- (A5 k) in Hr by lia. rewrite <- (A3 i) in Hr.
        rewrite (quotM_exact _ _ r); [|rewrite A3; exact Hz|exact Hr]. cbn [obind].
        destruct (rep_colop n m f0 S1 st1 j k r A1) as (S2 & R2 & Ri2 & B1 & B2 & B3 & B4); auto; try lia.
        rewrite B1, B2, B3. cbn [obind]. eexists. split; [reflexivity|]. eexists. split; [exact B4|]. split; [apply PInv_col; auto; lia|].
        unfold cblk. split; [|split].
        * intros q. replace (j =? k) with false by lia. rewrite Nat.eqb_refl. rewrite A3. ring.
        * intros k' Hk'. destruct (Nat.eqb_spec k' k) as [->|]; [rewrite Hr; ring|]. replace (k' =? j) with false by lia. apply A4. lia.
        * intros k' Hk'. replace (k' =? k) with false by lia. replace (k' =? j) with false by lia. apply A5. lia.
    - exists S', st'. split; [exact E|]. destruct H as (H1 & H2 & H3 & H4 & H5). sp; auto; try apply H2. intros. rewrite H3. now apply HZ.
  Qed.

  (** ** The main loop: afterwards there are [rk] pivot rows, all other rows are zero. *)
  Definition Ech S (rk : nat) (c : nat -> nat) : Prop :=
    rk <= n /\ (forall p, p < rk -> p <= c p /\ c p < m /\ S p (c p) <> 0%Z /\ (forall q, q < m -> q <> c p -> S p q = 0%Z)) /\
    (forall p p', p < p' < rk -> c p < c p') /\ (forall p q, rk <= p < n -> q < m -> S p q = 0%Z).

  Lemma find_col_ok S st i j : rep S st -> i <= n -> j <= m ->
    exists o, find_col (sS st) i j = Some o /\
      match o with
      | None => forall p q, i <= p < n -> j <= q < m -> S p q = 0%Z
      | Some l => j <= l < m /\ (exists k, i <= k < n /\ S k l <> 0%Z) /\ (forall p q, i <= p < n -> j <= q < l -> S p q = 0%Z)
      end.
  Proof.
    intros HR Hi Hj. destruct (rep_dims n m f0 S st HR) as [D1 D2]. unfold find_col. rewrite D1, D2.
    rewrite (findM_some _ (fun l => existsb (fun k => negb (S k l =? 0)%Z) (rng i n))).
    2:{ intros l Hl. apply rng_in in Hl. apply anyM_some. intros k Hk. apply rng_in in Hk. apply nonzeroM_rep; auto; lia. }
    eexists. split; [reflexivity|].
    assert (HF : forall l, existsb (fun k => negb (S k l =? 0)%Z) (rng i n) = false -> forall p, i <= p < n -> S p l = 0%Z).
    { intros l El p Hp. destruct (Z.eq_dec (S p l) 0) as [E|E]; [exact E|]. exfalso.
      assert (existsb (fun k => negb (S k l =? 0)%Z) (rng i n) = true); [|congruence]. apply existsb_exists. exists p. split; [apply rng_in; lia|].
      now rewrite negb_true_iff, Z.eqb_neq. }
    destruct (find _ _) as [l|] eqn:Ef.
    - apply find_rng in Ef. destruct Ef as (H1 & H2 & H3). split; [exact H1|]. split.
      + apply existsb_exists in H2. destruct H2 as (k & Hk & Hk2). apply rng_in in Hk. exists k. split; [lia|]. now rewrite negb_true_iff, Z.eqb_neq in Hk2.
      + intros p q Hp Hq. apply HF; auto.
    - intros p q Hp Hq. apply HF; [|exact Hp]. apply (find_none _ _ Ef). apply rng_in. lia.
  Qed.
  Lemma find_col_again S st i j k : rep S st -> i <= k < n -> j < m -> S k j <> 0%Z -> find_col (sS st) i j = Some (Some j).
  Proof.
    intros HR Hk Hj Hz. destruct (find_col_ok S st i j HR ltac:(lia) ltac:(lia)) as (o & E & H). rewrite E. destruct o as [l|].
    - destruct H as (H1 & _ & H3). destruct (Nat.eq_dec l j) as [->|]; [reflexivity|]. exfalso. apply Hz, H3; lia.
    - exfalso. apply Hz, H; lia.
  Qed.

  Lemma pivot_loop_ok fuel : forall S st i j c, rep S st -> PInv S i j c -> n <= i + fuel ->
    exists S' st' rk c', pivot_loop fuel i j st = Some st' /\ rep S' st' /\ Ech S' rk c'.
  Proof.
    induction fuel as [|fuel IH]; intros S st i j c HR HP Hf.
    - cbn [pivot_loop]. destruct (rep_dims n m f0 S st HR) as [D1 D2]. rewrite D1. destruct HP as (H1 & H2 & H3 & H4 & H5).
      replace (i <? n) with false by lia. cbn [andb]. exists S, st, i, c. split; [reflexivity|]. split; [exact HR|].
      split; [exact H1|]. split; [|split; [exact H4|intros; lia]].
      intros p Hp. destruct (H3 p Hp) as (X1 & X2 & X3 & X4). sp; auto; lia.
    - cbn [pivot_loop]. destruct (rep_dims n m f0 S st HR) as [D1 D2]. rewrite D1, D2.
      assert (HE : (forall p q, i <= p < n -> j <= q < m -> S p q = 0%Z) -> Ech S i c).
      { intros HZ. destruct HP as (H1 & H2 & H3 & H4 & H5). split; [exact H1|]. split; [|split; [exact H4|]].
        - intros p Hp. destruct (H3 p Hp) as (X1 & X2 & X3 & X4). sp; auto; lia.
        - intros p q Hp Hq. destruct (le_lt_dec j q); [apply HZ; lia|now apply H5]. }
      destruct ((i <? n) && (j <? m)) eqn:Eij.
      2:{ exists S, st, i, c. split; [reflexivity|]. split; [exact HR|]. apply HE. intros; lia. }
      destruct (find_col_ok S st i j HR ltac:(lia) ltac:(lia)) as (o & Eo & Ho). rewrite Eo. cbn [obind].
      destruct o as [j'|].
      2:{ exists S, st, i, c. split; [reflexivity|]. split; [exact HR|]. now apply HE. }
      destruct Ho as (Hj' & (k0 & Hk0 & Hk0') & HZ).
      rewrite (find_col_again S st i j' k0 HR Hk0 ltac:(lia) Hk0'). cbn [obind].
      assert (HP1 : PInv S i j' c).
      { destruct HP as (H1 & H2 & H3 & H4 & H5). split; [exact H1|]. split; [lia|]. split; [|split; [exact H4|]].
        - intros p Hp. destruct (H3 p Hp) as (X1 & X2 & X3 & X4). sp; auto; lia.
        - intros p q Hp Hq. destruct (le_lt_dec j q); [apply HZ; lia|now apply H5]. }
      assert (E1 : exists st1, (do S1 <- swap_cols (sS st) j' j'; do C1 <- swap_cols (sC st) j' j'; do Ci1 <- swap_rows (sCi st) j' j';
         Some (Snf S1 (sR st) (sRi st) C1 Ci1)) = Some st1 /\ rep S st1).
      { destruct HR as (R & Ri & C & Ci & -> & F1 & F2 & F3). cbn [sS sR sRi sC sCi]. rewrite !swap_cols_same, swap_rows_same by lia. cbn [obind].
        eexists. split; [reflexivity|]. exists R, Ri, C, Ci. auto. }
      destruct E1 as (st1 & E1 & HR1).
      destruct (swap_cols (sS st) j' j') as [S1|]; [|discriminate]. destruct (swap_cols (sC st) j' j') as [C1|]; [|discriminate].
      destruct (swap_rows (sCi st) j' j') as [Ci1|]; [|discriminate]. cbn [obind] in E1 |- *. injection E1 as E1. rewrite E1. clear E1 Eo.
      (* row swap *)
      assert (E2 : exists S2 st2, (do nz <- nonzeroM (sS st1) i j';
          if nz then Some st1 else
                  do ok <- findM (fun k => nonzeroM (sS st1) k j') (rng i (nr (sS st1)));
                  match ok with
                  | None => None
                  | Some k =>
                      do S2 <- swap_rows (sS st1) i k; do R2 <- swap_rows (sR st1) i k; do Ri2 <- swap_cols (sRi st1) i k;
                      Some (Snf S2 R2 Ri2 (sC st1) (sCi st1))
                  end) = Some st2 /\ rep S2 st2 /\ PInv S2 i j' c /\ S2 i j' <> 0%Z).
      { rewrite (nonzeroM_rep S) by (auto; lia). cbn [obind]. destruct (Z.eqb_spec (S i j') 0) as [Ez|Ez]; cbn [negb].
        2:{ exists S, st1. sp; auto; apply HP1. }
        destruct (rep_dims n m f0 S st1 HR1) as [D3 D4]. rewrite D3.
        rewrite (findM_some _ (fun k => negb (S k j' =? 0)%Z)) by (intros k Hk; apply rng_in in Hk; apply nonzeroM_rep; auto; lia).
        cbn [obind]. destruct (find _ _) as [k|] eqn:Ef.
        2:{ exfalso.
            assert (X := find_none _ _ Ef k0 ltac:(apply rng_in; lia)). cbn in X. rewrite negb_false_iff, Z.eqb_eq in X. contradiction. }
        apply find_rng in Ef. destruct Ef as (K1 & K2 & _). rewrite negb_true_iff, Z.eqb_neq in K2.
        assert (Hik : i <> k) by (intros ->; contradiction).
        destruct (rep_swap_rows n m f0 S st1 i k HR1) as (S2 & R2 & Ri2 & B1 & B2 & B3 & B4); auto; try lia.
        rewrite B1, B2, B3. cbn [obind]. eexists _, _. split; [reflexivity|]. split; [exact B4|]. split; [apply PInv_row; auto; lia|].
        unfold rblk. rewrite Nat.eqb_refl. lia. }
      destruct E2 as (S2 & st2 & E2 & HR2 & HP2 & Hz2).
      destruct (nonzeroM (sS st1) i j') as [nz|]; [|discriminate]. cbn [obind] in E2 |- *. rewrite E2. cbn [obind].
      rewrite (nonzeroM_rep S2) by (auto; lia). replace (S2 i j' =? 0)%Z with false by lia. cbn [negb assertM obind].
      unfold improve_fuel. rewrite (rep_get n m f0 S2 st2 i j' HR2) by lia.
      destruct (improve_ok (Datatypes.S (Z.abs_nat (S2 i j'))) S2 st2 i j' c HR2 HP2 ltac:(lia) ltac:(lia) Hz2 ltac:(lia)) as (S3 & st3 & E3 & HR3 & HP3 & Hz3 & HD3).
      rewrite E3. cbn [obind]. destruct (rep_dims n m f0 S3 st3 HR3) as [D5 D6]. rewrite D5.
      destruct (elim_rows_ok S3 st3 i j' c HR3 HP3 ltac:(lia) ltac:(lia) Hz3 HD3) as (S4 & st4 & E4 & HR4 & HP4 & HI4 & HZ4).
      rewrite E4. cbn [obind]. destruct (rep_dims n m f0 S4 st4 HR4) as [D7 D8]. rewrite D8.
      destruct (elim_cols_ok S4 st4 i j' c HR4 HP4 ltac:(lia) ltac:(lia)) as (S5 & st5 & E5 & HR5 & HP5 & HI5 & HZ5 & HZ6); auto.
      { now rewrite HI4. } { intros l Hl. rewrite !HI4. now apply HD3. }
      rewrite E5. cbn [obind]. apply (IH S5 st5 (i + 1) (j' + 1) (fun p => if p =? i then j' else c p)); auto; [|lia].
      destruct HP5 as (H1 & H2 & H3 & H4 & H5). split; [lia|]. split; [lia|]. split; [|split].
      + intros p Hp. destruct (Nat.eqb_spec p i) as [->|Hne].
        * split; [|split; [lia|split; [rewrite HI5, HI4; exact Hz3|]]].
          -- destruct (Nat.eq_dec i 0) as [->|]; [lia|]. destruct (H3 (i - 1) ltac:(lia)) as (X1 & X2 & _). lia.
          -- intros q Hq Hqne. destruct (lt_eq_lt_dec q j') as [[Hlt|]|Hlt]; [apply H5; lia|contradiction|apply HZ6; lia].
        * destruct (H3 p ltac:(lia)) as (X1 & X2 & X3 & X4). sp; auto; lia.
      + intros p p' Hp. replace (p =? i) with false by lia. destruct (Nat.eqb_spec p' i) as [->|]; [apply H3; lia|apply H4; lia].
      + intros p q Hp Hq. destruct (Nat.eq_dec q j') as [->|]; [apply HZ5; lia|apply H5; lia].
  Qed.
End Pivot.
