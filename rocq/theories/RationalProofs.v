(** Proofs about the Rational model. *)
From Coq Require Import ZArith QArith Qabs List Bool Lia Znumtheory.
From Verif Require Import PidModel RationalModel RationalSpec.
Import ListNotations.
Open Scope Z_scope.

Definition sgn (s : bool) (n : Z) : Z := if s then n else - n.
Definition sn (r : rational) : Z := sgn (sign r) (num r).

Lemma nonneg_ok z : 0 <= z -> nonneg z = Some z.
Proof. intro H. unfold nonneg. now apply Z.leb_le in H as ->. Qed.

Lemma gcd_split a b : 0 <= a -> 0 < b -> exists g x y, 0 < g /\ Z.gcd a b = g /\ a = g * x /\ b = g * y /\
  0 <= x /\ 0 < y /\ Z.gcd x y = 1 /\ a / g = x /\ b / g = y.
Proof.
  intros Ha Hb. pose proof (Z.gcd_nonneg a b) as H0.
  assert (Hg : Z.gcd a b <> 0) by (intro E; apply Z.gcd_eq_0_r in E; lia).
  destruct (Z.gcd_divide_l a b) as [x Hx]. destruct (Z.gcd_divide_r a b) as [y Hy].
  remember (Z.gcd a b) as g eqn:Eg. exists g, x, y.
  assert (0 < g) by lia.
  assert (a / g = x) by (rewrite Hx; apply Z.div_mul; lia).
  assert (b / g = y) by (rewrite Hy; apply Z.div_mul; lia).
  repeat split; try lia; try nia.
  subst x y. subst g. apply Z.gcd_div_gcd; auto.
Qed.

Lemma udiv_ok a b : b <> 0 -> udiv a b = Some (a / b).
Proof. intro H. unfold udiv. destruct (Z.eqb_spec b 0); [contradiction|reflexivity]. Qed.

Lemma optimize_spec n d s : 0 <= n -> 0 < d -> exists r, optimize (mkR n d s) = Some r /\ canonical r /\
  sn r * d = sgn s n * den r.
Proof.
  intros Hn Hd. unfold optimize. cbn [num den sign].
  destruct (Z.eqb_spec n 0) as [->|Hn0].
  - exists (mkR 0 1 true). repeat split; cbn; try lia. destruct s; cbn; lia.
  - destruct (gcd_split n d Hn Hd) as (g & x & y & Hg & Eg & Hx & Hy & Hx0 & Hy0 & Hxy & Ex & Ey).
    rewrite Eg, !udiv_ok by lia. cbn [obind]. rewrite Ex, Ey.
    exists (mkR x y s). split; [reflexivity|]. split.
    + repeat split; cbn; try lia; auto; intro; subst x; nia.
    + unfold sn; cbn [num den sign]. subst n d. destruct s; cbn [sgn]; nia.
Qed.

Lemma rnew_none n : rnew nonneg n 0 = None.
Proof. reflexivity. Qed.
Lemma rnew_spec n d : d <> 0 -> exists r, rnew nonneg n d = Some r /\ canonical r /\ sn r * d = n * den r.
Proof.
  intro Hd. unfold rnew. destruct (Z.eqb_spec d 0); [contradiction|].
  rewrite !nonneg_ok by lia. cbn [obind].
  destruct (optimize_spec (Z.abs n) (Z.abs d) (Bool.eqb (0 <=? n) (0 <=? d))) as (r & E & C & H); try lia.
  exists r; split; auto; split; auto.
  destruct C as (C1 & C2 & C3 & C4).
  destruct (Z.leb_spec 0 n), (Z.leb_spec 0 d); cbn [Bool.eqb sgn] in H; nia.
Qed.

Lemma rcmp_spec r s : canonical r -> canonical s -> (num r <> 0 \/ num s <> 0) ->
  rcmp nonneg r s = Some (sn r * den s ?= sn s * den r).
Proof.
  intros (A1 & A2 & A3 & A4) (B1 & B2 & B3 & B4) Hz. unfold rcmp.
  assert (G : exists g x y, 0 < g /\ Z.gcd (num r) (num s) = g /\ num r = g * x /\ num s = g * y /\ 0 <= x /\ 0 <= y
     /\ num r / g = x /\ num s / g = y).
  { destruct (Z.eq_dec (num s) 0) as [E|E].
    - rewrite Z.gcd_comm. destruct (gcd_split (num s) (num r)) as (g&x&y&?); try lia. exists g, y, x. intuition lia.
    - destruct (gcd_split (num r) (num s)) as (g&x&y&?); try lia. exists g, x, y. intuition lia. }
  destruct G as (g & x & y & Hg & Eg & Hx & Hy & Hx0 & Hy0 & Ex & Ey).
  destruct (gcd_split (den r) (den s)) as (h & u & v & Hh & Eh & Hu & Hv & Hu0 & Hv0 & Huv & Eu & Ev); try lia.
  rewrite Eg, Eh, !udiv_ok by lia. cbn [obind]. rewrite Ex, Ey, Eu, Ev, !nonneg_ok by nia. cbn [obind].
  f_equal. unfold sn.
  assert (num r = 0 -> x = 0) by nia. assert (num s = 0 -> y = 0) by nia.
  rewrite Hu, Hv, Hx, Hy.
  assert (Hgh : 0 < g * h) by nia.
  destruct (sign r) eqn:Sr, (sign s) eqn:Ss; cbn [andb negb sgn].
  - replace (g * x * (h * v)) with ((g*h) * (x * v)) by ring.
    replace (g * y * (h * u)) with ((g*h) * (y * u)) by ring.
    apply Zmult_compare_compat_l; lia.
  - symmetry. assert (y <> 0) by (intro E0; assert (E1 : num s = 0) by nia; apply B4 in E1; congruence).
    apply Z.compare_gt_iff. assert (0 < g * y * (h * u)) by (repeat apply Z.mul_pos_pos; lia).
    assert (0 <= g * x * (h * v)) by (repeat apply Z.mul_nonneg_nonneg; lia). lia.
  - symmetry. assert (x <> 0) by (intro E0; assert (E1 : num r = 0) by nia; apply A4 in E1; congruence).
    apply Z.compare_lt_iff. assert (0 < g * x * (h * v)) by (repeat apply Z.mul_pos_pos; lia).
    assert (0 <= g * y * (h * u)) by (repeat apply Z.mul_nonneg_nonneg; lia). lia.
  - replace (- (g * x) * (h * v)) with (- ((g*h) * (x * v))) by ring.
    replace (- (g * y) * (h * u)) with (- ((g*h) * (y * u))) by ring.
    rewrite Z.compare_opp. apply Zmult_compare_compat_l; lia.
Qed.

Lemma rcmp_zero r s : num r = 0 -> num s = 0 -> rcmp nonneg r s = None.
Proof. intros H1 H2. unfold rcmp. rewrite H1, H2. reflexivity. Qed.

Lemma canonical_abs r : canonical r -> canonical (rabs r).
Proof. intros (A&B&C&D). repeat split; auto. Qed.

Lemma canonical_neg r : canonical r -> num r <> 0 -> canonical (rneg r).
Proof. intros (A&B&C&D) H. repeat split; cbn; auto; contradiction. Qed.
Lemma sn_neg r : sn (rneg r) = - sn r.
Proof. unfold sn, rneg; cbn. destruct (sign r); cbn; lia. Qed.

Lemma radd_spec r s : canonical r -> canonical s -> exists t, radd nonneg r s = Some t /\ canonical t /\
  sn t * (den r * den s) = (sn r * den s + sn s * den r) * den t.
Proof.
  intros Cr Cs. pose proof Cr as (A1 & A2 & A3 & A4). pose proof Cs as (B1 & B2 & B3 & B4).
  unfold radd.
  destruct (gcd_split (den r) (den s)) as (h & u & v & Hh & Eh & Hu & Hv & Hu0 & Hv0 & Huv & Eu & Ev); try lia.
  rewrite Eh. 
  assert (K : forall n sg, 0 <= n -> sgn sg n * h = sn r * den s + sn s * den r ->
     exists t, optimize (mkR n (den r * v) sg) = Some t /\ canonical t /\
       sn t * (den r * den s) = (sn r * den s + sn s * den r) * den t).
  { intros n sg Hn HK. destruct (optimize_spec n (den r * v) sg) as (t & E & C & H); try nia.
    exists t; split; auto; split; auto. rewrite <- HK.
    replace (sn t * (den r * den s)) with (sn t * (den r * v) * h) by (rewrite Hv; ring). rewrite H; ring. }
  destruct (Bool.eqb (sign r) (sign s)) eqn:Es.
  - apply Bool.eqb_prop in Es. rewrite !udiv_ok by lia. cbn [obind]. rewrite Eu, Ev. rewrite !nonneg_ok by nia. cbn [obind].
    rewrite !nonneg_ok by nia. cbn [obind fst snd].
    apply K; [nia|]. unfold sn. rewrite <- Es, Hu, Hv. destruct (sign r); cbn [sgn]; ring.
  - assert (Hz : num (rabs r) <> 0 \/ num (rabs s) <> 0).
    { cbn. destruct (Z.eq_dec (num r) 0) as [E|]; [|now left]. destruct (Z.eq_dec (num s) 0) as [E'|]; [|now right].
      rewrite (A4 E), (B4 E') in Es. discriminate. }
    rewrite rcmp_spec; auto using canonical_abs. unfold sn at 1 2. cbn [rabs num den sign sgn obind].
    rewrite !udiv_ok by lia. cbn [obind]. rewrite Eu, Ev.
    assert (Hpn : 0 <= num r * v) by nia. assert (Hqn : 0 <= u * num s) by nia.
    assert (Hdn : 0 <= den r * v) by nia.
    assert (Sd : (sign r = true /\ sign s = false) \/ (sign r = false /\ sign s = true)) by
       (destruct (sign r), (sign s); try discriminate; auto).
    rewrite !(nonneg_ok _ Hpn), !(nonneg_ok _ Hqn). cbn [obind].
    destruct (Z.compare_spec (num r * den s) (num s * den r)) as [H|H|H]; rewrite Hu, Hv in H.
    + assert (Hd : 0 <= num r * v - u * num s) by nia. rewrite (nonneg_ok _ Hd). cbn [obind fst snd].
      rewrite (nonneg_ok _ Hdn). cbn [obind].
      apply K; auto. unfold sn. rewrite Hu, Hv. destruct Sd as [[-> ->]|[-> ->]]; cbn [sgn]; ring.
    + assert (Hd : 0 <= u * num s - num r * v) by nia. rewrite (nonneg_ok _ Hd). cbn [obind fst snd].
      rewrite (nonneg_ok _ Hdn). cbn [obind].
      apply K; auto. unfold sn. rewrite Hu, Hv. destruct Sd as [[-> ->]|[-> ->]]; cbn [sgn]; ring.
    + assert (Hd : 0 <= num r * v - u * num s) by nia. rewrite (nonneg_ok _ Hd). cbn [obind fst snd].
      rewrite (nonneg_ok _ Hdn). cbn [obind].
      apply K; auto. unfold sn. rewrite Hu, Hv. destruct Sd as [[-> ->]|[-> ->]]; cbn [sgn]; ring.
Qed.

Lemma rmul_spec r s : 0 <= num r -> 0 < den r -> 0 <= num s -> 0 < den s ->
  exists t, rmul nonneg r s = Some t /\ canonical t /\
  sn t * (den r * den s) = (sn r * sn s) * den t.
Proof.
  intros A1 A2 B1 B2. unfold rmul. rewrite !nonneg_ok by nia. cbn [obind].
  destruct (optimize_spec (num r * num s) (den r * den s) (Bool.eqb (sign r) (sign s))) as (t & E & C & H); try nia.
  exists t; split; auto; split; auto. rewrite H. unfold sn. destruct (sign r), (sign s); cbn [Bool.eqb sgn]; ring.
Qed.

Lemma rsub_spec r s : canonical r -> canonical s -> exists t, rsub nonneg r s = Some t /\ canonical t /\
  sn t * (den r * den s) = (sn r * den s - sn s * den r) * den t.
Proof.
  intros Cr Cs. unfold rsub. pose proof Cr as (A1 & A2 & A3 & A4). pose proof Cs as (B1 & B2 & B3 & B4).
  destruct (rmul_spec s (rneg rone)) as (t & E & C & H); try (cbn; lia). rewrite E. cbn [obind].
  destruct (radd_spec r t Cr C) as (w & E' & C' & H'). exists w; split; auto; split; auto.
  rewrite sn_neg in H. change (sn rone) with 1 in H. change (den (rneg rone)) with 1 in H.
  destruct C as (_ & C2 & _). rewrite <- (Z.mul_cancel_r _ _ (den t)) by lia.
  replace (sn w * (den r * den s) * den t) with (sn w * (den r * den t) * den s) by ring.
  rewrite H'. replace ((sn r * den t + sn t * den r) * den w * den s) with ((sn r * den s * den t + (sn t * (den s * 1)) * den r) * den w) by ring.
  rewrite H. ring.
Qed.

Lemma req_rzero s : canonical s -> (req s rzero = true <-> num s = 0).
Proof.
  intros (A&B&C&D). unfold req, rzero; cbn. split.
  - intro H. apply andb_prop in H as [H _]. apply andb_prop in H as [H _]. now apply Z.eqb_eq.
  - intro H. rewrite (D H), H. rewrite H in C. rewrite Z.gcd_0_l in C. rewrite Z.abs_eq in C by lia. rewrite C. reflexivity.
Qed.

Lemma rdiv_none r s : canonical s -> num s = 0 -> rdiv nonneg r s = None.
Proof. intros C H. unfold rdiv. now rewrite (proj2 (req_rzero s C) H). Qed.
Lemma rdiv_spec r s : canonical r -> canonical s -> num s <> 0 -> exists t, rdiv nonneg r s = Some t /\ canonical t /\
  sn t * (den r * sn s) = (sn r * den s) * den t.
Proof.
  intros (A1 & A2 & A3 & A4) Cs Hs. pose proof Cs as (B1 & B2 & B3 & B4). unfold rdiv.
  destruct (req s rzero) eqn:E; [apply req_rzero in E; auto; contradiction|].
  rewrite !nonneg_ok by nia. cbn [obind].
  destruct (optimize_spec (num r * den s) (den r * num s) (Bool.eqb (sign r) (sign s))) as (t & E' & C & H); try nia.
  exists t; split; auto; split; auto.
  unfold sn at 2 3. destruct (sign r), (sign s); cbn [Bool.eqb sgn] in *; nia.
Qed.

(** ** Into Q. *)
Lemma toQ_eq r a d : 0 < den r -> 0 < d -> sn r * d = a * den r -> (toQ r == Qmake a (Z.to_pos d))%Q.
Proof. intros H1 H2 H. unfold toQ, Qeq. cbn [Qnum Qden]. rewrite !Z2Pos.id by lia. exact H. Qed.
Lemma toQ_eq_iff r s : 0 < den r -> 0 < den s -> ((toQ r == toQ s)%Q <-> sn r * den s = sn s * den r).
Proof. intros H1 H2. unfold toQ, Qeq. cbn [Qnum Qden]. rewrite !Z2Pos.id by lia. reflexivity. Qed.
Lemma toQ_zero r : 0 < den r -> ((toQ r == 0)%Q <-> num r = 0).
Proof. intros H1. unfold toQ, Qeq. cbn [Qnum Qden]. destruct (sign r); lia. Qed.

Lemma toQ_div r : 0 < den r -> (toQ r == inject_Z (sn r) / inject_Z (den r))%Q.
Proof.
  intro H. unfold toQ. fold (sgn (sign r) (num r)). fold (sn r).
  destruct (den r) as [|p|p] eqn:E; try lia. cbn [Z.to_pos]. apply Qmake_Qdiv.
Qed.
Lemma inj_neq0 z : z <> 0 -> ~ (inject_Z z == 0)%Q.
Proof. intros H E. apply H. unfold Qeq in E. cbn in E. lia. Qed.

(** Cross-multiplied equality gives an equality of fractions. *)
Lemma toQ_frac t a d : 0 < den t -> d <> 0 -> sn t * d = a * den t -> (toQ t == inject_Z a / inject_Z d)%Q.
Proof.
  intros H1 H2 H. rewrite (toQ_div t H1).
  assert (A : ~ (inject_Z (den t) == 0)%Q) by (apply inj_neq0; lia).
  assert (B : ~ (inject_Z d == 0)%Q) by (apply inj_neq0; lia).
  assert (E : (inject_Z (sn t) * inject_Z d == inject_Z a * inject_Z (den t))%Q) by (rewrite <- !inject_Z_mult, H; reflexivity).
  assert (E2 : (inject_Z (sn t) == inject_Z a * inject_Z (den t) / inject_Z d)%Q) by (rewrite <- E; field; auto).
  rewrite E2. field; auto.
Qed.

Lemma radd_Q r s : canonical r -> canonical s -> exists t, radd nonneg r s = Some t /\ canonical t /\ (toQ t == toQ r + toQ s)%Q.
Proof.
  intros Cr Cs. destruct (radd_spec r s Cr Cs) as (t & E & C & H). exists t; split; auto; split; auto.
  destruct Cr as (_ & A & _), Cs as (_ & B & _). destruct C as (_ & C & _).
  apply toQ_frac in H; [|exact C|nia]. rewrite H, (toQ_div r A), (toQ_div s B).
  rewrite inject_Z_plus, !inject_Z_mult. field. split; apply inj_neq0; lia.
Qed.
Lemma rsub_Q r s : canonical r -> canonical s -> exists t, rsub nonneg r s = Some t /\ canonical t /\ (toQ t == toQ r - toQ s)%Q.
Proof.
  intros Cr Cs. destruct (rsub_spec r s Cr Cs) as (t & E & C & H). exists t; split; auto; split; auto.
  destruct Cr as (_ & A & _), Cs as (_ & B & _). destruct C as (_ & C & _).
  apply toQ_frac in H; [|exact C|nia]. rewrite H, (toQ_div r A), (toQ_div s B).
  unfold Z.sub. rewrite inject_Z_plus, inject_Z_opp, !inject_Z_mult. field. split; apply inj_neq0; lia.
Qed.
Lemma rmul_Q r s : canonical r -> canonical s -> exists t, rmul nonneg r s = Some t /\ canonical t /\ (toQ t == toQ r * toQ s)%Q.
Proof.
  intros (A1 & A & _) (B1 & B & _). destruct (rmul_spec r s A1 A B1 B) as (t & E & C & H). exists t; split; auto; split; auto.
  destruct C as (_ & C & _).
  apply toQ_frac in H; [|exact C|nia]. rewrite H, (toQ_div r A), (toQ_div s B).
  rewrite !inject_Z_mult. field. split; apply inj_neq0; lia.
Qed.
Lemma sn_zero s : num s <> 0 -> sn s <> 0.
Proof. unfold sn. destruct (sign s); cbn; lia. Qed.
Lemma rdiv_Q r s : canonical r -> canonical s -> num s <> 0 ->
  exists t, rdiv nonneg r s = Some t /\ canonical t /\ (toQ t == toQ r / toQ s)%Q.
Proof.
  intros Cr Cs Hs. destruct (rdiv_spec r s Cr Cs Hs) as (t & E & C & H). exists t; split; auto; split; auto.
  destruct Cr as (_ & A & _), Cs as (_ & B & _). destruct C as (_ & C & _).
  pose proof (sn_zero s Hs) as Hsn.
  apply toQ_frac in H; [|exact C|nia]. rewrite H, (toQ_div r A), (toQ_div s B).
  rewrite !inject_Z_mult. field. repeat split; apply inj_neq0; lia.
Qed.
Lemma rneg_Q r : canonical r -> (toQ (rneg r) == - toQ r)%Q.
Proof. intros (_ & A & _). unfold toQ, rneg, Qeq, Qopp; cbn. destruct (sign r); cbn; lia. Qed.

Lemma run_denotes e : neg_safe e -> denotes (run nonneg e) (evalQ e).
Proof.
  induction e as [n d|e IHe f IHf|e IHe f IHf|e IHe f IHf|e IHe f IHf|e IHe|e IHe]; cbn [run evalQ neg_safe]; intro S.
  - unfold denotes. destruct (Z.eqb_spec d 0) as [->|Hd]; [reflexivity|].
    destruct (rnew_spec n d Hd) as (r & E & C & H). exists r; split; auto; split; auto.
    apply toQ_frac; auto. apply C.
  - destruct S as [S1 S2]. specialize (IHe S1). specialize (IHf S2). unfold denotes in *.
    destruct (evalQ e) as [x|]; cbn [obind]; [|now rewrite IHe].
    destruct IHe as (r & -> & C & H). destruct (evalQ f) as [y|]; cbn [obind]; [|now rewrite IHf].
    destruct IHf as (s & -> & C' & H'). cbn [obind].
    destruct (radd_Q r s C C') as (t & E & Ct & Ht). exists t; rewrite Ht, H, H'. split; auto; split; auto; reflexivity.
  - destruct S as [S1 S2]. specialize (IHe S1). specialize (IHf S2). unfold denotes in *.
    destruct (evalQ e) as [x|]; cbn [obind]; [|now rewrite IHe].
    destruct IHe as (r & -> & C & H). destruct (evalQ f) as [y|]; cbn [obind]; [|now rewrite IHf].
    destruct IHf as (s & -> & C' & H'). cbn [obind].
    destruct (rsub_Q r s C C') as (t & E & Ct & Ht). exists t; rewrite Ht, H, H'. split; auto; split; auto; reflexivity.
  - destruct S as [S1 S2]. specialize (IHe S1). specialize (IHf S2). unfold denotes in *.
    destruct (evalQ e) as [x|]; cbn [obind]; [|now rewrite IHe].
    destruct IHe as (r & -> & C & H). destruct (evalQ f) as [y|]; cbn [obind]; [|now rewrite IHf].
    destruct IHf as (s & -> & C' & H'). cbn [obind].
    destruct (rmul_Q r s C C') as (t & E & Ct & Ht). exists t; rewrite Ht, H, H'. split; auto; split; auto; reflexivity.
  - destruct S as [S1 S2]. specialize (IHe S1). specialize (IHf S2). unfold denotes in *.
    destruct (evalQ e) as [x|]; cbn [obind]; [|now rewrite IHe].
    destruct IHe as (r & -> & C & H). destruct (evalQ f) as [y|]; cbn [obind]; [|now rewrite IHf].
    destruct IHf as (s & -> & C' & H'). cbn [obind].
    destruct (Qeq_bool y 0) eqn:Ey.
    + apply Qeq_bool_eq in Ey. apply rdiv_none; auto. apply toQ_zero; [apply C'|]. now rewrite H'.
    + apply Qeq_bool_neq in Ey. destruct (rdiv_Q r s C C') as (t & E & Ct & Ht).
      { intro Z0. apply Ey. rewrite <- H'. apply toQ_zero; auto. apply C'. }
      exists t; rewrite Ht, H, H'. split; auto; split; auto; reflexivity.
  - destruct S as [S1 S2]. specialize (IHe S1). unfold denotes in *.
    destruct (evalQ e) as [x|]; cbn [obind]; [|now rewrite IHe].
    destruct IHe as (r & -> & C & H). cbn [obind]. exists (rneg r). split; [reflexivity|]. split.
    { apply canonical_neg; auto; intro Z0; apply (S2 x eq_refl); rewrite <- H; apply toQ_zero; auto; apply C. }
    rewrite rneg_Q, H by auto. reflexivity.
  - specialize (IHe S). unfold denotes in *.
    destruct (evalQ e) as [x|]; cbn [obind]; [|now rewrite IHe].
    destruct IHe as (r & -> & C & H). cbn [obind]. exists (rabs r). split; [reflexivity|]. split; [now apply canonical_abs|].
    rewrite <- H. destruct C as (C & _). unfold toQ, rabs, Qabs; cbn [num den sign].
    destruct (sign r); rewrite ?Z.abs_opp, Z.abs_eq by lia; reflexivity.
Qed.

(** ** Uniqueness of representatives. *)
Lemma canonical_unique r s : canonical r -> canonical s -> (toQ r == toQ s)%Q -> r = s.
Proof.
  intros Cr Cs H. pose proof Cr as (A1 & A2 & A3 & A4). pose proof Cs as (B1 & B2 & B3 & B4).
  apply toQ_eq_iff in H; auto.
  destruct r as [n d b], s as [n' d' b']; unfold sn in H; cbn [num den sign sgn] in *.
  assert (Hb : n <> 0 -> b = b').
  { intro Hn. destruct b, b'; auto; cbn [sgn] in H; exfalso; nia. }
  assert (Hn0 : n = 0 <-> n' = 0).
  { destruct b, b'; cbn [sgn] in H; split; intro; subst; nia. }
  assert (b = b').
  { destruct (Z.eq_dec n 0) as [E|E]; [|auto]. rewrite A4, B4; auto. now apply Hn0. }
  subst b'.
  assert (H2 : n * d' = n' * d) by (destruct b; cbn [sgn] in H; lia).
  assert (D1 : (d | d')).
  { apply (Gauss d n); [exists n'; rewrite H2; ring|]. apply rel_prime_sym. apply Zgcd_1_rel_prime. auto. }
  assert (D2 : (d' | d)).
  { apply (Gauss d' n'); [exists n; rewrite <- H2; ring|]. apply rel_prime_sym. apply Zgcd_1_rel_prime. auto. }
  assert (d = d') by (apply Z.divide_antisym_nonneg; auto; lia). subst d'.
  assert (n = n') by nia. now subst.
Qed.
Lemma req_iff r s : req r s = true <-> r = s.
Proof.
  unfold req. destruct r as [n d b], s as [n' d' b']; cbn. rewrite !andb_true_iff, !Z.eqb_eq, Bool.eqb_true_iff.
  split; [intros [[-> ->] ->]; reflexivity|]. intro H; inversion H; auto.
Qed.

Lemma rcmp_Q r s : canonical r -> canonical s -> num r <> 0 \/ num s <> 0 ->
  rcmp nonneg r s = Some (Qcompare (toQ r) (toQ s)).
Proof.
  intros Cr Cs H. rewrite rcmp_spec by auto. f_equal. unfold Qcompare, toQ; cbn [Qnum Qden].
  destruct Cr as (_ & A & _), Cs as (_ & B & _). rewrite !Z2Pos.id by lia. reflexivity.
Qed.

Lemma rsum_acc l a : canonical a -> Forall canonical l ->
  exists t, fold_left (fun acc a => do x <- acc; radd nonneg x a) l (Some a) = Some t /\ canonical t /\
   (toQ t == toQ a + qsum (map toQ l))%Q.
Proof.
  revert a. induction l as [|x l IH]; intros a Ca Hl; cbn [fold_left map qsum].
  - exists a; repeat split; auto; try apply Ca. rewrite Qplus_0_r; reflexivity.
  - inversion Hl; subst. cbn [obind]. destruct (radd_Q a x) as (t & E & Ct & Ht); auto. rewrite E.
    destruct (IH t) as (w & Ew & Cw & Hw); auto. exists w; repeat split; auto; try apply Cw.
    rewrite Hw, Ht. ring.
Qed.
Lemma canonical_zero : canonical rzero.
Proof. repeat split; cbn; lia. Qed.
Lemma rsum_Q l : Forall canonical l -> exists t, rsum nonneg l = Some t /\ canonical t /\ (toQ t == qsum (map toQ l))%Q.
Proof.
  intro H. destruct (rsum_acc l rzero canonical_zero H) as (t & E & C & Ht). exists t; repeat split; auto; try apply C.
  rewrite Ht. unfold toQ, rzero; cbn. ring.
Qed.
Lemma rproduct_zero l : Forall canonical l -> rproduct nonneg l = Some rzero.
Proof.
  intro H. unfold rproduct. assert (G : forall r, canonical r -> rmul nonneg rzero r = Some rzero).
  { intros r (A & B & _). unfold rmul, rzero; cbn [num den sign]. rewrite Z.mul_0_l, Z.mul_1_l, !nonneg_ok by lia. reflexivity. }
  induction H as [|x l Hx Hl IH]; [reflexivity|]. cbn [fold_left obind]. rewrite G by auto. exact IH.
Qed.

(** ** The machine type refines the unbounded one. *)
Lemma u64_nonneg z v : u64 z = Some v -> nonneg z = Some v.
Proof.
  unfold u64, nonneg. destruct (0 <=? z); cbn [andb]; [|discriminate]. destruct (z <? 2 ^ 64); [auto|discriminate].
Qed.
Definition ole {A} (x y : option A) : Prop := forall v, x = Some v -> y = Some v.
Lemma ole_refl {A} (x : option A) : ole x x. Proof. intros v; auto. Qed.
Lemma ole_bind {A B} (x y : option A) (f g : A -> option B) :
  ole x y -> (forall a, ole (f a) (g a)) -> ole (obind x f) (obind y g).
Proof. intros H K v. destruct x as [a|]; cbn; [|discriminate]. rewrite (H a eq_refl). cbn. apply K. Qed.
Lemma ole_chk z : ole (u64 z) (nonneg z). Proof. intro v. apply u64_nonneg. Qed.
Ltac ole := repeat first [ apply ole_refl | apply ole_chk | assumption
  | apply ole_bind; [|intros ?] | match goal with |- ole (match ?x with _ => _ end) _ => destruct x end ].
Lemma ole_new n d : ole (rnew u64 n d) (rnew nonneg n d). Proof. unfold rnew. ole. Qed.
Lemma ole_cmp r s : ole (rcmp u64 r s) (rcmp nonneg r s). Proof. unfold rcmp. ole. Qed.
Lemma ole_add r s : ole (radd u64 r s) (radd nonneg r s).
Proof. unfold radd. apply ole_bind; [|intro; ole]. destruct (Bool.eqb _ _); ole; apply ole_cmp. Qed.
Lemma ole_mul r s : ole (rmul u64 r s) (rmul nonneg r s). Proof. unfold rmul. ole. Qed.
Lemma ole_sub r s : ole (rsub u64 r s) (rsub nonneg r s).
Proof. unfold rsub. apply ole_bind; [apply ole_mul|intro; apply ole_add]. Qed.
Lemma ole_div r s : ole (rdiv u64 r s) (rdiv nonneg r s). Proof. unfold rdiv. ole. Qed.
Lemma ole_run e : ole (run u64 e) (run nonneg e).
Proof.
  induction e; cbn [run]; ole; try apply ole_new; try apply ole_add; try apply ole_mul; try apply ole_sub; try apply ole_div.
Qed.
Lemma ole_fold f g l : (forall a b, ole (f a b) (g a b)) -> forall x y, ole x y ->
  ole (fold_left (fun acc (a : rational) => do x <- acc; f x a) l x) (fold_left (fun acc a => do x <- acc; g x a) l y : option rational).
Proof.
  intro H. induction l as [|a l IH]; cbn [fold_left]; intros x y K; auto. apply IH. apply ole_bind; auto.
Qed.
Lemma ole_sum l : ole (rsum u64 l) (rsum nonneg l).
Proof. apply ole_fold; auto using ole_add, ole_refl. Qed.
