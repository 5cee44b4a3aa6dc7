(** Proofs about the integer PID model. *)
From Coq Require Import ZArith List Bool Lia Znumtheory ZifyBool.
From Verif Require Import PidModel.
Import ListNotations.
Open Scope Z_scope.

Lemma euclid_div_ideal n d : d <> 0 -> exists q r, euclid_div ideal n d = Some (q, r) /\
  n = q * d + r /\ 0 <= r < Z.abs d.
Proof.
  intros Hd. unfold euclid_div, ideal, obind. destruct (Z.eqb_spec d 0); [contradiction|].
  pose proof (Z.quot_rem' n d) as E. pose proof (Z.rem_bound_abs n d Hd) as HB.
  destruct (Z.ltb_spec (Z.rem n d) 0); [destruct (Z.ltb_spec 0 d)|]; eexists _, _; (split; [reflexivity|]); split; lia.
Qed.

Lemma ediv_unique d q r q' r' : 0 <= r < Z.abs d -> 0 <= r' < Z.abs d -> q * d + r = q' * d + r' -> q = q' /\ r = r'.
Proof. intros. assert (q = q') by nia. subst. lia. Qed.

(** checked arithmetic bounded by [L] in absolute value succeeds *)
Definition okc (chk : Z -> option Z) (L : Z) : Prop := forall z, Z.abs z <= L -> chk z = Some z.
Lemma okc_ideal L : okc ideal L. Proof. intros z _. reflexivity. Qed.
Lemma okc_width w L : 1 <= w -> L <= 2 ^ (w - 1) - 1 -> okc (width w) L.
Proof. intros Hw HL z Hz. unfold width. destruct ((_ <=? z) && (z <=? _)) eqn:E; [reflexivity|]. lia. Qed.

Lemma euclid_div_ok chk L n d : okc chk L -> Z.abs n <= L -> Z.abs d <= L -> d <> 0 ->
  euclid_div chk n d = euclid_div ideal n d.
Proof.
  intros Hc Hn HdL Hd. unfold euclid_div, ideal, obind. destruct (Z.eqb_spec d 0); [contradiction|].
  pose proof (Z.quot_rem' n d) as E. pose proof (Z.rem_bound_abs n d Hd) as HB.
  pose proof (Z.rem_nonneg n d Hd) as HN. pose proof (Z.rem_sign_mul n d Hd) as HS.
  set (q := Z.quot n d) in *. set (r := Z.rem n d) in *.
  assert (HQ : Z.abs d * Z.abs q + Z.abs r = Z.abs n).
  { subst q r. rewrite <- Z.rem_abs, <- Z.quot_abs by assumption. symmetry. apply Z.quot_rem'. }
  rewrite Hc by nia.
  destruct (Z.ltb_spec r 0); [destruct (Z.ltb_spec 0 d)|]; try reflexivity.
  - rewrite Hc by lia. rewrite Hc by nia. reflexivity.
  - rewrite Hc by lia. rewrite Hc by nia. reflexivity.
Qed.

Lemma simplify_ok chk L n : okc chk L -> Z.abs n <= L -> simplify chk n = Some (if n <? 0 then -1 else 1, Z.abs n).
Proof.
  intros Hc Hn. unfold simplify, obind. rewrite Hc by (destruct (n <? 0); lia). 
  destruct (Z.ltb_spec n 0); do 2 f_equal; lia.
Qed.


Lemma gcd_step n q d r : n = q * d + r -> Z.gcd d n = Z.gcd d r.
Proof. intros ->. rewrite Z.add_comm. apply Z.gcd_add_mult_diag_r. Qed.

Lemma pow2_pos k : 0 < 2 ^ Z.of_nat k.
Proof. apply Z.pow_pos_nonneg; lia. Qed.

(** one division step in the positive phase halves the product *)
Lemma product_halves a b q r f : 0 < a -> a < b -> b = q * a + r -> 0 <= r < Z.abs a ->
  a * b < 2 ^ Z.of_nat (S f) -> r * a < 2 ^ Z.of_nat f /\ 1 <= q.
Proof.
  intros Ha Hb E Hr Hp. rewrite Nat2Z.inj_succ, Z.pow_succ_r in Hp by lia.
  assert (1 <= q) by nia. split; [nia|assumption].
Qed.

Lemma fuel_square A c : 0 <= c < A * A -> c < 2 ^ Z.of_nat (euclid_fuel A - 4).
Proof.
  intros H. assert (HA : A <> 0) by nia.
  pose proof (Z.log2_spec (Z.abs A) ltac:(lia)) as [_ HL]. pose proof (Z.log2_nonneg (Z.abs A)).
  replace (Z.of_nat (euclid_fuel A - 4)) with (2 * Z.succ (Z.log2 (Z.abs A))) by (unfold euclid_fuel; lia).
  rewrite (Z.mul_comm 2), Z.pow_mul_r, Z.pow_2_r by lia.
  assert (A * A = Z.abs A * Z.abs A) by nia. nia.
Qed.

Lemma fuel_form A : exists f, euclid_fuel A = S (S (S (S f))) /\ forall c, 0 <= c < A * A -> c < 2 ^ Z.of_nat f.
Proof.
  exists (euclid_fuel A - 4)%nat. split; [|apply fuel_square].
  unfold euclid_fuel. pose proof (Z.log2_nonneg (Z.abs A)). lia.
Qed.

Section Run.
  Variables (chk : Z -> option Z) (L : Z).
  Hypothesis Hc : okc chk L.

  Lemma gcd_done f b : Z.abs b <= L -> gcd_rec chk (S f) 0 b = Some (Z.gcd 0 b).
  Proof. intros Hb. cbn [gcd_rec]. cbn [Z.eqb]. rewrite (simplify_ok chk L) by assumption. reflexivity. Qed.

  Lemma gcd_pos : forall f a b, 0 <= a < b -> a * b < 2 ^ Z.of_nat f -> b <= L ->
    gcd_rec chk (S f) a b = Some (Z.gcd a b).
  Proof.
    induction f as [|f IH]; intros a b Hab Hp HL.
    - assert (a = 0) as -> by (cbn in Hp; nia). apply gcd_done. lia.
    - destruct (Z.eq_dec a 0) as [->|Hna]; [apply gcd_done; lia|].
      remember (S f) as f1. cbn [gcd_rec]. destruct (Z.eqb_spec a 0); [contradiction|].
      rewrite (euclid_div_ok chk L) by (auto; lia).
      destruct (euclid_div_ideal b a Hna) as (q & r & -> & Eq & Hr). cbn [obind snd]. subst f1.
      destruct (product_halves a b q r f) as [Hp' Hq]; auto; try lia.
      rewrite IH by (auto; lia). rewrite (gcd_step _ _ _ _ Eq). now rewrite Z.gcd_comm.
  Qed.

  Lemma gcd_ok a b : Z.abs a <= L -> Z.abs b <= L -> gcd chk a b = Some (Z.gcd a b).
  Proof.
    intros Ha Hb. unfold gcd. destruct (Z.eq_dec a 0) as [->|Hna].
    - destruct (fuel_form 0) as (f & -> & _). now apply gcd_done.
    - destruct (fuel_form a) as (f & -> & Hf). remember (S (S (S f))) as f3. cbn [gcd_rec].
      destruct (Z.eqb_spec a 0); [contradiction|]. rewrite (euclid_div_ok chk L) by auto.
      destruct (euclid_div_ideal b a Hna) as (q & r & -> & Eq & Hr). cbn [obind snd].
      rewrite (gcd_step _ _ _ _ Eq). subst f3.
      destruct (Z.eq_dec r 0) as [->|Hnr]; [rewrite Z.gcd_comm; apply gcd_done; lia|].
      remember (S (S f)) as f2. cbn [gcd_rec].
      destruct (Z.eqb_spec r 0); [contradiction|]. rewrite (euclid_div_ok chk L) by (auto; lia).
      destruct (euclid_div_ideal a r Hnr) as (q2 & r2 & -> & Eq2 & Hr2). cbn [obind snd]. subst f2.
      assert (Hlt : r2 * r < 2 ^ Z.of_nat f) by (apply Hf; nia).
      assert (Hle : 2 ^ Z.of_nat f <= 2 ^ Z.of_nat (S f)) by (apply Z.pow_le_mono_r; lia).
      rewrite gcd_pos by lia. rewrite (Z.gcd_comm a r), (gcd_step _ _ _ _ Eq2). now rewrite Z.gcd_comm.
  Qed.

  (* ----------------------------------------------------------- bezout *)
  Variables A B : Z.
  Definition Good (res : option (Z * Z * Z)) (a b : Z) : Prop :=
    exists x y, res = Some (Z.gcd a b, x, y) /\ A * x + B * y = Z.gcd a b.

  Definition opp (a b u1 u2 C : Z) : Prop := u1 * u2 <= 0 /\ b * Z.abs u1 + a * Z.abs u2 = C.
  Definition dom (a b u1 u2 C : Z) : Prop :=
    0 <= u1 * u2 /\ Z.abs u2 <= Z.abs u1 /\ Z.abs (b * u1 - a * u2) = C /\ Z.abs u1 <= C.

  Lemma opp_step a b u1 u2 C q r : 0 < a -> a < b -> b = q * a + r -> 0 <= r < Z.abs a -> 1 <= q ->
    opp a b u1 u2 C ->
    opp r a (u2 - u1 * q) u1 C /\ Z.abs (u1 * q) <= C /\ Z.abs (u2 - u1 * q) <= C.
  Proof.
    intros Ha Hb E Hr Hq [Hs HC].
    assert (E1 : Z.abs (u2 - u1 * q) = Z.abs u2 + q * Z.abs u1).
    { destruct (Z.lt_trichotomy u1 0) as [H|[H|H]]; destruct (Z.lt_trichotomy u2 0) as [H'|[H'|H']]; nia. }
    assert (E2 : Z.abs (u1 * q) = q * Z.abs u1) by nia.
    split; [|nia]. split; [|rewrite E1; nia].
    destruct (Z.lt_trichotomy u1 0) as [H|[H|H]]; nia.
  Qed.

  Lemma dom_step a b u1 u2 C q r : 0 < a -> a < b -> b = q * a + r -> 0 <= r < Z.abs a -> 1 <= q ->
    dom a b u1 u2 C ->
    opp r a (u2 - u1 * q) u1 C /\ Z.abs (u1 * q) <= 2 * C /\ Z.abs (u2 - u1 * q) <= C.
  Proof.
    intros Ha Hb E Hr Hq (Hs & Hd & HC & Hu).
    assert (E0 : b * Z.abs u1 - a * Z.abs u2 = C).
    { destruct (Z.lt_trichotomy u1 0) as [H|[H|H]]; destruct (Z.lt_trichotomy u2 0) as [H'|[H'|H']]; nia. }
    assert (E1 : Z.abs (u2 - u1 * q) = q * Z.abs u1 - Z.abs u2).
    { destruct (Z.lt_trichotomy u1 0) as [H|[H|H]]; destruct (Z.lt_trichotomy u2 0) as [H'|[H'|H']]; nia. }
    assert (E2 : Z.abs (u1 * q) = q * Z.abs u1) by nia.
    split; [|nia]. split; [|rewrite E1; nia].
    destruct (Z.lt_trichotomy u1 0) as [H|[H|H]]; destruct (Z.lt_trichotomy u2 0) as [H'|[H'|H']]; nia.
  Qed.

  Lemma bez_done f b x1 x2 y1 y2 : 1 <= L -> Z.abs b <= L -> Z.abs x2 <= L -> Z.abs y2 <= L ->
    x2 * A + y2 * B = b -> Good (bezout_rec chk (S f) 0 b x1 x2 y1 y2) 0 b.
  Proof.
    intros HL Hb Hx Hy E. cbn [bezout_rec]. cbn [Z.eqb]. rewrite (simplify_ok chk L) by assumption.
    cbn [obind fst snd]. set (u := if b <? 0 then -1 else 1).
    assert (Hu : u <> 0) by (subst u; destruct (b <? 0); lia).
    assert (HuL : Z.abs u <= L) by (subst u; destruct (b <? 0); lia).
    rewrite (euclid_div_ok chk L x2 u), (euclid_div_ok chk L y2 u) by auto.
    destruct (euclid_div_ideal x2 u Hu) as (qx & rx & -> & Ex & Hrx).
    destruct (euclid_div_ideal y2 u Hu) as (qy & ry & -> & Ey & Hry). cbn [obind fst].
    exists qx, qy. split; [reflexivity|]. rewrite Z.gcd_0_l.
    subst u. clear Hx Hy. destruct (Z.ltb_spec b 0).
    - assert (rx = 0) by lia. assert (ry = 0) by lia. subst rx ry. subst x2 y2.
      replace (Z.abs b) with (- b) by lia. rewrite <- E. ring.
    - assert (rx = 0) by lia. assert (ry = 0) by lia. subst rx ry. subst x2 y2.
      replace (Z.abs b) with b by lia. rewrite <- E. ring.
  Qed.

  Lemma Good_step a b q r res : b = q * a + r -> Good res r a -> Good res a b.
  Proof.
    intros E (x & y & -> & H). exists x, y. rewrite (gcd_step _ _ _ _ E), (Z.gcd_comm a r). auto.
  Qed.

  Lemma bez_pos CA CB : CA <= L -> CB <= L -> 1 <= L ->
    forall f a b x1 x2 y1 y2, 0 <= a < b -> a * b < 2 ^ Z.of_nat f -> b <= L ->
    opp a b x1 x2 CB -> opp a b y1 y2 CA -> Z.abs x2 <= L -> Z.abs y2 <= L ->
    x1 * A + y1 * B = a -> x2 * A + y2 * B = b ->
    Good (bezout_rec chk (S f) a b x1 x2 y1 y2) a b.
  Proof.
    intros HCA HCB HL1. induction f as [|f IH]; intros a b x1 x2 y1 y2 Hab Hp HL Hx Hy Hx2 Hy2 Ea Eb.
    - assert (a = 0) as -> by (cbn in Hp; nia). apply bez_done; auto; lia.
    - destruct (Z.eq_dec a 0) as [->|Hna]; [apply bez_done; auto; lia|].
      remember (S f) as f1. cbn [bezout_rec]. destruct (Z.eqb_spec a 0); [contradiction|].
      rewrite (euclid_div_ok chk L) by (auto; lia).
      destruct (euclid_div_ideal b a Hna) as (q & r & -> & Eq & Hr). cbn [obind fst snd]. subst f1.
      destruct (product_halves a b q r f) as [Hp' Hq]; auto; try lia.
      destruct (opp_step a b x1 x2 CB q r) as (Ox & Px & Qx); auto; try lia.
      destruct (opp_step a b y1 y2 CA q r) as (Oy & Py & Qy); auto; try lia.
      rewrite (Hc (x1 * q)) by lia. cbn [obind]. rewrite (Hc (x2 - x1 * q)) by lia. cbn [obind].
      rewrite (Hc (y1 * q)) by lia. cbn [obind]. rewrite (Hc (y2 - y1 * q)) by lia. cbn [obind].
      eapply Good_step; [exact Eq|].
      assert (Hx1 : Z.abs x1 <= L) by (destruct Hx as [_ Hx]; clear - Hx Hab HCB; nia).
      assert (Hy1 : Z.abs y1 <= L) by (destruct Hy as [_ Hy]; clear - Hy Hab HCA; nia).
      apply IH; auto; try lia.
  Qed.

  (** entry into the positive phase, each coefficient pair opposite or dominated *)
  Lemma bez_enter CA CB : 2 * CA <= L -> 2 * CB <= L -> 1 <= L ->
    forall f a b x1 x2 y1 y2, 0 <= a < b -> a * b < 2 ^ Z.of_nat f -> b <= L ->
    (opp a b x1 x2 CB \/ dom a b x1 x2 CB) -> (opp a b y1 y2 CA \/ dom a b y1 y2 CA) ->
    Z.abs x2 <= L -> Z.abs y2 <= L ->
    x1 * A + y1 * B = a -> x2 * A + y2 * B = b ->
    Good (bezout_rec chk (S f) a b x1 x2 y1 y2) a b.
  Proof.
    intros HCA HCB HL1 f a b x1 x2 y1 y2 Hab Hp HL Hx Hy Hx2 Hy2 Ea Eb.
    destruct f as [|f].
    - assert (a = 0) as -> by (cbn in Hp; nia). apply bez_done; auto; lia.
    - destruct (Z.eq_dec a 0) as [->|Hna]; [apply bez_done; auto; lia|].
      remember (S f) as f1. cbn [bezout_rec]. destruct (Z.eqb_spec a 0); [contradiction|].
      rewrite (euclid_div_ok chk L) by (auto; lia).
      destruct (euclid_div_ideal b a Hna) as (q & r & -> & Eq & Hr). cbn [obind fst snd]. subst f1.
      destruct (product_halves a b q r f) as [Hp' Hq]; auto; try lia.
      assert (Hx' : opp r a (x2 - x1 * q) x1 CB /\ Z.abs (x1 * q) <= L /\ Z.abs (x2 - x1 * q) <= L).
      { destruct Hx as [Hx|Hx]; [eapply opp_step in Hx; eauto; try lia|eapply dom_step in Hx; eauto; try lia];
        destruct Hx as (? & ? & ?); split; auto; lia. }
      assert (Hy' : opp r a (y2 - y1 * q) y1 CA /\ Z.abs (y1 * q) <= L /\ Z.abs (y2 - y1 * q) <= L).
      { destruct Hy as [Hy|Hy]; [eapply opp_step in Hy; eauto; try lia|eapply dom_step in Hy; eauto; try lia];
        destruct Hy as (? & ? & ?); split; auto; lia. }
      destruct Hx' as (Ox & Px & Qx), Hy' as (Oy & Py & Qy).
      rewrite (Hc (x1 * q)) by lia. cbn [obind]. rewrite (Hc (x2 - x1 * q)) by lia. cbn [obind].
      rewrite (Hc (y1 * q)) by lia. cbn [obind]. rewrite (Hc (y2 - y1 * q)) by lia. cbn [obind].
      eapply Good_step; [exact Eq|].
      assert (Hx1 : Z.abs x1 <= L) by (destruct Hx as [[_ Hx]|(_ & _ & _ & Hx)]; clear - Hx Hab HCB; nia).
      assert (Hy1 : Z.abs y1 <= L) by (destruct Hy as [[_ Hy]|(_ & _ & _ & Hy)]; clear - Hy Hab HCA; nia).
      apply (bez_pos CA CB); auto; try lia.
  Qed.
End Run.

Lemma q_bound n d q r : d <> 0 -> n = q * d + r -> 0 <= r < Z.abs d -> Z.abs q <= Z.abs n.
Proof. intros. destruct (Z.lt_trichotomy d 0) as [H2|[H2|H2]]; [|contradiction|]; destruct (Z.lt_trichotomy q 0) as [H3|[H3|H3]]; nia. Qed.

Section Bez.
  Variables (chk : Z -> option Z) (L A B : Z).
  Hypothesis Hc : okc chk L.

  (** non-negative inputs *)
  Lemma bezout_nonneg : 0 <= A -> 0 <= B -> 1 <= L -> A <= L -> B <= L ->
    Good A B (bezout_identity chk A B) A B.
  Proof.
    intros HA HB HL HAL HBL. unfold bezout_identity. destruct (fuel_form A) as (f & -> & Hf).
    destruct (Z.eq_dec A 0) as [E0|Hna].
    { clear Hf. subst A. apply (bez_done chk L Hc 0 B); auto; lia. }
    remember (S (S (S f))) as f3. cbn [bezout_rec]. destruct (Z.eqb_spec A 0); [contradiction|].
    rewrite (euclid_div_ok chk L) by (auto; lia).
    destruct (euclid_div_ideal B A Hna) as (q & r & -> & Eq & Hr). cbn [obind fst snd].
    pose proof (q_bound _ _ _ _ Hna Eq Hr) as Hq.
    rewrite (Hc (1 * q)) by lia. cbn [obind]. rewrite (Hc (0 - 1 * q)) by lia. cbn [obind].
    rewrite (Hc (0 * q)) by lia. cbn [obind]. rewrite (Hc (1 - 0 * q)) by lia. cbn [obind]. subst f3.
    eapply Good_step; [exact Eq|].
    assert (Hlt : r * A < 2 ^ Z.of_nat f) by (apply Hf; nia).
    assert (Hle : 2 ^ Z.of_nat f <= 2 ^ Z.of_nat (S (S f))) by (apply Z.pow_le_mono_r; lia).
    assert (Hq0 : 0 <= q) by nia.
    apply (bez_pos chk L Hc A B A B); auto; try lia; split; nia.
  Qed.

  (** any signs *)
  Lemma bezout_any : 1 <= L -> 2 * Z.abs A <= L -> 2 * Z.abs B <= L ->
    Good A B (bezout_identity chk A B) A B.
  Proof.
    intros HL HAL HBL. unfold bezout_identity. destruct (fuel_form A) as (f & -> & Hf).
    destruct (Z.eq_dec A 0) as [E0|Hna].
    { clear Hf. subst A. apply (bez_done chk L Hc 0 B); auto; lia. }
    remember (S (S (S f))) as f3. cbn [bezout_rec]. destruct (Z.eqb_spec A 0); [contradiction|].
    rewrite (euclid_div_ok chk L) by (auto; lia).
    destruct (euclid_div_ideal B A Hna) as (q & r & -> & Eq & Hr). cbn [obind fst snd].
    pose proof (q_bound _ _ _ _ Hna Eq Hr) as Hq.
    rewrite (Hc (1 * q)) by lia. cbn [obind]. rewrite (Hc (0 - 1 * q)) by lia. cbn [obind].
    rewrite (Hc (0 * q)) by lia. cbn [obind]. rewrite (Hc (1 - 0 * q)) by lia. cbn [obind]. subst f3.
    eapply Good_step; [exact Eq|].
    replace (0 - 1 * q) with (- q) by lia. replace (1 - 0 * q) with 1 by lia.
    assert (Hle : forall k, (k >= f)%nat -> 2 ^ Z.of_nat f <= 2 ^ Z.of_nat k) by (intros; apply Z.pow_le_mono_r; lia).
    destruct (Z.lt_ge_cases 0 A) as [HA|HA].
    - assert (Hlt : r * A < 2 ^ Z.of_nat f) by (apply Hf; nia). specialize (Hle (S (S f)) ltac:(lia)).
      apply (bez_enter chk L Hc A B (Z.abs A) (Z.abs B)); auto; try lia.
      + destruct (Z.lt_ge_cases q 0).
        * right. repeat split; nia.
        * left. split; nia.
      + left. split; nia.
    - destruct (Z.eq_dec r 0) as [->|Hnr].
      { apply (bez_done chk L Hc A B); auto; lia. }
      remember (S (S f)) as f2. cbn [bezout_rec]. destruct (Z.eqb_spec r 0); [contradiction|].
      rewrite (euclid_div_ok chk L) by (auto; lia).
      destruct (euclid_div_ideal A r Hnr) as (q2 & r2 & -> & Eq2 & Hr2). cbn [obind fst snd].
      pose proof (q_bound _ _ _ _ Hnr Eq2 Hr2) as Hq2.
      assert (Hn2 : q2 <= -2) by nia.
      assert (HrA : r < - A) by lia.
      (* |1 + q q2| <= |B| *)
      assert (HU : Z.abs (1 + q * q2) <= Z.abs B /\ 0 <= (1 + q * q2) * (- q) /\ Z.abs (- q) <= Z.abs (1 + q * q2)
                   /\ Z.abs (r * (1 + q * q2) - r2 * (- q)) = Z.abs B).
      { assert (EB : r * (1 + q * q2) - r2 * (- q) = B) by (rewrite Eq; rewrite Eq2; ring).
        assert (EBq : B = q * A + r) by exact Eq.
        destruct (Z.lt_ge_cases 0 q) as [Hqp|Hqn].
        - assert (HB0 : B < 0) by nia.
          assert (1 + q * q2 <= - q - 0) by nia.
          repeat split; try nia.
        - assert (HB0 : 0 <= B) by nia.
          assert (- q <= 1 + q * q2) by nia.
          repeat split; try nia.
        }
      destruct HU as (U1 & U2 & U3 & U4).
      replace (1 - - q * q2) with (1 + q * q2) by lia. replace (0 - 1 * q2) with (- q2) by lia.
      rewrite (Hc (- q * q2)) by lia. cbn [obind].
      replace (1 - - q * q2) with (1 + q * q2) by lia.
      rewrite (Hc (1 + q * q2)) by lia. cbn [obind].
      rewrite (Hc (1 * q2)) by lia. cbn [obind]. rewrite (Hc (0 - 1 * q2)) by lia. cbn [obind].
      replace (0 - 1 * q2) with (- q2) by lia. subst f2.
      eapply Good_step; [exact Eq2|].
      assert (Hlt : r2 * r < 2 ^ Z.of_nat f) by (apply Hf; nia). specialize (Hle (S f) ltac:(lia)).
      apply (bez_enter chk L Hc A B (Z.abs A) (Z.abs B)); auto; try lia.
      + right. split; [|split; [|split]]; lia.
      + right. split; [|split; [|split]]; lia.
  Qed.
End Bez.

Theorem euclid_div_theorem n d : d <> 0 -> exists q r, euclid_div ideal n d = Some (q, r) /\
  n = q * d + r /\ 0 <= r < Z.abs d.
Proof. apply euclid_div_ideal. Qed.

Lemma euclid_div_width w n d : 1 <= w -> d <> 0 -> - 2 ^ (w-1) <= n < 2 ^ (w-1) -> - 2 ^ (w-1) <= d < 2 ^ (w-1) ->
  (n = - 2 ^ (w-1) /\ d = -1 -> euclid_div (width w) n d = None) /\
  (~ (n = - 2 ^ (w-1) /\ d = -1) -> euclid_div (width w) n d = euclid_div ideal n d).
Proof.
  intros Hw Hd Hn Hdd. set (M := 2 ^ (w-1)) in *. split.
  - intros [-> ->]. unfold euclid_div. cbn [Z.eqb]. replace (Z.quot (-M) (-1)) with M.
    + unfold width. fold M. destruct ((- M <=? M) && (M <=? M - 1)) eqn:E; [lia|reflexivity].
    + change (-1) with (- (1)). rewrite Z.quot_opp_opp by lia. now rewrite Z.quot_1_r.
  - intros Hne. unfold euclid_div, ideal, obind. destruct (Z.eqb_spec d 0); [contradiction|].
    pose proof (Z.quot_rem' n d) as E. pose proof (Z.rem_bound_abs n d Hd) as HB.
    set (q := Z.quot n d) in *. set (r := Z.rem n d) in *.
    assert (HQ : Z.abs d * Z.abs q + Z.abs r = Z.abs n).
    { subst q r. rewrite <- Z.rem_abs, <- Z.quot_abs by assumption. symmetry. apply Z.quot_rem'. }
    assert (Hs : 0 <= n * r) by (subst r; rewrite Z.mul_comm; apply Z.rem_sign_mul; assumption).
    assert (Hq : - M <= q <= M - 1) by (destruct (Z.eq_dec d (-1)); [subst d; lia|]; destruct (Z.eq_dec d 1); [subst d; lia|]; nia).
    assert (HW : forall z, - M <= z <= M - 1 -> width w z = Some z).
    { intros z Hz. unfold width. fold M. destruct ((- M <=? z) && (z <=? M - 1)) eqn:Ez; [reflexivity|lia]. }
    rewrite HW by assumption.
    destruct (Z.ltb_spec r 0); [destruct (Z.ltb_spec 0 d)|]; try reflexivity.
    + rewrite !HW; [reflexivity|nia|lia].
    + rewrite !HW; [reflexivity|nia|lia].
Qed.

Lemma divides_theorem d n : d <> 0 -> exists b, divides ideal d n = Some b /\ (b = true <-> (d | n)).
Proof.
  intros Hd. unfold divides. destruct (euclid_div_ideal n d Hd) as (q & r & -> & E & Hr). cbn [obind snd].
  eexists; split; [reflexivity|]. rewrite Z.eqb_eq. split.
  - intros ->. exists q. lia.
  - intros [k Hk]. destruct (ediv_unique d q r k 0) as [_ ->]; auto; lia.
Qed.
Lemma divides_zero n : divides ideal 0 n = None.
Proof. reflexivity. Qed.

Lemma gcd_theorem a b : gcd ideal a b = Some (Z.gcd a b).
Proof. apply (gcd_ok ideal (Z.abs a + Z.abs b)); [apply okc_ideal|lia|lia]. Qed.

Lemma bezout_theorem a b : exists x y, bezout_identity ideal a b = Some (Z.gcd a b, x, y) /\ a * x + b * y = Z.gcd a b.
Proof. apply (bezout_any ideal (2 * Z.abs a + 2 * Z.abs b + 1)); [apply okc_ideal| | |]; lia. Qed.

Lemma Good_width A B c1 : Good A B c1 A B -> Good A B (bezout_identity ideal A B) A B.
Proof. intros _. apply bezout_theorem. Qed.

(** is_prime is constantly true above 1 (and on negative numbers) *)
Lemma is_prime_always n : is_prime n = negb ((n =? 0) || (n =? 1)).
Proof.
  unfold is_prime. destruct ((n =? 0) || (n =? 1)) eqn:E; [reflexivity|]. cbn [negb].
  apply forallb_forall. intros x Hx. unfold zrange in Hx. apply in_map_iff in Hx as (k & <- & Hk).
  apply in_seq in Hk. apply negb_true_iff, Z.eqb_neq.
  assert (2 <= n) by lia. intro HQ. apply Z.quot_small_iff in HQ; lia.
Qed.
Lemma n_prime_factors_always fuel n : n_prime_factors fuel n = Some (if (n =? 0) || (n =? 1) then 0%nat else 1%nat).
Proof.
  unfold n_prime_factors. rewrite is_prime_always. destruct ((n =? 0) || (n =? 1)) eqn:E; cbn [negb]; [|reflexivity].
  assert (n = 0 \/ n = 1) as [->| ->] by lia; reflexivity.
Qed.

(** a successful checked computation equals the unbounded one *)
Definition sound (chk : Z -> option Z) : Prop := forall z z', chk z = Some z' -> z' = z.
Lemma width_sound w : sound (width w).
Proof. intros z z'. unfold width. destruct (_ && _); congruence. Qed.

Ltac ob H := match type of H with
  | obind ?e _ = Some _ => let E := fresh "E" in destruct e eqn:E; cbn [obind] in H; [|discriminate H] end.

Lemma euclid_div_sound chk n d v : sound chk -> euclid_div chk n d = Some v -> euclid_div ideal n d = Some v.
Proof.
  intros S H. unfold euclid_div in *. destruct (d =? 0); [discriminate|]. ob H. apply S in E. subst z.
  unfold ideal; cbn [obind]. destruct (Z.rem n d <? 0); [destruct (0 <? d)|]; auto.
  - ob H. ob H. apply S in E, E0. subst. exact H.
  - ob H. ob H. apply S in E, E0. subst. exact H.
Qed.
Lemma simplify_sound chk n v : sound chk -> simplify chk n = Some v -> simplify ideal n = Some v.
Proof. intros S H. unfold simplify in *. ob H. apply S in E. subst. exact H. Qed.

Lemma bezout_rec_sound chk : sound chk -> forall f a b x1 x2 y1 y2 v,
  bezout_rec chk f a b x1 x2 y1 y2 = Some v -> bezout_rec ideal f a b x1 x2 y1 y2 = Some v.
Proof.
  intros S. induction f as [|f IH]; intros a b x1 x2 y1 y2 v H; [discriminate|]. cbn [bezout_rec] in *.
  destruct (a =? 0).
  - ob H. ob H. ob H. apply (simplify_sound chk) in E; auto.
    rewrite E. cbn [obind]. apply (euclid_div_sound chk) in E0, E1; auto. rewrite E0. cbn [obind]. rewrite E1. exact H.
  - ob H. ob H. ob H. ob H. ob H. apply (euclid_div_sound chk) in E; auto. rewrite E. cbn [obind].
    apply S in E0, E1, E2, E3. subst. unfold ideal at 1 2 3 4. cbn [obind]. now apply IH.
Qed.

Lemma bezout_width_nonneg w a b : 2 <= w -> 0 <= a < 2 ^ (w-1) -> 0 <= b < 2 ^ (w-1) ->
  bezout_identity (width w) a b = bezout_identity ideal a b.
Proof.
  intros Hw Ha Hb.
  assert (HM : 2 ^ 1 <= 2 ^ (w-1)) by (apply Z.pow_le_mono_r; lia).
  destruct (bezout_nonneg (width w) (2 ^ (w-1) - 1) a b) as (x & y & E & _); try lia.
  { apply okc_width; lia. }
  rewrite E. symmetry. eapply bezout_rec_sound; [apply (width_sound w)|exact E].
Qed.
Lemma bezout_width_half w a b : 2 <= w -> Z.abs a < 2 ^ (w-2) -> Z.abs b < 2 ^ (w-2) ->
  bezout_identity (width w) a b = bezout_identity ideal a b.
Proof.
  intros Hw Ha Hb.
  assert (HM : 2 ^ (w-1) = 2 * 2 ^ (w-2)) by (rewrite <- Z.pow_succ_r by lia; f_equal; lia).
  assert (0 < 2 ^ (w-2)) by (apply Z.pow_pos_nonneg; lia).
  destruct (bezout_any (width w) (2 ^ (w-1) - 1) a b) as (x & y & E & _); try lia.
  { apply okc_width; lia. }
  rewrite E. symmetry. eapply bezout_rec_sound; [apply (width_sound w)|exact E].
Qed.
Lemma gcd_width w a b : 2 <= w -> Z.abs a < 2 ^ (w-1) -> Z.abs b < 2 ^ (w-1) -> gcd (width w) a b = Some (Z.gcd a b).
Proof. intros Hw Ha Hb. apply (gcd_ok (width w) (2 ^ (w-1) - 1)); [apply okc_width; lia|lia|lia]. Qed.
