(** One iteration as a perturbation; the loop. *)
From Coq Require Import List Arith Bool Lia ZifyBool Reals Lra.
From Verif Require Import PidModel MatModel MatSpec MatProofs MatProofs2 SnfModel SnfProofs2 RankModel LuModel LuSpec LuProofs2 LuProofs3 NumModel NumSpec NumProofs HouseProofs HessProofs FrancisModel FrancisSpec FrancisProofs QrProofs EigProofs TriModel TriSpec TriProofs WilkModel WilkSpec WilkProofs WilkProps SpectrumProps SymQrSpec SymQrProofs SymQrProofs2 SymQrProofs3.
Import ListNotations.
Open Scope R_scope.

Lemma drop_sym n f : symmetric_mat n f -> symmetric_mat n (dropped sq_tol f).
Proof.
  intros Y a b Ha Hb. unfold dropped. destruct (Nat.eqb_spec a (b + 1)) as [E|N]; [replace (b =? a + 1)%nat with false by lia; destruct (Rlt_dec _ _); [reflexivity|now apply Y]|]. destruct (Nat.eqb_spec b (a + 1)); [destruct (Rlt_dec _ _); [reflexivity|now apply Y]|now apply Y].
Qed.
Lemma drop_far n f a b : (b + 1 < a < n)%nat -> dropped sq_tol f a b = f a b.
Proof. intros H. unfold dropped. replace (a =? b + 1)%nat with false by lia. now replace (b =? a + 1)%nat with false by lia. Qed.
Lemma drop_diag f a : dropped sq_tol f a a = f a a.
Proof. unfold dropped. now replace (a =? a + 1)%nat with false by lia. Qed.
Lemma drop_beside f a : Rabs (f (a + 1)%nat a) < sq_tol /\ dropped sq_tol f (a + 1)%nat a = 0 \/ sq_tol <= Rabs (f (a + 1)%nat a) /\ dropped sq_tol f (a + 1)%nat a = f (a + 1)%nat a.
Proof. unfold dropped. rewrite Nat.eqb_refl. destruct (Rlt_dec (Rabs (f (a + 1)%nat a)) sq_tol); [left|right]; split; auto. lra. Qed.
(** The state of the loop. *)
Definition sq_state (n : nat) (t : R) (f : nat -> nat -> R) : Prop := symmetric_mat n f /\ hepta n f /\ far3 n t f /\ small2 n 0 f.
Lemma drop_state n t f : sq_state n t f -> sq_state n t (dropped sq_tol f).
Proof.
  intros (Y & HE & FA & SM). split; [now apply drop_sym|]. split; [|split].
  - intros a b Hab. rewrite (drop_far n) by lia. now apply HE.
  - intros b Hb. rewrite (drop_far n) by lia. now apply FA.
  - intros b Hb N1 N2. rewrite (drop_far n) by lia. now apply SM.
Qed.
Lemma drop_pert n f : (1 <= n)%nat -> symmetric_mat n f -> perturbed n f (2 * INR n * sq_tol) (dropped sq_tol f).
Proof.
  intros Hn Y. pose proof sq_tol_pos as TP. set (l := flat_map (fun i => [((i + 1)%nat, i); (i, (i + 1)%nat)]) (seq 0 n)).
  assert (INR (length l) = 2 * INR n) as LN.
  { unfold l. clear. assert (forall m s, INR (length (flat_map (fun i => [((i + 1)%nat, i); (i, (i + 1)%nat)]) (seq s m))) = 2 * INR m) as K; [|apply K].
    induction m as [|m IH]; intros s; [cbn; ring|]. cbn [seq flat_map app length]. rewrite !S_INR. rewrite IH. ring. }
  assert (forall i, (i < n)%nat -> In ((i + 1)%nat, i) l /\ In (i, (i + 1)%nat) l) as IL.
  { intros i Hi. split; apply in_flat_map; exists i; (split; [apply in_seq; lia|cbn; auto]). }
  replace (2 * INR n * sq_tol) with (sq_tol * INR (length l)) by (rewrite LN; ring). apply pert_spots; [lra|intros a b Ha Hb; now rewrite (Y a b), (drop_sym n f Y a b)|].
  intros a b Ha Hb. unfold dropped. destruct (Nat.eqb_spec a (b + 1)) as [->|N].
  - destruct (Rlt_dec _ _) as [L|L]; [right|now left]. split; [now apply IL|]. unfold Rminus. rewrite Rplus_0_l, Rabs_Ropp. lra.
  - destruct (Nat.eqb_spec b (a + 1)) as [->|N']; [|now left]. destruct (Rlt_dec _ _) as [L|L]; [right|now left]. split; [now apply IL|]. unfold Rminus. rewrite Rplus_0_l, Rabs_Ropp. rewrite (Y a (a + 1)%nat) by lia. lra.
Qed.
(** The places that couple the window to the rest. *)
Definition border (p e : nat) : list (nat * nat) :=
  [(p, (p - 1)%nat); (p, (p - 2)%nat); (p, (p - 3)%nat); ((p + 1)%nat, (p - 1)%nat); ((p + 1)%nat, (p - 2)%nat); ((p + 2)%nat, (p - 1)%nat);
   (e, (e - 1)%nat); (e, (e - 2)%nat); (e, (e - 3)%nat); ((e + 1)%nat, (e - 1)%nat); ((e + 1)%nat, (e - 2)%nat); ((e + 2)%nat, (e - 1)%nat)].
Definition borders (p e : nat) : list (nat * nat) := border p e ++ map (fun x => (snd x, fst x)) (border p e).
Lemma in_borders p e a b : In (a, b) (border p e) -> In (a, b) (borders p e) /\ In (b, a) (borders p e).
Proof. intros H. unfold borders. split; apply in_or_app; [now left|right]. apply in_map_iff. exists (a, b). auto. Qed.
Lemma in_border p e a b : (0 < p)%nat -> (p <= a)%nat -> (b < p)%nat -> (a <= b + 3)%nat -> In (a, b) (border p e).
Proof.
  intros Hp Ha Hb H. assert (exists x y, (x + y <= 2 /\ a = p + x /\ b = p - 1 - y)%nat) as (x & y & L & -> & ->) by (exists (a - p)%nat, (p - 1 - b)%nat; lia).
  destruct x as [|[|[|x]]]; try lia; destruct y as [|[|[|y]]]; try lia; unfold border; rewrite ?Nat.add_0_r, ?Nat.sub_0_r; cbn [In]; rewrite <- ?Nat.sub_add_distr; cbn [Nat.add]; tauto.
Qed.
Lemma in_border2 p e a b : (e <= a)%nat -> (b < e)%nat -> (a <= b + 3)%nat -> In (a, b) (border p e).
Proof.
  intros Ha Hb H. assert (exists x y, (x + y <= 2 /\ a = e + x /\ b = e - 1 - y)%nat) as (x & y & L & -> & ->) by (exists (a - e)%nat, (e - 1 - b)%nat; lia).
  destruct x as [|[|[|x]]]; try lia; destruct y as [|[|[|y]]]; try lia; unfold border; rewrite ?Nat.add_0_r, ?Nat.sub_0_r; cbn [In]; rewrite <- ?Nat.sub_add_distr; cbn [Nat.add]; tauto.
Qed.
Definition uncoupled (p e : nat) (c : nat -> nat -> R) (a b : nat) : R := if Bool.eqb (inr p e a) (inr p e b) then c a b else 0.
Lemma uncouple_pert n t p e c g : 0 <= t -> sq_state n t c -> active n sq_tol c p e -> (forall a b, inr p e a <> inr p e b -> g a b = c a b) -> symmetric_mat n g ->
  perturbed n g (24 * (sq_tol + t)) (uncoupled p e g) /\ perturbed n (uncoupled p e g) (24 * (sq_tol + t)) g.
Proof.
  intros T0 (Y & HE & FA & SM) (He & IN & L1 & L2 & UP & DOWN) EG YG. pose proof sq_tol_pos as TP. pose proof g_tol_pos as GP. assert (g_tol < sq_tol) as GS by (unfold g_tol, sq_tol; lra).
  assert (24 * (sq_tol + t) = (sq_tol + t) * INR (length (borders p e))) as LN by (change (length (borders p e)) with 24%nat; cbn; ring).
  assert (symmetric_mat n (uncoupled p e g)) as YU.
  { intros a b Ha Hb. unfold uncoupled. destruct (inr p e a), (inr p e b); cbn [Bool.eqb]; try reflexivity; now apply YG. }
  assert ((e < n)%nat -> Rabs (c e (e - 1)%nat) <= sq_tol) as LE.
  { intros H. specialize (DOWN (e - 2)%nat ltac:(lia) ltac:(lia)). replace (e - 2 + 1)%nat with (e - 1)%nat in DOWN by lia. replace (e - 2 + 2)%nat with e in DOWN by lia. destruct DOWN; lra. }
  assert (forall a b, (b < a < n)%nat -> inr p e a <> inr p e b -> g a b = 0 \/ (In (a, b) (borders p e) /\ In (b, a) (borders p e)) /\ Rabs (g a b) <= sq_tol + t) as BO.
  { intros a b Hab N. rewrite EG by exact N. destruct (Nat.le_gt_cases a (b + 3)) as [K|K]; [right|left; apply HE; lia]. split.
    - apply in_borders. unfold inr in N. destruct (Nat.le_gt_cases e a) as [Q|Q]; [apply in_border2; lia|apply in_border; lia].
    - destruct (Nat.eq_dec a (b + 3)) as [->|N3]; [specialize (FA b ltac:(lia)); lra|]. destruct (Nat.eq_dec a (b + 2)) as [->|N2]; [specialize (SM b ltac:(lia) ltac:(lia) ltac:(lia)); lra|]. assert (a = b + 1)%nat as -> by lia.
      assert (b + 1 = p \/ b + 1 = e)%nat as [Q|Q] by (unfold inr in N; lia).
      + specialize (UP ltac:(lia)). replace (p - 1)%nat with b in UP by lia. rewrite Q. lra.
      + specialize (LE ltac:(lia)). replace (e - 1)%nat with b in LE by lia. rewrite Q. lra. }
  assert (forall a b, (a < n)%nat -> (b < n)%nat -> uncoupled p e g a b = g a b \/ In (a, b) (borders p e) /\ uncoupled p e g a b = 0 /\ Rabs (g a b) <= sq_tol + t) as BU.
  { intros a b Ha Hb. unfold uncoupled. destruct (Bool.eqb (inr p e a) (inr p e b)) eqn:EI; [now left|]. assert (inr p e a <> inr p e b) as N by (intros K; rewrite K, Bool.eqb_reflx in EI; discriminate).
    destruct (Nat.lt_trichotomy b a) as [Q|[Q|Q]]; [|congruence|].
    - destruct (BO a b ltac:(lia) N) as [-> |((I1 & I2) & L)]; [now left|]. right. auto.
    - rewrite (YG a b) by assumption. destruct (BO b a ltac:(lia) ltac:(congruence)) as [-> |((I1 & I2) & L)]; [now left|]. right. auto. }
  rewrite LN. split.
  - apply pert_spots; [lra|intros a b Ha Hb; now rewrite (YU a b), (YG a b)|]. intros a b Ha Hb. destruct (BU a b Ha Hb) as [K|(I & K & L)]; [now left|right]. split; [exact I|]. rewrite K. unfold Rminus. now rewrite Rplus_0_l, Rabs_Ropp.
  - apply pert_spots; [lra|intros a b Ha Hb; now rewrite (YU a b), (YG a b)|]. intros a b Ha Hb. destruct (BU a b Ha Hb) as [K|(I & K & L)]; [now left|right]. split; [exact I|]. rewrite K. now rewrite Rminus_0_r.
Qed.
Definition sq_cost (n : nat) (t : R) : R := 2 * INR n * sq_tol + (24 * (sq_tol + t) + (48 * (t + 2 * g_tol) * INR n + 24 * (sq_tol + t))).
(** The body of the loop. *)
Lemma sq_body_mk n t f op : (2 <= n)%nat -> 0 <= t -> sq_state n t f ->
  (small_blocks n sq_tol (dropped sq_tol f) /\ forall b, sq_body b n (mk n n f) op = Some (mk n n (dropped sq_tol f), op, n)) \/
  exists p e g q o, q = (n - e)%nat /\ (q < n)%nat /\ active n sq_tol (dropped sq_tol f) p e /\ sq_iteration n sq_tol f g /\ sq_state n (t + g_tol) g /\ trace n g = trace n f /\ perturbed n f (sq_cost n t) g /\
    sq_body false n (mk n n f) op = Some (mk n n g, op, q) /\ sq_body true n (mk n n f) op = (do op' <- sq_apply (mk (e - p - 1) 2 o) op; Some (mk n n g, op', q)) /\
    wilkinson_step (mk (e - p) (e - p) (block_at p (dropped sq_tol f))) true = Some (mk (e - p) (e - p) (block_at p g), mk (e - p - 1) 2 o).
Proof.
  intros Hn T0 ST. set (c := dropped sq_tol f). pose proof (drop_state n t f ST) as SC. fold c in SC. pose proof sq_tol_pos as TP. pose proof g_tol_pos as GP. destruct (sq_search n c Hn) as (q & p & EQ & EP & [(-> & SB)|(Hq & AC)]).
  - left. split; [exact SB|]. intros b. unfold sq_body. rewrite sq_chop_mk. cbn [obind]. fold c. rewrite EQ. cbn [obind]. rewrite EP. cbn [obind]. now rewrite Nat.ltb_irrefl.
  - right. pose proof AC as AC'. destruct AC as (He & IN & L1 & L2 & UP & DOWN). set (e := (n - q)%nat) in *. set (d := (e - p)%nat). destruct SC as (YC & HC & FC & SMC). set (W := block_at p c).
    assert (symmetric_mat d W) as YW by (intros a b Ha Hb; apply YC; lia). assert (hepta d W) as HW by (intros a b Hab; apply HC; lia).
    assert (far3 d t W) as FW by (intros b Hb; unfold W, block_at; rewrite Nat.add_assoc; apply FC; lia). assert (small2 d 0 W) as SW by (intros b Hb _ _; unfold W, block_at; rewrite Nat.add_assoc; apply SMC; lia).
    assert (~ (W (d - 2)%nat (d - 2)%nat = W (d - 1)%nat (d - 1)%nat /\ W (d - 1)%nat (d - 2)%nat = 0)) as ND.
    { intros (_ & K). unfold W, block_at in K. replace (p + (d - 1))%nat with (e - 1)%nat in K by lia. replace (p + (d - 2))%nat with (e - 2)%nat in K by lia. rewrite K, Rabs_R0 in L1. lra. }
    destruct (step_any d t W ltac:(lia) T0 YW HW FW SW ND) as (h & o & ES & YH & HH & FH & SH & PT & TR).
    assert (exists Z, wilkinson_step (mk d d W) false = Some (mk d d h, Z)) as (Z & ES0) by (destruct (C88_without_op (mk d d W) _ _ ltac:(rewrite nr_mk; lia) ES) as (Z & K & _); now exists Z).
    set (G := embed p e h c). assert (forall i j, (i < d)%nat -> (j < d)%nat -> block_at p G i j = h i j) as BG.
    { intros i j Hi Hj. unfold block_at, G, embed, inr. replace ((p <=? p + i) && (p + i <? e) && ((p <=? p + j) && (p + j <? e)))%nat with true by lia. f_equal; lia. }
    assert (forall a b, inr p e a && inr p e b = false -> G a b = c a b) as GO by (intros a b K; unfold G, embed; now rewrite K).
    assert (forall a b, inr p e a && inr p e b = true -> G a b = h (a - p)%nat (b - p)%nat) as GI by (intros a b K; unfold G, embed; now rewrite K).
    assert (symmetric_mat n G) as YG.
    { intros a b Ha Hb. unfold G, embed. rewrite (andb_comm (inr p e b)). destruct (inr p e a && inr p e b) eqn:K; [|now apply YC]. unfold inr in K. apply YH; lia. }
    assert (sq_state n (t + g_tol) G) as SG.
    { split; [exact YG|]. split; [|split].
      - intros a b Hab. destruct (inr p e a && inr p e b) eqn:K; [rewrite GI by exact K; unfold inr in K; apply HH; lia|rewrite GO by exact K; now apply HC].
      - intros b Hb. destruct (inr p e (b + 3) && inr p e b) eqn:K; [rewrite GI by exact K; unfold inr in K; replace (b + 3 - p)%nat with (b - p + 3)%nat by lia; apply FH; lia|rewrite GO by exact K; specialize (FC b Hb); lra].
      - intros b Hb N1 N2. destruct (inr p e (b + 2) && inr p e b) eqn:K; [rewrite GI by exact K; unfold inr in K; replace (b + 2 - p)%nat with (b - p + 2)%nat by lia; apply SH; lia|rewrite GO by exact K; now apply SMC]. }
    assert (same d d (block_at p G) h) as BG' by (intros i j Hi Hj; now apply BG).
    assert (mk d d (block_at p G) = mk d d h) as EBG by (apply mk_ext; exact BG').
    exists p, e, G, q, o. split; [lia|]. split; [exact Hq|]. split; [exact AC'|]. split; [|split; [exact SG|split; [|split; [|split; [|split]]]]].
    + exists p, e. split; [exact AC'|]. split.
      * intros i j Hi Hj N. apply GO. unfold inr. lia.
      * fold c d W. intros TW. destruct (wilkinson_mk d W ltac:(lia) YW TW ND) as (g1 & cs & m & E1 & _ & N1 & C1 & _ & T1 & CO & G0). rewrite ES in E1. assert (mk d d h = mk d d g1) as E1' by congruence. clear E1. rename E1' into E1.
        assert (same d d h g1) as EH by (intros a b Ha Hb; rewrite <- (ent_mk d d h a b Ha Hb), <- (ent_mk d d g1 a b Ha Hb); now rewrite E1).
        assert (sq_tol <= Rabs (W 1%nat 0%nat)) as LW by (unfold W, block_at; replace (p + 1)%nat with (p + 0 + 1)%nat by lia; apply IN; lia).
        destruct (givens_some (W 0%nat 0%nat - m) (W 1%nat 0%nat)) as (cc & ss & E2 & NC & _ & RT). rewrite G0 in E2. injection E2 as E2a E2b.
        assert (ss * (W 0%nat 0%nat - m) + cc * W 1%nat 0%nat = 0) as RT' by (apply RT; unfold g_tol, sq_tol in *; lra). clear RT. rename RT' into RT. set (x := W 0%nat 0%nat - m) in *. set (z := W 1%nat 0%nat) in *.
        exists cs, m, (cc * x - ss * z). split; [exact N1|]. split; [eapply congr_ext; [| |exact C1]; [intros a b _ _; reflexivity|]; intros a b Ha Hb; rewrite BG by assumption; symmetry; now apply EH|]. split; [exact CO|]. split.
        -- intros i Hi. rewrite rotations_first by lia. rewrite E2a, E2b. unfold plane, id_entry. destruct i as [|[|i]].
           ++ cbn. replace (W 0%nat 0%nat - m * 1) with x by (unfold x; ring). replace ((cc * x - ss * z) * cc) with (x * (cc * cc + ss * ss) - ss * (ss * x + cc * z)) by ring. rewrite NC, RT. ring.
           ++ cbn. fold z. replace ((cc * x - ss * z) * - ss) with (z * (cc * cc + ss * ss) - cc * (ss * x + cc * z)) by ring. rewrite NC, RT. ring.
           ++ cbn. rewrite TW by lia. unfold tridiagonal. replace ((S (S i) <=? 0 + 1) && (0 <=? S (S i) + 1))%nat with false by lia. ring.
        -- intros NS. specialize (T1 NS). intros a b Ha Hb. unfold tridiagonal. rewrite BG by assumption. rewrite EH by assumption. now apply T1.
    + transitivity (trace n c); [|unfold trace; apply rsum_ext; intros i Hi; unfold c; apply drop_diag].
      rewrite !(trace_split n p) by lia. f_equal; [apply rsum_ext; intros i Hi; apply GO; unfold inr; lia|]. rewrite !(trace_split (n - p) d) by lia. f_equal.
      * transitivity (trace d h); [apply rsum_ext; intros i Hi; now apply BG|]. rewrite TR. reflexivity.
      * apply rsum_ext. intros i Hi. unfold window. apply GO. unfold inr. lia.
    + unfold sq_cost. apply (pert_trans n f c); [apply drop_pert; [lia|apply ST]|]. destruct (uncouple_pert n t p e c c T0 (drop_state n t f ST) AC' (fun a b _ => eq_refl) YC) as (U1 & _). destruct (uncouple_pert n t p e c G T0 (drop_state n t f ST) AC') as (_ & U2); [|exact YG|].
      { intros a b N. apply GO. destruct (inr p e a), (inr p e b); try reflexivity. congruence. }
      apply (pert_trans n c (uncoupled p e c)); [exact U1|]. apply (pert_trans n _ (uncoupled p e G)); [|exact U2].
      assert (perturbed n (uncoupled p e c) (48 * (t + 2 * g_tol) * INR n) (embed p e h (uncoupled p e c))) as PB.
      { apply pert_block; [lia| |].
        - intros a b Ha Hb N. unfold uncoupled. destruct (inr p e a), (inr p e b); cbn [Bool.eqb]; try reflexivity; congruence.
        - eapply pert_ext; [|intros a b _ _; reflexivity|eapply pert_le; [|exact PT]].
          + intros a b Ha Hb. fold d in Ha, Hb. unfold W, block_at, uncoupled, inr. replace ((p <=? p + a) && (p + a <? e))%nat with true by lia. now replace ((p <=? p + b) && (p + b <? e))%nat with true by lia.
          + apply Rmult_le_compat_l; [lra|]. apply le_INR. lia. }
      eapply pert_ext; [intros a b _ _; reflexivity| |exact PB]. intros a b Ha Hb. unfold embed, uncoupled, G, embed. destruct (inr p e a), (inr p e b); reflexivity.
    + unfold sq_body. rewrite sq_chop_mk. cbn [obind]. fold c. rewrite EQ. cbn [obind]. rewrite EP. cbn [obind]. replace (q <? n)%nat with true by lia. fold e. replace (2 <? e - p)%nat with true by lia.
      rewrite msub_view_mk by lia. cbn [obind]. fold d. change (mk d d (fun i j : nat => c (p + i)%nat (p + j)%nat)) with (mk d d W). rewrite ES0. cbn [obind fst snd]. unfold d. rewrite mwrite_mk by lia. cbn [obind]. do 3 f_equal. apply mk_ext. intros a b Ha Hb. unfold G, embed, inr. now rewrite !andb_assoc.
    + unfold sq_body. rewrite sq_chop_mk. cbn [obind]. fold c. rewrite EQ. cbn [obind]. rewrite EP. cbn [obind]. replace (q <? n)%nat with true by lia. fold e. replace (2 <? e - p)%nat with true by lia.
      rewrite msub_view_mk by lia. cbn [obind]. fold d. change (mk d d (fun i j : nat => c (p + i)%nat (p + j)%nat)) with (mk d d W). rewrite ES. cbn [obind fst snd]. unfold d at 1 2. rewrite mwrite_mk by lia. cbn [obind].
      replace (mk n n (fun i j : nat => if ((p <=? i) && (i <? e) && (p <=? j) && (j <? e))%nat then h (i - p)%nat (j - p)%nat else c i j)) with (mk n n G); [reflexivity|]. apply mk_ext. intros a b Ha Hb. unfold G, embed, inr. now rewrite !andb_assoc.
    + fold d W. rewrite EBG. exact ES.
Qed.
