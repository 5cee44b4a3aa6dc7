(** A matrix on which the loop runs for ever. *)
From Coq Require Import List Arith Bool Lia ZifyBool Reals Lra.
From Verif Require Import PidModel MatModel MatSpec MatProofs MatProofs2 SnfModel SnfProofs2 RankModel LuModel LuSpec LuProofs2 LuProofs3 NumModel NumSpec NumProofs HouseProofs HessProofs FrancisModel FrancisSpec FrancisProofs QrProofs EigProofs TriModel TriSpec TriProofs TriProps WilkModel WilkSpec WilkProofs WilkProps SpectrumProps SymQrSpec SymQrProofs SymQrProofs2 SymQrProofs3 SymQrProofs4 SymQrProofs5.
Import ListNotations.
Open Scope R_scope.

Definition sym3 (a b c d e f : R) : nat -> nat -> R := fun i j => match i, j with 0, 0 => a | 0, 1 | 1, 0 => b | 0, 2 | 2, 0 => c | 1, 1 => d | 1, 2 | 2, 1 => e | 2, 2 => f | _, _ => 0%R end%nat.
Lemma sym3_sym a b c d e f : symmetric_mat 3 (sym3 a b c d e f).
Proof. intros i j Hi Hj. destruct i as [|[|[|i]]]; try lia; destruct j as [|[|[|j]]]; try lia; reflexivity. Qed.
(** One iteration on a matrix of order three. *)
Lemma body3 f g o op : symmetric_mat 3 f -> sq_tol < Rabs (f 1%nat 0%nat) -> sq_tol < Rabs (f 2%nat 1%nat) -> Rabs (f 2%nat 0%nat) < g_tol -> wilkinson_step (mk 3 3 f) true = Some (mk 3 3 g, o) ->
  sq_body false 3 (mk 3 3 f) op = Some (mk 3 3 g, op, 0%nat).
Proof.
  intros Y L1 L2 L3 E. assert (sq_state 3 0 f) as ST.
  { split; [exact Y|]. split; [intros a b H; lia|]. split; [intros b H; lia|]. intros b Hb _ _. replace b with 0%nat by lia. exact L3. }
  assert (same 3 3 (dropped sq_tol f) f) as ED.
  { intros a b Ha Hb. unfold dropped. destruct (Nat.eqb_spec a (b + 1)) as [->|N].
    - destruct (Rlt_dec _ _) as [L|L]; [exfalso|reflexivity]. destruct b as [|[|b]]; try lia; cbn in L; lra.
    - destruct (Nat.eqb_spec b (a + 1)) as [->|N']; [|reflexivity]. destruct (Rlt_dec _ _) as [L|L]; [exfalso|reflexivity]. destruct a as [|[|a]]; try lia; cbn in L; lra. }
  destruct (sq_body_mk 3 0 f op ltac:(lia) ltac:(lra) ST) as [(SB & _)|(p & e & h & q & o' & EQ & Hq & AC & _ & _ & _ & _ & EB & _ & EW)].
  - exfalso. specialize (SB 0%nat ltac:(lia)). cbn [Nat.add] in SB. rewrite !ED in SB by lia. lra.
  - destruct AC as (He & _). assert (p = 0)%nat as -> by lia. assert (e = 3)%nat as -> by lia. cbn [Nat.sub] in *. subst q. rewrite EB. do 3 f_equal.
    replace (mk 3 3 (block_at 0 (dropped sq_tol f))) with (mk 3 3 f) in EW by (apply mk_ext; intros a b Ha Hb; symmetry; now apply ED). rewrite E in EW. assert (mk 3 3 g = mk 3 3 (block_at 0 h)) as K by congruence. rewrite K. now apply mk_ext.
Qed.
Lemma shift_low a b e m : a < m -> a < e -> (a + e) / 2 <= m -> (a - m) * (e - m) = b * b -> shift_of a b e = m.
Proof.
  intros H1 H2 H3 H4. unfold shift_of. destruct (Rle_dec 0 ((a - e) / 2)) as [K|K]; [lra|]. replace ((a - e) / 2 * ((a - e) / 2) + b * b) with ((m - (a + e) / 2) * (m - (a + e) / 2)) by (rewrite <- H4; field).
  rewrite sqrt_square by lra. replace ((a - e) / 2 + -1 * (m - (a + e) / 2)) with (a - m) by field. rewrite <- H4. field. lra.
Qed.
(** A step whose first rotation is by the angle with tangent [-u] and whose second rotation is skipped. *)
Lemma step3 f m u : let c := / sqrt (1 + u * u) in let s := u * c in let g := rot_r 0 c s (rot_l 0 c s f) in
  symmetric_mat 3 f -> ~ (f 1%nat 1%nat = f 2%nat 2%nat /\ f 2%nat 1%nat = 0) -> shift_of (f 1%nat 1%nat) (f 2%nat 1%nat) (f 2%nat 2%nat) = m -> / 1000000000000 <= Rabs (f 1%nat 0%nat) <= Rabs (f 0%nat 0%nat - m) -> - f 1%nat 0%nat / (f 0%nat 0%nat - m) = u ->
  Rabs (g 2%nat 0%nat) < / 1000000000000 -> exists o, wilkinson_step (mk 3 3 f) true = Some (mk 3 3 g, o).
Proof.
  intros c s g Y N M B U GS. destruct (wilkinson_shift_mk 3 f ltac:(lia)) as (WS & _). specialize (WS N). cbn [Nat.sub] in WS. rewrite M in WS.
  assert (givens_rotation (f 0%nat 0%nat - m) (f 1%nat 0%nat) = Some (c, s)) as EG.
  { unfold givens_rotation. destruct (rltb_spec (Rabs (f 1%nat 0%nat)) (/ 1000000000000)); [lra|]. destruct (rltb_spec (Rabs (f 0%nat 0%nat - m)) (Rabs (f 1%nat 0%nat))); [lra|].
    assert (f 0%nat 0%nat - m <> 0) as NA by (intros K; rewrite K, Rabs_R0 in B; assert (0 < / 1000000000000) by lra; lra). rewrite (fdiv_some field_ok_R) by exact NA. cbn [obind]. change (tdiv (- f 1%nat 0%nat) (f 0%nat 0%nat - m)) with (- f 1%nat 0%nat / (f 0%nat 0%nat - m)). rewrite U.
    assert (sqrt (1 + u * u) <> 0) as NS by (assert (0 < sqrt (1 + u * u)) by (apply sqrt_lt_R0; nra); lra). rewrite (fdiv_some field_ok_R) by exact NS. cbn [obind]. change (tdiv 1 (sqrt (1 + u * u))) with (1 / sqrt (1 + u * u)). unfold s, c. do 2 f_equal; field; exact NS. }
  unfold wilkinson_step. rewrite nr_mk, WS. cbn [obind]. rewrite !mget_in by lia. cbn [obind]. rewrite mzero_mk by lia. cbn [obind]. change (rng 0 (3 - 1)) with [0%nat; 1%nat]. cbn [foldM]. unfold wk_step at 1. cbn [wk_x wk_z wk_m wk_op]. rewrite EG. cbn [obind fst snd].
  rewrite (rotate_mk 3 0 c s f); [|lia|exact Y|intros j Hj Q; unfold w_start, w_fin in Q; cbn in Q; lia]. fold g. cbn [obind]. change (0 <? 3 - 2)%nat with true. cbn [Nat.add]. rewrite !mget_in by lia. cbn [obind fst snd]. rewrite mset_mk by lia. cbn [obind]. rewrite mset_mk by lia. cbn [obind].
  unfold wk_step. cbn [wk_x wk_z wk_m wk_op]. destruct (givens_some (g 1%nat 0%nat) (g 2%nat 0%nat)) as (c' & s' & EG' & _ & SK & _). destruct (SK GS) as (-> & ->). rewrite EG'. cbn [obind fst snd]. rewrite rotate_none by lia. cbn [obind]. change (1 <? 3 - 2)%nat with false. cbn [obind]. rewrite mset_mk by lia. cbn [obind]. rewrite mset_mk by lia. cbn [obind wk_m wk_op]. eexists. reflexivity.
Qed.
Lemma rot_back f c s a b : c * c + s * s = 1 -> rot_r 0 c (- s) (rot_l 0 c (- s) (rot_r 0 c s (rot_l 0 c s f))) a b = f a b.
Proof.
  intros H. assert (c * c = 1 - s * s) as K by lra. destruct a as [|[|a]]; destruct b as [|[|b]]; unfold rot_r, rot_l; cbn [Nat.eqb Nat.add]; ring [K].
Qed.
Lemma rot_ext n f g c s : (2 <= n)%nat -> same n n f g -> same n n (rot_r 0 c s (rot_l 0 c s f)) (rot_r 0 c s (rot_l 0 c s g)).
Proof. intros Hn E i j Hi Hj. unfold rot_r, rot_l. destruct (Nat.eqb_spec j 0), (Nat.eqb_spec j (0 + 1)), (Nat.eqb_spec i 0), (Nat.eqb_spec i (0 + 1)); rewrite ?E by lia; reflexivity. Qed.
(** The two matrices of the cycle. *)
Section Cycle.
  Variables t d b e : R.
  Let c := / sqrt (1 + t * t).
  Let q := c * c * (t * t).
  Hypothesis T : t = 2 / 10000000000.
  Hypothesis D : - (1 / 1000) <= d <= 0.
  Hypothesis B : 1 / 10000 <= b <= 3 / 1000.
  Hypothesis Ee : - (1 / 1000) <= e <= 0.
  Hypothesis Q1 : (d - 1) * e = b * b.
  Hypothesis Q2 : (- 1 - q * d) * (e - d) = (1 - q) * (b * b).
  Lemma cyc_c : c * c = 1 - c * c * (t * t) /\ 0 < c.
  Proof.
    assert (0 < 1 + t * t) as P by nra. pose proof (sqrt_lt_R0 _ P) as SP. split; [|now apply Rinv_0_lt_compat]. assert (c * c * (1 + t * t) = 1) as K; [|lra]. unfold c. rewrite <- (sqrt_sqrt (1 + t * t)) at 3 by lra. field. lra.
  Qed.
  Definition cyc0 := sym3 1 t 0 (d - 1) b e.
  Definition cyc1 := sym3 (1 + c * c * (t * t) * d) (- t * (1 - c * c * d)) (t * c * b) (c * c * d - 1) (c * b) e.
  Lemma cyc_q : 0 <= q <= 1 / 1000 /\ 0 < c <= 1 /\ 999 / 1000 <= c.
  Proof. destruct cyc_c as (C1 & C2). fold q in C1. assert (0 <= t * t <= 1 / 1000000) as TT by (rewrite T; lra). assert (0 <= c * c) by nra. assert (c * c <= 1) by (unfold q in C1; nra). assert (0 <= q <= 1 / 1000000) as QQ by (unfold q; nra). split; [lra|]. split; [split; [lra|nra]|nra]. Qed.
  Lemma rot01 : same 3 3 (rot_r 0 c (- t * c) (rot_l 0 c (- t * c) cyc0)) cyc1.
  Proof.
    destruct cyc_c as (C1 & _). assert (c * c * (t * t) = 1 - c * c) as C2 by lra. intros i j Hi Hj. destruct i as [|[|[|i]]]; try lia; destruct j as [|[|[|j]]]; try lia; unfold rot_r, rot_l; cbn; ring [C2].
  Qed.
  Lemma rot10 : same 3 3 (rot_r 0 c (t * c) (rot_l 0 c (t * c) cyc1)) cyc0.
  Proof.
    intros i j Hi Hj. rewrite <- (rot_ext 3 _ _ c (t * c) ltac:(lia) rot01) by assumption. replace (t * c) with (- (- t * c)) by ring. apply rot_back. destruct cyc_c as (C1 & _). rewrite C1 at 1. ring.
  Qed.
  Lemma cyc01 op : sq_body false 3 (mk 3 3 cyc0) op = Some (mk 3 3 cyc1, op, 0%nat).
  Proof.
    destruct cyc_q as (QB & CB & CB'). assert (same 3 3 (rot_r 0 c (- t * c) (rot_l 0 c (- t * c) cyc0)) cyc1) as EC by exact rot01. replace (mk 3 3 cyc1) with (mk 3 3 (rot_r 0 c (- t * c) (rot_l 0 c (- t * c) cyc0))) by (apply mk_ext; exact EC).
    assert (0 < t) as TP by lra. assert (Rabs t = t) as AT by (apply Rabs_right; lra).
    destruct (step3 cyc0 0 (- t)) as (o & E).
    - apply sym3_sym.
    - cbn. intros (_ & K). lra.
    - cbn. apply shift_low; [lra|lra|lra|lra].
    - cbn. rewrite Rminus_0_r, Rabs_R1, AT. lra.
    - cbn. field.
    - replace (- t * - t) with (t * t) by ring. fold c. rewrite EC by lia. cbn. rewrite Rabs_right by (assert (0 <= t * c * b) by (apply Rmult_le_pos; [apply Rmult_le_pos|]; lra); lra). assert (t * c <= t) by nra. assert (0 <= t * c) by nra. nra.
    - replace (- t * - t) with (t * t) in E by ring. fold c in E. apply (body3 _ _ o); [apply sym3_sym| | | |exact E]; cbn.
      + rewrite AT. unfold sq_tol. lra.
      + rewrite Rabs_right by lra. unfold sq_tol. lra.
      + rewrite Rabs_R0. apply g_tol_pos.
  Qed.
  Lemma cyc10 op : sq_body false 3 (mk 3 3 cyc1) op = Some (mk 3 3 cyc0, op, 0%nat).
  Proof.
    destruct cyc_q as (QB & CB & CB'). pose proof rot10 as EC. replace (mk 3 3 cyc0) with (mk 3 3 (rot_r 0 c (t * c) (rot_l 0 c (t * c) cyc1))) by (apply mk_ext; exact EC). destruct cyc_c as (C1 & _). fold q in C1.
    assert (0 < t) as TP by lra. assert (- (1 / 1000) <= c * c * d <= 0) as CD by (assert (0 <= c * c <= 1) by nra; nra). assert (- (1 / 1000) <= q * d <= 0) as QD by nra.
    assert (0 <= t * c * b < / 1000000000000) as TB by (assert (t * c <= t) by nra; assert (0 <= t * c) by nra; nra). assert (1 / 100000 <= c * b) as CBB by nra.
    destruct (step3 cyc1 d t) as (o & E).
    - apply sym3_sym.
    - cbn. intros (_ & K). lra.
    - cbn. apply shift_low; [lra|lra|lra|]. rewrite C1 at 1. transitivity ((-1 - q * d) * (e - d)); [ring|]. rewrite Q2. rewrite <- C1. ring.
    - cbn. fold q. rewrite Rabs_mult, Rabs_Ropp. rewrite (Rabs_right t), (Rabs_right (1 - c * c * d)), (Rabs_right (1 + q * d - d)) by lra. rewrite C1. split; nra.
    - cbn. fold q. rewrite C1. field. lra.
    - fold c. rewrite EC by lia. cbn. rewrite Rabs_R0. lra.
    - fold c in E. apply (body3 _ _ o); [apply sym3_sym| | | |exact E]; cbn.
      + rewrite Rabs_mult, Rabs_Ropp. rewrite (Rabs_right t), (Rabs_right (1 - c * c * d)) by lra. unfold sq_tol. nra.
      + rewrite Rabs_right by lra. unfold sq_tol. lra.
      + rewrite Rabs_right by lra. unfold g_tol. lra.
  Qed.
  Lemma cyc_loop fuel op : sq_loop fuel false 3 (mk 3 3 cyc0) op = Some None /\ sq_loop fuel false 3 (mk 3 3 cyc1) op = Some None.
  Proof. induction fuel as [|fuel (I0 & I1)]; [split; reflexivity|]. cbn [sq_loop]. rewrite cyc01, cyc10. cbn [obind]. change (0 <? 3)%nat with true. cbn iota. auto. Qed.
End Cycle.
