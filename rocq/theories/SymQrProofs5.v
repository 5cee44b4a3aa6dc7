(** The loop of the symmetric QR algorithm; the blocks of its result. *)
From Coq Require Import List Arith Bool Lia ZifyBool Reals Lra.
From Verif Require Import PidModel MatModel MatSpec MatProofs MatProofs2 SnfModel SnfProofs2 RankModel LuModel LuSpec LuProofs2 LuProofs3 NumModel NumSpec NumProofs HouseProofs HessProofs FrancisModel FrancisSpec FrancisProofs QrProofs QrProps EigProofs TriModel TriSpec TriProofs TriProps WilkModel WilkSpec WilkProofs WilkProps SpectrumProps SymQrSpec SymQrProofs SymQrProofs2 SymQrProofs3 SymQrProofs4.
Import ListNotations.
Open Scope R_scope.

Lemma g_sq : g_tol = sq_tol / 100. Proof. unfold g_tol, sq_tol. lra. Qed.
Lemma cost_bound n m : (1 <= n)%nat -> sq_cost n (INR m * g_tol) <= INR n * (51 + INR m) * sq_tol.
Proof.
  intros Hn. unfold sq_cost. rewrite g_sq. pose proof sq_tol_pos as TP. pose proof (pos_INR m) as MP. assert (1 <= INR n) as N1 by (change 1 with (INR 1); now apply le_INR). set (N := INR n) in *. set (K := INR m) in *. clearbody N K.
  assert (0 <= sq_tol * (N - 1)) as Q1 by (apply Rmult_le_pos; lra). assert (0 <= K * (sq_tol * (N - 1))) as Q2 by (apply Rmult_le_pos; lra). assert (0 <= K * sq_tol) as Q3 by (apply Rmult_le_pos; lra). nra.
Qed.
Lemma zero_state n f : symmetric_mat n f -> same n n f (tridiagonal f) -> sq_state n 0 f.
Proof.
  intros Y T. assert (forall a b, (b + 1 < a < n)%nat -> f a b = 0) as Z by (intros a b H; rewrite T by lia; unfold tridiagonal; now replace ((a <=? b + 1) && (b <=? a + 1))%nat with false by lia).
  split; [exact Y|]. split; [intros a b H; apply Z; lia|]. split; [intros b H; rewrite Z by lia; rewrite Rabs_R0; lra|intros b H _ _; rewrite Z by lia; rewrite Rabs_R0; apply g_tol_pos].
Qed.
Lemma sq_loop_run n : (2 <= n)%nat -> forall fuel m f op, sq_state n (INR m * g_tol) f -> sq_loop fuel false n (mk n n f) op = Some None \/
  exists k g, (k < fuel)%nat /\ sq_loop fuel false n (mk n n f) op = Some (Some (mk n n g, op)) /\ sq_run n sq_tol k f g /\ sq_state n (INR (m + k) * g_tol) g /\ small_blocks n sq_tol g /\ well_split n sq_tol g /\ trace n g = trace n f /\
    perturbed n f (INR n * (INR k * (51 + INR m + INR k) + 2) * sq_tol) g.
Proof.
  intros Hn. pose proof sq_tol_pos as TP. pose proof g_tol_pos as GP. induction fuel as [|fuel IH]; intros m f op ST; [now left|]. cbn [sq_loop]. assert (0 <= INR m * g_tol) as T0 by (apply Rmult_le_pos; [apply pos_INR|lra]). destruct (sq_body_mk n _ f op Hn T0 ST) as [(SB & EB)|(p & e & g & q & o & EQ & Hq & AC & IT & SG & TR & PT & EB & _ & _)].
  - right. exists 0%nat, (dropped sq_tol f). split; [lia|]. rewrite EB. cbn [obind]. rewrite Nat.ltb_irrefl. split; [reflexivity|]. split; [apply sq_end; [intros i j _ _; reflexivity|exact SB]|]. rewrite Nat.add_0_r. split; [now apply drop_state|]. split; [exact SB|]. split.
    + intros i Hi. destruct (drop_beside f i) as [(_ & ->)|(L & ->)]; [now left|now right].
    + split; [unfold trace; apply rsum_ext; intros i Hi; apply drop_diag|]. eapply pert_le; [|apply drop_pert; [lia|apply ST]]. cbn [INR]. right. ring.
  - rewrite EB. cbn [obind]. replace (q <? n)%nat with true by lia. assert (sq_state n (INR (m + 1) * g_tol) g) as SG' by (rewrite plus_INR; cbn [INR]; replace ((INR m + 1) * g_tol) with (INR m * g_tol + g_tol) by ring; exact SG).
    destruct (IH (m + 1)%nat g op SG') as [E|(k & h & Hk & E & RN & SH & SB & WS & TH & PH)]; [now left|right]. exists (S k), h. split; [lia|]. split; [exact E|]. split; [now apply (sq_next _ _ _ _ g)|]. replace (m + S k)%nat with (m + 1 + k)%nat by lia. split; [exact SH|]. split; [exact SB|]. split; [exact WS|]. split; [congruence|].
    eapply pert_le; [|exact (pert_trans n f g h _ _ PT PH)]. eapply Rle_trans; [apply Rplus_le_compat_r; apply cost_bound; lia|]. rewrite plus_INR, (S_INR k). change (INR 1) with 1. pose proof (pos_INR k) as KP. pose proof (pos_INR m) as MP. pose proof (pos_INR n) as NP.
    assert (0 <= INR n * (1 + INR k) * sq_tol) as Q by (apply Rmult_le_pos; [apply Rmult_le_pos|]; lra). match goal with |- ?a <= ?b => replace b with (a + INR n * (1 + INR k) * sq_tol) by ring end. lra.
Qed.
(** The entries more than one place from the diagonal are set to zero. *)
Lemma sq_clear_mk n f : (2 <= n)%nat -> sq_clear n (mk n n f) = Some (mk n n (tridiagonal f)).
Proof.
  intros Hn. unfold sq_clear, rng. rewrite Nat.sub_0_r.
  set (st := fun k => mk n n (fun a b : nat => if ((a <? k) && (a + 2 <=? b) || (b <? k) && (b + 2 <=? a))%nat then 0 else f a b)).
  rewrite (foldM_seq0 _ st (mk n n f) (n - 2)).
  - f_equal. apply mk_ext. intros a b Ha Hb. unfold tridiagonal. destruct ((a <=? b + 1) && (b <=? a + 1))%nat eqn:E; [now replace ((a <? n - 2) && (a + 2 <=? b) || (b <? n - 2) && (b + 2 <=? a))%nat with false by lia|now replace ((a <? n - 2) && (a + 2 <=? b) || (b <? n - 2) && (b + 2 <=? a))%nat with true by lia].
  - unfold st. apply mk_ext. intros a b Ha Hb. now replace ((a <? 0) && (a + 2 <=? b) || (b <? 0) && (b + 2 <=? a))%nat with false by lia.
  - intros k Hk. set (ss := fun j : nat => mk n n (fun a b : nat => if ((a <? k) && (a + 2 <=? b) || (b <? k) && (b + 2 <=? a) || (a =? k) && (k + 2 <=? b) && (b <? k + 2 + j) || (b =? k) && (k + 2 <=? a) && (a <? k + 2 + j))%nat then 0 else f a b)).
    replace (st k) with (ss 0%nat); [rewrite (foldM_seq _ ss)|].
    + unfold st, ss. f_equal. apply mk_ext. intros a b Ha Hb. match goal with |- (if ?x then _ else _) = (if ?y then _ else _) => replace x with y by lia end. reflexivity.
    + intros j Hj. unfold ss. rewrite mset_mk by lia. cbn [obind]. rewrite mset_mk by lia. f_equal. apply mk_ext. intros a b Ha Hb.
      match goal with |- (if ?x then _ else if ?y then _ else if ?z then _ else _) = (if ?u then _ else _) => replace u with (x || y || z)%bool by lia; destruct x, y, z end; reflexivity.
    + unfold st, ss. apply mk_ext. intros a b Ha Hb. match goal with |- (if ?x then _ else _) = (if ?y then _ else _) => replace x with y by lia end. reflexivity.
Qed.
Lemma symmetric_qr_mk fuel n f : (2 <= n)%nat -> symmetric_mat n f -> exists t, householder_tridiagonalization (mk n n f) false = Some (mk n n t) /\ symmetric_mat n (tridiagonal t) /\
  symmetric_qr fuel (mk n n f) false = sq_loop fuel false n (mk n n (tridiagonal t)) (mk n n id_entry).
Proof.
  intros Hn Y. destruct (C86_tridiagonalization_partial (mk n n f) n false (wf_mk _ _ _) eq_refl eq_refl Hn) as (M & E & W & RM & CM & YT & _); [intros i j Hi Hj; rewrite !ent_mk by assumption; now apply Y|].
  pose proof (wf_eq_mk M W) as EM. rewrite RM, CM in EM. exists (ent M). split; [now rewrite <- EM|]. split; [exact YT|]. unfold symmetric_qr. rewrite nr_mk. rewrite midentity_mk by lia. cbn [obind]. rewrite E. cbn [obind]. rewrite EM at 1. rewrite sq_clear_mk by exact Hn. reflexivity.
Qed.
Definition no_ties (n : nat) (eps : R) (A : nat -> nat -> R) : Prop := forall i, (i + 1 < n)%nat -> Rabs (A (i + 1)%nat i) <> eps.
(** The blocks of a result of the loop. *)
Lemma sym_two h i : h i (i + 1)%nat = h (i + 1)%nat i -> h (i + 1)%nat i <> 0 -> exists x y, real_spectrum_of_two_by_two (mk 2 2 (window i h)) = Some (Some (x, y)).
Proof.
  intros Y N. rewrite two_mk. cbn zeta. unfold window. rewrite !Nat.add_0_r. rewrite Y. set (a := h i i). set (b := h (i + 1)%nat i) in *. set (d := h (i + 1)%nat (i + 1)%nat).
  assert (0 < (a + d) / 2 * ((a + d) / 2) - (a * d - b * b)) as D by (replace ((a + d) / 2 * ((a + d) / 2) - (a * d - b * b)) with (((a - d) / 2) ^ 2 + b ^ 2) by field; assert (0 < b ^ 2) by (rewrite <- Rsqr_pow2; now apply Rsqr_pos_lt); pose proof (pow2_ge_0 ((a - d) / 2)); lra).
  destruct (rltb_spec 0 ((a + d) / 2 * ((a + d) / 2) - (a * d - b * b))) as [L|L]; [eauto|lra].
Qed.
Lemma sym_blocks_spec n h : symmetric_mat n h -> well_split n sq_tol h -> small_blocks n sq_tol h -> forall fuel i, (i <= n)%nat -> (n <= i + fuel)%nat ->
  exists l, sym_blocks fuel (mk n n h) i = Some l /\ length l = (n - i)%nat /\ lsum l = trace (n - i) (window i h) /\
  (no_ties n sq_tol h -> forall x, In x l <-> eigenvalue (n - i) (window i (tridiagonal h)) x).
Proof.
  intros Y WS SB. assert (/ 100000000000000 < sq_tol) as TT by (unfold sq_tol; lra). pose proof sq_tol_pos as TP.
  assert (forall i, (i <= n)%nat -> (n <= i)%nat -> length (@nil R) = (n - i)%nat /\ lsum [] = trace (n - i) (window i h) /\ (no_ties n sq_tol h -> forall x, In x [] <-> eigenvalue (n - i) (window i (tridiagonal h)) x)) as BASE.
  { intros i H1 H2. replace (n - i)%nat with 0%nat by lia. split; [reflexivity|]. split; [reflexivity|]. intros _ x. split; [intros []|]. intros (y & (k & Hk & _) & _). lia. }
  induction fuel as [|fuel IH]; intros i Hi Hf; cbn [sym_blocks]; rewrite nr_mk.
  - replace (i <? n)%nat with false by lia. exists []. split; [reflexivity|]. apply BASE; lia.
  - destruct (Nat.ltb_spec i n) as [L|L]; [|exists []; split; [reflexivity|]; apply BASE; lia].
    assert (exists sg, (if (i =? n - 1)%nat then Some true else do x <- mget (mk n n h) (i + 1) i; Some (rltb (Rabs x) (/ 100000000000000))) = Some sg /\ (sg = true -> (i + 1 < n)%nat -> h (i + 1)%nat i = 0) /\ (sg = false -> (i + 1 < n)%nat /\ h (i + 1)%nat i <> 0)) as (sg & -> & SG1 & SG2).
    { destruct (Nat.eqb_spec i (n - 1)) as [E|E]; [exists true; split; [reflexivity|]; split; [intros; lia|discriminate]|]. rewrite mget_in by lia. cbn [obind]. eexists. split; [reflexivity|]. destruct (WS i ltac:(lia)) as [Z|Z].
      - rewrite Z, Rabs_R0. destruct (rltb_spec 0 (/ 100000000000000)) as [Q|Q]; [split; [auto|discriminate]|exfalso; apply Q; lra].
      - destruct (rltb_spec (Rabs (h (i + 1)%nat i)) (/ 100000000000000)); [lra|]. split; [discriminate|]. intros _. split; [lia|]. intros K. rewrite K, Rabs_R0 in Z. lra. }
    cbn [obind]. destruct sg.
    + rewrite mget_in by lia. cbn [obind]. destruct (IH (i + 1)%nat ltac:(lia) ltac:(lia)) as (l & E & LN & SM & EX). rewrite E. cbn [obind]. eexists. split; [reflexivity|]. split; [cbn [length]; lia|]. split.
      * rewrite (trace_split (n - i) 1) by lia. cbn [lsum fold_right]. fold (lsum l). rewrite SM. f_equal; [unfold trace, window; cbn; rewrite Nat.add_0_r; ring|]. replace (n - i - 1)%nat with (n - (i + 1))%nat by lia. apply trace_ext. intros k Hk. now rewrite window_window.
      * intros NT x. rewrite (eig_block (n - i) 1); [|lia|].
        -- rewrite eig_one. unfold window at 1. rewrite Nat.add_0_r. replace (n - i - 1)%nat with (n - (i + 1))%nat by lia.
           assert (eigenvalue (n - (i + 1)) (window 1 (window i (tridiagonal h))) x <-> eigenvalue (n - (i + 1)) (window (i + 1) (tridiagonal h)) x) as -> by (split; apply eig_ext; intros a b Ha Hb; now rewrite window_window).
           rewrite <- (EX NT x). unfold tridiagonal. replace ((i <=? i + 1) && (i <=? i + 1))%nat with true by lia. cbn [In]. intuition congruence.
        -- intros a b Ha Hb. unfold window. replace b with 0%nat by lia. rewrite Nat.add_0_r. unfold tridiagonal. destruct (Nat.eq_dec a 1) as [->|N]; [|now replace ((i + a <=? i + 1) && (i <=? i + a + 1))%nat with false by lia].
           replace ((i + 1 <=? i + 1) && (i <=? i + 1 + 1))%nat with true by lia. apply SG1; [reflexivity|lia].
    + destruct (SG2 eq_refl) as (Hi1 & NZ). destruct (sym_two h i) as (x1 & x2 & E2); [apply Y; lia|exact NZ|]. rewrite msub_view_mk by lia. cbn [obind]. replace (i + 2 - i)%nat with 2%nat by lia. change (fun i0 j : nat => h (i + i0)%nat (i + j)%nat) with (window i h).
      rewrite E2. cbn [obind]. destruct (IH (i + 2)%nat ltac:(lia) ltac:(lia)) as (l & E & LN & SM & EX). rewrite E. cbn [obind]. eexists. split; [reflexivity|]. destruct (two_values _ _ _ E2) as (TR & _ & EV). split; [cbn [length]; lia|]. split.
      * rewrite (trace_split (n - i) 2) by lia. cbn [lsum fold_right]. fold (lsum l). rewrite SM. rewrite <- Rplus_assoc, TR. f_equal; [unfold trace; cbn; ring|]. replace (n - i - 2)%nat with (n - (i + 2))%nat by lia. apply trace_ext. intros k Hk. now rewrite window_window.
      * intros NT x. rewrite (eig_block (n - i) 2); [|lia|].
        -- replace (n - i - 2)%nat with (n - (i + 2))%nat by lia.
           assert (eigenvalue 2 (window i (tridiagonal h)) x <-> eigenvalue 2 (window i h) x) as -> by (split; apply eig_ext; intros a b Ha Hb; unfold window, tridiagonal; now replace ((i + a <=? i + b + 1) && (i + b <=? i + a + 1))%nat with true by lia).
           rewrite <- EV. assert (eigenvalue (n - (i + 2)) (window 2 (window i (tridiagonal h))) x <-> eigenvalue (n - (i + 2)) (window (i + 2) (tridiagonal h)) x) as -> by (split; apply eig_ext; intros a b Ha Hb; now rewrite window_window).
           rewrite <- (EX NT x). cbn [In]. intuition congruence.
        -- intros a b Ha Hb. unfold window, tridiagonal. destruct (Nat.eq_dec a (b + 1)) as [->|N]; [|now replace ((i + a <=? i + b + 1) && (i + b <=? i + a + 1))%nat with false by lia].
           replace ((i + (b + 1) <=? i + b + 1) && (i + b <=? i + (b + 1) + 1))%nat with true by lia. replace b with 1%nat by lia. replace (i + (1 + 1))%nat with (i + 1 + 1)%nat by lia.
           destruct (WS (i + 1)%nat ltac:(lia)) as [W|W]; [exact W|exfalso]. pose proof (NT i Hi1) as N1. pose proof (NT (i + 1)%nat ltac:(lia)) as N2. destruct (WS i Hi1) as [V|V]; [contradiction|]. destruct (SB i ltac:(lia)) as [U|U]; [lra|]. replace (i + 2)%nat with (i + 1 + 1)%nat in U by lia. lra.
Qed.
(** A result of the loop and its tridiagonal part. *)
Lemma far_pert n m h : (1 <= n)%nat -> symmetric_mat n h -> hepta n h -> (forall a b, (b + 1 < a < n)%nat -> Rabs (h a b) <= (INR m + 1) * g_tol) -> perturbed n h (INR n * (INR m + 1) * sq_tol) (tridiagonal h).
Proof.
  intros Hn Y HE NR. pose proof sq_tol_pos as TP. pose proof g_tol_pos as GP. pose proof (pos_INR m) as MP. assert (0 <= INR m * g_tol) as MG by (apply Rmult_le_pos; lra).
  set (l := flat_map (fun i => [((i + 2)%nat, i); (i, (i + 2)%nat); ((i + 3)%nat, i); (i, (i + 3)%nat)]) (seq 0 n)).
  assert (INR (length l) = 4 * INR n) as LN.
  { unfold l. clear. assert (forall m s, INR (length (flat_map (fun i => [((i + 2)%nat, i); (i, (i + 2)%nat); ((i + 3)%nat, i); (i, (i + 3)%nat)]) (seq s m))) = 4 * INR m) as K; [|apply K].
    induction m as [|m IH]; intros s; [cbn; ring|]. cbn [seq flat_map app length]. rewrite !S_INR. rewrite IH. ring. }
  assert (symmetric_mat n (tridiagonal h)) as YT by (intros a b Ha Hb; unfold tridiagonal; rewrite (andb_comm (b <=? a + 1)%nat); destruct (_ && _)%bool; [now apply Y|reflexivity]).
  assert (forall a b, (b + 1 < a < n)%nat -> h a b = 0 \/ (In (a, b) l /\ In (b, a) l) /\ Rabs (h a b) <= (INR m + 1) * g_tol) as BO.
  { intros a b Hab. destruct (Nat.le_gt_cases a (b + 3)) as [K|K]; [|left; apply HE; lia]. right. destruct (Nat.eq_dec a (b + 2)) as [->|N].
    - split; [split; apply in_flat_map; exists b; (split; [apply in_seq; lia|cbn; tauto])|]. apply NR; lia.
    - assert (a = b + 3)%nat as -> by lia. split; [split; apply in_flat_map; exists b; (split; [apply in_seq; lia|cbn; tauto])|]. apply NR; lia. }
  eapply pert_le; [|apply (pert_spots n h (tridiagonal h) l ((INR m + 1) * g_tol))].
  - rewrite LN, g_sq. pose proof (pos_INR n) as NP. assert (0 <= INR n * (INR m + 1) * sq_tol) by (apply Rmult_le_pos; [apply Rmult_le_pos|]; lra). nra.
  - apply Rmult_le_pos; lra.
  - intros a b Ha Hb. now rewrite (YT a b), (Y a b).
  - intros a b Ha Hb. unfold tridiagonal. destruct ((a <=? b + 1) && (b <=? a + 1))%nat eqn:E; [now left|]. destruct (Nat.lt_trichotomy a b) as [Q|[Q|Q]]; [| |].
    + rewrite (Y a b) by assumption. destruct (BO b a ltac:(lia)) as [->|((I1 & I2) & K)]; [now left|right]. split; [exact I2|]. unfold Rminus. now rewrite Rplus_0_l, Rabs_Ropp.
    + lia.
    + destruct (BO a b ltac:(lia)) as [->|((I1 & I2) & K)]; [now left|right]. split; [exact I1|]. unfold Rminus. now rewrite Rplus_0_l, Rabs_Ropp.
Qed.
