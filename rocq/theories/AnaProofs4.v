(** [partial_derivative] computes partial derivatives. *)
From Coq Require Import List Arith ZArith Bool Reals Lia Permutation Lra.
From Verif Require Import PidModel LinModel MatModel MatProofs AnaModel AnaSpec AnaProofs AnaProofs2 AnaProofs3.
Import ListNotations.
Open Scope R_scope.

Section D.
  Variable x : list R.
  Variable n : nat.
  Notation xt := (fun t => lset x n t).
  Notation x0 := (nth n x 0).
  Lemma xt_x0 : lset x n x0 = x.
  Proof. clear. revert n. induction x as [|a l IH]; intros [|k]; cbn; try reflexivity. now rewrite IH. Qed.
  Lemma xt_len t : length (lset x n t) = length x.
  Proof. apply lset_length. Qed.
  Lemma xt_nth m t : nth m (lset x n t) 0 = if (n =? m)%nat && (m <? length x)%nat then t else nth m x 0.
  Proof.
    clear. revert n m. induction x as [|a l IH]; intros [|k] [|m]; cbn [lset nth length]; try (rewrite andb_false_r; reflexivity); try reflexivity.
    rewrite IH. reflexivity.
  Qed.
  Notation E f := (fun t => evR (lset x n t) f).
  Notation Dv f d := (derivable_pt_lim (E f) x0 d).
  Notation dm := (dom x true).
  Notation ev := (evR x).

  (** Sums. *)
  Lemma sum_deriv v ds : Forall2 (fun p d => Dv (snd p) d) v ds -> derivable_pt_lim (fun t => evR (lset x n t) (ASum v)) x0 (rsum (map (fun q => fst (fst q) * snd q) (combine v ds))).
  Proof.
    induction 1 as [|[a f] d v ds H F IH]; cbn [combine map rsum fold_right fst snd].
    - apply (deriv_ext (fct_cte 0)); [reflexivity|apply derivable_pt_lim_const].
    - apply (deriv_ext (mult_real_fct a (E f) + (fun t => evR (lset x n t) (ASum v)))%F); [reflexivity|]. apply derivable_pt_lim_plus; [apply derivable_pt_lim_scal; exact H|exact IH].
  Qed.
  (** Products. *)
  Fixpoint dprod (v : list (Z * afn)) (ds : list R) : R :=
    match v, ds with
    | (e, f) :: v', d :: ds' => IZR e * powerRZ (ev f) (e - 1) * d * tot Rmult 1 (zphi x) v' + powerRZ (ev f) e * dprod v' ds'
    | _, _ => 0
    end.
  Lemma prod_deriv v ds : Forall (zP x true) v -> Forall2 (fun p d => Dv (snd p) d) v ds -> derivable_pt_lim (fun t => evR (lset x n t) (AProd v)) x0 (dprod v ds).
  Proof.
    intros FP H. induction H as [|[e f] d v ds H F IH]; cbn [dprod].
    - apply (deriv_ext (fct_cte 1)); [reflexivity|apply derivable_pt_lim_const].
    - inversion FP as [|? ? [Df HN] FP']; subst. cbn [fst snd] in *. apply (deriv_ext ((comp (fun y => powerRZ y e) (E f)) * (fun t => evR (lset x n t) (AProd v)))%F); [reflexivity|].
      pose proof (derivable_pt_lim_mult (comp (fun y => powerRZ y e) (E f)) (fun t => evR (lset x n t) (AProd v)) x0 (IZR e * powerRZ (ev f) (e - 1) * d) (dprod v ds)) as M.
      unfold comp in M at 3. rewrite xt_x0 in M. apply M; [|now apply IH]. apply derivable_pt_lim_comp; [exact H|]. rewrite xt_x0. now apply deriv_powerRZ.
  Qed.
  Lemma product_term_spec pre e f post df : Forall (zP x true) pre -> zP x true (e, f) -> Forall (zP x true) post -> dm df ->
    exists t, product_term (pre ++ (e, f) :: post) (length pre) df = Some t /\ dm t /\
      ev t = tot Rmult 1 (zphi x) pre * (IZR e * powerRZ (ev f) (e - 1) * ev df * tot Rmult 1 (zphi x) post).
  Proof.
    intros Fp [Df He] Fq Dd. cbn [fst snd] in Df, He. unfold product_term. rewrite nth_error_app2, Nat.sub_diag by lia. cbn [nth_error].
    assert (EC : firstn (length pre) (pre ++ (e, f) :: post) ++ skipn (S (length pre)) (pre ++ (e, f) :: post) = pre ++ post).
    { rewrite firstn_app, Nat.sub_diag, firstn_all. cbn [firstn]. rewrite app_nil_r. f_equal. rewrite skipn_app. replace (S (length pre) - length pre)%nat with 1%nat by lia. rewrite skipn_all2 by lia. reflexivity. }
    rewrite EC. set (clone := pre ++ post). assert (Fc : Forall (zP x true) clone) by (apply Forall_app; auto). assert (Vc : tot Rmult 1 (zphi x) clone = tot Rmult 1 (zphi x) pre * tot Rmult 1 (zphi x) post) by apply (ztot_app x).
    destruct (a_eqb df AZero) eqn:EZ. { apply a_eqb_eq in EZ. subst df. exists AZero. split; [reflexivity|]. split; [exact I|]. cbn [evR]. ring. }
    assert (GEN : exists t, (do p <- a_mul (AProd clone) (a_powi f (e - 1)); a_mul (a_smul p (IZR e)) df) = Some t /\ dm t /\
      ev t = tot Rmult 1 (zphi x) pre * (IZR e * powerRZ (ev f) (e - 1) * ev df * tot Rmult 1 (zphi x) post)).
    { destruct (Z.eq_dec e 0) as [->|Ne].
      - destruct (a_mul_total (AProd clone) (a_powi f (0 - 1))) as (p & ->). cbn [obind]. rewrite a_smul_0, a_mul_zero_l. exists AZero. split; [reflexivity|]. split; [exact I|]. cbn [evR]. ring.
      - destruct (a_powi_spec x true f (e - 1) Df) as (D1 & V1); [intros H; destruct (Z.ltb_spec e 0); [auto|lia]|].
        destruct (a_mul_spec x true (AProd clone) _ (proj2 (dom_prod x true clone) Fc) D1) as (p & -> & D2 & V2). cbn [obind]. destruct (a_smul_spec x true p (IZR e) D2) as (D3 & V3).
        destruct (a_mul_spec x true _ df D3 Dd) as (t & -> & D4 & V4). exists t. split; [reflexivity|]. split; [exact D4|]. rewrite V4, V3, V2, V1, ev_prod, Vc. ring. }
    destruct clone as [|[c b] [|q w]] eqn:ECL; try exact GEN. destruct ((e =? 1)%Z && a_eqb df AOne) eqn:E1; [|exact GEN]. apply andb_true_iff in E1. destruct E1 as [E1 E2]. apply Z.eqb_eq in E1. apply a_eqb_eq in E2. subst e df.
    inversion Fc as [|? ? [Db Hc] _]; subst. destruct (a_powi_spec x true b c Db Hc) as (D1 & V1). eexists. split; [reflexivity|]. split; [exact D1|]. rewrite V1. change (evR x AOne) with 1. change (1 - 1)%Z with 0%Z. rewrite powerRZ_O.
    transitivity (tot Rmult 1 (zphi x) [(c, b)]); [unfold tot, zphi; cbn [fold_right fst snd]; ring|]. rewrite Vc. ring.
  Qed.
  Lemma product_terms pre v dfs : Forall (zP x true) pre -> Forall (zP x true) v -> Forall dm dfs -> length dfs = length v ->
    exists ts, omap (fun k => product_term (pre ++ v) (fst k) (snd k)) (combine (seq (length pre) (length v)) dfs) = Some ts /\ Forall dm ts /\ rsum (map ev ts) = tot Rmult 1 (zphi x) pre * dprod v (map ev dfs).
  Proof.
    revert pre dfs. induction v as [|[e f] v IH]; intros pre [|df dfs] Fp Fv Fd L; cbn [length] in L; try discriminate.
    - exists []. cbn. split; [reflexivity|]. split; [constructor|ring].
    - inversion Fv as [|? ? Hf Fv']; subst. inversion Fd as [|? ? Hd Fd']; subst. destruct (product_term_spec pre e f v df Fp Hf Fv' Hd) as (t & Et & Dt & Vt).
      assert (Fp' : Forall (zP x true) (pre ++ [(e, f)])) by (apply Forall_app; auto).
      destruct (IH (pre ++ [(e, f)]) dfs Fp' Fv' Fd' ltac:(lia)) as (ts & Ets & Dts & Vts). rewrite app_length in Ets. cbn [length] in Ets. rewrite <- app_assoc in Ets. cbn [app] in Ets. rewrite Nat.add_1_r in Ets.
      exists (t :: ts). cbn [length seq combine omap fst snd]. rewrite Et. cbn [obind]. rewrite Ets. cbn [obind]. split; [reflexivity|]. split; [now constructor|]. cbn [map rsum fold_right]. fold (rsum (map ev ts)). rewrite Vt, Vts, (ztot_app x). cbn [dprod map]. unfold tot at 4. cbn [fold_right]. unfold zphi at 4. cbn [fst snd]. ring.
  Qed.
  Lemma rsum_filter ts : rsum (map ev (filter (fun t => negb (a_eqb t AZero)) ts)) = rsum (map ev ts).
  Proof.
    induction ts as [|t ts IH]; [reflexivity|]. cbn [filter]. change (rsum (map ev (t :: ts))) with (ev t + rsum (map ev ts)). rewrite <- IH. destruct (a_eqb t AZero) eqn:E; cbn [negb]; [apply a_eqb_eq in E; subst; cbn [evR]; ring|reflexivity].
  Qed.
  Lemma ev_AProd v : ev (AProd v) = tot Rmult 1 (zphi x) v. Proof. reflexivity. Qed.

  Lemma pderiv_spec f : dm f -> exists f', pderiv n f = Some f' /\ dm f' /\ Dv f (ev f').
  Proof.
    induction f using afn_induct; intros Hd; cbn [pderiv].
    - exists AZero. split; [reflexivity|]. split; [exact I|]. apply (deriv_ext (fct_cte 0)); [reflexivity|apply derivable_pt_lim_const].
    - exists AZero. split; [reflexivity|]. split; [exact I|]. apply (deriv_ext (fct_cte 1)); [reflexivity|apply derivable_pt_lim_const].
    - eexists. split; [reflexivity|]. cbn [dom] in Hd. destruct (Nat.eqb_spec n c) as [Enc|N].
      + split; [exact I|]. apply (deriv_ext id); [|apply derivable_pt_lim_id]. intros u. cbn [evR]. rewrite xt_nth, <- Enc, Nat.eqb_refl. replace (n <? length x)%nat with true by (symmetry; apply Nat.ltb_lt; lia). reflexivity.
      + split; [exact I|]. apply (deriv_ext (fct_cte (nth c x 0))); [|apply derivable_pt_lim_const]. intros u. cbn [evR]. rewrite xt_nth. replace (n =? c)%nat with false by (symmetry; now apply Nat.eqb_neq). reflexivity.
    - destruct Hd as [Df HK]. destruct (IHf Df) as (d & -> & Dd & Vd). cbn [obind].
      assert (GEN : derivable_pt_lim (fun t => evR (lset x n t) (ARealPow f a)) x0 (a * powfR (ev f) (a - 1) * ev d)).
      { apply (deriv_ext (comp (fun y => powfR y a) (E f))); [reflexivity|]. apply derivable_pt_lim_comp; [exact Vd|]. rewrite xt_x0. now apply deriv_powf. }
      destruct (Req_dec a 0) as [->|Na].
      + destruct (a_mul_total (ARealPow f (0 - 1)) d) as (p & ->). cbn [obind]. rewrite a_smul_0. exists AZero. split; [reflexivity|]. split; [exact I|]. replace (0 * powfR (ev f) (0 - 1) * ev d) with 0 in GEN by ring. exact GEN.
      + assert (DP : dm (ARealPow f (a - 1))).
        { split; [exact Df|]. revert HK. unfold pow_ok. rewrite is_int_pred. destruct (is_int a) eqn:E; [|intros [K|(K & _)]; [now left|discriminate]]. rewrite (Int_part_pred a E). apply is_int_spec in E. destruct E as (z & ->). rewrite Int_part_IZR. intros K H. apply K. destruct (Z.eq_dec z 0) as [->|]; [now destruct Na|lia]. }
        destruct (a_mul_spec x true _ d DP Dd) as (p & -> & D2 & V2). cbn [obind]. destruct (a_smul_spec x true p a D2) as (D3 & V3). eexists. split; [reflexivity|]. split; [exact D3|]. rewrite V3, V2. cbn [evR]. replace (powfR (ev f) (a - 1) * ev d * a) with (a * powfR (ev f) (a - 1) * ev d) by ring. exact GEN.
    - destruct (IHf Hd) as (d & -> & Dd & Vd). cbn [obind]. destruct (a_mul_spec x true (ACos f) d Hd Dd) as (h & -> & Dh & Vh). exists h. split; [reflexivity|]. split; [exact Dh|]. rewrite Vh. cbn [evR].
      apply (deriv_ext (comp sin (E f))); [reflexivity|]. apply derivable_pt_lim_comp; [exact Vd|]. rewrite xt_x0. apply derivable_pt_lim_sin.
    - destruct (IHf Hd) as (d & -> & Dd & Vd). cbn [obind]. destruct (a_neg_spec x true (ASin f) Hd) as (Dn & Vn). destruct (a_mul_spec x true _ d Dn Dd) as (h & -> & Dh & Vh). exists h. split; [reflexivity|]. split; [exact Dh|]. rewrite Vh, Vn. cbn [evR].
      apply (deriv_ext (comp cos (E f))); [reflexivity|]. apply derivable_pt_lim_comp; [exact Vd|]. rewrite xt_x0. apply derivable_pt_lim_cos.
    - assert (K : exists ds, omap (fun p => do d <- pderiv n (snd p); Some (fst p, d)) v = Some ds /\ Forall (rP x true) ds /\ map fst ds = map fst v /\ Forall2 (fun p d => Dv (snd p) d) v (map (fun q => ev (snd q)) ds)).
      { apply dom_sum in Hd. induction H as [|[a f] v Hf H IH]; [exists []; repeat split; constructor|]. inversion Hd as [|? ? Df Hd']; subst. cbn [snd] in Hf. destruct (Hf Df) as (d & E1 & D1 & V1). destruct (IH Hd') as (ds & E2 & D2 & M2 & V2).
        exists ((a, d) :: ds). cbn [omap fst snd]. rewrite E1. cbn [obind]. rewrite E2. cbn [obind]. split; [reflexivity|]. split; [constructor; [exact D1|exact D2]|]. split; [cbn; now rewrite M2|]. constructor; [exact V1|exact V2]. }
      destruct K as (ds & -> & Fd & Mf & FV). cbn [obind].
      set (vs := map _ (filter _ ds)).
      assert (KV : Forall (rP x true) (concat vs) /\ tot Rplus 0 (rphi x) (concat vs) = rsum (map (fun q => fst q * ev (snd q)) ds)).
      { unfold vs. clear vs Mf FV. induction Fd as [|[a d] ds Hd1 Fd (IH1 & IH2)]; [split; [constructor|reflexivity]|]. cbn [filter snd map rsum fold_right fst]. fold (rsum (map (fun q => fst q * ev (snd q)) ds)). destruct (a_eqb d AZero) eqn:EZ; cbn [negb].
        - apply a_eqb_eq in EZ. subst d. split; [exact IH1|]. rewrite IH2. cbn [evR]. ring.
        - cbn [map concat fst snd]. destruct (summand_spec x true d Hd1) as (A & B). cbn [snd] in A, B.
          destruct (r_vmul_spec x true a _ A) as (A' & B'). split; [apply Forall_app; auto|]. rewrite (rtot_app x), B', B, IH2. ring. }
      destruct KV as (K1 & K2). destruct (r_sum_spec x true vs K1) as (out & -> & Fo & Vo). cbn [obind]. destruct (a_add_spec x true (ASum out) AZero) as (h & -> & Dh & Vh); [now apply dom_sum|exact I|]. exists h. split; [reflexivity|]. split; [exact Dh|].
      rewrite Vh, ev_sum, Vo, K2. cbn [evR]. rewrite Rplus_0_r. replace (rsum (map (fun q => fst q * ev (snd q)) ds)) with (rsum (map (fun q => fst (fst q) * snd q) (combine v (map (fun q => ev (snd q)) ds)))); [now apply sum_deriv|].
      f_equal. clear -Mf. revert ds Mf. induction v as [|[a f] v IH]; intros [|[b d] ds] Mf; cbn in Mf; try discriminate; [reflexivity|]. injection Mf as -> Mf. cbn. now rewrite IH.
    - assert (K : exists dfs, omap (fun p => pderiv n (snd p)) v = Some dfs /\ Forall dm dfs /\ length dfs = length v /\ Forall2 (fun p d => Dv (snd p) d) v (map ev dfs)).
      { apply dom_prod in Hd. induction H as [|[a f] v Hf H IH]; [exists []; repeat split; constructor|]. inversion Hd as [|? ? [Df _] Hd']; subst. cbn [snd] in Hf, Df. destruct (Hf Df) as (d & E1 & D1 & V1). destruct (IH Hd') as (ds & E2 & D2 & M2 & V2).
        exists (d :: ds). cbn [omap fst snd]. rewrite E1. cbn [obind]. rewrite E2. cbn [obind]. split; [reflexivity|]. split; [now constructor|]. split; [cbn; now rewrite M2|]. constructor; [exact V1|exact V2]. }
      destruct K as (dfs & -> & Fd & L & FV). cbn [obind]. apply dom_prod in Hd. destruct (product_terms [] v dfs (Forall_nil _) Hd Fd L) as (ts & Ets & Dts & Vts). cbn [length app] in Ets. rewrite Ets. cbn [obind].
      destruct (a_sum_spec x true (filter (fun t => negb (a_eqb t AZero)) ts)) as (h & -> & Dh & Vh). { apply Forall_forall. intros t Ht. apply filter_In in Ht. rewrite Forall_forall in Dts. now apply Dts. }
      exists h. split; [reflexivity|]. split; [exact Dh|]. rewrite Vh, rsum_filter, Vts. replace (tot Rmult 1 (zphi x) [] * dprod v (map ev dfs)) with (dprod v (map ev dfs)) by (cbn; ring). now apply prod_deriv.
  Qed.

  (** The domain is open along the coordinate. *)
  Lemma deriv_near g d : derivable_pt_lim g x0 d -> forall eps, 0 < eps -> exists delta, 0 < delta /\ forall h, Rabs h < delta -> Rabs (g (x0 + h) - g x0) < eps.
  Proof.
    intros H eps He. assert (C : continuity_pt g x0) by (apply derivable_continuous_pt; exists d; exact H). destruct (C eps He) as (delta & Hd & K). exists delta. split; [exact Hd|]. intros h Hh.
    destruct (Req_dec h 0) as [->|Nh]; [rewrite Rplus_0_r, Rminus_eq_0, Rabs_R0; exact He|]. apply (K (x0 + h)). split; [split; [exact I|]|]; [intros E; apply Nh; lra|]. unfold dist. cbn. unfold R_dist. replace (x0 + h - x0) with h by ring. exact Hh.
  Qed.
  Definition near (Q : list R -> Prop) : Prop := exists delta, 0 < delta /\ forall h, Rabs h < delta -> Q (lset x n (x0 + h)).
  Lemma near_and P Q : near P -> near Q -> near (fun y => P y /\ Q y).
  Proof. intros (d1 & H1 & K1) (d2 & H2 & K2). exists (Rmin d1 d2). split; [now apply Rmin_pos|]. intros h Hh. split; [apply K1|apply K2]; eapply Rlt_le_trans; try exact Hh; [apply Rmin_l|apply Rmin_r]. Qed.
  Lemma near_mono (P Q : list R -> Prop) : (forall y, P y -> Q y) -> near P -> near Q.
  Proof. intros H (d & H1 & K). exists d. auto. Qed.
  Lemma near_nonzero f d : Dv f d -> ev f <> 0 -> near (fun y => evR y f <> 0).
  Proof. intros H N. destruct (deriv_near _ d H (Rabs (ev f)) (Rabs_pos_lt _ N)) as (delta & Hd & K). exists delta. split; [exact Hd|]. intros h Hh E0. specialize (K h Hh). cbn beta in K. rewrite E0, xt_x0, Rminus_0_l, Rabs_Ropp in K. lra. Qed.
  Lemma near_pos f d : Dv f d -> 0 < ev f -> near (fun y => 0 < evR y f).
  Proof. intros H N. destruct (deriv_near _ d H (ev f) N) as (delta & Hd & K). exists delta. split; [exact Hd|]. intros h Hh. specialize (K h Hh). cbn beta in K. rewrite xt_x0 in K. apply Rabs_def2 in K. lra. Qed.
  Lemma near_dom f : dm f -> near (fun y => dom y true f).
  Proof.
    assert (T : near (fun _ => True)) by (exists 1; split; [lra|auto]).
    induction f using afn_induct; intros Hd; cbn [dom] in *; try exact T.
    - exists 1. split; [lra|]. intros h _. now rewrite xt_len.
    - destruct Hd as [Df HK]. apply near_and; [auto|]. destruct (pderiv_spec f Df) as (d & _ & _ & V). revert HK. unfold pow_ok. destruct (is_int a).
      + intros HK. destruct (Z.ltb_spec (Int_part a) 0) as [H|H]; [|exists 1; split; [lra|intros; lia]]. eapply near_mono; [|apply (near_nonzero f _ V (HK H))]. auto.
      + intros [HK|(K & _)]; [|discriminate]. eapply near_mono; [|apply (near_pos f _ V HK)]. auto.
    - auto.
    - auto.
    - induction H as [|p v Hp H IH]; cbn [fold_right] in *; [exact T|]. destruct Hd as [A B]. apply near_and; auto.
    - induction H as [|p v Hp H IH]; cbn [fold_right] in *; [exact T|]. destruct Hd as [[A1 A2] B]. apply near_and; [|auto]. apply near_and; [auto|]. destruct (pderiv_spec (snd p) A1) as (d & _ & _ & V).
      destruct (Z.ltb_spec (fst p) 0) as [H0|H0]; [|exists 1; split; [lra|intros; lia]]. eapply near_mono; [|apply (near_nonzero _ _ V (A2 H0))]. auto.
  Qed.
  Lemma pderiv_partial f : dm f -> exists f', pderiv n f = Some f' /\ dm f' /\ has_partial f n x (ev f').
  Proof.
    intros Df. destruct (pderiv_spec f Df) as (f' & E & D & V). exists f'. split; [exact E|]. split; [exact D|]. intros eps He. destruct (V eps He) as (d1 & K1). destruct (near_dom f Df) as (d2 & H2 & K2).
    exists (Rmin d1 d2). split; [apply Rmin_pos; [apply cond_pos|exact H2]|]. intros h Hn Hh. exists (evR (lset x n (x0 + h)) f), (ev f). split; [apply eval_dom; split; [now apply dom_weaken|reflexivity]|]. split.
    - apply eval_dom. split; [apply dom_weaken, K2; eapply Rlt_le_trans; [exact Hh|apply Rmin_r]|reflexivity].
    - specialize (K1 h Hn). cbn beta in K1. rewrite xt_x0 in K1. apply K1. eapply Rlt_le_trans; [exact Hh|apply Rmin_l].
  Qed.
End D.
