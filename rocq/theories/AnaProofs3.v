(** [eval] and its total version; derivatives. *)
From Coq Require Import List Arith ZArith Bool Reals Lia Permutation Lra.
From Verif Require Import PidModel LinModel MatModel MatProofs AnaModel AnaSpec AnaProofs AnaProofs2.
Import ListNotations.
Open Scope R_scope.

Lemma Int_part_IZR z : Int_part (IZR z) = z.
Proof. unfold Int_part. rewrite <- (tech_up (IZR z) (z + 1)); [lia| |]; rewrite plus_IZR; lra. Qed.
Lemma is_int_spec a : is_int a = true <-> exists z, a = IZR z.
Proof. unfold is_int. rewrite Reqb_eq. split; [eauto|]. intros (z & ->). now rewrite Int_part_IZR. Qed.
Lemma is_int_false a : is_int a = false <-> ~ exists z, a = IZR z.
Proof. rewrite <- is_int_spec. destruct (is_int a); split; congruence. Qed.

Lemma powi_spec v e r : powi v e = Some r <-> ((e < 0)%Z -> v <> 0) /\ r = powerRZ v e.
Proof.
  unfold powi. destruct (Reqb v 0) eqn:E; cbn [andb].
  - apply Reqb_eq in E. destruct (Z.ltb_spec e 0); split; [discriminate|intros [K _]; now destruct (K H)|injection 1 as <-; split; [lia|reflexivity]|intros [_ ->]; reflexivity].
  - apply Reqb_neq in E. split; [injection 1 as <-; auto|intros [_ ->]; reflexivity].
Qed.
Lemma powf_spec v a r : powf v a = Some r <-> pow_ok false v a /\ r = powfR v a.
Proof.
  unfold powf, pow_ok, powfR. destruct (is_int a); [apply powi_spec|]. destruct (Reqb v 0) eqn:E.
  - apply Reqb_eq in E. subst. destruct (Rltb 0 a) eqn:L.
    + apply Rltb_lt in L. split; [injection 1 as <-; auto|intros [_ ->]; reflexivity].
    + split; [discriminate|]. intros [[K|(_ & _ & K)] _]; [lra|]. apply Rltb_lt in K. congruence.
  - apply Reqb_neq in E. destruct (Rltb 0 v) eqn:L.
    + apply Rltb_lt in L. split; [injection 1 as <-; auto|intros [_ ->]; reflexivity].
    + split; [discriminate|]. intros [[K|(_ & K & _)] _]; [apply Rltb_lt in K; congruence|contradiction].
Qed.
Lemma eval_dom x f : forall v, eval x f = Some v <-> dom x false f /\ v = evR x f.
Proof.
  induction f using afn_induct; intros u; cbn [eval].
  - cbn. split; [injection 1 as <-; auto|intros [_ ->]; reflexivity].
  - cbn. split; [injection 1 as <-; auto|intros [_ ->]; reflexivity].
  - cbn. split; intros H.
    + split; [apply nth_error_Some; congruence|]. symmetry. now apply nth_error_nth.
    + destruct H as [H ->]. now apply nth_error_nth'.
  - cbn [dom evR]. destruct (eval x f) as [w|] eqn:E; cbn [obind].
    + destruct (proj1 (IHf _) eq_refl) as [D ->]. clear E. rewrite powf_spec. tauto.
    + split; [discriminate|]. intros [[D _] _]. assert (K : None = Some (evR x f)) by (apply IHf; auto). discriminate.
  - cbn [dom evR]. destruct (eval x f) as [w|] eqn:E; cbn [obind].
    + destruct (proj1 (IHf _) eq_refl) as [D ->]. clear E. split; [injection 1 as <-; auto|intros [_ ->]; reflexivity].
    + split; [discriminate|]. intros [D _]. assert (K : None = Some (evR x f)) by (apply IHf; auto). discriminate.
  - cbn [dom evR]. destruct (eval x f) as [w|] eqn:E; cbn [obind].
    + destruct (proj1 (IHf _) eq_refl) as [D ->]. clear E. split; [injection 1 as <-; auto|intros [_ ->]; reflexivity].
    + split; [discriminate|]. intros [D _]. assert (K : None = Some (evR x f)) by (apply IHf; auto). discriminate.
  - cbn [dom evR]. revert u. induction H as [|[c f] v Hf H IH]; intros u; cbn [fold_right fst snd]; [split; [injection 1 as <-; auto|intros [_ ->]; reflexivity]|]. cbn [snd] in Hf.
    destruct (eval x f) as [w|] eqn:E; cbn [obind].
    + destruct (proj1 (Hf _) eq_refl) as [D ->]. clear E. destruct (fold_right _ (Some 0) v) as [r|] eqn:E2; cbn [obind].
      * specialize (IH r). apply proj1 in IH. destruct (IH eq_refl) as [Dv ->]. split; [injection 1 as <-; auto|intros [_ ->]; reflexivity].
      * split; [discriminate|]. intros [[_ Dv] _]. specialize (proj2 (IH _) (conj Dv eq_refl)). discriminate.
    + split; [discriminate|]. intros [[D _] _]. assert (K : None = Some (evR x f)) by (apply Hf; auto). discriminate.
  - cbn [dom evR]. revert u. induction H as [|[c f] v Hf H IH]; intros u; cbn [fold_right fst snd]; [split; [injection 1 as <-; auto|intros [_ ->]; reflexivity]|]. cbn [snd] in Hf.
    destruct (eval x f) as [w|] eqn:E; cbn [obind].
    + destruct (proj1 (Hf _) eq_refl) as [D ->]. clear E. destruct (powi (evR x f) c) as [z|] eqn:EP; cbn [obind].
      * apply powi_spec in EP. destruct EP as [HN ->]. destruct (fold_right _ (Some 1) v) as [r|] eqn:E2; cbn [obind].
        -- specialize (IH r). apply proj1 in IH. destruct (IH eq_refl) as [Dv ->]. split; [injection 1 as <-; auto|intros [_ ->]; reflexivity].
        -- split; [discriminate|]. intros [[_ Dv] _]. specialize (proj2 (IH _) (conj Dv eq_refl)). discriminate.
      * split; [discriminate|]. intros [[[_ HN] _] _]. assert (K : powi (evR x f) c = Some (powerRZ (evR x f) c)) by (apply powi_spec; auto). congruence.
    + split; [discriminate|]. intros [[[D _] _] _]. assert (K : None = Some (evR x f)) by (apply Hf; auto). discriminate.
Qed.
Lemma dom_weaken x f : dom x true f -> dom x false f.
Proof.
  induction f using afn_induct; cbn [dom]; auto.
  - intros [D K]. split; [auto|]. revert K. unfold pow_ok. destruct (is_int a); [auto|]. intros [K|(K & _)]; [auto|discriminate].
  - induction H as [|p v Hp H IH]; cbn; [auto|]. intros [A B]. auto.
  - induction H as [|p v Hp H IH]; cbn; [auto|]. intros [[A1 A2] B]. auto.
Qed.
Lemma dom_regular x f : dom x true f <-> dom x false f /\ regular x f.
Proof.
  split.
  - intros D. split; [now apply dom_weaken|]. revert D. induction f using afn_induct; cbn [dom regular]; auto.
    + intros [D K]. split; [auto|]. revert K. unfold pow_ok. destruct (is_int a) eqn:E; [left; now apply is_int_spec|]. intros [K|(K & _)]; [|discriminate]. right. exists (evR x f). split; [apply eval_dom; split; [now apply dom_weaken|reflexivity]|exact K].
    + induction H as [|p v Hp H IH]; cbn; [auto|]. intros [A B]. auto.
    + induction H as [|p v Hp H IH]; cbn; [auto|]. intros [[A1 A2] B]. auto.
  - intros [D G]. revert D G. induction f using afn_induct; cbn [dom regular]; auto.
    + intros [D K] [G L]. split; [auto|]. revert K. unfold pow_ok. destruct (is_int a) eqn:E; [auto|]. intros _. left. destruct L as [L|(v & E2 & L)]; [apply is_int_spec in L; congruence|]. apply eval_dom in E2. destruct E2 as [_ ->]. exact L.
    + induction H as [|p v Hp H IH]; cbn; [auto|]. intros [A B] [A' B']. auto.
    + induction H as [|p v Hp H IH]; cbn; [auto|]. intros [[A1 A2] B] [A' B']. auto.
Qed.

(** Totality without conditions. *)
Lemma g_sum_total {K} (kadd : K -> K -> K) kzero vs : exists out, g_sum kadd kzero vs = Some out.
Proof.
  destruct (g_sum_spec kadd kzero (fun _ _ : unit => tt) tt (fun _ _ => eq_refl) (fun _ _ _ => eq_refl) (fun a => match a with tt => eq_refl end) (fun _ => True) (fun _ => tt)) with (vs := vs) as (out & E & _); auto.
  - apply Forall_forall. auto.
  - eauto.
Qed.
Lemma a_prod_total l : exists h, a_prod l = Some h.
Proof. unfold a_prod, z_sum. destruct (g_sum_total Z.add (fun c => (c =? 0)%Z) (map factor_vec (filter (fun s => negb (a_eqb s AOne)) l))) as (out & ->). cbn. eauto. Qed.
Lemma a_mul_total f : forall g, exists h, a_mul f g = Some h.
Proof.
  assert (RED : forall a b o, (exists h : afn, o = Some h) -> exists h, (if a_eqb a AZero || a_eqb b AZero then Some AZero else if a_eqb a AOne then Some b else if a_eqb b AOne then Some a else o) = Some h).
  { intros a b o H. destruct (_ || _); [eauto|]. destruct (a_eqb a AOne); [eauto|]. destruct (a_eqb b AOne); eauto. }
  assert (SM : forall o c, (exists h : afn, o = Some h) -> exists h, (do h <- o; Some (a_smul h c)) = Some h) by (intros o c (h & ->); cbn; eauto).
  induction f using afn_induct; intros g; induction g using afn_induct; rewrite a_mul_unfold; apply RED; try apply a_prod_total;
    (match goal with H : Forall _ ?v |- context [match ?v with _ => _ end] => destruct v as [|[kc kb] [|kq kw]]; try apply a_prod_total; inversion H as [|? ? Hb _]; cbn [snd] in Hb end); apply SM; apply Hb.
Qed.
Lemma a_smul_0 f : a_smul f 0 = AZero.
Proof. unfold a_smul. replace (Reqb 0 0) with true by (symmetry; now apply Reqb_eq). now rewrite orb_true_r. Qed.
Lemma a_mul_zero_l g : a_mul AZero g = Some AZero.
Proof. rewrite a_mul_unfold. reflexivity. Qed.

(** Derivatives of powers. *)
Lemma deriv_ext f g t d : (forall u, f u = g u) -> derivable_pt_lim f t d -> derivable_pt_lim g t d.
Proof. intros E H eps He. destruct (H eps He) as (delta & K). exists delta. intros h H1 H2. rewrite <- !E. now apply K. Qed.
Lemma deriv_loc f g t d eta : 0 < eta -> (forall u, Rabs (u - t) < eta -> f u = g u) -> derivable_pt_lim f t d -> derivable_pt_lim g t d.
Proof.
  intros Heta E H eps He. destruct (H eps He) as (delta & K). assert (M : 0 < Rmin delta eta) by (apply Rmin_pos; [apply cond_pos|exact Heta]). exists (mkposreal _ M). cbn. intros h H1 H2.
  rewrite <- !E; [apply K; [exact H1|]| |].
  - eapply Rlt_le_trans; [exact H2|apply Rmin_l]. - unfold Rminus. rewrite Rplus_opp_r, Rabs_R0. exact Heta. - replace (t + h - t) with h by ring. eapply Rlt_le_trans; [exact H2|apply Rmin_r].
Qed.
Lemma deriv_powerRZ z v : ((z < 0)%Z -> v <> 0) -> derivable_pt_lim (fun y => powerRZ y z) v (IZR z * powerRZ v (z - 1)).
Proof.
  intros HN. destruct (Z.ltb_spec z 0) as [H|H].
  - specialize (HN H). set (n := Z.to_nat (- z)). assert (Ez : z = (- Z.of_nat n)%Z) by lia.
    apply (deriv_ext (fct_cte 1 / (fun y => y ^ n))%F). { intros u. unfold div_fct, fct_cte. rewrite Ez, powerRZ_neg', <- pow_powerRZ. unfold Rdiv. ring. }
    replace (IZR z * powerRZ v (z - 1)) with ((0 * v ^ n - (INR n * v ^ pred n) * fct_cte 1 v) / Rsqr (v ^ n)).
    + apply (derivable_pt_lim_div (fct_cte 1) (fun y => y ^ n) v 0 (INR n * v ^ pred n)); [apply derivable_pt_lim_const|apply derivable_pt_lim_pow|]. now apply pow_nonzero.
    + rewrite Ez. replace (- Z.of_nat n - 1)%Z with (- Z.of_nat (S n))%Z by lia. rewrite powerRZ_neg', <- pow_powerRZ. rewrite opp_IZR, <- INR_IZR_INZ. unfold fct_cte, Rsqr. destruct n as [|n]; [lia|]. cbn [pred]. cbn [pow]. assert (v ^ n <> 0) by now apply pow_nonzero. field. auto.
  - set (n := Z.to_nat z). assert (Ez : z = Z.of_nat n) by lia. apply (deriv_ext (fun y => y ^ n)). { intros u. now rewrite Ez, pow_powerRZ. }
    replace (IZR z * powerRZ v (z - 1)) with (INR n * v ^ pred n); [apply derivable_pt_lim_pow|]. rewrite Ez, <- INR_IZR_INZ. destruct n as [|n]; [cbn; ring|]. cbn [pred]. f_equal. rewrite pow_powerRZ. f_equal. lia.
Qed.
Lemma is_int_pred a : is_int (a - 1) = is_int a.
Proof.
  destruct (is_int a) eqn:E.
  - apply is_int_spec in E. destruct E as (z & ->). apply is_int_spec. exists (z - 1)%Z. now rewrite minus_IZR.
  - apply is_int_false in E. apply is_int_false. intros (z & Ez). apply E. exists (z + 1)%Z. rewrite plus_IZR. lra.
Qed.
Lemma Int_part_pred a : is_int a = true -> Int_part (a - 1) = (Int_part a - 1)%Z.
Proof. intros E. apply is_int_spec in E. destruct E as (z & ->). rewrite <- minus_IZR, !Int_part_IZR. reflexivity. Qed.
Lemma deriv_powf v a : pow_ok true v a -> derivable_pt_lim (fun y => powfR y a) v (a * powfR v (a - 1)).
Proof.
  unfold pow_ok, powfR. rewrite is_int_pred. destruct (is_int a) eqn:E.
  - intros H. rewrite (Int_part_pred a E). apply is_int_spec in E. destruct E as (z & ->). rewrite Int_part_IZR in *. now apply deriv_powerRZ.
  - intros [H|(K & _)]; [|discriminate]. destruct (Reqb v 0) eqn:E0; [apply Reqb_eq in E0; lra|].
    apply (deriv_loc (fun y => Rpower y a) _ v _ v H); [|now apply derivable_pt_lim_power].
    intros u Hu. destruct (Reqb u 0) eqn:E1; [|reflexivity]. apply Reqb_eq in E1. subst u. rewrite Rminus_0_l, Rabs_Ropp, Rabs_pos_eq in Hu; lra.
Qed.
