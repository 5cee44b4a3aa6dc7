(** C59, C60: smooth functions. *)
From Coq Require Import List Arith ZArith Bool Reals Lia Lra.
From Verif Require Import PidModel LinModel MatModel MatProofs AnaModel AnaSpec AnaProofs AnaProofs2 AnaProofs3 AnaProofs4.
Import ListNotations.
Open Scope R_scope.

Lemma a_sum_total l : exists h, a_sum l = Some h.
Proof. unfold a_sum, r_sum. destruct (g_sum_total Rplus (fun c => Reqb c 0) (map summand (filter (fun s => negb (a_eqb s AZero)) l))) as (out & ->). cbn. eauto. Qed.
Lemma a_sub_total f g : exists h, a_sub f g = Some h.
Proof.
  assert (K : forall vs, exists h, (do out <- r_sum vs; Some (ASum out)) = Some h) by (intros vs; destruct (g_sum_total Rplus (fun c => Reqb c 0) vs) as (out & E); unfold r_sum; rewrite E; cbn; eauto).
  destruct f; destruct g; apply K.
Qed.
Lemma omap_total {A B} (F : A -> option B) l : Forall (fun a => exists b, F a = Some b) l -> exists r, omap F l = Some r /\ length r = length l.
Proof. induction 1 as [|a l (b & E) H (r & IH & L)]; [exists []; auto|]. exists (b :: r). cbn [omap]. rewrite E. cbn [obind]. rewrite IH. cbn. auto. Qed.
Lemma product_term_total v i d : (i < length v)%nat -> exists t, product_term v i d = Some t.
Proof.
  intros Hi. unfold product_term. apply nth_error_Some in Hi. destruct (nth_error v i) as [[e f]|]; [|contradiction]. destruct (a_eqb d AZero); [eauto|]. set (clone := _ ++ _).
  assert (GEN : exists t, (do p <- a_mul (AProd clone) (a_powi f (e - 1)); a_mul (a_smul p (IZR e)) d) = Some t) by (destruct (a_mul_total (AProd clone) (a_powi f (e - 1))) as (p & ->); cbn [obind]; apply a_mul_total).
  destruct clone as [|[c b] [|q w]]; try exact GEN. destruct (_ && _); [eauto|exact GEN].
Qed.
Lemma pderiv_total n f : exists f', pderiv n f = Some f'.
Proof.
  induction f using afn_induct; cbn [pderiv]; try (eexists; reflexivity).
  - destruct IHf as (d & ->). cbn [obind]. destruct (a_mul_total (ARealPow f (a - 1)) d) as (p & ->). cbn. eauto.
  - destruct IHf as (d & ->). cbn [obind]. apply a_mul_total.
  - destruct IHf as (d & ->). cbn [obind]. apply a_mul_total.
  - destruct (omap_total (fun p => do d <- pderiv n (snd p); Some (fst p, d)) v) as (ds & -> & _). { eapply Forall_impl; [|exact H]. intros p (d & ->). cbn. eauto. }
    cbn [obind]. match goal with |- context [r_sum ?vs] => destruct (g_sum_total Rplus (fun c => Reqb c 0) vs) as (out & E); unfold r_sum; rewrite E end. cbn [obind]. apply a_sum_total.
  - destruct (omap_total (fun p => pderiv n (snd p)) v H) as (dfs & -> & L). cbn [obind]. destruct (omap_total (fun k => product_term v (fst k) (snd k)) (combine (seq 0 (length v)) dfs)) as (ts & -> & _).
    { apply Forall_forall. intros [i d] Hin. apply in_combine_l in Hin. apply in_seq in Hin. apply product_term_total. cbn. lia. }
    cbn [obind]. apply a_sum_total.
Qed.

(** Every operation is defined and acts on the values, wherever the operands are defined. *)
Theorem C59_add : forall f g, exists h, a_add f g = Some h /\ pointwise2 Rplus f g h.
Proof.
  intros f g. destruct (a_sum_total [f; g]) as (h & E). exists h. split; [exact E|]. intros x a b Ha Hb. apply eval_dom in Ha. apply eval_dom in Hb. destruct Ha as [Df ->]. destruct Hb as [Dg ->].
  destruct (a_add_spec x false f g Df Dg) as (h' & E' & D & V). unfold a_add in E'. rewrite E in E'. injection E' as <-. apply eval_dom. auto.
Qed.
Print Assumptions C59_add.
Theorem C59_sub : forall f g, exists h, a_sub f g = Some h /\ pointwise2 Rminus f g h.
Proof.
  intros f g. destruct (a_sub_total f g) as (h & E). exists h. split; [exact E|]. intros x a b Ha Hb. apply eval_dom in Ha. apply eval_dom in Hb. destruct Ha as [Df ->]. destruct Hb as [Dg ->].
  destruct (a_sub_spec x false f g Df Dg) as (h' & E' & D & V). rewrite E in E'. injection E' as <-. apply eval_dom. auto.
Qed.
Print Assumptions C59_sub.
Theorem C59_mul : forall f g, exists h, a_mul f g = Some h /\ pointwise2 Rmult f g h.
Proof.
  intros f g. destruct (a_mul_total f g) as (h & E). exists h. split; [exact E|]. intros x a b Ha Hb. apply eval_dom in Ha. apply eval_dom in Hb. destruct Ha as [Df ->]. destruct Hb as [Dg ->].
  destruct (a_mul_spec x false f g Df Dg) as (h' & E' & D & V). rewrite E in E'. injection E' as <-. apply eval_dom. auto.
Qed.
Print Assumptions C59_mul.
(** The quotient, where the divisor is not zero. *)
Theorem C59_div : forall f g, exists h, a_div f g = Some h /\ forall x a b, eval x f = Some a -> eval x g = Some b -> b <> 0 -> eval x h = Some (a / b).
Proof.
  intros f g. unfold a_div. destruct (a_mul_total f (a_powi g (-1))) as (h & E). exists h. split; [exact E|]. intros x a b Ha Hb Nb. apply eval_dom in Ha. apply eval_dom in Hb. destruct Ha as [Df ->]. destruct Hb as [Dg ->].
  destruct (a_div_spec x false f g Df Dg Nb) as (h' & E' & D & V). unfold a_div in E'. rewrite E in E'. injection E' as <-. apply eval_dom. auto.
Qed.
Print Assumptions C59_div.
Theorem C59_neg : forall f, pointwise1 Ropp f (a_neg f).
Proof. intros f x a Ha. apply eval_dom in Ha. destruct Ha as [Df ->]. destruct (a_neg_spec x false f Df) as (D & V). apply eval_dom. auto. Qed.
Print Assumptions C59_neg.
(** Multiplication and division by a number; dividing by zero stops the program, and nothing else does. *)
Theorem C59_scalar : forall f c, pointwise1 (fun a => a * c) f (a_smul f c) /\
  (c = 0 -> a_sdiv f c = None) /\ (c <> 0 -> exists h, a_sdiv f c = Some h /\ pointwise1 (fun a => a / c) f h).
Proof.
  intros f c. split; [|split].
  - intros x a Ha. apply eval_dom in Ha. destruct Ha as [Df ->]. destruct (a_smul_spec x false f c Df) as (D & V). apply eval_dom. auto.
  - intros ->. unfold a_sdiv. replace (Reqb 0 0) with true by (symmetry; now apply Reqb_eq). reflexivity.
  - intros Hc. assert (K : exists h, a_sdiv f c = Some h). { unfold a_sdiv. apply Reqb_neq in Hc. rewrite Hc. destruct (a_eqb f AZero); [eauto|]. destruct (Reqb c 1); eauto. }
    destruct K as (h & E). exists h. split; [exact E|]. intros x a Ha. apply eval_dom in Ha. destruct Ha as [Df ->]. destruct (a_sdiv_spec x false f c Hc Df) as (h' & E' & D & V). rewrite E in E'. injection E' as <-. apply eval_dom. auto.
Qed.
Print Assumptions C59_scalar.
(** Integer powers (the negative ones where the base is not zero), broken powers, sine and cosine. *)
Theorem C59_powers : forall f x a, eval x f = Some a ->
  (forall e, (e < 0)%Z /\ a = 0 \/ eval x (a_powi f e) = Some (powerRZ a e)) /\
  (forall p, 0 < a -> eval x (a_powf f p) = Some (Rpower a p)) /\
  eval x (a_sin f) = Some (sin a) /\ eval x (a_cos f) = Some (cos a).
Proof.
  intros f x a Ha. pose proof Ha as Ha'. apply eval_dom in Ha'. destruct Ha' as [Df Ea]. split; [|split; [|split]].
  - intros e. destruct (Z.ltb_spec e 0) as [He|He]; [destruct (Req_dec a 0) as [E0|N0]; [now left|]|]; right; apply eval_dom; rewrite Ea in *; (destruct (a_powi_spec x false f e Df) as (D & V); [|now rewrite V]); [auto|lia].
  - intros p Hp. unfold a_powf. destruct (Reqb p 1) eqn:E1; [apply Reqb_eq in E1; subst p; now rewrite Rpower_1|]. cbn [eval]. rewrite Ha. cbn [obind]. apply powf_spec. unfold pow_ok, powfR. destruct (is_int p) eqn:EI.
    + split; [intros _; lra|]. apply is_int_spec in EI. destruct EI as (z & ->). rewrite Int_part_IZR. symmetry. now apply powerRZ_Rpower.
    + split; [now left|]. destruct (Reqb a 0) eqn:E0; [apply Reqb_eq in E0; lra|reflexivity].
  - unfold a_sin. cbn [eval]. now rewrite Ha.
  - unfold a_cos. cbn [eval]. now rewrite Ha.
Qed.
Print Assumptions C59_powers.
(** Sums and products of any number of functions. *)
Theorem C59_sum_product : forall fs, exists h k, a_sum fs = Some h /\ a_prod fs = Some k /\
  forall x vs, Forall2 (fun f v => eval x f = Some v) fs vs -> eval x h = Some (fold_right Rplus 0 vs) /\ eval x k = Some (fold_right Rmult 1 vs).
Proof.
  intros fs. destruct (a_sum_total fs) as (h & Eh). destruct (a_prod_total fs) as (k & Ek). exists h, k. split; [exact Eh|]. split; [exact Ek|]. intros x vs F.
  assert (K : Forall (dom x false) fs /\ vs = map (evR x) fs). { clear -F. induction F as [|f v fs vs H F (A & B)]; [split; [constructor|reflexivity]|]. apply eval_dom in H. destruct H as [D ->]. split; [now constructor|]. cbn. now rewrite <- B. }
  destruct K as (D & ->). destruct (a_sum_spec x false fs D) as (h' & E1 & D1 & V1). destruct (a_prod_spec x false fs D) as (k' & E2 & D2 & V2). rewrite Eh in E1. injection E1 as <-. rewrite Ek in E2. injection E2 as <-. split; apply eval_dom; auto.
Qed.
Print Assumptions C59_sum_product.
(** The division of the ring of functions: [f = q d + r], where [d] is not zero. *)
Theorem C59_euclid_div : forall f d, exists q r, a_euclid_div f d = Some (q, r) /\ forall x a b, eval x f = Some a -> eval x d = Some b -> b <> 0 ->
  exists u v, eval x q = Some u /\ eval x r = Some v /\ a = u * b + v.
Proof.
  intros f d. unfold a_euclid_div. destruct (C59_div f d) as (q & E & H). rewrite E. cbn [obind]. exists q, AZero. split; [reflexivity|]. intros x a b Ha Hb Nb. exists (a / b), 0. split; [now apply H|]. split; [reflexivity|]. field. exact Nb.
Qed.
Print Assumptions C59_euclid_div.
(** The converse fails: the result can be defined where an operand is not. *)
Theorem C59_refuted_domain : exists f h x, eval x f = None /\ a_mul AZero f = Some h /\ eval x h = Some 0.
Proof.
  exists (AProd [((-1)%Z, AProj 0)]), AZero, [0]. split; [|split; [rewrite a_mul_unfold; reflexivity|reflexivity]].
  cbn [eval fold_right fst snd nth_error obind]. unfold powi. replace (Reqb 0 0) with true by (symmetry; now apply Reqb_eq). reflexivity.
Qed.
Print Assumptions C59_refuted_domain.

(** The partial derivative is always computed, and is the partial derivative at every point where the function is defined and its broken
    powers are taken of positive numbers; it is then again such a function at that point. *)
Theorem C60_partial_derivative : forall f n, exists f', pderiv n f = Some f' /\
  forall x v, eval x f = Some v -> regular x f -> regular x f' /\ exists d, eval x f' = Some d /\ has_partial f n x d.
Proof.
  intros f n. destruct (pderiv_total n f) as (f' & E). exists f'. split; [exact E|]. intros x v Hv HR. apply eval_dom in Hv. destruct Hv as [D _]. assert (DT : dom x true f) by (apply dom_regular; auto).
  destruct (pderiv_partial x n f DT) as (f2 & E2 & D2 & P2). rewrite E in E2. injection E2 as <-. split; [now apply dom_regular in D2|]. exists (evR x f'). split; [apply eval_dom; split; [now apply dom_weaken|reflexivity]|exact P2].
Qed.
Print Assumptions C60_partial_derivative.
Lemma integer_regular x f : integer_powers f -> regular x f.
Proof.
  induction f using afn_induct; cbn [integer_powers regular]; auto.
  - intros [A B]. split; auto.
  - induction H as [|p v Hp H IH]; cbn; [auto|]. intros [A B]; auto.
  - induction H as [|p v Hp H IH]; cbn; [auto|]. intros [A B]; auto.
Qed.
(** Without broken powers: at every point where the function is defined. *)
Theorem C60_integer_powers : forall f n, integer_powers f -> exists f', pderiv n f = Some f' /\
  forall x v, eval x f = Some v -> exists d, eval x f' = Some d /\ has_partial f n x d.
Proof.
  intros f n HI. destruct (C60_partial_derivative f n) as (f' & E & H). exists f'. split; [exact E|]. intros x v Hv. destruct (H x v Hv (integer_regular x f HI)) as (_ & d & H'). eauto.
Qed.
Print Assumptions C60_integer_powers.
(** [has_partial] determines the number. *)
Theorem C60_derivative_unique : forall f n x d1 d2, has_partial f n x d1 -> has_partial f n x d2 -> d1 = d2.
Proof.
  intros f n x d1 d2 H1 H2.
  assert (K : forall d, has_partial f n x d -> derivable_pt_lim (fun t => evR (lset x n t) f) (nth n x 0) d).
  { intros d H eps He. destruct (H eps He) as (delta & Hd & K). exists (mkposreal delta Hd). intros h Nh Hh. destruct (K h Nh Hh) as (v & v0 & E0 & E1 & B). apply eval_dom in E0. apply eval_dom in E1. destruct E0 as [_ ->]. destruct E1 as [_ ->]. rewrite xt_x0. exact B. }
  exact (uniqueness_limite _ _ _ _ (K _ H1) (K _ H2)).
Qed.
Print Assumptions C60_derivative_unique.
(** At a zero of the base of a broken power the derivative's expression has no value, although the function has one. *)
Theorem C60_refuted_zero_base : exists f f', eval [0] f = Some 0 /\ pderiv 0 f = Some f' /\ eval [0] f' = None.
Proof.
  assert (NI : forall m, (m = /2 \/ m = /2 - 1) -> is_int m = false).
  { intros m Hm. apply is_int_false. intros (z & Ez). assert (K : IZR (2 * z) = IZR 1 \/ IZR (2 * z) = IZR (-1)) by (rewrite mult_IZR, <- Ez; destruct Hm; [left|right]; lra). destruct K as [K|K]; apply eq_IZR in K; lia. }
  assert (R0 : Reqb 0 0 = true) by now apply Reqb_eq.
  exists (ARealPow (AProj 0) (/2)). eexists. split; [|split].
  - cbn [eval nth_error obind]. unfold powf. rewrite (NI _ (or_introl eq_refl)), R0. replace (Rltb 0 (/2)) with true by (symmetry; apply Rltb_lt; lra). reflexivity.
  - cbn [pderiv Nat.eqb obind]. rewrite a_mul_unfold. cbn [a_eqb a_cmp tag Nat.compare orb obind]. unfold a_smul. cbn [a_eqb a_cmp tag Nat.compare orb].
    replace (Reqb (/2) 0) with false by (symmetry; apply Reqb_neq; lra). replace (Reqb (/2) 1) with false by (symmetry; apply Reqb_neq; lra). unfold r_vmul. replace (Reqb (/2) 0) with false by (symmetry; apply Reqb_neq; lra). reflexivity.
  - cbn [eval r_scale r_from map fold_right fst snd nth_error obind]. unfold powf. rewrite (NI _ (or_intror eq_refl)), R0. replace (Rltb 0 (/2 - 1)) with false; [reflexivity|]. symmetry. destruct (Rltb 0 (/2 - 1)) eqn:E; [|reflexivity]. apply Rltb_lt in E. lra.
Qed.
Print Assumptions C60_refuted_zero_base.
(** The Jacobian row: one partial derivative for each coordinate; a function of no variables stops the program. *)
Theorem C60_jacobian : forall f dim, (a_jacobian f dim = None <-> dim = 0%nat) /\
  forall row, a_jacobian f dim = Some row -> length row = dim /\ forall i, (i < dim)%nat -> exists g, nth_error row i = Some g /\ pderiv i f = Some g.
Proof.
  intros f dim. unfold a_jacobian. split.
  - destruct (Nat.ltb_spec 0 dim) as [H|H]; [|split; [lia|reflexivity]]. destruct (omap_total (fun i => pderiv i f) (seq 0 dim)) as (r & -> & _); [apply Forall_forall; intros i _; apply pderiv_total|]. split; [discriminate|lia].
  - intros row. destruct (0 <? dim)%nat; [|discriminate].
    assert (K : forall l row, omap (fun i => pderiv i f) l = Some row -> length row = length l /\ forall i j, nth_error l i = Some j -> exists g, nth_error row i = Some g /\ pderiv j f = Some g).
    { clear. induction l as [|a l IH]; intros row E; cbn [omap] in E; [injection E as <-; split; [reflexivity|intros [|i] j; discriminate]|]. destruct (pderiv a f) as [g|] eqn:Ea; [|discriminate]. cbn [obind] in E. destruct (omap _ l) as [r|]; [|discriminate]. cbn [obind] in E. injection E as <-. destruct (IH r eq_refl) as (L & H).
      split; [cbn; now rewrite L|]. intros [|i] j Hj; cbn in *; [injection Hj as <-; eauto|now apply H]. }
    intros E. destruct (K _ _ E) as (L & H). rewrite seq_length in L. split; [exact L|]. intros i Hi. apply (H i i). rewrite (nth_error_nth' _ 0%nat) by (now rewrite seq_length). now rewrite seq_nth.
Qed.
Print Assumptions C60_jacobian.

(** A concrete case: the test of the library, [f = - cos x0 * x0 * x1], built by its operations, at a point with both coordinates not zero. *)
Example C60_nontrivial : exists g p f, a_mul (a_neg (a_cos (AProj 0))) (AProj 0) = Some g /\ a_mul g (AProj 1) = Some p /\ pderiv 0 p = Some f /\
  eval [PI; 3] p = Some (3 * PI) /\ exists d, eval [PI; 3] f = Some d /\ has_partial p 0 [PI; 3] d.
Proof.
  destruct (C59_mul (a_neg (a_cos (AProj 0))) (AProj 0)) as (g & Eg & Hg). destruct (C59_mul g (AProj 1)) as (p & Ep & Hp). destruct (C60_partial_derivative p 0) as (f & Ef & Hf).
  assert (V0 : eval [PI; 3] (a_neg (a_cos (AProj 0))) = Some (- - (1))). { apply C59_neg. unfold a_cos. cbn [eval nth_error obind]. now rewrite cos_PI. }
  assert (Vp : eval [PI; 3] p = Some (- - (1) * PI * 3)). { apply Hp; [|reflexivity]. apply Hg; [exact V0|reflexivity]. }
  exists g, p, f. split; [exact Eg|]. split; [exact Ep|]. split; [exact Ef|]. split; [rewrite Vp; f_equal; ring|].
  assert (DG : regular [PI; 3] p).
  { assert (K : dom [PI; 3] true p); [|now apply dom_regular in K]. destruct (a_mul_spec [PI; 3] true (a_neg (a_cos (AProj 0))) (AProj 0)) as (g' & E1 & D1 & _); [cbn; repeat split; lia|cbn; lia|]. rewrite Eg in E1. injection E1 as <-. destruct (a_mul_spec [PI; 3] true g (AProj 1) D1) as (p' & E2 & D2 & _); [cbn; lia|]. rewrite Ep in E2. injection E2 as <-. exact D2. }
  destruct (Hf _ _ Vp DG) as (_ & d & H). exists d. exact H.
Qed.
