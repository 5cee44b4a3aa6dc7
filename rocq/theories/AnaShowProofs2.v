(** The operators keep products out of products. *)
From Coq Require Import String Ascii List ZArith Bool Reals Lia Lra.
From Verif Require Import PidModel AnaModel AnaProofs AnaProofs2 AnaProofs3 AnaShowSpec.
Import ListNotations.
Open Scope nat_scope.
Open Scope list_scope.

Lemma flat_sum v : flat (ASum v) <-> Forall (fun p => flat (snd p)) v.
Proof. cbn. apply (fold_Forall (fun p : R * afn => flat (snd p))). Qed.
Lemma flat_prod v : flat (AProd v) <-> Forall (fun p => ~ is_product (snd p) /\ flat (snd p)) v.
Proof. cbn. apply (fold_Forall (fun p : Z * afn => ~ is_product (snd p) /\ flat (snd p))). Qed.
(** The basis elements of a sum are among those of the summands. *)
Lemma g_sum_bases {K} (kadd : K -> K -> K) kzero (Q : afn -> Prop) vs out : g_sum kadd kzero vs = Some out -> Forall (fun p => Q (snd p)) (concat vs) -> Forall (fun p => Q (snd p)) out.
Proof.
  intros E H. destruct (g_sum_spec kadd kzero (fun _ _ : unit => tt) tt) with (P := fun p : K * afn => Q (snd p)) (phi := fun _ : K * afn => tt) (vs := vs) as (o & E' & FO & _); auto.
  - now intros [].
  - rewrite E in E'. injection E' as <-. exact FO.
Qed.
Lemma concat_Forall {A} (P : A -> Prop) (l : list (list A)) : Forall (Forall P) l -> Forall P (concat l).
Proof. induction 1; cbn; [constructor|]. apply Forall_app. auto. Qed.
Lemma filter_Forall {A} (P : A -> Prop) b l : Forall P l -> Forall P (filter b l).
Proof. induction 1; cbn; [constructor|]. destruct (b x); auto. Qed.
Lemma map_Forall {A B} (P : B -> Prop) (f : A -> B) l : Forall (fun a => P (f a)) l -> Forall P (map f l).
Proof. induction 1; cbn; auto. Qed.

Lemma flat_from f : flat f -> Forall (fun p => flat (snd p)) (r_from f). Proof. intros H. repeat constructor. exact H. Qed.
Lemma flat_scale c v : Forall (fun p => flat (snd p)) v -> Forall (fun p => flat (snd p)) (r_scale c v).
Proof. intros H. unfold r_scale. apply map_Forall. exact H. Qed.
Lemma flat_vmul c v : Forall (fun p => flat (snd p)) v -> Forall (fun p => flat (snd p)) (r_vmul v c).
Proof. intros H. unfold r_vmul. destruct (Reqb c 0); [constructor|now apply flat_scale]. Qed.
Lemma flat_vdiv c v : Forall (fun p => flat (snd p)) v -> Forall (fun p => flat (snd p)) (r_vdiv v c).
Proof. intros H. unfold r_vdiv. apply map_Forall. exact H. Qed.
Lemma flat_summand f : flat f -> Forall (fun p => flat (snd p)) (summand f).
Proof. intros H. destruct f; try (now apply flat_from). now apply flat_sum. Qed.
Lemma flat_smul f c : flat f -> flat (a_smul f c).
Proof.
  intros H. unfold a_smul. destruct (_ || _); [exact I|]. destruct (Reqb c 1); [exact H|].
  destruct f; apply flat_sum; try (apply flat_vmul, flat_from; exact H). apply flat_scale. now apply flat_sum.
Qed.
Lemma some_inj {A} (a b : A) : Some a = Some b -> a = b. Proof. congruence. Qed.
Lemma flat_sdiv f c h : flat f -> a_sdiv f c = Some h -> flat h.
Proof.
  intros H E. unfold a_sdiv in E. destruct (Reqb c 0); [discriminate E|]. destruct (a_eqb f AZero); [injection E as <-; exact H|]. destruct (Reqb c 1); [injection E as <-; exact H|].
  apply some_inj in E. subst h. destruct f; apply flat_sum; try (apply flat_vdiv, flat_from; exact H). apply flat_vdiv. now apply flat_sum.
Qed.
Lemma flat_asum l h : Forall flat l -> a_sum l = Some h -> flat h.
Proof.
  intros H E. unfold a_sum in E. destruct (r_sum _) as [out|] eqn:S; cbn [obind] in E; [|discriminate E].
  assert (O : Forall (fun p => flat (snd p)) out).
  { eapply g_sum_bases; [exact S|]. apply concat_Forall, map_Forall, filter_Forall. eapply Forall_impl; [|exact H]. apply flat_summand. }
  injection E as <-. destruct out as [|[c b] [|q w]]; [exact I| |now apply flat_sum]. apply flat_smul. now inversion O.
Qed.
Lemma flat_neg f : flat f -> flat (a_neg f).
Proof. intros H. unfold a_neg. apply flat_sum. destruct f; try (apply flat_scale, flat_from; exact H). apply flat_scale. now apply flat_sum. Qed.
Lemma flat_sub f g h : flat f -> flat g -> a_sub f g = Some h -> flat h.
Proof.
  intros Hf Hg E.
  assert (K : forall vs, Forall (Forall (fun p : R * afn => flat (snd p))) vs -> (do out <- r_sum vs; Some (ASum out)) = Some h -> flat h).
  { intros vs Hv K. destruct (r_sum vs) as [out|] eqn:S; cbn [obind] in K; [|discriminate K]. injection K as <-. apply flat_sum. eapply g_sum_bases; [exact S|]. now apply concat_Forall. }
  assert (RR : forall v, flat (ASum v) -> Forall (fun p => flat (snd p)) v) by (intros v; apply flat_sum).
  assert (N : forall v, Forall (fun p : R * afn => flat (snd p)) v -> Forall (fun p => flat (snd p)) (r_neg v)) by (intros v; apply flat_scale).
  unfold a_sub in E. destruct f; destruct g; (eapply K; [|exact E]); repeat constructor; auto using flat_from.
Qed.
Lemma flat_zvmul e v : Forall (fun p => ~ is_product (snd p) /\ flat (snd p)) v -> Forall (fun p => ~ is_product (snd p) /\ flat (snd p)) (z_vmul v e).
Proof. intros H. unfold z_vmul. destruct (e =? 0)%Z; [constructor|]. apply map_Forall. exact H. Qed.
Lemma flat_powi f e : flat f -> flat (a_powi f e).
Proof.
  intros H. unfold a_powi. destruct (e =? 1)%Z; [exact H|]. destruct (e =? 0)%Z; [exact I|].
  destruct f; apply flat_prod; apply flat_zvmul; try (constructor; [split; [exact (fun K => K)|exact H]|constructor]). now apply flat_prod.
Qed.
Lemma flat_factors f : flat f -> Forall (fun p => ~ is_product (snd p) /\ flat (snd p)) (factor_vec f).
Proof. intros H. destruct f; try (constructor; [split; [exact (fun K => K)|exact H]|constructor]). now apply flat_prod. Qed.
Lemma flat_aprod l h : Forall flat l -> a_prod l = Some h -> flat h.
Proof.
  intros H E. unfold a_prod in E. destruct (z_sum _) as [out|] eqn:S; cbn [obind] in E; [|discriminate E].
  assert (O : Forall (fun p => ~ is_product (snd p) /\ flat (snd p)) out).
  { apply (g_sum_bases Z.add (fun c => (c =? 0)%Z) (fun f => ~ is_product f /\ flat f) _ _ S). apply concat_Forall, map_Forall, filter_Forall. eapply Forall_impl; [|exact H]. apply flat_factors. }
  injection E as <-. destruct (existsb _ _); [exact I|]. destruct out as [|[c b] [|q w]]; [exact I| |now apply flat_prod]. apply flat_powi. now inversion O as [|? ? [_ K] _].
Qed.
Lemma flat_mul f : forall g h, flat f -> flat g -> a_mul f g = Some h -> flat h.
Proof.
  assert (SM : forall o c h, (forall h, o = Some h -> flat h) -> (do h <- o; Some (a_smul h c)) = Some h -> flat h).
  { intros o c h H E. destruct o as [k|]; cbn [obind] in E; [|discriminate E]. injection E as <-. apply flat_smul. now apply H. }
  assert (PR : forall a b h, flat a -> flat b -> a_prod [a; b] = Some h -> flat h) by (intros a b h Ha Hb E; eapply flat_aprod; [|exact E]; auto).
  induction f using afn_induct; intros g; induction g using afn_induct; intros h Hf Hg E; rewrite a_mul_unfold in E;
    repeat (match type of E with (if ?b then _ else _) = _ => destruct b; [injection E as <-; first [exact I|exact Hg|exact Hf]|] end);
    try (eapply PR; [exact Hf|exact Hg|exact E]);
    (match goal with H : Forall _ ?v, E : context [match ?v with _ => _ end] |- _ => destruct v as [|[kc kb] [|kq kw]]; try (eapply PR; [exact Hf|exact Hg|exact E]); inversion H as [|? ? Hb _]; cbn [snd] in Hb end);
    (eapply SM; [|exact E]); intros h' E'.
  all: first [apply flat_sum in Hf; inversion Hf as [|? ? Hk _]; cbn [snd] in Hk; apply (Hb _ _ Hk Hg E')|apply flat_sum in Hg; inversion Hg as [|? ? Hk _]; cbn [snd] in Hk; apply (Hb _ Hf Hk E')].
Qed.
Lemma omap_Forall {A B} (F : A -> option B) (P : B -> Prop) l : forall r, omap F l = Some r -> Forall (fun a => forall b, F a = Some b -> P b) l -> Forall P r.
Proof.
  induction l as [|a l IH]; intros r E H; cbn [omap] in E; [injection E as <-; constructor|]. inversion H; subst. destruct (F a) as [b|]; cbn [obind] in E; [|discriminate E]. destruct (omap F l) as [t|]; cbn [obind] in E; [|discriminate E]. injection E as <-. constructor; auto.
Qed.
Lemma flat_term v i d t : flat (AProd v) -> flat d -> product_term v i d = Some t -> flat t.
Proof.
  intros Hv Hd E. unfold product_term in E. destruct (nth_error v i) as [[e f]|] eqn:Ei; [|discriminate E]. destruct (a_eqb d AZero); [injection E as <-; exact I|].
  assert (HC : flat (AProd (firstn i v ++ skipn (S i) v))).
  { apply flat_prod. apply flat_prod in Hv. apply Forall_app. split; [rewrite <- (firstn_skipn i v) in Hv|rewrite <- (firstn_skipn (S i) v) in Hv]; now apply Forall_app in Hv. }
  assert (Hf : flat f) by (apply flat_prod in Hv; rewrite Forall_forall in Hv; now apply nth_error_In, Hv in Ei).
  set (clone := _ ++ _) in *.
  assert (G : (do p <- a_mul (AProd clone) (a_powi f (e - 1)); a_mul (a_smul p (IZR e)) d) = Some t -> flat t).
  { intros K. destruct (a_mul (AProd clone) (a_powi f (e - 1))) as [p|] eqn:Ep; cbn [obind] in K; [|discriminate K]. apply flat_mul in Ep; auto using flat_powi. apply flat_mul in K; auto using flat_smul. }
  destruct clone as [|[c b] [|q w]]; auto. destruct (_ && _); auto. injection E as <-. apply flat_powi. now apply flat_prod, Forall_inv in HC.
Qed.
Lemma flat_pderiv n f : forall h, flat f -> pderiv n f = Some h -> flat h.
Proof.
  induction f using afn_induct; intros h Hf E; cbn [pderiv] in E.
  - injection E as <-. exact I.
  - injection E as <-. exact I.
  - injection E as <-. destruct (n =? c); exact I.
  - destruct (pderiv n f) as [d|]; cbn [obind] in E; [|discriminate E]. destruct (a_mul _ d) as [p|] eqn:Ep; cbn [obind] in E; [|discriminate E]. injection E as <-. apply flat_smul. eapply flat_mul; [|apply IHf; [exact Hf|reflexivity]|exact Ep]. exact Hf.
  - destruct (pderiv n f) as [d|]; cbn [obind] in E; [|discriminate E]. eapply flat_mul; [|apply IHf; [exact Hf|reflexivity]|exact E]. exact Hf.
  - destruct (pderiv n f) as [d|]; cbn [obind] in E; [|discriminate E]. eapply flat_mul; [|apply IHf; [exact Hf|reflexivity]|exact E]. apply flat_neg. exact Hf.
  - apply flat_sum in Hf. destruct (omap _ v) as [ds|] eqn:Ed; cbn [obind] in E; [|discriminate E].
    assert (HD : Forall (fun p : R * afn => flat (snd p)) ds).
    { eapply omap_Forall; [exact Ed|]. rewrite Forall_forall in *. intros p Hp b Eb. destruct (pderiv n (snd p)) as [d|] eqn:Ep; cbn [obind] in Eb; [|discriminate Eb]. injection Eb as <-. cbn. exact (H p Hp d (Hf p Hp) Ep). }
    destruct (r_sum _) as [out|] eqn:Es; cbn [obind] in E; [|discriminate E]. unfold a_add in E. eapply flat_asum; [|exact E].
    constructor; [|constructor; [exact I|constructor]]. apply flat_sum. eapply g_sum_bases; [exact Es|]. apply concat_Forall, map_Forall, filter_Forall. eapply Forall_impl; [|exact HD]. intros p Hp. apply flat_vmul, flat_summand, Hp.
  - pose proof Hf as Hf'. apply flat_prod in Hf'. destruct (omap _ v) as [ds|] eqn:Ed; cbn [obind] in E; [|discriminate E].
    assert (HD : Forall flat ds).
    { eapply omap_Forall; [exact Ed|]. rewrite Forall_forall in *. intros p Hp b Eb. exact (H p Hp b (proj2 (Hf' p Hp)) Eb). }
    destruct (omap _ (combine _ _)) as [ts|] eqn:Et; cbn [obind] in E; [|discriminate E]. eapply flat_asum; [|exact E]. apply filter_Forall. eapply omap_Forall; [exact Et|].
    apply Forall_forall. intros [i d] Hk b Eb. eapply flat_term; [exact Hf| |exact Eb]. cbn [snd]. apply in_combine_r in Hk. rewrite Forall_forall in HD. now apply HD.
Qed.
Lemma flat_built f : built f -> flat f.
Proof.
  revert f. fix IH 2. intros f H. destruct H.
  - exact I.
  - exact I.
  - exact I.
  - eapply flat_asum; [|eassumption]. repeat constructor; apply IH; assumption.
  - eapply flat_sub; [| |eassumption]; apply IH; assumption.
  - eapply flat_mul; [| |eassumption]; apply IH; assumption.
  - unfold a_div in *. eapply flat_mul; [|apply flat_powi|eassumption]; apply IH; assumption.
  - eapply flat_asum; [|eassumption]. revert l H H0. clear - IH. intros l H _. induction H as [|x l Hx _ Hl]; constructor; [exact (IH x Hx)|exact Hl].
  - eapply flat_aprod; [|eassumption]. revert l H H0. clear - IH. intros l H _. induction H as [|x l Hx _ Hl]; constructor; [exact (IH x Hx)|exact Hl].
  - apply flat_neg, IH; assumption.
  - apply flat_smul, IH; assumption.
  - eapply flat_sdiv; [|eassumption]. apply IH; assumption.
  - apply flat_powi, IH; assumption.
  - unfold a_powf. destruct (Reqb a 1); apply (IH f); assumption.
  - apply (IH f); assumption.
  - apply (IH f); assumption.
  - eapply flat_pderiv; [|eassumption]. apply IH; assumption.
Qed.
